(** MODEL: the text of the output files.  app.output_file holds the header written by the constructor of Application
    (M_Cli.app_header, application.hpp 77-93) and after it one line per measurement.  The first line is written with the
    integer 0 in place of t, which prints as the double 0 does. *)
From Coq Require Import Reals Ascii String List ZArith.
From Verif Require Import Base M_Text M_Io M_Cli M_Dispersion Spec_Stability M_Ostream.
Import ListNotations.
Local Open Scope list_scope.

(** hubbard_real_1d_rk4_coefficients.cpp 51-55, 65-69, 83-87 and hubbard_real_1d_kinetic_rk4_coefficients.cpp 49-53, 63-67, 81-85 *)
Definition coefficients_line (m : R * list CR) : text :=
  show6 (fst m) ++ flat_map (fun el => [tab] ++ show6 (fst el) ++ [tab] ++ show6 (snd el)) (snd m) ++ [newline].
(** hubbard_real_1d_rk4.cpp 59, 71, 87 and the same lines of hubbard_real_1d_kinetic_rk4.cpp (57, 67, 83),
    hubbard_real_1d_rk4_jump.cpp (58, 68, 84) and hubbard_real_2d_rk4_jump.cpp (67, 79, 95) *)
Definition observable_line (m : R * R) : text := show6 (fst m) ++ [tab] ++ show6 (snd m) ++ [newline].
(** the whole file when main returns *)
Definition coefficients_file (infos : list text) (all : list (text * text)) (ms : list (R * list CR)) : text :=
  app_header infos all ++ flat_map coefficients_line ms.
Definition observable_file (infos : list text) (all : list (text * text)) (ms : list (R * R)) : text :=
  app_header infos all ++ flat_map observable_line ms.
(** hubbard_trivial.cpp 44-50: after the time the four coefficients of h, and n *)
Definition trivial_line (m : R * list CR * CR) : text :=
  show6 (fst (fst m)) ++ flat_map (fun el => [tab] ++ show6 (fst el) ++ [tab] ++ show6 (snd el)) (snd (fst m) ++ [snd m]) ++ [newline].
(** hubbard_momentum_1d_rk4.cpp 61 and 70: what the program prints to standard output (the matrix file is M_Io's) *)
Definition momentum_output (p : R * R) : text := show6 (fst p) ++ [newline] ++ show6 (snd p) ++ [newline].
