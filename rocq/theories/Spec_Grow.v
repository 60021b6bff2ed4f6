(** SPECIFICATION for C117: comparing the coefficients of two rings. *)
From Coq Require Import Reals ZArith List.
From Verif Require Import Base M_Matrix Spec_Stability Spec_Window.
Import ListNotations.
Local Open Scope Z_scope.
(** v(c+_a) - v'(c+_a) and v(c+_a c+_b c_c) - v'(c+_a c+_b c_c) for all offsets -D <= a, b, c <= D *)
Definition differences (N N' D : Z) (v v' : Z -> CR) : list CR :=
  let near := zrange (- D) (D + 1) in
  map (fun a => rsub (v (index1 N a)) (v' (index1 N' a))) near ++
  map (fun p => rsub (v (index3 N (fst p) (fst (snd p)) (snd (snd p)))) (v' (index3 N' (fst p) (fst (snd p)) (snd (snd p))))) (list_prod near (list_prod near near)).
