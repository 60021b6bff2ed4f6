(** SPECIFICATION for C83. *)
From Coq Require Import Reals.
From Verif Require Import Base M_Matrix M_Ode M_Dispersion Spec_Stability.
Local Open Scope R_scope.
(** energy U/2, hopping -J between operator 0 and its two neighbours 1 and 2, U/2 between
    operator 0 and the interaction operator 3 *)
Definition small_coupling (J U : R) (i j : Z) : R :=
  if Z.eqb i j then U / 2
  else if (Z.eqb (i + j) 1 || Z.eqb (i + j) 2 && (Z.eqb i 0 || Z.eqb j 0))%bool then - J
  else if (Z.eqb (i + j) 3 && (Z.eqb i 0 || Z.eqb j 0))%bool then U / 2
  else 0.
Definition small_generator (J U : R) (i j : Z) : CR := (0, small_coupling J U i j).
(** the expectation values used by the program *)
Definition small_ev (i j : Z) : R :=
  if Z.eqb i j then (if Z.eqb i 3 then 1 / 4 else 1 / 2)
  else if (Z.eqb i 3 || Z.eqb j 3)%bool then (if (Z.eqb i 0 || Z.eqb j 0)%bool then 1 / 4 else 1 / (2 * PI))
  else 1 / PI.
(** <A A^+> for A = sum_i h_i A_i: sum_ij h_i conj(h_j) <A_i A_j^+> *)
Definition occupation (h : Z -> CR) : CR :=
  sum_over (K := CR) (fun i => sum_over (fun j => rmul (rmul (h i) (kconj (h j))) (real (small_ev i j))) (zrange 0 4)) (zrange 0 4).
(** sum over i <> j of <A_i A_j^+> h_i Im(h_j) *)
Definition spurious (h : Z -> CR) : CR :=
  sum_over (K := CR) (fun i => sum_over (fun j => if Z.eqb i j then r0 else rmul (real (small_ev i j * snd (h j))) (h i)) (zrange 0 4)) (zrange 0 4).
