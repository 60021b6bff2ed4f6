(** SPECIFICATION for C77, C78: complex coefficient vectors over the real numbers, their
    length, and the exact solution of the equation the programs integrate. *)
From Coq Require Import Reals.
From Verif Require Import Base M_Matrix M_Ode M_Dispersion.
Local Open Scope R_scope.
Local Open Scope list_scope.

(** std::complex<Float> with Float the real numbers *)
Definition CR : StarRing := cplx_ring Rring.
Definition real (x : R) : CR := (x, 0).
(** the imaginary unit *)
Definition imag_unit : CR := (0, 1).
(** |u|^2 = sum_i (Re u_i)^2 + (Im u_i)^2 *)
Definition norm2 (u : list CR) : R := sum_over (K := Rring) (fun z : CR => fst z * fst z + snd z * snd z) u.
(** |u| *)
Definition length2 (u : list CR) : R := sqrt (norm2 u).
(** |u - v|, v given by its elements 0, ..., n-1 *)
Definition distance2 (u : list CR) (v : Z -> CR) : R :=
  sqrt (sum_over (K := Rring)
    (fun i => (fst (vget u i) - fst (v i)) * (fst (vget u i) - fst (v i)) + (snd (vget u i) - snd (v i)) * (snd (vget u i) - snd (v i)))
    (zrange 0 (Z.of_nat (length u)))).
(** y is a solution of dy/dt = E y, for vectors with n elements *)
Definition exact_solution (n : Z) (E : Z -> Z -> CR) (y : R -> Z -> CR) : Prop :=
  forall t i, (0 <= i < n)%Z ->
    let dy := sum_over (K := CR) (fun j => rmul (E i j) (y t j)) (zrange 0 n) in
    derivable_pt_lim (fun s => fst (y s i)) t (fst dy) /\
    derivable_pt_lim (fun s => snd (y s i)) t (snd dy).
