(** SPECIFICATION for C118: the true motion of an operator, and how far a matrix is from another. *)
From Coq Require Import Reals NArith ZArith List.
From Verif Require Import Base M_Dispersion Spec_Stability Spec_Ode.
Import ListNotations.
Local Open Scope R_scope.

(** the basis states of the Fock space of M modes *)
Definition fock (M : nat) : list N := map N.of_nat (seq 0 (2 ^ M)).
(** <t| [H, X] |s>, a matrix [X s t] being <t| X |s> *)
Definition bracket {K : StarRing} (M : nat) (H X : N -> N -> K) (s t : N) : K :=
  sum_over (fun u => rsub (rmul (X s u) (H u t)) (rmul (H s u) (X u t))) (fock M).
(** Heisenberg's equation of motion dX/dt = i [H, X], matrix element by matrix element *)
Definition heisenberg (M : nat) (H : N -> N -> CR) (X : R -> N -> N -> CR) : Prop :=
  forall t s u, In s (fock M) -> In u (fock M) ->
    let dX := rmul imag_unit (bracket M H (X t) s u) in
    derivable_pt_lim (fun x => fst (X x s u)) t (fst dX) /\
    derivable_pt_lim (fun x => snd (X x s u)) t (snd dX).
(** root of the sum of the squared moduli of all matrix elements *)
Definition hilbert_schmidt (M : nat) (X : N -> N -> CR) : R :=
  sqrt (sum_over (K := Rring) (fun s => sum_over (K := Rring) (fun t => fst (X s t) ^ 2 + snd (X s t) ^ 2) (fock M)) (fock M)).
