(** SPECIFICATION for C95. *)
From Coq Require Import Reals List ZArith.
Local Open Scope R_scope.
Import ListNotations.
(** the sum of the magnitudes of the real and imaginary parts of the coefficients *)
Definition magnitudes (h : list (R * R)) : R := fold_right (fun z s => Rabs (fst z) + Rabs (snd z) + s) 0 h.
(** no factor exceeds 1: true of the numbers that std::cos and std::sin return *)
Definition phases (c : list (R * R)) : Prop := Forall (fun z => Rabs (fst z) <= 1 /\ Rabs (snd z) <= 1) c.
(** the static local array is either not yet there or large enough for N sites *)
Definition room (N : Z) (st : option (list (R * R))) : Prop :=
  match st with None => True | Some l => (N <= Z.of_nat (length l))%Z end.
(** the largest error of the Fermi jump in double precision: k roundings on the longest way, coefficients of
    magnitudes [m] *)
Definition jump_error (k : nat) (m : R) : R := INR k * (3 * m + / 2 ^ 400) ^ 2 / 2 ^ 49.
