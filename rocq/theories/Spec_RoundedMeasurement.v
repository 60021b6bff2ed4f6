(** SPECIFICATION for C93: how far a rounded sum may be off. *)
From Coq Require Import Reals.
Local Open Scope R_scope.
(** every number passes at most [k] roundings on its way into the result; [W] bounds the sum of the
    magnitudes; [u] is the relative and [eta] the absolute error (underflow) of one operation *)
Definition sum_error (u eta W : R) (k : nat) : R := ((1 + u) ^ k - 1) * W + (1 + u) ^ k * (401 * INR k * eta).
(** std::complex x and y are equal up to [e] in both parts *)
Definition near (e : R) (x y : R * R) : Prop := Rabs (fst x - fst y) <= e /\ Rabs (snd x - snd y) <= e.
