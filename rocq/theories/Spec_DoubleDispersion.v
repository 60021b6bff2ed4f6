(** SPECIFICATION for C98. *)
From Coq Require Import Reals.
From Verif Require Import M_Double.
Local Open Scope R_scope.

(** a cosine whose result is off by at most one unit in the last place (for the arguments that occur) *)
Definition accurate_cosine (fcos : R -> R) : Prop :=
  forall x, Rabs x <= 4 -> Rabs (fcos x - cos x) <= / 2 ^ 52 * Rabs (cos x) + / 2 ^ 1075.
(** the correctly rounded cosine *)
Definition rounded_cosine (x : R) : R := round_double (cos x).
