(** SPECIFICATION for C106: the accuracy of std::sin *)
From Coq Require Import Reals.
From Verif Require Import M_Double.
Local Open Scope R_scope.
(** an error of at most one unit in the last place *)
Definition accurate_sine (fsin : R -> R) : Prop :=
  forall x, Rabs (fsin x - sin x) <= / 2 ^ 52 * Rabs (sin x) + / 2 ^ 1075.
(** the correctly rounded sine *)
Definition rounded_sine (x : R) : R := round_double (sin x).
