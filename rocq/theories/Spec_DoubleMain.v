(** SPEC for C107: what is assumed of std::sin and std::cos. *)
From Coq Require Import Reals.
From Verif Require Import M_Double.
Local Open Scope R_scope.
(** within two units in the last place of the exact value, and between -1 and 1 *)
Definition accurate_wave (f exact : R -> R) : Prop :=
  forall x, Rabs (f x - exact x) <= / 2 ^ 52 * Rabs (exact x) + / 2 ^ 1075 /\ Rabs (f x) <= 1.
(** the correctly rounded functions *)
Definition best_sine (x : R) : R := round_double (sin x).
Definition best_cosine (x : R) : R := round_double (cos x).
