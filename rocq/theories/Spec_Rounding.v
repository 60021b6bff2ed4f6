(** SPECIFICATION for C91: arithmetics with a bounded relative error. *)
From Coq Require Import Reals.
From Verif Require Import M_Rounding.
Local Open Scope R_scope.

(** a computed number is correct up to the relative error u and the absolute error eta (underflow), as long
    as the exact result is at most H in magnitude (no overflow) *)
Definition within (u eta H : R) (computed exact : R) : Prop :=
  Rabs exact <= H -> Rabs (computed - exact) <= u * Rabs exact + eta.
Definition accurate (u eta H : R) (ar : arith) : Prop :=
  forall a b, within u eta H (f_add ar a b) (a + b) /\ within u eta H (f_mul ar a b) (a * b) /\
    (b <> 0 -> within u eta H (f_div ar a b) (a / b)).
