(** SPECIFICATION for C94. *)
From Coq Require Import Reals List.
From Verif Require Import Base M_Double Spec_TimeLoop.
Local Open Scope R_scope.

(** step size and number of steps with which the time variables of double type stay close to the exact times *)
Definition double_times (garbage : R -> R) (dt t_end : R) (interval : Z) (steps : nat) : Prop :=
  / 2 ^ 1000 <= dt <= 2 ^ 100 /\ INR steps <= 2 ^ 24 /\ (0 <= interval)%Z /\ steps_until (to_double garbage) dt t_end steps.
(** element for element at most delta away from the exact values, and not above 1 in absolute value *)
Definition table_near (delta : R) (table exact : list R) : Prop :=
  length table = length exact /\ forall d, (d < length exact)%nat -> Rabs (nth d table 0 - nth d exact 0) <= delta /\ Rabs (nth d table 0) <= 1.
