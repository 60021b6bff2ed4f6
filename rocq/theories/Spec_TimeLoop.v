(** SPECIFICATION: the measurement schedule. *)
From Coq Require Import Reals.
From Verif Require Import Base.
Local Open Scope R_scope.
(** x1, f x1, f (f x1), ... *)
Definition times_applied {A} (f : A -> A) (k : nat) (x : A) : A := Nat.iter k f x.
(** the time after k steps, as accumulated with rounding *)
Definition time_at (rnd : R -> R) (dt : R) (k : nat) : R := times_applied (fun t => rnd (t + dt)) k 0.
(** the loop runs exactly n steps: n is the first step at which the end time is reached *)
Definition steps_until (rnd : R -> R) (dt t_end : R) (n : nat) : Prop :=
  t_end <= time_at rnd dt n /\ forall k, (k < n)%nat -> time_at rnd dt k < t_end.
(** rounding with relative error at most [u] *)
Definition relative_rounding (rnd : R -> R) (u : R) : Prop := forall x, Rabs (rnd x - x) <= u * Rabs x.
(** the measurements expected after [n] steps: every [m]-th step, starting with step 0 *)
Definition schedule (m n : nat) : list nat := map (fun q => q * m)%nat (seq 0 (n / m + 1)).
