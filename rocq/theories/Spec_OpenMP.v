(** SPECIFICATION: which schedules a loop over lo..hi-1 may get. *)
From Verif Require Import Base M_Matrix M_OpenMP.
Local Open Scope list_scope.
(** every iteration is executed by exactly one of at most [T] threads, in whatever order *)
Definition shares (T : nat) (lo hi : Z) (s : schedule) : Prop :=
  (length (who s) <= T)%nat /\ Permutation (concat (who s)) (zrange lo hi).
