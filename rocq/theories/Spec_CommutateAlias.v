(** SPECIFICATION for C97. *)
From Coq Require Import List.
Import ListNotations.
(** the pairs (operator of a, operator of b) in the order of the loops, the last one left out, which do not
    anticommute: each of them adds a term *)
Definition early_contractions {Op} (anticommutates : Op -> Op -> bool) (a b : list Op) : nat :=
  length (filter (fun p => negb (anticommutates (fst p) (snd p))) (removelast (list_prod a b))).
(** all pairs which do not anticommute *)
Definition contractions {Op} (anticommutates : Op -> Op -> bool) (a b : list Op) : nat :=
  length (filter (fun p => negb (anticommutates (fst p) (snd p))) (list_prod a b)).
