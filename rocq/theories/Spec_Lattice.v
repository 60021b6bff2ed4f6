(** SPECIFICATION: rings and tori as graphs, independent of the lattice code. *)
From Verif Require Import Base.
Local Open Scope Z_scope.

(** Neighbours on the ring Z/N. *)
Definition ring_adj (N a b : Z) : Prop := b = (a + 1) mod N \/ b = (a - 1) mod N.
Definition site (N a : Z) : Prop := 0 <= a < N.

(** Walks of [n] nearest-neighbour hops. *)
Inductive walk {A : Type} (adj : A -> A -> Prop) : nat -> A -> A -> Prop :=
| walk_0 a : walk adj 0 a a
| walk_S n a b c : adj a b -> walk adj n b c -> walk adj (S n) a c.

(** [d] is the graph distance of [a] and [b]. *)
Definition graph_distance {A} (adj : A -> A -> Prop) (d : Z) (a b : A) : Prop :=
  walk adj (Z.to_nat d) a b /\ 0 <= d /\ forall n, walk adj n a b -> d <= Z.of_nat n.

(** Neighbours on the torus Z/Nx x Z/Ny. *)
Definition torus_adj (Nx Ny : Z) (p q : Z * Z) : Prop :=
  (ring_adj Nx (fst p) (fst q) /\ snd p = snd q) \/ (fst p = fst q /\ ring_adj Ny (snd p) (snd q)).

(** The consecutive integers [0, ..., n-1]. *)
Definition Zseq (n : Z) : list Z := map Z.of_nat (seq 0 (Z.to_nat n)).
