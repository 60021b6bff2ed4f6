(** SPECIFICATION for C115: how far an operator reaches. *)
From Coq Require Import Reals ZArith List.
From Verif Require Import Base M_Lattice Spec_Lattice M_Basis M_Matrix Spec_Stability Spec_Programs.
Local Open Scope Z_scope.

(** [far] is a distance from site 0: zero there, nowhere negative, growing by at most one from a site to its neighbours *)
Definition distance_from_0 (lat : lattice) (N : Z) (far : Z -> Z) : Prop :=
  far 0 = 0 /\ (forall i, site N i -> 0 <= far i) /\ forall i j, site N i -> In j (lat_neighbors lat i) -> far j <= far i + 1.
(** largest distance of the sites of basis element r: c+_r for r < N, else c+_a c+_b c_c *)
Definition reach (N : Z) (far : Z -> Z) (r : Z) : Z :=
  if r <? N then far r else Z.max (far (site_a N r)) (Z.max (far (site_b N r)) (far (site_c N r))).
(** the coefficients of the elements reaching at least d hops from site 0, the others replaced by zero *)
Definition beyond (N : Z) (far : Z -> Z) (d : Z) (v : Z -> CR) : list CR :=
  map (fun i => if d <=? reach N far i then v i else real 0) (zrange 0 (N + N * N * N)).
