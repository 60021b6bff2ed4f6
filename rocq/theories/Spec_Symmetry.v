(** SPECIFICATION for C110: symmetries of a lattice. *)
From Verif Require Import Base M_Lattice Spec_Lattice M_Basis Spec_Programs.

(** a permutation of the sites 0 .. N-1 which maps the neighbours of a site to the neighbours of its image *)
Definition lattice_symmetry (lat : lattice) (N : Z) (s : Z -> Z) : Prop :=
  (forall a, site N a -> site N (s a)) /\
  (forall a b, site N a -> site N b -> s a = s b -> a = b) /\
  (forall a, site N a -> Permutation (map s (lat_neighbors lat a)) (lat_neighbors lat (s a))).
(** the image of a basis element: c+_a to c+_{s a}, and c+_a c+_b c_c to c+_{s a} c+_{s b} c_{s c} *)
Definition moved (N : Z) (s : Z -> Z) (i : Z) : Z :=
  if (i <? N)%Z then s i else (N + N * N * s (site_a N i) + N * s (site_b N i) + s (site_c N i))%Z.

(** the reflections of the ring, and of the torus whose site x N + y has the coordinates (x, y) *)
Definition mirror (N a : Z) : Z := ((- a) mod N)%Z.
Definition mirror_x (N a : Z) : Z := (mirror N (a / N) * N + a mod N)%Z.
Definition mirror_y (N a : Z) : Z := (a / N * N + mirror N (a mod N))%Z.
Definition swap_xy (N a : Z) : Z := (a mod N * N + a / N)%Z.
(** the rotation of the ring by d sites *)
Definition rotation (N d a : Z) : Z := ((a + d) mod N)%Z.
