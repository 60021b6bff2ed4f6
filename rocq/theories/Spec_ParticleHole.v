(** SPECIFICATION for C111: sublattices. *)
From Coq Require Import Reals.
From Verif Require Import Base M_Lattice Spec_Lattice M_Basis M_Dispersion Spec_Stability Spec_Programs.
Local Open Scope R_scope.

(** the sites can be coloured with two colours so that neighbours have different ones; site 0 is white *)
Definition two_coloured (lat : lattice) (N : Z) (white : Z -> bool) : Prop :=
  white 0%Z = true /\ forall a b, site N a -> In b (lat_neighbors lat a) -> white b = negb (white a).
(** +1 on white sites, -1 on black sites *)
Definition shade (white : Z -> bool) (a : Z) : R := if white a then 1 else -1.
(** the sign of a basis element under the particle-hole transformation *)
Definition element_sign (N : Z) (white : Z -> bool) (i : Z) : R :=
  if (i <? N)%Z then shade white i else - (shade white (site_a N i) * shade white (site_b N i) * shade white (site_c N i)).
(** the colourings of the ring and of the torus with an even number of sites per side *)
Definition chain_white (a : Z) : bool := Z.even a.
Definition square_white (N a : Z) : bool := Z.even (a / N + a mod N).
(** a coefficient in the frame which rotates with half the interaction strength: e^{-iUt/2} z *)
(** a coefficient in the frame which rotates with half the interaction strength: e^{-iUt/2} z *)
Definition rotated (U t : R) (z : CR) : CR := rmul ((cos (U * t / 2), - sin (U * t / 2)) : CR) z.
