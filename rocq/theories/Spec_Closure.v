(** SPECIFICATION for C120: the part of an operator that acts on more than one site with three ladder operators. *)
From Coq Require Import List ZArith.
From Verif Require Import Base M_Operator M_Basis M_Lattice.
Import ListNotations.

(** the product has ladder operators at two different sites *)
Definition several_sites (b : monomial hub) : bool :=
  existsb (fun o => existsb (fun p => negb (Z.eqb (index1 o) (index1 p))) b) b.
(** the coefficients of such products only, all others set to zero *)
Definition several_part {K : StarRing} (lat : lattice) (h : list K) : list K :=
  map (fun p => if several_sites (snd p) then fst p else r0) (combine h (basis3 lat)).
