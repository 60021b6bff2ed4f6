(** MODEL: models/hubbard/dispersion.hpp.  Float is the real numbers. *)
From Coq Require Import Reals.
From Verif Require Import Base M_Lattice M_LatticeReal M_Matrix.
Local Open Scope R_scope.
Local Open Scope list_scope.

(** the real numbers as the scalar type of the matrix code *)
Definition Rring : StarRing.
Proof.
  refine (mkStarRing R 0 1 Rplus Rmult Rminus Ropp (fun x => x) _ _ _ _); try reflexivity. exact RTheory.
Defined.

(** calculate_fermi_momentum_1d, dispersion.hpp 17-21 *)
Definition calculate_fermi_momentum_1d (filling_factor : R) : R := filling_factor * PI.

(** std::vector read: out of range is undefined *)
Definition vread {A} (l : list A) (i : Z) : outcome A :=
  if (i <? 0)%Z then UB else match nth_error l (Z.to_nat i) with Some x => Ok x | None => UB end.

(** constructor, dispersion.hpp 35-54: [momentum i] is momentum_space[i], [vectors] is
    lattice.lattice_vectors(), [dot] is types::dot_product.  Every iteration of the parallel loop
    writes its own element, so the result does not depend on the schedule. *)
Definition dispersion {V : Type} (dot : V -> V -> R) (size : Z) (momentum : Z -> V) (vectors : list V) (J : R) : list R :=
  map (fun i => - (2) * J * fold_left (fun val vec => val + cos (dot (momentum i) vec)) vectors 0) (zrange 0 size).
(** operator(), 56-59: vread *)

(** dot_product of numbers (types/dot_product.hpp 9-15) and of 2d vectors (types/eigen/dot_product.hpp 10-16) *)
Definition dot1 (a b : R) : R := a * b.
Definition dot2 (a b : R * R) : R := fst a * fst b + snd a * snd b.
(** lattice_vectors(): periodic_chain.hpp 78, 86, 170-175 and periodic_square_lattice.hpp 94, 107, 261-266 *)
Definition chain_vectors (c : chain) : list R := [ch_dx c].
Definition square_vectors (s : square) : list (R * R) := [(s_dx s, 0); (0, s_dy s)].
(** make_dispersion, 62-68, for the shipped lattices *)
Definition chain_dispersion (bz lat : chain) (J : R) : list R :=
  dispersion dot1 (ch_size bz) (ch_pos bz) (chain_vectors lat) J.
Definition square_dispersion (bz lat : square) (J : R) : list R :=
  dispersion dot2 (sq_size (s_size_x bz) (s_size_y bz)) (s_pos bz) (square_vectors lat) J.
