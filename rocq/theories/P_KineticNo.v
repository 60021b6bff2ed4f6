(** PROPERTIES C30, C32 for init_kinetic_matrix_no (blaze_sparse_no.hpp 36-66). *)
From Verif Require Import Base Spec_Fock M_Operator M_Lattice Spec_Lattice M_Basis M_Matrix Spec_Algebra Spec_Matrix Pf_Matrix M_KineticNo P_Matrix Ex_Matrix.
Local Open Scope Z_scope.
Local Open Scope list_scope.

(** The matrix of the _no header represents the commutator with the hopping Hamiltonian as well. *)
Theorem C30_one_operator_no : forall (K : StarRing) (sort : list (triplet K) -> list (triplet K)) (J : K) lat N mode,
  sorts_by_column sort -> shipped3 lat N -> N * lat_coordination lat < two64 -> numbers_orbitals mode N ->
  exists m, init_kinetic_matrix_no sort J lat = Ok m /\
    forall row s t, site N row ->
      exists b, nth_error (basis1 lat) (Z.to_nat row) = Some b /\
        comm_elem mode (H_kin lat J) (literal b) s t =
        combination mode literal (basis1 lat) (row_of m row) s t.
Proof. exact C30_one_operator. Qed.
Theorem C32_kinetic_no : forall (K : StarRing) (sort : list (triplet K) -> list (triplet K)) (J : K) lat N,
  sorts_by_column sort -> shipped3 lat N -> N * lat_coordination lat < two64 ->
  exists m, init_kinetic_matrix_no sort J lat = Ok m /\ well_formed m N /\ bm_cap m = N * lat_coordination lat.
Proof. exact C32_kinetic. Qed.
Example C30_no_hypotheses : sorts_by_column (@isort Qcring) /\ shipped3 (square_lattice 3 3) 9 /\
  9 * lat_coordination (square_lattice 3 3) < two64 /\ numbers_orbitals orbital 9.
Proof. destruct matrix_hypotheses_square as (A & B & C & _ & _ & D & _). auto. Qed.
