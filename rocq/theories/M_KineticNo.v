(** MODEL: init_kinetic_matrix_no of models/hubbard_real_space/blaze_sparse_no.hpp (36-66), with the
    number of reserved elements (16-21).  The loop is the one of blaze_sparse.hpp written a second time. *)
From Verif Require Import Base M_Operator M_Lattice M_Basis M_Matrix.
Local Open Scope Z_scope.
Section KineticNo.
  Context {K : StarRing}.
  Variable sort : list (triplet K) -> list (triplet K).
  Variable J : K.
  Variable lat : lattice.
  (** number_of_kinetic_elements_no(Basis1Operator), 16-21 *)
  Definition number_of_kinetic_elements_no1 : Z := u64 (lat_size lat * lat_coordination lat).
  (** the triplets of one row, 53-58 *)
  Definition kinetic_triplets_no (row : Z) : list (triplet K) :=
    map (fun neighbor => mkT row neighbor (ropp J)) (lat_neighbors lat row).
  (** resize, reset and reserve, 47-49; the loop over the rows, 51-65 *)
  Definition init_kinetic_matrix_no : outcome (bmat K) :=
    ofold (fun m row => write_row m row (sort (kinetic_triplets_no row)))
      (zrange 0 (lat_size lat)) (bm_new (size1 lat) number_of_kinetic_elements_no1).
End KineticNo.
