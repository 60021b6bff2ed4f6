(** MODEL of types/triplet.hpp and of the Liouvillian matrices
    models/hubbard_real_space/blaze_sparse.hpp, models/hubbard_real_space/blaze_sparse_no.hpp,
    models/hubbard_momentum_space/blaze_sparse.hpp.
    Scalars are exact (any [StarRing]); uint64_t indices wrap around. *)
From Verif Require Import Base M_Operator M_Basis.
Local Open Scope Z_scope.
Local Open Scope list_scope.

(** sequencing of code that may be undefined *)
Definition obind {A B} (x : outcome A) (f : A -> outcome B) : outcome B :=
  match x with Ok a => f a | UB => UB end.
Fixpoint ofold {A S} (f : S -> A -> outcome S) (l : list A) (s : S) : outcome S :=
  match l with [] => Ok s | x :: l' => obind (f s x) (ofold f l') end.
(** for(i = lo; i < hi; ++i) *)
Definition zrange (lo hi : Z) : list Z := map (fun k => lo + Z.of_nat k) (seq 0 (Z.to_nat (hi - lo))).

Section Scalar.
  Context {K : StarRing}.
  Local Notation "- x" := (ropp x) : ring_scope_.
  Local Open Scope ring_scope_.

  (** Triplet, triplet.hpp 13-22 *)
  Record triplet := mkT { t_row : Z; t_col : Z; t_val : K }.

  (** make_columns_unique, triplet.hpp 34-52.  [is_zero] is types::IsZero.  front() of an
      empty vector is undefined.  [mcu_loop] is the loop of lines 40-49 followed by the
      push_back of line 50; [cur] is the local [triplet]. *)
  Fixpoint mcu_loop (is_zero : K -> bool) (cur : triplet) (rest filtered : list triplet) : list triplet :=
    match rest with
    | [] => filtered ++ [cur]
    | it :: rest' =>
        if t_col it =? t_col cur then
          mcu_loop is_zero (mkT (t_row cur) (t_col cur) (t_val cur + t_val it)) rest' filtered
        else mcu_loop is_zero it rest' (if is_zero (t_val cur) then filtered else filtered ++ [cur])
    end.
  Definition make_columns_unique (is_zero : K -> bool) (l : list triplet) : outcome (list triplet) :=
    match l with
    | [] => UB
    | cur :: rest => Ok (mcu_loop is_zero cur rest [])
    end.
  (** has_unique_columns, triplet.hpp 54-62; begin() + 1 is undefined on an empty vector *)
  Fixpoint huc_loop (prev : triplet) (rest : list triplet) : bool :=
    match rest with
    | [] => true
    | it :: rest' => if t_col it =? t_col prev then false else huc_loop it rest'
    end.
  Definition has_unique_columns (l : list triplet) : outcome bool :=
    match l with [] => UB | x :: rest => Ok (huc_loop x rest) end.

  (** ** blaze::CompressedMatrix as used by the library (trusted interface, blaze
      documentation of reserve/append/finalize): append(i,j,v) is only defined when row i is
      the row being filled, j is a column of the matrix larger than all columns already in
      that row, and the reserved capacity is not exhausted; finalize(i) closes row i. *)
  Record bmat := mkB { bm_size : Z; bm_cap : Z; bm_done : list (list (Z * K)); bm_cur : list (Z * K) }.
  Definition bm_nonzeros (m : bmat) : Z :=
    Z.of_nat (List.fold_right (fun r n => (length r + n)%nat) (length (bm_cur m)) (bm_done m)).
  Definition bm_append (m : bmat) (i j : Z) (v : K) : outcome bmat :=
    if (i =? Z.of_nat (length (bm_done m))) && (0 <=? j) && (j <? bm_size m)
       && forallb (fun e => fst e <? j) (bm_cur m) && (bm_nonzeros m <? bm_cap m)
    then Ok (mkB (bm_size m) (bm_cap m) (bm_done m) (bm_cur m ++ [(j, v)]))
    else UB.
  Definition bm_finalize (m : bmat) (i : Z) : outcome bmat :=
    if i =? Z.of_nat (length (bm_done m))
    then Ok (mkB (bm_size m) (bm_cap m) (bm_done m ++ [bm_cur m]) [])
    else UB.
  (** resize(n, n, false); reset(); reserve(cap) *)
  Definition bm_new (n cap : Z) : bmat := mkB n cap [] [].

  (** std::sort by column (triplet.hpp 26-32): std::sort is not stable, so [sort] is any
      function that returns some permutation sorted by column. *)
  Variable sort : list triplet -> list triplet.

  (** the loop "for(triplet : triplets) matrix.append(row, ...); matrix.finalize(row);",
      blaze_sparse.hpp 59-62, 94-97, 133-136 *)
  Definition write_row (m : bmat) (row : Z) (ts : list triplet) : outcome bmat :=
    obind (ofold (fun m t => bm_append m row (t_col t) (t_val t)) ts m) (fun m => bm_finalize m row).

  (** ** models/hubbard_real_space/blaze_sparse.hpp *)
  Variables J U : K.
  (** [half] is 1/2: "x / 2." is multiplication with it *)
  Variable half : K.
  Variable lat : lattice.
  Let N := lat_size lat.
  Let z := lat_coordination lat.
  (** basis.size() *)
  Definition size1 : Z := Z.of_nat (length (basis1 lat)).
  Definition size3 : Z := Z.of_nat (length (basis3 lat)).

  (** number_of_kinetic_elements(Basis1Operator), 16-20; (Basis3Operator), 22-27;
      number_of_interaction_elements, 29-33 *)
  Definition number_of_kinetic_elements1 : Z := u64 (N * z).
  Definition number_of_kinetic_elements3 : Z :=
    u64 (u64 (N * z) + u64 (u64 (u64 (N * u64 (N * N)) * 6) * z)).
  Definition number_of_interaction_elements : Z := u64 (size3 * 2).

  (** lines 53-56, 85-88: one triplet per neighbour *)
  Definition kinetic_triplets1 (row : Z) : list triplet :=
    map (fun neighbor => mkT row neighbor (- J)) (lat_neighbors lat row).
  (** init_kinetic_matrix, 35-64 *)
  Definition init_kinetic_matrix : outcome bmat :=
    ofold (fun m row => write_row m row (sort (kinetic_triplets1 row)))
      (zrange 0 N) (bm_new size1 number_of_kinetic_elements1).

  (** init_matrix, first loop body, 82-91 *)
  Definition triplets1 (row : Z) : list triplet :=
    kinetic_triplets1 row ++
    [mkT row row (U * half); mkT row (get_3op_index N row row row) (U * half)].
  (** lines 104-124 *)
  Definition kinetic_triplets3 (row i0 i1 i2 : Z) : list triplet :=
    map (fun nb => mkT row (get_3op_index N nb i1 i2) (- J)) (lat_neighbors lat i0) ++
    map (fun nb => mkT row (get_3op_index N i0 nb i2) (- J)) (lat_neighbors lat i1) ++
    map (fun nb => mkT row (get_3op_index N i0 i1 nb) J) (lat_neighbors lat i2).
  (** second loop body, 100-130 *)
  Definition triplets3 (row i0 i1 i2 : Z) : list triplet :=
    kinetic_triplets3 row i0 i1 i2 ++
    (if (i0 =? i1) && (i0 =? i2) then [mkT row i0 (U * half)] else []) ++
    [mkT row row (U * half)].
  (** basis[row] and its site indices; out-of-range access is undefined *)
  Definition basis_indices (row : Z) : outcome (Z * Z * Z) :=
    match nth_error (basis3 lat) (Z.to_nat row) with
    | Some [a; b; c] => Ok (index1 a, index1 b, index1 c)
    | _ => UB
    end.
  (** init_matrix, 66-138 *)
  Definition init_matrix : outcome bmat :=
    obind (ofold (fun m row => write_row m row (sort (triplets1 row))) (zrange 0 N)
             (bm_new size3 (u64 (number_of_kinetic_elements3 + number_of_interaction_elements))))
    (fun m => ofold (fun m row => obind (basis_indices row)
                 (fun i => write_row m row (sort (triplets3 row (fst (fst i)) (snd (fst i)) (snd i)))))
               (zrange N size3) m).

  (** ** models/hubbard_real_space/blaze_sparse_no.hpp *)
  Variable is_zero : K -> bool.
  (** the expectation value <c+_a c_b> *)
  Variable ev : Z -> Z -> K.
  (** number_of_kinetic_elements_no, 23-28; number_of_interaction_elements_no, 30-34 *)
  Definition number_of_kinetic_elements_no3 : Z :=
    u64 (u64 (N * z) + u64 (u64 (u64 (size3 - N) * 6) * z)).
  Definition number_of_interaction_elements_no : Z :=
    u64 (u64 (N * 2) + u64 (u64 (size3 - N) * 8)).
  (** first loop body, 86-97; basis[row].front().index1 is [row] (see C27) *)
  Definition triplets_no1 (row : Z) : list triplet :=
    kinetic_triplets1 row ++
    [mkT row row U; mkT row (get_3op_index N row row row) (U * ev row row)].
  (** expectation_value_conj, 137-140 *)
  Definition ev_conj (a b : Z) : K := (if a =? b then 1 else 0) - ev b a.
  (** second loop body up to sort, 108-158 *)
  Definition triplets_no3 (row r1 r2 r3 : Z) : list triplet :=
    kinetic_triplets3 row r1 r2 r3 ++
    [ mkT row r1 (U * ev r2 r1 * ev_conj r3 r1);
      mkT row r2 (U * ev_conj r2 r1 * ev r2 r3);
      mkT row r3 (- U * ev r3 r1 * ev r2 r3);
      mkT row row (U * ev r1 r1);
      mkT row (get_3op_index N r1 r1 r3) (- U * ev r2 r1);
      mkT row (get_3op_index N r1 r2 r1) (U * ev_conj r3 r1) ] ++
    (if r2 =? r3 then [] else
       [ mkT row (get_3op_index N r2 r2 r3) (U * ev r2 r1);
         mkT row (get_3op_index N r3 r2 r3) (- U * ev r3 r1) ]).
  (** init_matrix_no, 68-169 *)
  Definition init_matrix_no : outcome bmat :=
    obind (ofold (fun m row => write_row m row (sort (triplets_no1 row))) (zrange 0 N)
             (bm_new size3 (u64 (number_of_kinetic_elements_no3 + number_of_interaction_elements_no))))
    (fun m => ofold (fun m row => obind (basis_indices row)
                 (fun i => obind (make_columns_unique is_zero
                                    (sort (triplets_no3 row (fst (fst i)) (snd (fst i)) (snd i))))
                    (fun ts => write_row m row ts)))
               (zrange N size3) m).

  (** ** models/hubbard_momentum_space/blaze_sparse.hpp.  [b] is the basis, [N] sites,
      [disp] is liouvillian.dispersion, [u2] is U / 2., [u2n] is U / (2. * lattice.size()). *)
  (** number_of_matrix_elements, 16-20 *)
  Definition mom_number_of_elements (n : Z) : Z := u64 (n * u64 (1 + u64 (3 * n))).
  (** init_matrix, 22-62 *)
  Definition mom_init_matrix (b : list (monomial hub)) (n : Z) (disp : Z -> K) (u2 u2n : K) : outcome bmat :=
    let sz := Z.of_nat (length b) in
    match b with
    | (op :: _) :: _ =>
        obind (bm_append (bm_new sz (mom_number_of_elements n)) 0 0 (disp (index1 op) + u2)) (fun m =>
        obind (ofold (fun m i => bm_append m 0 i u2n) (zrange 1 sz) m) (fun m =>
        obind (bm_finalize m 0) (fun m =>
        ofold (fun m row =>
          match nth_error b (Z.to_nat row) with
          | Some [o0; o1; o2] =>
              obind (bm_append m row 0 u2n) (fun m =>
              obind (bm_append m row row
                       (disp (index1 o0) + disp (index1 o1) - disp (index1 o2) + u2)) (fun m =>
              bm_finalize m row))
          | _ => UB
          end) (zrange 1 sz) m)))
    | _ => UB
    end.
End Scalar.
Arguments triplet : clear implicits.
Arguments bmat : clear implicits.
