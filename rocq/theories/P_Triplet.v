(** THEOREMS: C36 (normal-ordered matrix), C37 (triplet lists). *)
From Coq Require Import Sorting.Sorted ZifyBool.
From Verif Require Import Base Spec_Fock FockFacts M_Operator M_Lattice Spec_Lattice Pf_Lattice M_Basis Pf_Basis M_Matrix
  Spec_Algebra Pf_Algebra Pf_Commutator Spec_Matrix Pf_Matrix Pf_Matrix2 Pf_Trace Pf_Wick Pf_Liouville Pf_MatrixEntry Pf_Projection P_Matrix Pf_Triplet.
Local Open Scope Z_scope.
Local Open Scope list_scope.

(** total value of the triplets of a list that are in column [j] *)
Definition column_sum {K : StarRing} (l : list (triplet K)) (j : Z) : K :=
  sum_over t_val (filter (fun t => t_col t =? j) l).
Section CS.
  Context {K : StarRing}.
  Local Open Scope ring_scope_.
  Add Ring KringCS : (rth K).
  Lemma column_sum_weight (l : list (triplet K)) j : column_sum l j = weight l j.
  Proof.
    unfold column_sum, weight. rewrite sum_over_filter. apply sum_over_ext. intros t _. unfold delta.
    destruct (Z.eqb (t_col t) j); ring.
  Qed.
End CS.

(** ** C37: make_columns_unique *)
(** For a list sorted by column the result has strictly increasing columns; each entry carries
    the whole sum of its column; a column is missing only if its sum is (numerically) zero,
    and has_unique_columns accepts the result. *)
Theorem C37_make_columns_unique : forall (K : StarRing) (is_zero : K -> bool) l,
  l <> [] -> StronglySorted (fun a b => t_col a <= t_col b) l ->
  exists out, make_columns_unique is_zero l = Ok out /\
    StronglySorted Z.lt (map t_col out) /\
    (forall t, In t out -> In (t_col t) (map t_col l) /\ t_val t = column_sum l (t_col t)) /\
    (forall j, In j (map t_col l) -> ~ In j (map t_col out) -> is_zero (column_sum l j) = true) /\
    (forall t, In t out -> is_zero (t_val t) = true -> t_col t = last (map t_col l) 0) /\
    has_unique_columns out = Ok true.
Proof.
  intros K is_zero l Hne Hs. destruct l as [|c r]; [congruence|]. exists (mcu_loop is_zero c r []). split; [reflexivity|].
  destruct (mcu_spec is_zero r c Hs) as (I1 & I2 & I3). split; [exact I1|]. split; [|split; [|split]].
  - intros t Ht. rewrite column_sum_weight. destruct (I2 t Ht) as (A & B & _). split; assumption.
  - intros j Hj Hn. rewrite column_sum_weight. destruct (is_zero (weight (c :: r) j)) eqn:E; [reflexivity|]. exfalso. apply Hn, I3; [exact Hj|right; exact E].
  - intros t Ht Hz. destruct (I2 t Ht) as (_ & _ & [E|E]); [exact E|congruence].
  - destruct (mcu_loop is_zero c r []) as [|x out] eqn:E.
    + exfalso. assert (H : In (last (map t_col (c :: r)) 0) (map t_col (@nil (triplet K)))).
      { apply I3; [|left; reflexivity]. destruct (exists_last (l := map t_col (c :: r))) as (l' & a & Q); [discriminate|].
        rewrite Q, last_last. apply in_or_app. right. left. reflexivity. }
      exact H.
    + unfold has_unique_columns. rewrite huc_strict by exact I1. reflexivity.
Qed.
Print Assumptions C37_make_columns_unique.
(** has_unique_columns decides uniqueness for sorted lists; an empty list is undefined
    behaviour for both functions. *)
Theorem C37_has_unique_columns : forall (K : StarRing) (l : list (triplet K)),
  l <> [] -> StronglySorted (fun a b => t_col a <= t_col b) l ->
  exists b, has_unique_columns l = Ok b /\ (b = true <-> NoDup (map t_col l)).
Proof.
  intros K l Hne Hs. destruct l as [|c r]; [congruence|]. eexists. split; [reflexivity|]. apply huc_sorted, Hs.
Qed.
Print Assumptions C37_has_unique_columns.
Theorem C37_empty_refuted : forall (K : StarRing) (is_zero : K -> bool),
  make_columns_unique is_zero (@nil (triplet K)) = UB /\ has_unique_columns (@nil (triplet K)) = UB.
Proof. intros. split; reflexivity. Qed.
Print Assumptions C37_empty_refuted.

(** ** C36: the normal-ordered matrix *)
Definition fits_no (lat : lattice) (N : Z) : Prop :=
  N * lat_coordination lat + N * N * N * 6 * lat_coordination lat + N * 2 + N * N * N * 8 < two64.
Lemma fits_no_S3 lat N : graph lat N -> fits_no lat N -> N + N * N * N < two64.
Proof. intros HG H. unfold fits_no in H. pose proof (HNpos lat N HG). pose proof (g_co _ _ HG). nia. Qed.

Theorem C36_structure : forall (K : StarRing) (sort : list (triplet K) -> list (triplet K)) (J U : K) lat N is_zero ev,
  sorts_by_column sort -> shipped3 lat N -> fits_no lat N ->
  exists m, init_matrix_no sort J U lat is_zero ev = Ok m /\ well_formed m (N + N * N * N) /\
    (forall row col, site N row -> entry m row col = column_sum (triplets_no1 J U lat ev row) col) /\
    (forall i1 i2 i3 col, site N i1 -> site N i2 -> site N i3 ->
       let row := N + N * N * i1 + N * i2 + i3 in
       let collected := column_sum (triplets_no3 J U lat ev row i1 i2 i3) col in
       entry m row col = collected \/ (entry m row col = r0 /\ is_zero collected = true)).
Proof.
  intros K sort J U lat N is_zero ev Hs Hl Hf. pose proof (shipped3_graph _ _ Hl) as HG. pose proof (HNpos lat N HG).
  pose proof (fits_no_S3 lat N HG Hf) as HS. pose proof (g_co _ _ HG).
  eexists. split; [apply (init_matrix_no_closed sort Hs J U lat N HG HS is_zero ev Hf)|]. split; [|split].
  - apply wf_of; cbn [bm_size bm_done bm_cur bm_cap].
    + reflexivity.
    + rewrite app_length, no_rows1_len. unfold no_rows3. rewrite map_length, zrange_length. nia.
    + reflexivity.
    + intros r Hr. apply in_app_or in Hr as [Hr|Hr]; apply in_map_iff in Hr as (x & <- & Hx); apply zrange_in in Hx; eexists; (split; [reflexivity|]).
      * apply (no1_good sort Hs J U lat N HG HS ev x Hx).
      * destruct (dec_spec lat N HG HS x Hx) as (D1 & D2 & D3 & E). apply (no3_good sort Hs J U lat N HG HS is_zero ev); try assumption. unfold site. lia.
    + rewrite nonzeros_total. cbn [bm_done bm_cur length]. rewrite total_app.
      assert (Q1 : (total (no_rows1 sort J U lat N ev) <= length (zrange 0 N) * (Z.to_nat (lat_coordination lat) + 2))%nat).
      { unfold no_rows1. apply (total_map_le N). intros x Hx. apply zrange_in in Hx. rewrite pairs_len.
        apply Nat.eq_le_incl, (no1_good sort Hs J U lat N HG HS ev x Hx). }
      assert (Q3 : (total (no_rows3 sort J U lat N is_zero ev) <= length (zrange N (N + N * N * N)) * (3 * Z.to_nat (lat_coordination lat) + 8))%nat).
      { unfold no_rows3. apply (total_map_le N). intros x Hx. apply zrange_in in Hx. rewrite pairs_len.
        destruct (dec_spec lat N HG HS x Hx) as (D1 & D2 & D3 & E). apply (no3_good sort Hs J U lat N HG HS is_zero ev); try assumption. unfold site. lia. }
      rewrite zrange_length in Q1, Q3. unfold cap_no. set (z := lat_coordination lat) in *.
      replace (N + N * N * N - N) with (N * N * N) in Q3 by lia.
      assert (Z.of_nat (total (no_rows1 sort J U lat N ev)) <= N * (z + 2)) by nia.
      assert (0 <= N * N * N) by nia.
      assert (Z.of_nat (total (no_rows3 sort J U lat N is_zero ev)) <= N * N * N * (3 * z + 8)) by nia. nia.
  - intros row col Hr. unfold entry, row_of. cbn [bm_done]. rewrite (nth_no_rows1 sort J U lat N is_zero ev row Hr), (entry_weight sort Hs), column_sum_weight. reflexivity.
  - intros i1 i2 i3 col H1 H2 H3. cbv zeta. rewrite <- (get_3op_index_eq lat N (g_reg _ _ HG) HS i1 i2 i3 H1 H2 H3).
    unfold entry, row_of. cbn [bm_done]. rewrite (nth_no_rows3 sort J U lat N HG HS is_zero ev i1 i2 i3 H1 H2 H3), column_sum_weight.
    set (l := triplets_no3 J U lat ev (get_3op_index N i1 i2 i3) i1 i2 i3).
    assert (Hne : sort l <> []) by (apply (no3_nonempty sort Hs J U lat N)).
    assert (W : weight (sort l) col = weight l col).
    { unfold weight. apply sum_over_perm. apply Hs. }
    assert (P : forall o : list (triplet K), sum_over snd (filter (fun e => fst e =? col) (pairs o)) = column_sum o col).
    { intros o. unfold column_sum, pairs. rewrite !sum_over_filter, sum_over_map. reflexivity. }
    rewrite P, column_sum_weight, <- W. destruct (Hs l) as [_ Hss]. destruct (sort l) as [|c r] eqn:E; [congruence|].
    apply mcu_weight, Hss.
Qed.
Print Assumptions C36_structure.

(** Normal ordering with respect to a determinant with <c+_j c_k> = ev j k:
    :c+_{i,up} c+_{j,down} c_{k,down}: = c+_i c+_j c_k - ev j k c+_i *)
Definition NO {K : StarRing} (ev : Z -> Z -> K) (i j k : Z) : list (term hub K) :=
  [mkTerm (@r1 K) [hop true i true; hop true j false; hop false k false]; mkTerm (ropp (ev j k)) [hop true i true]].
Definition no_op {K : StarRing} (ev : Z -> Z -> K) (m : monomial hub) : list (term hub K) :=
  match m with
  | [a; b; c] => NO ev (index1 a) (index1 b) (index1 c)
  | _ => [mkTerm (@r1 K) m]
  end.

Lemma parity_vac k : parity_below 0 k = false.
Proof. induction k as [|k IH]; [reflexivity|]. cbn [parity_below]. rewrite IH. unfold occ. rewrite N.bits_0. reflexivity. Qed.
Section NoRefuted.
Context (K : StarRing).
Add Ring KringC36 : (rth K).
(** The true row of c+_i in the normal-ordered basis: U ev(i,i) on the diagonal, U on
    :c+_i n_i: ... *)
Theorem C36_true_interaction_row : forall (U : K) (half : K) lat N mode ev i s t,
  radd half half = r1 -> shipped3 lat N -> numbers_orbitals mode N -> site N i ->
  comm_elem mode (H_int lat U) [mkTerm (@r1 K) [hop true i true]] s t =
  radd (rmul (rmul U (ev i i)) (terms_elem mode [mkTerm (@r1 K) [hop true i true]] s t))
       (rmul U (terms_elem mode (NO ev i i i) s t)).
Proof.
  intros U half lat N mode ev i s t Hh Hl Hm Hi. pose proof (shipped3_graph _ _ Hl) as HG.
  change [mkTerm r1 [hop true i true]] with (B1 (K := K) i).
  rewrite (int_B1 N mode Hm s t lat HG half Hh U i Hi). rewrite E1_eq, E3_eq. unfold delta. rewrite Z.eqb_refl.
  unfold NO, terms_elem, term_elem. rewrite !sum_over_cons, sum_over_nil. cbn [prefactor operators].
  transitivity (rmul U (rmul (radd half half) (elem mode [hop true i true; hop true i false; hop false i false] s t))); [ring|rewrite Hh; ring].
Qed.
Print Assumptions C36_true_interaction_row.
(** ... but the code has the two coefficients exchanged: between the vacuum and the state with
    one particle in (i,up) the written row (J = 0) differs from the commutator by
    U (1 - ev) (1 + ev). *)
Theorem C36_one_operator_rows_refuted : forall (sort : list (triplet K) -> list (triplet K)) (U half : K) lat N mode is_zero ev i,
  radd half half = r1 -> sorts_by_column sort -> shipped3 lat N -> fits_no lat N -> numbers_orbitals mode N -> site N i ->
  exists m, init_matrix_no sort r0 U lat is_zero ev = Ok m /\
    let one := N.setbit 0 (N.of_nat (mode (i, true))) in
    rsub (combination mode (no_op ev) (basis3 lat) (row_of m i) 0%N one)
         (comm_elem mode (H_kin lat r0 ++ H_int lat U) (no_op ev [hop true i true]) 0%N one) =
    rmul U (rmul (rsub r1 (ev i i)) (radd r1 (ev i i))).
Proof.
  intros sort U half lat N mode is_zero ev i Hh Hs Hl Hf Hm Hi. pose proof (shipped3_graph _ _ Hl) as HG. pose proof (g_reg _ _ HG) as HR.
  pose proof (fits_no_S3 lat N HG Hf) as HS.
  eexists. split; [apply (init_matrix_no_closed sort Hs r0 U lat N HG HS is_zero ev Hf)|].
  cbv zeta. unfold row_of. cbn [bm_done]. rewrite (nth_no_rows1 sort r0 U lat N is_zero ev i Hi).
  set (one := N.setbit 0 _).
  rewrite (combination_sort sort Hs). unfold triplets_no1. rewrite sum_over_app, !sum_over_cons, sum_over_nil. cbn [t_col t_val].
  rewrite (sum_over_zero _ _ (kinetic_triplets1 r0 lat i)).
  2:{ intros x Hx. apply in_map_iff in Hx as (y & <- & Hy). cbn [t_val]. ring. }
  rewrite (lat_size_N lat N HG), (basis3_nth1 lat N HR i Hi), (basis3_get lat N HR HS) by assumption.
  cbn [no_op]. change (index1 (hop true i true)) with i. change (index1 (hop true i false)) with i. change (index1 (hop false i false)) with i.
  rewrite comm_app. rewrite (C36_true_interaction_row U half lat N mode ev i 0%N one Hh Hl Hm Hi).
  change [mkTerm r1 [hop true i true]] with (B1 (K := K) i) at 2.
  rewrite (kin_B1 N mode Hm 0%N one lat HG r0 i Hi). rewrite sum_over_zero by (intros; ring).
  unfold NO, terms_elem, term_elem. rewrite !sum_over_cons, sum_over_nil. cbn [prefactor operators].
  assert (V1 : elem (K := K) mode [hop true i true] 0%N one = r1).
  { unfold elem, amp, ladders. cbn [map act hop creator indices]. unfold ladder, occ. rewrite N.bits_0, parity_vac.
    cbn [xorb]. fold one. rewrite N.eqb_refl. reflexivity. }
  assert (V3 : elem (K := K) mode [hop true i true; hop true i false; hop false i false] 0%N one = r0).
  { unfold elem, amp, ladders. cbn [map act hop creator indices]. unfold ladder, occ. rewrite N.bits_0. reflexivity. }
  rewrite V1, V3. ring.
Qed.
Print Assumptions C36_one_operator_rows_refuted.
End NoRefuted.
