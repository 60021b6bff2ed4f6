(** THEOREMS: C30-C34 (real-space Liouvillian matrices), C37 (triplet lists).
    The theorems hold for every commutative ring of scalars with conjugation in which 2 is
    invertible, and for every std::sort (any permutation sorted by column). *)
From Coq Require Import Sorting.Sorted ZifyBool.
From Verif Require Import Base Spec_Fock FockFacts M_Operator M_Lattice Spec_Lattice Pf_Lattice M_Basis Pf_Basis M_Matrix
  Spec_Algebra Pf_Algebra Pf_Commutator Spec_Matrix Pf_Matrix Pf_Matrix2 Pf_Trace Pf_Wick Pf_Liouville Pf_MatrixEntry Pf_Projection.
Local Open Scope Z_scope.
Local Open Scope list_scope.

(** the capacity of the three-operator matrix fits in 64 bits *)
Definition fits3 (lat : lattice) (N : Z) : Prop :=
  N * lat_coordination lat + N * (N * N) * 6 * lat_coordination lat + (N + N * N * N) * 2 < two64.
Lemma fits3_cap lat N : fits3 lat N -> cap3 lat N < two64.
Proof. intros H. exact H. Qed.
Lemma fits3_S3 lat N : graph lat N -> fits3 lat N -> N + N * N * N < two64.
Proof. intros HG H. unfold fits3 in H. pose proof (HNpos lat N HG). pose proof (g_co _ _ HG). nia. Qed.

(** a basis monomial read literally *)
Definition literal {K : StarRing} (m : monomial hub) : list (term hub K) := [mkTerm (@r1 K) m].

(** ** C30: the kinetic matrix is the commutator with the hopping Hamiltonian *)
Section Helpers.
  Context {K : StarRing}.
  Local Open Scope ring_scope_.
  Add Ring KringPM : (rth K).
  Lemma literal_elem (mode : hub -> nat) m s t : terms_elem (K := K) mode (literal m) s t = elem mode m s t.
  Proof. unfold terms_elem, literal, term_elem. rewrite sum_over_cons, sum_over_nil. cbn [prefactor operators]. ring. Qed.
  Lemma comm_literal (mode : hub -> nat) H m s t : comm_elem (K := K) mode H (literal m) s t =
    sum_over (fun h => prefactor h * cw1 mode s t (operators h) [] m []) H.
  Proof. rewrite comm_elem_cw. unfold literal. rewrite sum_over_cons, sum_over_nil. cbn [prefactor operators]. ring. Qed.
  Lemma combination_sort sort (Hs : sorts_by_column sort) mode elr basis (l : list (triplet K)) s t :
    combination mode elr basis (pairs (sort l)) s t =
    sum_over (fun x => t_val x * match nth_error basis (Z.to_nat (t_col x)) with Some m => terms_elem mode (elr m) s t | None => 0 end) l.
  Proof. unfold combination. rewrite (sort_sum sort Hs _ l). unfold pairs. rewrite sum_over_map. reflexivity. Qed.
  Lemma wf_of m n : bm_size m = n -> Z.of_nat (length (bm_done m)) = n -> bm_cur m = [] ->
    (forall r, In r (bm_done m) -> exists l, r = pairs (K := K) l /\ row_good n l) -> bm_nonzeros m <= bm_cap m -> well_formed m n.
  Proof.
    intros H1 H2 H3 H4 H5. unfold well_formed. repeat (split; [assumption|]). split; [|assumption].
    apply Forall_forall. intros r Hr. destruct (H4 r Hr) as (l & -> & G1 & G2). split.
    - rewrite pairs_fst. exact G1.
    - unfold pairs. apply Forall_map. eapply Forall_impl; [|exact G2]. intros t Ht. exact Ht.
  Qed.
End Helpers.

Theorem C30_one_operator : forall (K : StarRing) (sort : list (triplet K) -> list (triplet K)) (J : K) lat N mode,
  sorts_by_column sort -> shipped3 lat N -> N * lat_coordination lat < two64 -> numbers_orbitals mode N ->
  exists m, init_kinetic_matrix sort J lat = Ok m /\
    forall row s t, site N row ->
      exists b, nth_error (basis1 lat) (Z.to_nat row) = Some b /\
        comm_elem mode (H_kin lat J) (literal b) s t =
        combination mode literal (basis1 lat) (row_of m row) s t.
Proof.
  intros K sort J lat N mode Hs Hl Hf Hm. pose proof (shipped3_graph _ _ Hl) as HG.
  eexists. split; [apply (init_kinetic_closed sort Hs J lat N HG Hf)|].
  intros row s t Hrow. exists [hop true row true]. split; [apply (basis1_nth lat N (g_reg _ _ HG) row Hrow)|].
  unfold row_of. cbn [bm_done].
  assert (E : nth (Z.to_nat row) (map (fun r => pairs (sort (kinetic_triplets1 J lat r))) (zrange 0 N)) [] = pairs (sort (kinetic_triplets1 J lat row))).
  { apply nth_error_nth. rewrite nth_error_map. unfold site in Hrow. pose proof (zrange_nth 0 N row Hrow) as Q. rewrite Z.sub_0_r in Q. rewrite Q. reflexivity. }
  rewrite E, (combination_sort sort Hs), comm_literal, (kin_1 N mode Hm s t lat HG J row Hrow), <- sum_over_mul_l.
  unfold kinetic_triplets1. rewrite sum_over_map. apply sum_over_ext. intros x Hx. cbn [t_col t_val].
  rewrite (basis1_nth lat N (g_reg _ _ HG) x) by (apply (g_range _ _ HG row); assumption). rewrite literal_elem. reflexivity.
Qed.
Print Assumptions C30_one_operator.

(** Three-operator basis, U = 0: the rows are the exact commutators, both for the literal
    monomials and for the shifted operators of Spec_Matrix. *)
Section ThreeOperator.
Context (K : StarRing).
Add Ring KringC30 : (rth K).
Theorem C30_three_operator : forall (sort : list (triplet K) -> list (triplet K)) (J half : K) lat N mode,
  sorts_by_column sort -> shipped3 lat N -> fits3 lat N -> numbers_orbitals mode N ->
  exists m, init_matrix sort J r0 half lat = Ok m /\
    forall row s t, 0 <= row < N + N * N * N ->
      exists b, nth_error (basis3 lat) (Z.to_nat row) = Some b /\
        comm_elem mode (H_kin lat J) (literal b) s t =
          combination mode literal (basis3 lat) (row_of m row) s t /\
        comm_elem mode (H_kin lat J) (basis_op b) s t =
          combination mode basis_op (basis3 lat) (row_of m row) s t.
Proof.
  intros sort J half lat N mode Hs Hl Hf Hm. pose proof (shipped3_graph _ _ Hl) as HG. pose proof (g_reg _ _ HG) as HR.
  pose proof (fits3_S3 lat N HG Hf) as HS.
  eexists. split; [apply (init_matrix_closed sort Hs J r0 half lat N HG HS Hf)|].
  intros row s t Hrow. unfold row_of. cbn [bm_done].
  destruct (col_cases lat N HG HS row Hrow) as [Hr|(i & j & k & Hi & Hj & Hk & ->)].
  - exists [hop true row true]. split; [apply (basis3_nth1 lat N HR row Hr)|].
    rewrite (nth_rows1 sort J r0 half lat N row Hr). rewrite !(combination_sort sort Hs). unfold triplets1. rewrite !sum_over_app, !sum_over_cons, !sum_over_nil. cbn [t_val].
    split.
    + rewrite comm_literal, (kin_1 N mode Hm s t lat HG J row Hr), <- sum_over_mul_l. unfold kinetic_triplets1. rewrite sum_over_map.
      rewrite (sum_over_ext _ (fun x => rmul (t_val _) _) (fun x => rmul (ropp J) (elem mode [hop true x true] s t))).
      * ring.
      * intros x Hx. cbn [t_col t_val]. rewrite (basis3_nth1 lat N HR x) by (apply (g_range _ _ HG row); assumption). rewrite literal_elem. reflexivity.
    + change (basis_op [hop true row true]) with (B1 (K := K) row). rewrite <- (comb_kin1 J lat N HG mode Hm row s t Hr).
      unfold comb.
      rewrite (sum_over_ext _ (fun x => rmul (t_val x) (match _ with Some m => _ | None => _ end)) (fun x => rmul (t_val x) (terms_elem mode (el lat (t_col x)) s t))).
      * ring.
      * intros x _. unfold el. destruct (nth_error (basis3 lat) (Z.to_nat (t_col x))); reflexivity.
  - exists [hop true i true; hop true j false; hop false k false]. split; [apply (basis3_get lat N HR HS); assumption|].
    rewrite (nth_rows3 sort J r0 half lat N HG HS) by assumption. rewrite !(combination_sort sort Hs). unfold triplets3. rewrite !sum_over_app.
    match goal with |- context [if ?b then [mkT ?r ?i0 ?v] else []] => set (D := if b then [mkT r i0 v] else []) end.
    assert (Z0 : forall f : triplet K -> K, (forall r c v, f (mkT r c (rmul r0 v)) = r0) -> sum_over f D = r0).
    { intros f Hf0. unfold D. destruct (_ && _)%bool; rewrite ?sum_over_cons, ?sum_over_nil, ?Hf0; [ring|reflexivity]. }
    rewrite !Z0 by (intros; cbn [t_val t_col]; ring). clear Z0 D.
    rewrite !sum_over_cons, !sum_over_nil. cbn [t_val]. split.
    + rewrite comm_literal, (kin_3 N mode Hm s t lat HG J i j k Hi Hj Hk), <- !sum_over_mul_l. unfold kinetic_triplets3.
      rewrite (lat_size_N lat N HG), !sum_over_app, !sum_over_map. cbn [t_val t_col].
      match goal with |- radd (radd ?a ?b) ?c = radd (radd ?x (radd ?y ?z)) _ =>
        assert (X : x = a); [|assert (Y : y = b); [|assert (Z' : z = c); [|rewrite X, Y, Z'; ring]]] end;
      apply sum_over_ext; intros x Hx;
      (rewrite (basis3_get lat N HR HS) by (assumption || (eapply (g_range _ _ HG); [|exact Hx]; assumption))); rewrite literal_elem; reflexivity.
    + change (basis_op [hop true i true; hop true j false; hop false k false]) with (B3 (K := K) i j k).
      rewrite <- (comb_kin3 J lat N HG HS mode Hm (get_3op_index N i j k) i j k s t Hi Hj Hk).
      unfold comb.
      rewrite (sum_over_ext _ (fun x => rmul (t_val x) (match _ with Some m => _ | None => _ end)) (fun x => rmul (t_val x) (terms_elem mode (el lat (t_col x)) s t))).
      * ring.
      * intros x _. unfold el. destruct (nth_error (basis3 lat) (Z.to_nat (t_col x))); reflexivity.
Qed.
End ThreeOperator.
Print Assumptions C30_three_operator.

(** ** C31: the full matrix is the commutator projected on the basis *)
Section Orthogonal.
Context (K : StarRing).
Add Ring KringC31 : (rth K).
(** The basis operators are orthogonal with equal norms for the Frobenius product. *)
Theorem C31_orthogonal : forall (half : K) lat N mode M,
  radd half half = r1 -> shipped3 lat N -> N + N * N * N < two64 -> numbers_orbitals mode N -> orbitals_below mode N M ->
  forall i j a b, nth_error (basis3 lat) i = Some a -> nth_error (basis3 lat) j = Some b ->
    frobenius M (terms_elem mode (basis_op a)) (terms_elem mode (basis_op b)) =
    if Nat.eqb i j then rmul half (two_pow M) else r0.
Proof.
  intros half lat N mode M Hh Hl Hf Hm Hb i j a b Ha Hb'. pose proof (shipped3_graph _ _ Hl) as HG.
  assert (L : length (basis3 lat) = Z.to_nat (N + N * N * N)).
  { rewrite (basis3_len lat N (g_reg _ _ HG)). pose proof (HNpos lat N HG). nia. }
  assert (Ri : (i < length (basis3 lat))%nat) by (apply nth_error_Some; congruence).
  assert (Rj : (j < length (basis3 lat))%nat) by (apply nth_error_Some; congruence).
  pose proof (gram half Hh lat N HG Hf mode Hm M Hb (Z.of_nat i) (Z.of_nat j) ltac:(lia) ltac:(lia)) as G.
  unfold el in G. rewrite !Nat2Z.id, Ha, Hb' in G. rewrite G. unfold delta.
  destruct (Nat.eqb_spec i j) as [->|]; [rewrite Z.eqb_refl; ring|]. destruct (Z.eqb_spec (Z.of_nat j) (Z.of_nat i)); [lia|ring].
Qed.
End Orthogonal.
Print Assumptions C31_orthogonal.

Theorem C31_projection : forall (K : StarRing) (sort : list (triplet K) -> list (triplet K)) (J U half : K) lat N mode M,
  radd half half = r1 -> sorts_by_column sort -> shipped3 lat N -> fits3 lat N ->
  numbers_orbitals mode N -> orbitals_below mode N M ->
  exists m, init_matrix sort J U half lat = Ok m /\
    forall row col b c, 0 <= row -> 0 <= col ->
      nth_error (basis3 lat) (Z.to_nat row) = Some b -> nth_error (basis3 lat) (Z.to_nat col) = Some c ->
      frobenius M (terms_elem mode (basis_op c)) (comm_elem mode (H_kin lat J ++ H_int lat U) (basis_op b)) =
      rmul (entry m row col) (frobenius M (terms_elem mode (basis_op c)) (terms_elem mode (basis_op c))).
Proof.
  intros K sort J U half lat N mode M Hh Hs Hl Hf Hm Hb. pose proof (shipped3_graph _ _ Hl) as HG.
  pose proof (fits3_S3 lat N HG Hf) as HS.
  eexists. split; [apply (init_matrix_closed sort Hs J U half lat N HG HS Hf)|].
  intros row col b c R0 C0 Eb Ec.
  assert (L : length (basis3 lat) = Z.to_nat (N + N * N * N)).
  { rewrite (basis3_len lat N (g_reg _ _ HG)). pose proof (HNpos lat N HG). nia. }
  assert (Rr : (Z.to_nat row < length (basis3 lat))%nat) by (apply nth_error_Some; congruence).
  assert (Rc : (Z.to_nat col < length (basis3 lat))%nat) by (apply nth_error_Some; congruence).
  rewrite (C31_orthogonal K half lat N mode M Hh Hl HS Hm Hb _ _ c c Ec Ec), Nat.eqb_refl.
  assert (Ebc : basis_op c = el (K := K) lat col) by (unfold el; rewrite Ec; reflexivity).
  assert (Ebb : basis_op b = el (K := K) lat row) by (unfold el; rewrite Eb; reflexivity).
  rewrite Ebc, Ebb. unfold entry, row_of. cbn [bm_done].
  destruct (col_cases lat N HG HS row ltac:(lia)) as [Hr|(i & j & k & Hi & Hj & Hk & ->)].
  - rewrite (el1 lat N HG row Hr). rewrite (nth_rows1 sort J U half lat N row Hr), (entry_weight sort Hs).
    apply (proj1 J U half Hh lat N HG HS mode Hm M Hb row col Hr). lia.
  - rewrite (el3 lat N HG HS) by assumption. rewrite (nth_rows3 sort J U half lat N HG HS) by assumption. rewrite (entry_weight sort Hs).
    apply (proj3 J U half Hh lat N HG HS mode Hm M Hb i j k col Hi Hj Hk). lia.
Qed.
Print Assumptions C31_projection.

(** Rows of one-operator elements, and of c+_i (2 n_i - 1), are exact. *)
Theorem C31_exact_rows : forall (K : StarRing) (sort : list (triplet K) -> list (triplet K)) (J U half : K) lat N mode,
  radd half half = r1 -> sorts_by_column sort -> shipped3 lat N -> fits3 lat N -> numbers_orbitals mode N ->
  exists m, init_matrix sort J U half lat = Ok m /\
    forall i s t, site N i ->
      comm_elem mode (H_kin lat J ++ H_int lat U) (B1 i) s t =
        combination mode basis_op (basis3 lat) (row_of m i) s t /\
      comm_elem mode (H_kin lat J ++ H_int lat U) (B3 i i i) s t =
        combination mode basis_op (basis3 lat) (row_of m (N + N * N * i + N * i + i)) s t.
Proof.
  intros K sort J U half lat N mode Hh Hs Hl Hf Hm. pose proof (shipped3_graph _ _ Hl) as HG.
  pose proof (fits3_S3 lat N HG Hf) as HS.
  eexists. split; [apply (init_matrix_closed sort Hs J U half lat N HG HS Hf)|].
  intros i s t Hi. rewrite <- (get_3op_index_eq lat N (g_reg _ _ HG) HS i i i Hi Hi Hi). unfold row_of. cbn [bm_done].
  rewrite (nth_rows1 sort J U half lat N i Hi), (nth_rows3 sort J U half lat N HG HS) by assumption.
  rewrite !(combination_comb lat mode sort _ s t Hs). split; symmetry.
  - apply (exact1 J U half Hh lat N HG HS mode Hm i s t Hi).
  - apply (exact_iii J U half Hh lat N HG HS mode Hm i s t Hi).
Qed.
Print Assumptions C31_exact_rows.

(** ** C32: strictly increasing columns, rows in order, within the reserved capacity *)
Theorem C32_kinetic : forall (K : StarRing) (sort : list (triplet K) -> list (triplet K)) (J : K) lat N,
  sorts_by_column sort -> shipped3 lat N -> N * lat_coordination lat < two64 ->
  exists m, init_kinetic_matrix sort J lat = Ok m /\ well_formed m N /\ bm_cap m = N * lat_coordination lat.
Proof.
  intros K sort J lat N Hs Hl Hf. pose proof (shipped3_graph _ _ Hl) as HG. pose proof (HNpos lat N HG).
  eexists. split; [apply (init_kinetic_closed sort Hs J lat N HG Hf)|]. split; [|reflexivity].
  apply wf_of; cbn [bm_size bm_done bm_cur bm_cap].
  - reflexivity.
  - rewrite map_length, zrange_length. lia.
  - reflexivity.
  - intros r Hr. apply in_map_iff in Hr as (x & <- & Hx). apply zrange_in in Hx. eexists. split; [reflexivity|].
    apply (sort_good sort Hs); [rewrite kin1_cols; apply (g_nodup _ _ HG); exact Hx|apply (kin1_in J lat N HG); [exact Hx|lia]].
  - rewrite nonzeros_total. cbn [bm_done bm_cur length].
    assert (Q : (total (map (fun r => pairs (sort (kinetic_triplets1 J lat r))) (zrange 0 N)) <= length (zrange 0 N) * Z.to_nat (lat_coordination lat))%nat).
    { unfold rows1, rows3; apply (total_map_le N). intros x Hx. apply zrange_in in Hx. rewrite pairs_len, (sort_length sort Hs). unfold kinetic_triplets1.
      rewrite map_length, (nb_len lat N HG) by exact Hx. lia. }
    rewrite zrange_length in Q. pose proof (g_co _ _ HG). nia.
Qed.
Print Assumptions C32_kinetic.
Theorem C32_full : forall (K : StarRing) (sort : list (triplet K) -> list (triplet K)) (J U half : K) lat N,
  sorts_by_column sort -> shipped3 lat N -> fits3 lat N ->
  exists m, init_matrix sort J U half lat = Ok m /\ well_formed m (N + N * N * N).
Proof.
  intros K sort J U half lat N Hs Hl Hf. pose proof (shipped3_graph _ _ Hl) as HG. pose proof (HNpos lat N HG).
  pose proof (fits3_S3 lat N HG Hf) as HS. pose proof (g_co _ _ HG).
  eexists. split; [apply (init_matrix_closed sort Hs J U half lat N HG HS Hf)|].
  apply wf_of; cbn [bm_size bm_done bm_cur bm_cap].
  - reflexivity.
  - rewrite app_length, rows1_len. unfold rows3. rewrite map_length, zrange_length. nia.
  - reflexivity.
  - intros r Hr. apply in_app_or in Hr as [Hr|Hr]; apply in_map_iff in Hr as (x & <- & Hx); apply zrange_in in Hx; eexists; (split; [reflexivity|]).
    + apply (triplets1_good sort Hs J U half lat N HG HS x Hx).
    + destruct (dec_spec lat N HG HS x Hx) as (D1 & D2 & D3 & E).
      pose proof (triplets3_good sort Hs J U half lat N HG HS _ _ _ D1 D2 D3) as G. cbv zeta in G. rewrite E in G. apply G.
  - rewrite nonzeros_total. cbn [bm_done bm_cur length]. rewrite total_app.
    assert (Q1 : (total (rows1 sort J U half lat N) <= length (zrange 0 N) * (Z.to_nat (lat_coordination lat) + 2))%nat).
    { unfold rows1, rows3; apply (total_map_le N). intros x Hx. apply zrange_in in Hx. rewrite pairs_len.
      apply Nat.eq_le_incl, (triplets1_good sort Hs J U half lat N HG HS x Hx). }
    assert (Q3 : (total (rows3 sort J U half lat N) <= length (zrange N (N + N * N * N)) * (3 * Z.to_nat (lat_coordination lat) + 2))%nat).
    { unfold rows1, rows3; apply (total_map_le N). intros x Hx. apply zrange_in in Hx. rewrite pairs_len.
      destruct (dec_spec lat N HG HS x Hx) as (D1 & D2 & D3 & E).
      pose proof (triplets3_good sort Hs J U half lat N HG HS _ _ _ D1 D2 D3) as G. cbv zeta in G. rewrite E in G. apply G. }
    rewrite zrange_length in Q1, Q3. unfold cap3. set (z := lat_coordination lat) in *.
    replace (N + N * N * N - N) with (N * N * N) in Q3 by lia.
    assert (Z.of_nat (total (rows1 sort J U half lat N)) <= N * (z + 2)) by nia.
    assert (0 <= N * N * N) by nia.
    assert (Z.of_nat (total (rows3 sort J U half lat N)) <= N * N * N * (3 * z + 2)) by nia. nia.
Qed.
Print Assumptions C32_full.

(** ** C33: chains and square lattices with sides 1 or 2 get duplicate columns, which violates
    the contract of append; with C32: the matrices can be built exactly for sides >= 3. *)
Inductive too_small : lattice -> Prop :=
| small_chain1 : too_small (chain_lattice 1)
| small_chain2 : too_small (chain_lattice 2)
| small_square1 : too_small (square_lattice 1 1)
| small_square2 : too_small (square_lattice 2 2).
Lemma small_dup lat : too_small lat -> ~ NoDup (lat_neighbors lat 0) /\ 0 < lat_size lat.
Proof.
  destruct 1; (split; [|reflexivity]); intros H; cbv in H; repeat match goal with H : NoDup (_ :: _) |- _ => inversion H; clear H; subst end;
  cbn in *; intuition.
Qed.
Theorem C33_duplicate_columns_refuted : forall (K : StarRing) (sort : list (triplet K) -> list (triplet K)) (J U half : K) lat,
  sorts_by_column sort -> too_small lat ->
  init_kinetic_matrix sort J lat = UB /\ init_matrix sort J U half lat = UB.
Proof.
  intros K sort J U half lat Hs Hl. destruct (small_dup lat Hl) as [Hd Hn].
  assert (D : forall l, ~ NoDup (map t_col l) -> ~ NoDup (map t_col (sort l))).
  { intros l H H'. apply H. eapply Permutation_NoDup; [|exact H']. apply Permutation_map, Hs. }
  assert (A : forall a b : list Z, NoDup (a ++ b) -> NoDup a).
  { induction a as [|x a IH]; intros b H; [constructor|]. cbn [app] in H. inversion H; subst. constructor.
    - intros Hx. apply H2. apply in_or_app. left. exact Hx.
    - eapply IH; eassumption. }
  split.
  - unfold init_kinetic_matrix. rewrite zrange_cons by exact Hn. cbn [ofold].
    rewrite write_row_dup; [reflexivity|reflexivity|]. apply D. rewrite kin1_cols. exact Hd.
  - unfold init_matrix. rewrite zrange_cons by exact Hn. cbn [ofold].
    rewrite write_row_dup; [reflexivity|reflexivity|]. apply D. unfold triplets1. rewrite map_app, kin1_cols. intros H. apply Hd. eapply A, H.
Qed.
Print Assumptions C33_duplicate_columns_refuted.

(** ** C34: the matrix is symmetric *)
Theorem C34_symmetric : forall (K : StarRing) (sort : list (triplet K) -> list (triplet K)) (J U half : K) lat N,
  sorts_by_column sort -> shipped3 lat N -> fits3 lat N ->
  exists m, init_matrix sort J U half lat = Ok m /\
    forall i j, 0 <= i < N + N * N * N -> 0 <= j < N + N * N * N -> entry m i j = entry m j i.
Proof.
  intros K sort J U half lat N Hs Hl Hf. pose proof (shipped3_graph _ _ Hl) as HG.
  pose proof (fits3_S3 lat N HG Hf) as HS.
  eexists. split; [apply (init_matrix_closed sort Hs J U half lat N HG HS Hf)|].
  intros i j Hi Hj. unfold entry, row_of. cbn [bm_done].
  destruct (col_cases lat N HG HS i Hi) as [Ri|(i0 & i1 & i2 & I0 & I1 & I2 & ->)];
    destruct (col_cases lat N HG HS j Hj) as [Rj|(j0 & j1 & j2 & J0 & J1 & J2 & ->)].
  - rewrite !(nth_rows1 sort J U half lat N) by assumption. rewrite !(entry_weight sort Hs), !(weight_11 J U half lat N HG HS) by assumption.
    rewrite (adjc_sym lat N HG i j), (delta_sym i j) by assumption. reflexivity.
  - rewrite (nth_rows1 sort J U half lat N i), (nth_rows3 sort J U half lat N HG HS) by assumption.
    rewrite !(entry_weight sort Hs), (weight_13 J U half lat N HG HS), (weight_31 J U half lat N HG HS) by assumption. reflexivity.
  - rewrite (nth_rows1 sort J U half lat N j), (nth_rows3 sort J U half lat N HG HS) by assumption.
    rewrite !(entry_weight sort Hs), (weight_13 J U half lat N HG HS), (weight_31 J U half lat N HG HS) by assumption. reflexivity.
  - rewrite !(nth_rows3 sort J U half lat N HG HS) by assumption. rewrite !(entry_weight sort Hs), !(weight_33 J U half lat N HG HS) by assumption.
    rewrite (adjc_sym lat N HG i0 j0), (adjc_sym lat N HG i1 j1), (adjc_sym lat N HG i2 j2),
      (delta_sym i0 j0), (delta_sym i1 j1), (delta_sym i2 j2) by assumption. reflexivity.
Qed.
Print Assumptions C34_symmetric.
