(** Proofs: structure of the sparse matrices. *)
From Coq Require Import Sorting.Sorted ZifyBool.
From Verif Require Import Base M_Operator M_Lattice Spec_Lattice Pf_Lattice P_Lattice M_Basis Pf_Basis M_Matrix Spec_Matrix.
Local Open Scope Z_scope.
Local Open Scope list_scope.

Lemma zrange_nil lo hi : hi <= lo -> zrange lo hi = [].
Proof. intros H. unfold zrange. replace (Z.to_nat (hi - lo)) with 0%nat by lia. reflexivity. Qed.
Lemma zrange_cons lo hi : lo < hi -> zrange lo hi = lo :: zrange (lo + 1) hi.
Proof.
  intros H. unfold zrange. replace (Z.to_nat (hi - lo)) with (S (Z.to_nat (hi - (lo + 1)))) by lia.
  cbn [seq map]. f_equal; [lia|]. rewrite <- seq_shift, map_map. apply map_ext. intros. lia.
Qed.
Lemma zrange_in lo hi x : In x (zrange lo hi) <-> lo <= x < hi.
Proof.
  unfold zrange. rewrite in_map_iff. split.
  - intros (k & <- & Hk). apply in_seq in Hk. lia.
  - intros H. exists (Z.to_nat (x - lo)). rewrite in_seq. lia.
Qed.
Lemma zrange_length lo hi : length (zrange lo hi) = Z.to_nat (hi - lo).
Proof. unfold zrange. rewrite map_length, seq_length. reflexivity. Qed.
Lemma zrange_app lo mid hi : lo <= mid -> mid <= hi -> zrange lo hi = zrange lo mid ++ zrange mid hi.
Proof.
  intros H1 H2. unfold zrange. replace (Z.to_nat (hi - lo)) with (Z.to_nat (mid - lo) + Z.to_nat (hi - mid))%nat by lia.
  rewrite seq_app, map_app. f_equal. cbn [Nat.add].
  replace (Z.to_nat (mid - lo)) with (0 + Z.to_nat (mid - lo))%nat by lia.
  generalize (Z.to_nat (hi - mid)) as k. intros k.
  assert (E : forall a k, map (fun k => lo + Z.of_nat k) (seq (a + Z.to_nat (mid - lo)) k) =
              map (fun k => mid + Z.of_nat k) (seq a k)).
  { intros a k0. revert a. induction k0 as [|k0 IH]; intros a; [reflexivity|]. cbn [seq map]. f_equal; [lia|].
    apply (IH (S a)). }
  apply E.
Qed.
Lemma zrange_nth lo hi i : lo <= i < hi -> nth_error (zrange lo hi) (Z.to_nat (i - lo)) = Some i.
Proof.
  intros H. unfold zrange. rewrite nth_error_map, (nth_error_nth' _ 0%nat) by (rewrite seq_length; lia).
  rewrite seq_nth by lia. cbn. f_equal. lia.
Qed.
Lemma zrange_Zseq n : zrange 0 n = Zseq n.
Proof. unfold zrange, Zseq. rewrite Z.sub_0_r. apply map_ext. intros. lia. Qed.

Section Blaze.
  Context {K : StarRing}.
  Definition pairs (ts : list (triplet K)) : list (Z * K) := map (fun t => (t_col t, t_val t)) ts.
  Lemma pairs_len ts : length (pairs ts) = length ts.
  Proof. apply map_length. Qed.
  Lemma pairs_fst ts : map fst (pairs ts) = map t_col ts.
  Proof. unfold pairs. rewrite map_map. reflexivity. Qed.

  Definition total (rows : list (list (Z * K))) : nat := fold_right (fun r n => (length r + n)%nat) 0%nat rows.
  Lemma total_app a b : total (a ++ b) = (total a + total b)%nat.
  Proof. unfold total. induction a as [|r a IH]; cbn [app fold_right]; lia. Qed.
  Lemma nonzeros_total (m : bmat K) : bm_nonzeros m = Z.of_nat (total (bm_done m) + length (bm_cur m)).
  Proof.
    unfold bm_nonzeros, total. f_equal. induction (bm_done m) as [|r l IH]; cbn [fold_right]; lia.
  Qed.

  Lemma forallb_last (cur : list (Z * K)) j : forallb (fun e => fst e <? j) cur = true <-> Forall (fun c => c < j) (map fst cur).
  Proof.
    rewrite forallb_forall, Forall_forall. split.
    - intros H c Hc. apply in_map_iff in Hc as (e & <- & He). apply H in He. lia.
    - intros H e He. apply Z.ltb_lt. apply H, in_map, He.
  Qed.

  Lemma appends_ok (ts : list (triplet K)) : forall m row,
    row = Z.of_nat (length (bm_done m)) ->
    StronglySorted Z.lt (map fst (bm_cur m) ++ map t_col ts) ->
    Forall (fun t => site (bm_size m) (t_col t)) ts ->
    bm_nonzeros m + Z.of_nat (length ts) <= bm_cap m ->
    ofold (fun m t => bm_append m row (t_col t) (t_val t)) ts m =
    Ok (mkB (bm_size m) (bm_cap m) (bm_done m) (bm_cur m ++ pairs ts)).
  Proof.
    induction ts as [|t ts IH]; intros m row Hr Hs Hf Hc.
    - cbn. rewrite app_nil_r. destruct m; reflexivity.
    - cbn [ofold map]. inversion Hf as [|? ? Ht Hf']; subst. unfold site in Ht.
      assert (Hl : forallb (fun e => fst e <? t_col t) (bm_cur m) = true).
      { apply forallb_last. apply Forall_forall. intros c Hc'.
        clear - Hs Hc'. induction (map fst (bm_cur m)) as [|x l IH]; [destruct Hc'|].
        cbn [app] in Hs. inversion Hs as [|? ? Hs' Hx]; subst. destruct Hc' as [->|Hc'].
        - rewrite Forall_forall in Hx. apply Hx. apply in_or_app. right. left. reflexivity.
        - apply IH; assumption. }
      cbn [length] in Hc.
      assert (E : bm_append m (Z.of_nat (length (bm_done m))) (t_col t) (t_val t) =
                  Ok (mkB (bm_size m) (bm_cap m) (bm_done m) (bm_cur m ++ [(t_col t, t_val t)]))).
      { unfold bm_append. rewrite Hl, Z.eqb_refl.
        replace (bm_nonzeros m <? bm_cap m) with true by lia.
        replace (0 <=? t_col t) with true by lia. replace (t_col t <? bm_size m) with true by lia. reflexivity. }
      rewrite E. cbn [obind].
      rewrite IH.
      + cbn [bm_size bm_cap bm_done bm_cur]. rewrite <- app_assoc. reflexivity.
      + reflexivity.
      + cbn [bm_cur]. rewrite map_app, <- app_assoc. exact Hs.
      + exact Hf'.
      + rewrite nonzeros_total in *. cbn [bm_done bm_cur bm_cap]. rewrite app_length. cbn [length]. lia.
  Qed.
  Definition row_good (n : Z) (ts : list (triplet K)) : Prop :=
    StronglySorted Z.lt (map t_col ts) /\ Forall (fun t => site n (t_col t)) ts.
  Lemma write_row_ok m row (ts : list (triplet K)) :
    bm_cur m = [] -> row = Z.of_nat (length (bm_done m)) -> row_good (bm_size m) ts ->
    bm_nonzeros m + Z.of_nat (length ts) <= bm_cap m ->
    write_row m row ts = Ok (mkB (bm_size m) (bm_cap m) (bm_done m ++ [pairs ts]) []).
  Proof.
    intros Hcur Hr [Hs Hf] Hc. unfold write_row. rewrite appends_ok; try assumption.
    - cbn [obind]. unfold bm_finalize. cbn [bm_done bm_size bm_cap bm_cur]. rewrite Hr, Z.eqb_refl, Hcur. reflexivity.
    - rewrite Hcur. exact Hs.
  Qed.
  (** a successful append really was legal *)
  Lemma bm_append_inv m i j (v : K) m' : bm_append m i j v = Ok m' ->
    m' = mkB (bm_size m) (bm_cap m) (bm_done m) (bm_cur m ++ [(j, v)]) /\
    Forall (fun c => c < j) (map fst (bm_cur m)) /\ site (bm_size m) j /\ bm_nonzeros m < bm_cap m.
  Proof.
    unfold bm_append. destruct (_ && _)%bool eqn:E; [|discriminate]. intros H. injection H as <-.
    repeat rewrite andb_true_iff in E. destruct E as ((((E1 & E2) & E3) & E4) & E5).
    split; [reflexivity|]. split; [apply forallb_last; exact E4|]. unfold site. lia.
  Qed.
  Lemma SSorted_app_last (l : list Z) j : StronglySorted Z.lt l -> Forall (fun c => c < j) l -> StronglySorted Z.lt (l ++ [j]).
  Proof.
    induction 1 as [|x l Hl IH Hx]; intros Hj; [constructor; constructor|].
    inversion Hj; subst. cbn [app]. constructor; [apply IH; assumption|].
    apply Forall_app. split; [assumption|]. constructor; [assumption|constructor].
  Qed.
  Lemma appends_inv (ts : list (triplet K)) : forall m row m',
    StronglySorted Z.lt (map fst (bm_cur m)) ->
    ofold (fun m t => bm_append m row (t_col t) (t_val t)) ts m = Ok m' ->
    StronglySorted Z.lt (map fst (bm_cur m) ++ map t_col ts).
  Proof.
    induction ts as [|t ts IH]; intros m row m' Hs H.
    - cbn [map]. rewrite app_nil_r. exact Hs.
    - cbn [ofold] in H. destruct (bm_append m row (t_col t) (t_val t)) as [m1|] eqn:E; [|discriminate].
      cbn [obind] in H. apply bm_append_inv in E as (-> & Hl & _).
      apply IH in H; cbn [bm_cur] in *.
      + rewrite map_app, <- app_assoc in H. exact H.
      + rewrite map_app. apply SSorted_app_last; assumption.
  Qed.
  Lemma SSorted_lt_nodup (l : list Z) : StronglySorted Z.lt l -> NoDup l.
  Proof.
    induction 1 as [|x l Hl IH Hx]; constructor; [|exact IH].
    intros H. rewrite Forall_forall in Hx. apply Hx in H. lia.
  Qed.
  Lemma write_row_dup m row (ts : list (triplet K)) :
    bm_cur m = [] -> ~ NoDup (map t_col ts) -> write_row m row ts = UB.
  Proof.
    intros Hc Hd. unfold write_row. destruct (ofold _ ts m) as [m'|] eqn:E; [|reflexivity].
    exfalso. apply Hd, SSorted_lt_nodup. apply appends_inv in E; [|rewrite Hc; constructor].
    rewrite Hc in E. exact E.
  Qed.

  (** filling consecutive rows *)
  Lemma fill_ok (f : Z -> outcome (list (triplet K))) (g : Z -> list (triplet K)) (w : nat) : forall k lo m,
    bm_cur m = [] -> lo = Z.of_nat (length (bm_done m)) ->
    (forall row, lo <= row < lo + Z.of_nat k -> f row = Ok (g row) /\ row_good (bm_size m) (g row) /\ (length (g row) <= w)%nat) ->
    bm_nonzeros m + Z.of_nat (k * w) <= bm_cap m ->
    ofold (fun m row => obind (f row) (fun ts => write_row m row ts)) (zrange lo (lo + Z.of_nat k)) m =
    Ok (mkB (bm_size m) (bm_cap m) (bm_done m ++ map (fun r => pairs (g r)) (zrange lo (lo + Z.of_nat k))) []).
  Proof.
    induction k as [|k IH]; intros lo m Hc Hlo Hg Hcap.
    - rewrite zrange_nil by lia. cbn. rewrite app_nil_r. destruct m; cbn in *; subst; reflexivity.
    - rewrite zrange_cons by lia. cbn [ofold map].
      destruct (Hg lo ltac:(lia)) as (E & G & L). rewrite E. cbn [obind].
      rewrite write_row_ok; [|exact Hc|exact Hlo|exact G|lia]. cbn [obind].
      replace (lo + Z.of_nat (S k)) with (lo + 1 + Z.of_nat k) by lia. rewrite IH.
      + cbn [bm_size bm_cap bm_done]. rewrite <- app_assoc. reflexivity.
      + reflexivity.
      + cbn [bm_done]. rewrite app_length. cbn [length]. lia.
      + cbn [bm_size]. intros row Hrow. apply Hg. lia.
      + rewrite nonzeros_total in *. cbn [bm_done bm_cur bm_cap]. rewrite total_app, Hc in *. unfold total at 2.
        cbn [fold_right length] in *. rewrite pairs_len. lia.
  Qed.
  Lemma fill_pure (f : Z -> list (triplet K)) rows m :
    ofold (fun m row => write_row m row (f row)) rows m =
    ofold (fun m row => obind (Ok (f row)) (fun ts => write_row m row ts)) rows m.
  Proof. reflexivity. Qed.

  (** ** sorting *)
  Variable sort : list (triplet K) -> list (triplet K).
  Hypothesis Hsort : sorts_by_column sort.
  Lemma sort_strict l : NoDup (map t_col l) -> StronglySorted Z.lt (map t_col (sort l)).
  Proof.
    intros Hn. destruct (Hsort l) as [Hp Hs].
    assert (Hn' : NoDup (map t_col (sort l))).
    { eapply Permutation_NoDup; [|exact Hn]. apply Permutation_map, Permutation_sym, Hp. }
    clear Hp Hn. induction Hs as [|x s Hs IH Hx]; [constructor|]. cbn [map] in *. inversion Hn'; subst.
    constructor; [apply IH; assumption|]. apply Forall_forall. intros c Hc.
    apply in_map_iff in Hc as (y & <- & Hy). rewrite Forall_forall in Hx. apply Hx in Hy as Hle.
    assert (t_col x <> t_col y) by (intros E; apply H1; rewrite E; apply in_map; exact Hy). lia.
  Qed.
  Lemma sort_length l : length (sort l) = length l.
  Proof. apply Permutation_length, Hsort. Qed.
  Lemma sort_good n l : NoDup (map t_col l) -> Forall (fun t => site n (t_col t)) l -> row_good n (sort l).
  Proof.
    intros Hn Hf. split; [apply sort_strict, Hn|]. eapply Permutation_Forall; [|exact Hf].
    apply Permutation_sym, Hsort.
  Qed.
  Lemma sort_sum (F : Z * K -> K) l : sum_over F (pairs (sort l)) = sum_over F (pairs l).
  Proof. apply sum_over_perm, Permutation_map, Hsort. Qed.
End Blaze.

(** ** lattices as graphs *)
Record graph (lat : lattice) (N : Z) : Prop := mkGraph {
  g_reg : regular lat N;
  g_range : forall i j, site N i -> In j (lat_neighbors lat i) -> site N j;
  g_sym : forall i j, site N i -> In j (lat_neighbors lat i) -> In i (lat_neighbors lat j);
  g_nodup : forall i, site N i -> NoDup (lat_neighbors lat i);
  g_irr : forall i, site N i -> ~ In i (lat_neighbors lat i);
  g_len : forall i, site N i -> Z.of_nat (length (lat_neighbors lat i)) = lat_coordination lat;
  g_co : 1 <= lat_coordination lat
}.
Lemma chain_graph N : 3 <= N < two64 -> graph (chain_lattice N) N.
Proof.
  intros HN. constructor; cbn [lat_neighbors lat_coordination chain_lattice].
  - apply chain_regular; lia.
  - intros i j Hi. apply C17_neighbors; [lia|exact Hi].
  - intros i j Hi. apply C17_symmetric; [lia|exact Hi].
  - intros i Hi. rewrite chain_neighbors_ring by (lia || assumption). rewrite pred_mod, succ_mod by assumption.
    unfold site in Hi. constructor; [|constructor; [intros []|constructor]]. intros [E|[]].
    destruct (i =? 0) eqn:E1, (i =? N - 1) eqn:E2; lia.
  - intros i Hi. rewrite chain_neighbors_ring by (lia || assumption). rewrite pred_mod, succ_mod by assumption.
    unfold site in Hi. intros [E|[E|[]]]; destruct (i =? 0) eqn:E1, (i =? N - 1) eqn:E2; lia.
  - reflexivity.
  - lia.
Qed.
Lemma square_graph N : 3 <= N -> N * N < two64 -> graph (square_lattice N N) (N * N).
Proof.
  intros HN Hf. assert (H1 : 1 <= N) by lia.
  constructor; cbn [lat_neighbors lat_coordination square_lattice].
  - apply square_regular; lia.
  - intros i j Hi H. apply (sq_neighbors_coords N H1 Hf i j Hi) in H. apply H.
  - intros i j Hi. apply C24_symmetric; assumption.
  - intros i Hi. rewrite (sq_neighbors_torus N H1 Hf i Hi).
    pose proof (sq_x_range N H1 i Hi) as Hx. pose proof (sq_y_range N H1 i Hi) as Hy.
    set (x := sq_x N i) in *. set (y := sq_y N i) in *.
    rewrite !pred_mod, !succ_mod by assumption.
    assert (B : forall a b c d, site N a -> site N b -> site N c -> site N d ->
      sq_index N a b = sq_index N c d -> a = c /\ b = d).
    { intros a b c d Ha Hb Hc Hd E. rewrite !sq_index_eq in E by (lia || assumption). unfold site in *.
      assert (a = c) by nia. subst c. split; lia. }
    unfold site in Hx, Hy.
    destruct (x =? 0) eqn:?, (x =? N - 1) eqn:?, (y =? 0) eqn:?, (y =? N - 1) eqn:?; try lia;
    (repeat constructor; cbn [In]; intros H; repeat destruct H as [H|H]; try exact H;
      apply B in H; unfold site in *; lia).
  - intros i Hi. rewrite (sq_neighbors_coords N H1 Hf i i Hi). intros [_ H].
    pose proof (sq_x_range N H1 i Hi) as Hx. pose proof (sq_y_range N H1 i Hi) as Hy.
    unfold torus_adj in H. cbn [fst snd] in H.
    destruct H as [[H _]|[_ H]]; apply (ring_adj_iff N) in H; try assumption; unfold site in *;
      [destruct (sq_x N i =? N - 1) eqn:?, (sq_x N i =? 0) eqn:?; lia|destruct (sq_y N i =? N - 1) eqn:?, (sq_y N i =? 0) eqn:?; lia].
  - reflexivity.
  - lia.
Qed.
Lemma shipped3_graph lat N : shipped3 lat N -> graph lat N.
Proof. destruct 1; [apply chain_graph|apply square_graph]; assumption. Qed.
