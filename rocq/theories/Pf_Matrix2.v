(** Proofs: closed forms of the real-space matrices. *)
From Coq Require Import Sorting.Sorted ZifyBool.
From Verif Require Import Base M_Operator M_Lattice Spec_Lattice Pf_Lattice M_Basis Pf_Basis M_Matrix Spec_Matrix Pf_Matrix.
Local Open Scope Z_scope.
Local Open Scope list_scope.

Lemma ofold_ext {A S} (f g : S -> A -> outcome S) l : (forall x s, In x l -> f s x = g s x) ->
  forall s, ofold f l s = ofold g l s.
Proof.
  induction l as [|x l IH]; intros H s; [reflexivity|]. cbn [ofold]. rewrite H by (left; reflexivity).
  destruct (g s x); [|reflexivity]. cbn [obind]. apply IH. intros y t Hy. apply H. right. exact Hy.
Qed.
Lemma nodup_app {A} (a b : list A) : NoDup a -> NoDup b -> (forall x, In x a -> ~ In x b) -> NoDup (a ++ b).
Proof.
  induction 1 as [|x a Hx Ha IH]; intros Hb Hd; [exact Hb|]. cbn [app]. constructor.
  - intros H. apply in_app_or in H as [H|H]; [contradiction|]. apply (Hd x); [left; reflexivity|exact H].
  - apply IH; [exact Hb|]. intros y Hy. apply Hd. right. exact Hy.
Qed.
Lemma nodup_map {A B} (f : A -> B) l : NoDup l -> (forall x y, In x l -> In y l -> f x = f y -> x = y) -> NoDup (map f l).
Proof.
  induction 1 as [|x l Hx Hl IH]; intros Hf; [constructor|]. cbn [map]. constructor.
  - intros H. apply in_map_iff in H as (y & E & Hy). apply Hf in E; [|right; exact Hy|left; reflexivity].
    subst. contradiction.
  - apply IH. intros y y' Hy Hy'. apply Hf; right; assumption.
Qed.

Section Closed.
  Context {K : StarRing}.
  Variable sort : list (triplet K) -> list (triplet K).
  Hypothesis Hsort : sorts_by_column sort.
  Variables J U half : K.
  Variable lat : lattice.
  Variable N : Z.
  Hypothesis HG : graph lat N.
  Let HR : regular lat N := g_reg _ _ HG.
  Local Notation z := (lat_coordination lat).
  Let S3 := N + N * N * N.

  Lemma HNpos : 0 < N < two64.
  Proof. apply HR. Qed.
  Lemma lat_size_N : lat_size lat = N.
  Proof. apply HR. Qed.
  Lemma size1_eq : size1 lat = N.
  Proof. unfold size1. rewrite (basis1_len lat N HR). pose proof HNpos. lia. Qed.
  Lemma size3_eq : size3 lat = S3.
  Proof. unfold size3, S3. rewrite (basis3_len lat N HR). pose proof HNpos. nia. Qed.
  Lemma nb_len i : site N i -> length (lat_neighbors lat i) = Z.to_nat z.
  Proof. intros Hi. pose proof (g_len _ _ HG i Hi). lia. Qed.

  (** ** kinetic matrix, one-operator basis *)
  Lemma kin1_cols row : map t_col (kinetic_triplets1 J lat row) = lat_neighbors lat row.
  Proof. unfold kinetic_triplets1. rewrite map_map. cbn [t_col]. apply map_id. Qed.
  Lemma kin1_in n row : site N row -> N <= n -> Forall (fun t => site n (t_col t)) (kinetic_triplets1 J lat row).
  Proof.
    intros Hr Hn. apply Forall_forall. intros t Ht. apply in_map_iff in Ht as (nb & <- & Hnb). cbn [t_col].
    apply (g_range _ _ HG row nb Hr) in Hnb. unfold site in *. lia.
  Qed.
  Lemma init_kinetic_closed : N * z < two64 ->
    init_kinetic_matrix sort J lat =
    Ok (mkB N (N * z) (map (fun r => pairs (sort (kinetic_triplets1 J lat r))) (zrange 0 N)) []).
  Proof.
    intros Hf. pose proof HNpos as HN. pose proof (g_co _ _ HG) as Hz. unfold init_kinetic_matrix, number_of_kinetic_elements1.
    rewrite lat_size_N, size1_eq, u64_id by nia. rewrite fill_pure.
    replace N with (0 + Z.of_nat (Z.to_nat N)) at 1 2 by lia.
    pose proof (fill_ok (fun row => Ok (sort (kinetic_triplets1 J lat row))) (fun row => sort (kinetic_triplets1 J lat row))
                 (Z.to_nat z) (Z.to_nat N) 0 (bm_new N (N * z))) as H.
    cbn [bm_new bm_size bm_cap bm_done bm_cur app] in H.
    replace (0 + Z.of_nat (Z.to_nat N)) with N in * by lia. apply H; clear H.
    - reflexivity.
    - reflexivity.
    - intros row Hrow. split; [reflexivity|]. split.
      + apply sort_good; [exact Hsort|rewrite kin1_cols; apply (g_nodup _ _ HG); exact Hrow|apply kin1_in; [exact Hrow|lia]].
      + rewrite sort_length by exact Hsort. unfold kinetic_triplets1. rewrite map_length, nb_len by exact Hrow. lia.
    - rewrite nonzeros_total. cbn. nia.
  Qed.

  (** ** three-operator basis *)
  Hypothesis Hfit : S3 < two64.
  Lemma basis_indices_get i1 i2 i3 : site N i1 -> site N i2 -> site N i3 ->
    basis_indices lat (get_3op_index N i1 i2 i3) = Ok (i1, i2, i3).
  Proof. intros H1 H2 H3. unfold basis_indices. rewrite (basis3_get lat N HR Hfit) by assumption. reflexivity. Qed.
  Lemma idx_inj a1 a2 a3 b1 b2 b3 : site N a1 -> site N a2 -> site N a3 -> site N b1 -> site N b2 -> site N b3 ->
    get_3op_index N a1 a2 a3 = get_3op_index N b1 b2 b3 -> a1 = b1 /\ a2 = b2 /\ a3 = b3.
  Proof. apply (get_3op_index_inj lat N HR Hfit). Qed.
  Lemma idx_range a1 a2 a3 : site N a1 -> site N a2 -> site N a3 -> N <= get_3op_index N a1 a2 a3 < S3.
  Proof. apply (get_3op_index_range lat N HR Hfit). Qed.
  Lemma nb_site i nb : site N i -> In nb (lat_neighbors lat i) -> site N nb.
  Proof. apply (g_range _ _ HG). Qed.

  Lemma triplets1_cols row : map t_col (triplets1 J U half lat row) = lat_neighbors lat row ++ [row; get_3op_index N row row row].
  Proof. unfold triplets1. rewrite map_app, kin1_cols, lat_size_N. reflexivity. Qed.
  Lemma triplets1_good row : site N row ->
    row_good S3 (sort (triplets1 J U half lat row)) /\ length (sort (triplets1 J U half lat row)) = (Z.to_nat z + 2)%nat.
  Proof.
    intros Hr. pose proof HNpos. pose proof (idx_range row row row Hr Hr Hr) as Hi. split.
    - apply sort_good; [exact Hsort| |].
      + rewrite triplets1_cols. apply nodup_app.
        * apply (g_nodup _ _ HG), Hr.
        * constructor; [|constructor; [intros []|constructor]]. intros [E|[]]. unfold site in Hr. lia.
        * intros x Hx [<-|[<-|[]]].
          -- apply (g_irr _ _ HG row Hr Hx).
          -- apply (nb_site row) in Hx; [|exact Hr]. unfold site in Hx. lia.
      + unfold triplets1. apply Forall_app. split; [apply kin1_in; [exact Hr|unfold S3; nia]|].
        rewrite lat_size_N. repeat constructor; unfold site in *; cbn [t_col]; unfold S3 in *; try lia.
    - rewrite sort_length by exact Hsort. unfold triplets1. rewrite app_length.
      unfold kinetic_triplets1. rewrite map_length, nb_len by exact Hr. reflexivity.
  Qed.
  Lemma kin3_cols row i0 i1 i2 : map t_col (kinetic_triplets3 J lat row i0 i1 i2) =
    map (fun nb => get_3op_index N nb i1 i2) (lat_neighbors lat i0) ++
    map (fun nb => get_3op_index N i0 nb i2) (lat_neighbors lat i1) ++
    map (fun nb => get_3op_index N i0 i1 nb) (lat_neighbors lat i2).
  Proof. unfold kinetic_triplets3. rewrite !map_app, !map_map, lat_size_N. reflexivity. Qed.
  Lemma triplets3_good i0 i1 i2 : site N i0 -> site N i1 -> site N i2 ->
    let row := get_3op_index N i0 i1 i2 in
    row_good S3 (sort (triplets3 J U half lat row i0 i1 i2)) /\
    (length (sort (triplets3 J U half lat row i0 i1 i2)) <= 3 * Z.to_nat z + 2)%nat.
  Proof.
    intros H0 H1 H2 row. pose proof HNpos as HN.
    assert (Q : forall x, In x (map t_col (kinetic_triplets3 J lat row i0 i1 i2)) -> N <= x < S3 /\ x <> row).
    { intros x Hx. rewrite kin3_cols in Hx. repeat (apply in_app_or in Hx as [Hx|Hx]);
        apply in_map_iff in Hx as (nb & <- & Hnb);
        match type of Hnb with In _ (lat_neighbors _ ?i) =>
          assert (Hs : site N nb) by (apply (nb_site i); assumption);
          assert (Hne : nb <> i) by (intros ->; apply (g_irr _ _ HG i) in Hnb; assumption) end;
        (split; [apply idx_range; assumption|]); unfold row; intros E; apply idx_inj in E; try assumption; intuition. }
    split.
    - apply sort_good; [exact Hsort| |].
      + unfold triplets3. rewrite !map_app. apply nodup_app; [|apply nodup_app|].
        * rewrite kin3_cols. apply nodup_app; [|apply nodup_app|].
          -- apply nodup_map; [apply (g_nodup _ _ HG); assumption|]. intros x y Hx Hy E.
             apply idx_inj in E; intuition eauto using nb_site.
          -- apply nodup_map; [apply (g_nodup _ _ HG); assumption|]. intros x y Hx Hy E.
             apply idx_inj in E; intuition eauto using nb_site.
          -- apply nodup_map; [apply (g_nodup _ _ HG); assumption|]. intros x y Hx Hy E.
             apply idx_inj in E; intuition eauto using nb_site.
          -- intros x Hx Hy. apply in_map_iff in Hx as (nx & <- & Hx). apply in_map_iff in Hy as (ny & E & Hy).
             apply idx_inj in E; eauto using nb_site. destruct E as (_ & <- & _). apply (g_irr _ _ HG _ H1 Hx).
          -- intros x Hx Hy. apply in_map_iff in Hx as (nx & <- & Hx). apply in_app_or in Hy as [Hy|Hy];
               apply in_map_iff in Hy as (ny & E & Hy); apply idx_inj in E; eauto using nb_site; destruct E as (<- & _ & _);
               apply (g_irr _ _ HG _ H0 Hx).
        * destruct (_ && _)%bool; repeat constructor; intros [].
        * repeat constructor; intros [].
        * destruct (_ && _)%bool; intros x Hx [E|[]]; [|destruct Hx]. destruct Hx as [Hx|[]]. cbn [t_col] in *.
          pose proof (idx_range i0 i1 i2 H0 H1 H2). unfold row, site in *. lia.
        * intros x Hx Hy. apply Q in Hx as [Hx Hne]. apply in_app_or in Hy as [Hy|Hy].
          -- destruct (_ && _)%bool; [|destruct Hy]. destruct Hy as [Hy|[]]. cbn [t_col] in Hy. unfold site in *. lia.
          -- destruct Hy as [Hy|[]]. cbn [t_col] in Hy. congruence.
      + unfold triplets3. apply Forall_app. split; [|apply Forall_app; split].
        * apply Forall_forall. intros t Ht. apply (in_map t_col) in Ht. apply Q in Ht. unfold site. lia.
        * destruct (_ && _)%bool; repeat constructor; cbn [t_col]; unfold site, S3 in *; nia.
        * repeat constructor; cbn [t_col]; unfold site in *; pose proof (idx_range i0 i1 i2 H0 H1 H2); unfold row; lia.
    - rewrite sort_length by exact Hsort. unfold triplets3, kinetic_triplets3.
      rewrite !app_length, !map_length, !nb_len by assumption.
      destruct (_ && _)%bool; cbn [length]; lia.
  Qed.

  Definition rows1 : list (list (Z * K)) := map (fun r => pairs (sort (triplets1 J U half lat r))) (zrange 0 N).
  Definition rows3 : list (list (Z * K)) :=
    map (fun r => pairs (sort (triplets3 J U half lat r (dec1 N r) (dec2 N r) (dec3 N r)))) (zrange N S3).
  Definition cap3 : Z := N * z + N * (N * N) * 6 * z + S3 * 2.

  Lemma total_map_le (f : Z -> list (Z * K)) w l : (forall x, In x l -> (length (f x) <= w)%nat) ->
    (total (map f l) <= length l * w)%nat.
  Proof.
    unfold total. induction l as [|x l IH]; intros H; [cbn; lia|]. cbn [map fold_right length].
    specialize (IH (fun y Hy => H y (or_intror Hy))). specialize (H x (or_introl eq_refl)). lia.
  Qed.
  Lemma dec_spec r : N <= r < S3 -> site N (dec1 N r) /\ site N (dec2 N r) /\ site N (dec3 N r) /\
    get_3op_index N (dec1 N r) (dec2 N r) (dec3 N r) = r.
  Proof. apply (get_3op_index_dec lat N HR Hfit). Qed.

  Lemma init_matrix_closed : cap3 < two64 ->
    init_matrix sort J U half lat = Ok (mkB S3 cap3 (rows1 ++ rows3) []).
  Proof.
    intros Hc. pose proof HNpos as HN. pose proof (g_co _ _ HG) as Hz.
    assert (HS : N <= S3) by (unfold S3; nia).
    assert (Hcap : u64 (number_of_kinetic_elements3 lat + number_of_interaction_elements lat) = cap3).
    { unfold number_of_kinetic_elements3, number_of_interaction_elements. rewrite lat_size_N, size3_eq.
      set (q := N * (N * N)) in *. set (p := N * N) in *.
      assert (Hp : 0 <= p <= q) by (unfold q, p; nia).
      assert (H6 : 0 <= q * 6 <= q * 6 * z) by nia. assert (0 <= N * z) by nia.
      unfold cap3 in *. fold p in Hc. fold q in Hc. fold p. fold q.
      assert (S3 = N + q) by (unfold S3, q, p; lia).
      rewrite (u64_id p) by lia. fold q. rewrite (u64_id q) by lia.
      rewrite (u64_id (q * 6)) by lia. rewrite (u64_id (q * 6 * z)) by lia.
      rewrite (u64_id (N * z)) by lia. rewrite (u64_id (N * z + _)) by lia. rewrite (u64_id (S3 * 2)) by lia.
      apply u64_id. lia. }
    unfold init_matrix. rewrite lat_size_N, size3_eq, Hcap. rewrite fill_pure.
    pose proof (fill_ok (fun row => Ok (sort (triplets1 J U half lat row))) (fun row => sort (triplets1 J U half lat row))
                 (Z.to_nat z + 2) (Z.to_nat N) 0 (bm_new S3 cap3)) as H.
    cbn [bm_new bm_size bm_cap bm_done bm_cur app] in H.
    replace (0 + Z.of_nat (Z.to_nat N)) with N in H by lia.
    rewrite H; clear H.
    - cbn [obind]. fold rows1.
      rewrite (ofold_ext _ (fun m row => obind (Ok (sort (triplets3 J U half lat row (dec1 N row) (dec2 N row) (dec3 N row))))
                   (fun ts => write_row m row ts))).
      2:{ intros r s Hr. apply zrange_in in Hr. destruct (dec_spec r Hr) as (D1 & D2 & D3 & E).
          rewrite <- E at 1. rewrite basis_indices_get by assumption. reflexivity. }
      pose proof (fill_ok (fun row => Ok (sort (triplets3 J U half lat row (dec1 N row) (dec2 N row) (dec3 N row))))
                   (fun row => sort (triplets3 J U half lat row (dec1 N row) (dec2 N row) (dec3 N row)))
                   (3 * Z.to_nat z + 2) (Z.to_nat (S3 - N)) N (mkB S3 cap3 rows1 [])) as H.
      cbn [bm_new bm_size bm_cap bm_done bm_cur app] in H.
      replace (N + Z.of_nat (Z.to_nat (S3 - N))) with S3 in H by lia. rewrite H; clear H.
      + reflexivity.
      + reflexivity.
      + unfold rows1. rewrite map_length, zrange_length. lia.
      + intros r Hr. split; [reflexivity|]. destruct (dec_spec r Hr) as (D1 & D2 & D3 & E).
        pose proof (triplets3_good _ _ _ D1 D2 D3) as G. cbv zeta in G. rewrite E in G. exact G.
      + rewrite nonzeros_total. cbn [bm_done bm_cur length].
        assert (T : (total rows1 <= Z.to_nat N * (Z.to_nat z + 2))%nat).
        { unfold rows1. eapply Nat.le_trans; [apply (total_map_le _ (Z.to_nat z + 2))|].
          - intros r Hr. apply zrange_in in Hr. rewrite pairs_len. apply Nat.eq_le_incl, triplets1_good, Hr.
          - rewrite zrange_length. apply Nat.eq_le_incl. f_equal. lia. }
        unfold cap3, S3 in *.
        replace (N + N * N * N - N) with (N * N * N) by lia.
        assert (Z.of_nat (total rows1) <= N * (z + 2)) by nia.
        assert (0 <= N * N * N) by nia. rewrite Nat2Z.inj_add, Nat2Z.inj_mul, Z2Nat.id by assumption.
        rewrite Nat2Z.inj_add, Nat2Z.inj_mul, Z2Nat.id by lia. cbn [Z.of_nat]. nia.
    - reflexivity.
    - reflexivity.
    - intros r Hr. split; [reflexivity|]. destruct (triplets1_good r Hr) as [G L]. split; [exact G|lia].
    - rewrite nonzeros_total. cbn. unfold cap3, S3. nia.
  Qed.

  (** rows by number *)
  Lemma rows1_len : length rows1 = Z.to_nat N.
  Proof. unfold rows1. rewrite map_length, zrange_length. f_equal. lia. Qed.
  Lemma nth_rows1 r : site N r -> nth (Z.to_nat r) (rows1 ++ rows3) [] = pairs (sort (triplets1 J U half lat r)).
  Proof.
    intros Hr. unfold site in Hr. rewrite app_nth1 by (rewrite rows1_len; lia). apply nth_error_nth.
    unfold rows1. rewrite nth_error_map. pose proof (zrange_nth 0 N r ltac:(lia)) as E. rewrite Z.sub_0_r in E. rewrite E. reflexivity.
  Qed.
  Lemma nth_rows3 i0 i1 i2 : site N i0 -> site N i1 -> site N i2 ->
    nth (Z.to_nat (get_3op_index N i0 i1 i2)) (rows1 ++ rows3) [] =
    pairs (sort (triplets3 J U half lat (get_3op_index N i0 i1 i2) i0 i1 i2)).
  Proof.
    intros H0 H1 H2. pose proof (idx_range i0 i1 i2 H0 H1 H2) as Hr. set (r := get_3op_index N i0 i1 i2) in *.
    pose proof HNpos.
    rewrite app_nth2 by (rewrite rows1_len; lia). rewrite rows1_len. replace (Z.to_nat r - Z.to_nat N)%nat with (Z.to_nat (r - N)) by lia.
    apply nth_error_nth. unfold rows3. rewrite nth_error_map, zrange_nth by lia. cbn [option_map].
    destruct (dec_spec r Hr) as (D1 & D2 & D3 & E).
    unfold r in E at 4. apply idx_inj in E; try assumption. destruct E as (-> & -> & ->). reflexivity.
  Qed.
End Closed.
