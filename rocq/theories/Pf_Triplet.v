(** Proofs: make_columns_unique, has_unique_columns and the normal-ordered matrix. *)
From Coq Require Import Sorting.Sorted ZifyBool.
From Verif Require Import Base Spec_Fock FockFacts M_Operator M_Lattice Spec_Lattice Pf_Lattice M_Basis Pf_Basis M_Matrix
  Spec_Algebra Spec_Matrix Pf_Matrix Pf_Matrix2 Pf_MatrixEntry.
Local Open Scope list_scope.

Section Mcu.
  Context {K : StarRing}.
  Local Open Scope ring_scope_.
  Add Ring KringM : (rth K).
  Variable is_zero : K -> bool.
  Local Notation sorted l := (StronglySorted (fun a b : triplet K => (t_col a <= t_col b)%Z) l).
  Local Notation last_col l := (last (map t_col l) 0%Z).

  Lemma mcu_acc rest : forall cur f, mcu_loop is_zero cur rest f = f ++ mcu_loop (K := K) is_zero cur rest [].
  Proof.
    induction rest as [|it rest IH]; intros cur f; cbn [mcu_loop]; [reflexivity|].
    destruct (Z.eqb (t_col it) (t_col cur)); [apply IH|].
    rewrite IH, (IH it (if is_zero (t_val cur) then [] else [] ++ [cur])).
    destruct (is_zero (t_val cur)); [reflexivity|]. cbn [app]. rewrite <- app_assoc. reflexivity.
  Qed.
  Lemma weight_cons (t : triplet K) l j : weight (t :: l) j = (if Z.eqb (t_col t) j then t_val t else 0) + weight l j.
  Proof. unfold weight. rewrite sum_over_cons. unfold delta. destruct (Z.eqb (t_col t) j); ring. Qed.
  Lemma weight_absent (l : list (triplet K)) j : ~ In j (map t_col l) -> weight l j = 0.
  Proof.
    induction l as [|t l IH]; intros H; [reflexivity|]. rewrite weight_cons, IH by (intros Hi; apply H; right; exact Hi).
    destruct (Z.eqb_spec (t_col t) j) as [E|_]; [exfalso; apply H; left; exact E|ring].
  Qed.
  Lemma sorted_cols (t : triplet K) l x : sorted (t :: l) -> In x (map t_col (t :: l)) -> (t_col t <= x)%Z.
  Proof.
    intros H [<-|Hx]; [lia|]. apply in_map_iff in Hx as (y & <- & Hy). inversion H; subst. eapply Forall_forall in H3; eauto.
  Qed.
  (** the output: strictly increasing; each kept column with its full weight; which are kept *)
  Lemma mcu_spec rest : forall cur, sorted (cur :: rest) ->
    let out := mcu_loop is_zero cur rest [] in
    StronglySorted Z.lt (map t_col out) /\
    (forall t, In t out -> In (t_col t) (map t_col (cur :: rest)) /\ t_val t = weight (cur :: rest) (t_col t) /\
        (t_col t = last_col (cur :: rest) \/ is_zero (t_val t) = false)) /\
    (forall j, In j (map t_col (cur :: rest)) -> j = last_col (cur :: rest) \/ is_zero (weight (cur :: rest) j) = false -> In j (map t_col out)).
  Proof.
    induction rest as [|it rest IH]; intros cur Hs; cbv zeta; cbn [mcu_loop].
    - cbn [app map]. split; [repeat constructor|]. split.
      + intros t [<-|[]]. cbn [last]. split; [left; reflexivity|]. split; [|left; reflexivity].
        rewrite weight_cons, Z.eqb_refl. unfold weight. rewrite sum_over_nil. ring.
      + intros j Hj _. exact Hj.
    - destruct (Z.eqb_spec (t_col it) (t_col cur)) as [E|Hne].
      + specialize (IH (mkT (t_row cur) (t_col cur) (t_val cur + t_val it))).
        assert (Hs' : sorted (mkT (t_row cur) (t_col cur) (t_val cur + t_val it) :: rest)).
        { inversion Hs; subst. inversion H1; subst. constructor; [assumption|]. inversion H2; subst. exact H6. }
        specialize (IH Hs'). cbv zeta in IH. destruct IH as (I1 & I2 & I3).
        assert (W : forall j, weight (mkT (t_row cur) (t_col cur) (t_val cur + t_val it) :: rest) j = weight (cur :: it :: rest) j).
        { intros j. rewrite !weight_cons. cbn [t_col t_val]. rewrite E. destruct (Z.eqb (t_col cur) j); ring. }
        assert (C : forall j, In j (map t_col (mkT (t_row cur) (t_col cur) (t_val cur + t_val it) :: rest)) <-> In j (map t_col (cur :: it :: rest))).
        { intros j. cbn [map In t_col]. rewrite E. tauto. }
        assert (L : last_col (mkT (t_row cur) (t_col cur) (t_val cur + t_val it) :: rest) = last_col (cur :: it :: rest)).
        { cbn [map t_col]. destruct rest; cbn [last map]; [symmetry; exact E|reflexivity]. }
        split; [exact I1|]. split.
        * intros t Ht. destruct (I2 t Ht) as (A & B & D). rewrite <- W, <- C, <- L. auto.
        * intros j Hj Hc. apply I3; [apply C, Hj|]. rewrite W, L. exact Hc.
      + assert (Hs' : sorted (it :: rest)) by (inversion Hs; assumption).
        assert (Hlt : (t_col cur < t_col it)%Z).
        { inversion Hs; subst. inversion H2; subst. lia. }
        destruct (IH it Hs') as (I1 & I2 & I3). clear IH. cbv zeta in *.
        assert (Ge : forall x, In x (map t_col (it :: rest)) -> (t_col cur < x)%Z).
        { intros x Hx. apply (sorted_cols it rest x Hs') in Hx. lia. }
        assert (W : forall j, (t_col cur < j)%Z -> weight (cur :: it :: rest) j = weight (it :: rest) j).
        { intros j Hj. rewrite (weight_cons cur). destruct (Z.eqb_spec (t_col cur) j); [lia|ring]. }
        assert (Wc : weight (cur :: it :: rest) (t_col cur) = t_val cur).
        { rewrite weight_cons, Z.eqb_refl, weight_absent; [ring|]. intros Hi. apply Ge in Hi. lia. }
        assert (L : last_col (cur :: it :: rest) = last_col (it :: rest)) by reflexivity.
        rewrite mcu_acc. destruct (is_zero (t_val cur)) eqn:Ez.
        * cbn [app]. split; [exact I1|]. split.
          -- intros t Ht. destruct (I2 t Ht) as (A & B & D). split; [right; exact A|]. split; [|exact D].
             rewrite W; [exact B|]. apply Ge, A.
          -- intros j [<-|Hj] Hc.
             ++ exfalso. destruct Hc as [Hc|Hc]; [|rewrite Wc in Hc; congruence].
                assert (In (last_col (it :: rest)) (map t_col (it :: rest))).
                { destruct (map t_col (it :: rest)) eqn:Em; [discriminate|]. rewrite <- Em. 
                  destruct (exists_last (l := map t_col (it :: rest))) as (l' & a & Q); [rewrite Em; discriminate|].
                  rewrite Q, last_last. apply in_or_app. right. left. reflexivity. }
                apply Ge in H. change (t_col cur = last_col (it :: rest)) in Hc. lia.
             ++ apply I3; [exact Hj|]. destruct Hc as [Hc|Hc]; [left; exact Hc|right].
                rewrite W in Hc by (apply Ge, Hj). exact Hc.
        * cbn [app map]. split.
          -- constructor; [exact I1|]. apply Forall_forall. intros x Hx. apply in_map_iff in Hx as (t & <- & Ht).
             destruct (I2 t Ht) as (A & _). apply Ge, A.
          -- split.
             ++ intros t [<-|Ht]; [split; [left; reflexivity|split; [symmetry; exact Wc|right; exact Ez]]|].
                destruct (I2 t Ht) as (A & B & D). split; [right; exact A|]. split; [|exact D]. rewrite W; [exact B|]. apply Ge, A.
             ++ intros j [<-|Hj] Hc; [left; reflexivity|]. right. apply I3; [exact Hj|].
                destruct Hc as [Hc|Hc]; [left; exact Hc|right]. rewrite W in Hc by (apply Ge, Hj). exact Hc.
  Qed.
  Lemma mcu_len rest : forall cur, (length (mcu_loop (K := K) is_zero cur rest []) <= S (length rest))%nat.
  Proof.
    induction rest as [|it rest IH]; intros cur; cbn [mcu_loop length app]; [lia|].
    destruct (Z.eqb _ _); [specialize (IH (mkT (t_row cur) (t_col cur) (t_val cur + t_val it))); lia|].
    rewrite mcu_acc, app_length. specialize (IH it). destruct (is_zero (t_val cur)); cbn [length]; lia.
  Qed.
  Lemma huc_strict (x : triplet K) rest : StronglySorted Z.lt (map t_col (x :: rest)) -> huc_loop x rest = true.
  Proof.
    revert x. induction rest as [|y rest IH]; intros x H; [reflexivity|]. cbn [huc_loop].
    inversion H; subst. inversion H3; subst. destruct (Z.eqb_spec (t_col y) (t_col x)); [lia|]. apply IH, H2.
  Qed.
  Lemma huc_sorted (x : triplet K) rest : sorted (x :: rest) -> huc_loop x rest = true <-> NoDup (map t_col (x :: rest)).
  Proof.
    revert x. induction rest as [|y rest IH]; intros x H; cbn [huc_loop].
    - split; [intros _; repeat constructor; intros []|reflexivity].
    - assert (Hs' : sorted (y :: rest)) by (inversion H; assumption).
      assert (Hle : (t_col x <= t_col y)%Z) by (inversion H; subst; inversion H3; subst; assumption).
      destruct (Z.eqb_spec (t_col y) (t_col x)) as [E|Hne].
      + split; [discriminate|]. intros Hn. exfalso. inversion Hn; subst. apply H2. left. exact E.
      + rewrite (IH y Hs'). split; intros Hn.
        * constructor; [|exact Hn]. intros Hi. apply (sorted_cols y rest _ Hs') in Hi. lia.
        * inversion Hn; assumption.
  Qed.
  (** weight of the output *)
  Lemma weight_strict l j : StronglySorted Z.lt (map t_col l) ->
    weight (K := K) l j = match find (fun t => Z.eqb (t_col t) j) l with Some t => t_val t | None => 0 end.
  Proof.
    induction l as [|t l IH]; intros H; [reflexivity|]. rewrite weight_cons. cbn [find]. inversion H; subst.
    destruct (Z.eqb_spec (t_col t) j) as [<-|]; [|rewrite IH by assumption; destruct (find _ l); ring].
    rewrite weight_absent; [ring|]. intros Hi. rewrite Forall_forall in H3. apply H3 in Hi. lia.
  Qed.
  Lemma mcu_weight cur rest j : sorted (cur :: rest) ->
    weight (mcu_loop is_zero cur rest []) j = weight (cur :: rest) j \/
    (weight (mcu_loop is_zero cur rest []) j = 0 /\ is_zero (weight (cur :: rest) j) = true).
  Proof.
    intros Hs. destruct (mcu_spec rest cur Hs) as (I1 & I2 & I3). rewrite weight_strict by exact I1.
    destruct (find (fun t => Z.eqb (t_col t) j) (mcu_loop is_zero cur rest [])) as [t|] eqn:E.
    - apply find_some in E as [Ht Ej]. apply Z.eqb_eq in Ej. subst j. left. apply I2, Ht.
    - destruct (in_dec Z.eq_dec j (map t_col (cur :: rest))) as [Hi|Hn]; [|left; symmetry; apply weight_absent, Hn].
      destruct (is_zero (weight (cur :: rest) j)) eqn:Ez; [right; split; reflexivity|].
      exfalso. assert (Hin := I3 j Hi (or_intror Ez)). apply in_map_iff in Hin as (t & Et & Ht).
      apply (find_none _ _ E) in Ht. rewrite Et, Z.eqb_refl in Ht. discriminate.
  Qed.
End Mcu.

(** ** the normal-ordered matrix *)
Section NoClosed.
  Context {K : StarRing}.
  Variable sort : list (triplet K) -> list (triplet K).
  Hypothesis Hsort : sorts_by_column sort.
  Variables J U : K.
  Variable lat : lattice.
  Variable N : Z.
  Hypothesis HG : graph lat N.
  Let HR : regular lat N := g_reg _ _ HG.
  Local Notation z := (lat_coordination lat).
  Let S3 := (N + N * N * N)%Z.
  Hypothesis Hfit : (S3 < two64)%Z.
  Variable is_zero : K -> bool.
  Variable ev : Z -> Z -> K.
  Local Open Scope Z_scope.

  Definition mcu (l : list (triplet K)) : list (triplet K) :=
    match l with [] => [] | c :: r => mcu_loop is_zero c r [] end.
  Definition cap_no : Z := N * z + N * N * N * 6 * z + N * 2 + N * N * N * 8.
  Definition no_rows1 : list (list (Z * K)) := map (fun r => pairs (sort (triplets_no1 J U lat ev r))) (zrange 0 N).
  Definition no_rows3 : list (list (Z * K)) :=
    map (fun r => pairs (mcu (sort (triplets_no3 J U lat ev r (dec1 N r) (dec2 N r) (dec3 N r))))) (zrange N S3).

  Lemma no1_good row : site N row -> row_good S3 (sort (triplets_no1 J U lat ev row)) /\
    length (sort (triplets_no1 J U lat ev row)) = (Z.to_nat z + 2)%nat.
  Proof.
    intros Hr. pose proof (HNpos lat N HG). pose proof (idx_range lat N HG Hfit row row row Hr Hr Hr) as Hi. split.
    - apply (sort_good sort Hsort).
      + unfold triplets_no1. rewrite map_app, kin1_cols, (lat_size_N lat N HG). cbn [map t_col]. apply nodup_app.
        * apply (g_nodup _ _ HG), Hr.
        * constructor; [|constructor; [intros []|constructor]]. intros [E|[]]. unfold site in Hr. lia.
        * intros x Hx [<-|[<-|[]]].
          -- apply (g_irr _ _ HG row Hr Hx).
          -- apply (g_range _ _ HG row) in Hx; [|exact Hr]. unfold site in Hx. lia.
      + unfold triplets_no1. apply Forall_app. split; [apply (kin1_in J lat N HG); [exact Hr|unfold S3; nia]|].
        rewrite (lat_size_N lat N HG). repeat constructor; unfold site in *; cbn [t_col]; unfold S3 in *; try lia.
    - rewrite (sort_length sort Hsort). unfold triplets_no1. rewrite app_length.
      unfold kinetic_triplets1. rewrite map_length, (nb_len lat N HG) by exact Hr. reflexivity.
  Qed.
  Lemma no3_range row r1 r2 r3 : site N r1 -> site N r2 -> site N r3 -> site S3 row ->
    Forall (fun t => site S3 (t_col t)) (triplets_no3 J U lat ev row r1 r2 r3).
  Proof.
    intros H1 H2 H3 Hr. pose proof (HNpos lat N HG).
    assert (Q : forall a b c, site N a -> site N b -> site N c -> site S3 (get_3op_index N a b c)).
    { intros a b c Ha Hb Hc. pose proof (idx_range lat N HG Hfit a b c Ha Hb Hc). unfold site, S3 in *. lia. }
    assert (Q1 : forall a, site N a -> site S3 a) by (intros a Ha; unfold site, S3 in *; nia).
    unfold triplets_no3, kinetic_triplets3. rewrite (lat_size_N lat N HG). rewrite <- !app_assoc.
    repeat (apply Forall_app; split);
      try (apply Forall_forall; intros t Ht; apply in_map_iff in Ht as (y & <- & Hy); cbn [t_col];
           (assert (site N y) by (eapply (g_range _ _ HG); [|exact Hy]; assumption)); apply Q; assumption).
    - repeat (apply Forall_cons; [cbn [t_col]; auto|]). apply Forall_nil.
    - destruct (r2 =? r3); [apply Forall_nil|]. repeat (apply Forall_cons; [cbn [t_col]; auto|]). apply Forall_nil.
  Qed.
  Lemma no3_len row r1 r2 r3 : site N r1 -> site N r2 -> site N r3 ->
    (length (triplets_no3 J U lat ev row r1 r2 r3) <= 3 * Z.to_nat z + 8)%nat.
  Proof.
    intros H1 H2 H3. unfold triplets_no3, kinetic_triplets3. rewrite !app_length, !map_length, !(nb_len lat N HG) by assumption.
    destruct (r2 =? r3); cbn [length]; lia.
  Qed.
  Lemma no3_nonempty row r1 r2 r3 : sort (triplets_no3 J U lat ev row r1 r2 r3) <> [].
  Proof.
    intros E. assert (L := sort_length sort Hsort (triplets_no3 J U lat ev row r1 r2 r3)). rewrite E in L. unfold triplets_no3 in L.
    rewrite !app_length in L. cbn [length] in L. lia.
  Qed.
  Lemma mcu_eq l : l <> [] -> make_columns_unique is_zero l = Ok (mcu l).
  Proof. destruct l; [congruence|reflexivity]. Qed.
  Lemma no3_good row r1 r2 r3 : site N r1 -> site N r2 -> site N r3 -> site S3 row ->
    row_good S3 (mcu (sort (triplets_no3 J U lat ev row r1 r2 r3))) /\
    (length (mcu (sort (triplets_no3 J U lat ev row r1 r2 r3))) <= 3 * Z.to_nat z + 8)%nat.
  Proof.
    intros H1 H2 H3 Hr. pose proof (no3_nonempty row r1 r2 r3) as Hne. pose proof (no3_range row r1 r2 r3 H1 H2 H3 Hr) as Hran.
    pose proof (no3_len row r1 r2 r3 H1 H2 H3) as Hlen. rewrite <- (sort_length sort Hsort) in Hlen.
    destruct (Hsort (triplets_no3 J U lat ev row r1 r2 r3)) as [Hp Hss].
    assert (Hran' : Forall (fun t => site S3 (t_col t)) (sort (triplets_no3 J U lat ev row r1 r2 r3)))
      by (eapply Permutation_Forall; [apply Permutation_sym, Hp|exact Hran]).
    destruct (sort (triplets_no3 J U lat ev row r1 r2 r3)) as [|c l]; [congruence|]. cbn [mcu].
    destruct (mcu_spec is_zero l c Hss) as (I1 & I2 & _). split.
    - split; [exact I1|]. apply Forall_forall. intros t Ht. destruct (I2 t Ht) as (A & _).
      apply in_map_iff in A as (t' & <- & Ht'). rewrite Forall_forall in Hran'. apply Hran', Ht'.
    - pose proof (mcu_len is_zero l c). cbn [length] in Hlen. lia.
  Qed.
  Lemma init_matrix_no_closed : cap_no < two64 ->
    init_matrix_no sort J U lat is_zero ev = Ok (mkB S3 cap_no (no_rows1 ++ no_rows3) []).
  Proof.
    intros Hc. pose proof (HNpos lat N HG) as HN. pose proof (g_co _ _ HG) as Hz.
    assert (HS : N <= S3) by (unfold S3; nia).
    assert (Hcap : u64 (number_of_kinetic_elements_no3 lat + number_of_interaction_elements_no lat) = cap_no).
    { unfold number_of_kinetic_elements_no3, number_of_interaction_elements_no. rewrite (lat_size_N lat N HG), (size3_eq lat N HG).
      unfold cap_no in *. replace (N + N * N * N - N) with (N * N * N) by lia. set (q := N * N * N) in *.
      assert (0 <= q) by (unfold q; nia). assert (0 <= N * z) by nia. assert (0 <= q * 6 <= q * 6 * z) by nia.
      rewrite (u64_id q) by lia. rewrite (u64_id (q * 6)) by lia. rewrite (u64_id (q * 6 * z)) by lia. rewrite (u64_id (N * z)) by lia.
      rewrite (u64_id (N * z + _)) by lia. rewrite (u64_id (N * 2)) by lia. rewrite (u64_id (q * 8)) by lia.
      rewrite (u64_id (N * 2 + _)) by lia. rewrite u64_id by lia. lia. }
    unfold init_matrix_no. rewrite (lat_size_N lat N HG), (size3_eq lat N HG), Hcap. rewrite fill_pure. fold S3.
    pose proof (fill_ok (fun row => Ok (sort (triplets_no1 J U lat ev row))) (fun row => sort (triplets_no1 J U lat ev row))
                 (Z.to_nat z + 2) (Z.to_nat N) 0 (bm_new S3 cap_no)) as H.
    cbn [bm_new bm_size bm_cap bm_done bm_cur app] in H.
    replace (0 + Z.of_nat (Z.to_nat N)) with N in H by lia.
    rewrite H; clear H.
    - cbn [obind]. fold no_rows1.
      rewrite (ofold_ext _ (fun m row => obind (Ok (mcu (sort (triplets_no3 J U lat ev row (dec1 N row) (dec2 N row) (dec3 N row)))))
                   (fun ts => write_row m row ts))).
      2:{ intros r s Hr. apply zrange_in in Hr. destruct (dec_spec lat N HG Hfit r Hr) as (D1 & D2 & D3 & E).
          assert (Eb : basis_indices lat r = Ok (dec1 N r, dec2 N r, dec3 N r)).
          { rewrite <- E at 1. apply (basis_indices_get lat N HG Hfit); assumption. }
          rewrite Eb. cbn [obind fst snd]. rewrite mcu_eq by apply no3_nonempty. reflexivity. }
      pose proof (fill_ok (fun row => Ok (mcu (sort (triplets_no3 J U lat ev row (dec1 N row) (dec2 N row) (dec3 N row)))))
                   (fun row => mcu (sort (triplets_no3 J U lat ev row (dec1 N row) (dec2 N row) (dec3 N row))))
                   (3 * Z.to_nat z + 8) (Z.to_nat (S3 - N)) N (mkB S3 cap_no no_rows1 [])) as H.
      cbn [bm_new bm_size bm_cap bm_done bm_cur app] in H.
      replace (N + Z.of_nat (Z.to_nat (S3 - N))) with S3 in H by lia. rewrite H; clear H.
      + reflexivity.
      + reflexivity.
      + unfold no_rows1. rewrite map_length, zrange_length. lia.
      + intros r Hr. split; [reflexivity|]. destruct (dec_spec lat N HG Hfit r Hr) as (D1 & D2 & D3 & E).
        apply no3_good; try assumption. unfold site. lia.
      + rewrite nonzeros_total. cbn [bm_done bm_cur length].
        assert (T : (total no_rows1 <= Z.to_nat N * (Z.to_nat z + 2))%nat).
        { unfold no_rows1. eapply Nat.le_trans; [apply (total_map_le N _ (Z.to_nat z + 2))|].
          - intros r Hr. apply zrange_in in Hr. rewrite pairs_len. apply Nat.eq_le_incl, no1_good, Hr.
          - rewrite zrange_length. apply Nat.eq_le_incl. f_equal. lia. }
        unfold cap_no, S3 in *.
        replace (N + N * N * N - N) with (N * N * N) by lia.
        assert (Z.of_nat (total no_rows1) <= N * (z + 2)) by nia.
        assert (0 <= N * N * N) by nia. rewrite Nat2Z.inj_add, Nat2Z.inj_mul, Z2Nat.id by assumption.
        rewrite Nat2Z.inj_add, Nat2Z.inj_mul, Z2Nat.id by lia. cbn [Z.of_nat]. nia.
    - reflexivity.
    - reflexivity.
    - intros r Hr. split; [reflexivity|]. destruct (no1_good r Hr) as [G L]. split; [exact G|lia].
    - rewrite nonzeros_total. cbn. unfold cap_no, S3. nia.
  Qed.
  Lemma no_rows1_len : length no_rows1 = Z.to_nat N.
  Proof. unfold no_rows1. rewrite map_length, zrange_length. f_equal. lia. Qed.
  Lemma nth_no_rows1 r : site N r -> nth (Z.to_nat r) (no_rows1 ++ no_rows3) [] = pairs (sort (triplets_no1 J U lat ev r)).
  Proof.
    intros Hr. unfold site in Hr. rewrite app_nth1 by (rewrite no_rows1_len; lia). apply nth_error_nth.
    unfold no_rows1. rewrite nth_error_map. pose proof (zrange_nth 0 N r ltac:(lia)) as E. rewrite Z.sub_0_r in E. rewrite E. reflexivity.
  Qed.
  Lemma nth_no_rows3 i0 i1 i2 : site N i0 -> site N i1 -> site N i2 ->
    nth (Z.to_nat (get_3op_index N i0 i1 i2)) (no_rows1 ++ no_rows3) [] =
    pairs (mcu (sort (triplets_no3 J U lat ev (get_3op_index N i0 i1 i2) i0 i1 i2))).
  Proof.
    intros H0 H1 H2. pose proof (idx_range lat N HG Hfit i0 i1 i2 H0 H1 H2) as Hr. set (r := get_3op_index N i0 i1 i2) in *.
    pose proof (HNpos lat N HG).
    rewrite app_nth2 by (rewrite no_rows1_len; lia). rewrite no_rows1_len. replace (Z.to_nat r - Z.to_nat N)%nat with (Z.to_nat (r - N)) by lia.
    apply nth_error_nth. unfold no_rows3. rewrite nth_error_map, zrange_nth by lia. cbn [option_map].
    destruct (dec_spec lat N HG Hfit r Hr) as (D1 & D2 & D3 & E).
    unfold r in E at 4. apply (idx_inj lat N HG Hfit) in E; try assumption. destruct E as (-> & -> & ->). reflexivity.
  Qed.
End NoClosed.
