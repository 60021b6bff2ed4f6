(** PROPERTIES C70-C72: TripletList, the backup of the output file, checkpoint files. *)
From Coq Require Import Ascii String Permutation Sorted.
From Verif Require Import Base M_Text Spec_Text Spec_LatticeReal Pf_Text P_Text M_Io Pf_Io P_Io.
Local Open Scope list_scope.

(** ** C70 *)
(** rows() is the number of rows; cols() is right iff the matrix is square (defect: it returns the
    number of rows) *)
Theorem C70_dimensions : forall {Scalar} (rows cols : Z),
  tl_rows (new_tlist (Scalar:=Scalar) rows cols) = rows /\
  (tl_cols (new_tlist (Scalar:=Scalar) rows cols) = cols <-> rows = cols).
Proof. intros Scalar rows cols. split; [reflexivity|]. cbn. tauto. Qed.
(** matrix_insert appends; nothing is merged or checked, and the dimensions stay the same *)
Theorem C70_insert_appends : forall {Scalar} (l : tlist Scalar) r c v,
  elements (matrix_insert l r c v) = elements l ++ [mkE _ r c v] /\
  tl_rows (matrix_insert l r c v) = tl_rows l /\ tl_cols (matrix_insert l r c v) = tl_cols l.
Proof. repeat split. Qed.
(** std::sort(less): a permutation without a pair in the wrong order *)
Definition sort_result {A} (less : A -> A -> bool) (l r : list A) : Prop :=
  Permutation l r /\ StronglySorted (fun a b => less b a = false) r.
(** (defect) sort_column_major orders by the row (and nothing else), sort_row_major by the column *)
Theorem C70_sorts_by_the_other_index : forall {Scalar} (l r : list (tentry Scalar)),
  (sort_result less_column_major l r <-> Permutation l r /\ StronglySorted (fun a b => (e_row a <= e_row b)%Z) r) /\
  (sort_result less_row_major l r <-> Permutation l r /\ StronglySorted (fun a b => (e_col a <= e_col b)%Z) r).
Proof.
  intros Scalar l r. assert (G : forall (R S : tentry Scalar -> tentry Scalar -> Prop), (forall a b, R a b <-> S a b) -> (StronglySorted R r <-> StronglySorted S r)).
  { intros R S H. induction r as [|x xs IH]; [split; constructor|]. split; intros Q; inversion Q; subst; constructor; try (apply IH; assumption); (eapply Forall_impl; [|eassumption]); intros a; apply H. }
  split; unfold sort_result; apply and_iff_compat_l; apply G; intros a b; unfold less_column_major, less_row_major; apply Z.ltb_ge.
Qed.
(** column-major order: by column, and by row within a column *)
Definition column_major {Scalar} (a b : tentry Scalar) : Prop := (e_col a < e_col b \/ e_col a = e_col b /\ e_row a <= e_row b)%Z.
Theorem C70_column_major_refuted : forall {Scalar} (v w : Scalar),
  let l := [mkE _ 1 0 v; mkE _ 0 1 w] in
  StronglySorted column_major l /\ forall r, sort_result less_column_major l r -> ~ StronglySorted column_major r.
Proof.
  intros Scalar v w l. split.
  - unfold l. repeat constructor; cbn; lia.
  - intros r [P H1] H2. assert (E : r = [mkE _ 0 1 w; mkE _ 1 0 v]%Z).
    { unfold l in P. apply Permutation_length_2_inv in P as [->| ->]; [|reflexivity]. exfalso. inversion H1 as [|? ? ? F]; subst. apply Forall_inv in F. discriminate. }
    subst r. inversion H2 as [|? ? ? F]; subst. apply Forall_inv in F. cbn in F. destruct F as [F|[F _]]; cbn in F; lia.
Qed.

(** ** C71: clean_output_file on the file system *)
Lemma path_eqb_ok p q : path_eqb p q = true <-> p = q.
Proof. unfold path_eqb. destruct (list_eq_dec ascii_dec p q); split; congruence. Qed.
Lemma path_eqb_refl p : path_eqb p p = true. Proof. apply path_eqb_ok. reflexivity. Qed.
Lemma path_eqb_neq p q : p <> q -> path_eqb p q = false.
Proof. intros H. destruct (path_eqb p q) eqn:E; [apply path_eqb_ok in E; contradiction|reflexivity]. Qed.
Lemma set_same f p c : set_file f p c p = c. Proof. unfold set_file. rewrite path_eqb_refl. reflexivity. Qed.
Lemma set_other f p c q : q <> p -> set_file f p c q = f q. Proof. intros H. unfold set_file. rewrite path_eqb_neq by exact H. reflexivity. Qed.
Lemma bak_neq p : bak p <> p.
Proof. intros H. apply (f_equal (@length ascii)) in H. unfold bak in H. rewrite app_length in H. cbn in H. lia. Qed.
(** what holds in each state of the function, when the output file had the contents [old] *)
Definition clean_inv (path : text) (entries : nat) (f0 : fs) (old : text) (s : fs * clean_pc) : Prop :=
  let (f, pc) := s in
  (forall q, q <> path -> q <> bak path -> f q = f0 q) /\
  match pc with
  | AtRename => f = f0
  | AtOpen => f path = None /\ f (bak path) = Some old
  | AtLoop c => f (bak path) = Some old /\ (exists k fuel, f path = Some (firstn k (c_out c)) /\
                  forall m, copy_loop (fuel + m) entries (start_copy old) = copy_loop m entries c)
  | AtEnd => f (bak path) = Some old /\ exists fuel out, cleaned fuel entries old = Some out /\ f path = Some out
  end.
Lemma clean_inv_steps path entries f0 old s : f0 path = Some old ->
  clean_steps path entries (f0, AtRename) s -> clean_inv path entries f0 old s.
Proof.
  intros H0 H. remember (f0, AtRename) as s0 eqn:E0. induction H as [s|s t u Hst IH Htu]; subst.
  - cbn. auto.
  - specialize (IH eq_refl). destruct Htu as [f c Hf|f c Hf|f c Hc|f c n|f c Hc]; cbn [clean_inv] in *.
    + destruct IH as [I1 ->]. split.
      * intros q Q1 Q2. unfold rename. rewrite set_other, set_other by assumption. reflexivity.
      * unfold rename. rewrite set_other by (apply not_eq_sym, bak_neq). rewrite !set_same. split; [reflexivity|exact H0].
    + destruct IH as [I1 [I2 I3]]. split.
      * intros q Q1 Q2. rewrite set_other by assumption. apply I1; assumption.
      * rewrite set_other by apply bak_neq. split; [exact I3|]. rewrite I3 in Hf. injection Hf as <-. exists 0%nat, 0%nat. rewrite set_same. split; reflexivity.
    + destruct IH as [I1 [I2 (k & fuel & I3 & I4)]]. split; [exact I1|]. split; [exact I2|].
      assert (P : exists l, c_out (copy_body c) = c_out c ++ l). { unfold copy_body. destruct (getline (c_in c) (c_buf c)) as [a b]. cbn. eauto. }
      destruct P as [l P]. rewrite P. exists (Nat.min k (length (c_out c))), (S fuel). split.
      * rewrite I3. f_equal. rewrite firstn_app. replace (Nat.min k (length (c_out c)) - length (c_out c))%nat with 0%nat by lia. cbn [firstn]. rewrite app_nil_r.
        destruct (Nat.le_ge_cases k (length (c_out c))) as [Q|Q]; [rewrite Nat.min_l by exact Q; reflexivity|]. rewrite Nat.min_r by exact Q. rewrite !firstn_all2; [reflexivity|lia|exact Q].
      * intros m. replace (S fuel + m)%nat with (fuel + S m)%nat by lia. rewrite I4. cbn [copy_loop]. apply Nat.ltb_lt in Hc. rewrite Hc. reflexivity.
    + destruct IH as [I1 [I2 (k & fuel & I3 & I4)]]. split; [intros q Q1 Q2; rewrite set_other by assumption; apply I1; assumption|].
      rewrite set_other by apply bak_neq. split; [exact I2|]. exists n, fuel. rewrite set_same. auto.
    + destruct IH as [I1 [I2 (k & fuel & I3 & I4)]]. split; [intros q Q1 Q2; rewrite set_other by assumption; apply I1; assumption|].
      rewrite set_other by apply bak_neq. split; [exact I2|]. exists fuel, (c_out c). rewrite set_same. split; [|reflexivity].
      unfold cleaned. replace fuel with (fuel + 0)%nat by lia. rewrite I4. cbn [copy_loop]. apply Nat.ltb_ge in Hc. rewrite Hc. reflexivity.
Qed.
(** At every crash point the old contents is in the output file or in its backup, and no other
    file has changed. *)
Theorem C71_old_contents_survives_a_crash : forall path entries f old f' pc, f path = Some old ->
  clean_steps path entries (f, AtRename) (f', pc) ->
  (f' path = Some old \/ f' (path ++ str ".bak") = Some old) /\ forall q, q <> path -> q <> path ++ str ".bak" -> f' q = f q.
Proof.
  intros path entries f old f' pc H0 H. apply (clean_inv_steps path entries f old) in H; [|exact H0]. cbn in H. destruct H as [H1 H2]. split; [|exact H1].
  destruct pc; [left; subst; exact H0|right; tauto|right; tauto|right; tauto].
Qed.
(** While it runs, the new file holds a beginning of the text that C60 describes, and all of it at
    the end. *)
Theorem C71_new_contents : forall path entries f old f' , f path = Some old ->
  (clean_steps path entries (f, AtRename) (f', AtEnd) -> exists fuel out, cleaned fuel entries old = Some out /\ f' path = Some out) /\
  (forall c fuel out, clean_steps path entries (f, AtRename) (f', AtLoop c) -> cleaned fuel entries old = Some out ->
     exists k, f' path = Some (firstn k out)).
Proof.
  intros path entries f old f' H0. split.
  - intros H. apply (clean_inv_steps path entries f old) in H; [|exact H0]. cbn in H. tauto.
  - intros c fuel out H E. apply (clean_inv_steps path entries f old) in H; [|exact H0]. cbn in H. destruct H as (_ & _ & k & n & H1 & H2).
    unfold cleaned in E. destruct (copy_loop fuel entries (start_copy old)) as [d|] eqn:Ed; [|discriminate]. injection E as <-.
    assert (Q : exists l, c_out d = c_out c ++ l).
    { pose proof (copy_loop_mono _ _ _ _ Ed (n + fuel) ltac:(lia)) as E2. rewrite H2 in E2. clear -E2. revert c E2. induction fuel as [|m IH]; intros c E; cbn [copy_loop] in E.
      - destruct (Nat.ltb (c_counter c) entries); [discriminate|]. injection E as <-. exists []. rewrite app_nil_r. reflexivity.
      - destruct (Nat.ltb (c_counter c) entries); [|injection E as <-; exists []; rewrite app_nil_r; reflexivity]. destruct (IH _ E) as [l El]. unfold copy_body in El. destruct (getline (c_in c) (c_buf c)) as [a b]. cbn [c_out] in El. rewrite <- app_assoc in El. eauto. }
    destruct Q as [l El]. exists (Nat.min k (length (c_out c))). rewrite El, H1. f_equal.
    rewrite firstn_app. replace (Nat.min k (length (c_out c)) - length (c_out c))%nat with 0%nat by lia. cbn [firstn]. rewrite app_nil_r.
    destruct (Nat.le_ge_cases k (length (c_out c))) as [Q|Q]; [rewrite Nat.min_l by exact Q; reflexivity|]. rewrite Nat.min_r by exact Q. rewrite !firstn_all2; [reflexivity|lia|exact Q].
Qed.
(** There is no step if the output file does not exist: rename throws, and nothing is changed. *)
Theorem C71_missing_file : forall path entries f s, f path = None -> clean_steps path entries (f, AtRename) s -> s = (f, AtRename).
Proof.
  intros path entries f s H0 H. remember (f, AtRename) as s0 eqn:E. induction H as [s|s t u Hst IH Htu]; subst; [reflexivity|].
  specialize (IH eq_refl). subst t. inversion Htu; subst. congruence.
Qed.
(** (defect) A second crash loses the data: if the function is interrupted after opening the new
    file and runs again, the backup is overwritten with the truncated file, and the old contents is
    left in neither file. *)
Theorem C71_second_run_loses_the_backup_refuted : forall path entries f old, f path = Some old -> old <> [] ->
  exists f1 c1 f2 c2, clean_steps path entries (f, AtRename) (f1, AtLoop c1) /\
    clean_steps path entries (f1, AtRename) (f2, AtLoop c2) /\ f2 path = Some [] /\ f2 (path ++ str ".bak") = Some [].
Proof.
  intros path entries f old H0 Hne.
  set (f1 := set_file (rename f path (bak path)) path (Some [])). set (f2 := set_file (rename f1 path (bak path)) path (Some [])).
  exists f1, (start_copy old), f2, (start_copy []).
  assert (S : forall g o, g path = Some o -> clean_steps path entries (g, AtRename) (set_file (rename g path (bak path)) path (Some []), AtLoop (start_copy o))).
  { intros g o Hg. eapply clean_more; [eapply clean_more; [apply clean_refl|eapply do_rename; exact Hg]|]. apply do_open. unfold rename. rewrite set_same. exact Hg. }
  split; [apply S, H0|]. assert (H1 : f1 path = Some []) by apply set_same. split; [apply S, H1|].
  split; [apply set_same|]. change (f2 (bak path) = Some []). unfold f2. rewrite set_other by apply bak_neq. unfold rename. rewrite set_same. exact H1.
Qed.

(** ** C72: checkpoint files *)
(** one run of the program: calls with the given (archive, time), the counter starts at 0 *)
Definition checkpoints (prefix : text) (f : fs) (data : list (text * text)) : fs :=
  fst (fold_left (fun st d => write_checkpoint_file prefix (fst d) (snd d) st) data (f, 0%Z)).
Lemma paths_differ prefix i j : checkpoint_path prefix i <> info_path prefix j.
Proof.
  unfold checkpoint_path, info_path. intros H. apply app_inv_head in H. apply (f_equal (@rev ascii)) in H. rewrite !rev_app_distr in H. cbn in H. discriminate.
Qed.
Lemma checkpoint_path_inj prefix i j : (0 <= i)%Z -> (0 <= j)%Z -> checkpoint_path prefix i = checkpoint_path prefix j -> i = j.
Proof. intros Hi Hj H. apply app_inv_head in H. apply app_inv_tail in H. apply dec_inj; assumption. Qed.
Lemma info_path_inj prefix i j : (0 <= i)%Z -> (0 <= j)%Z -> info_path prefix i = info_path prefix j -> i = j.
Proof. intros Hi Hj H. apply app_inv_head in H. apply app_inv_tail in H. apply dec_inj; assumption. Qed.
Lemma checkpoints_from prefix : forall data f k, (0 <= k)%Z -> (k + Z.of_nat (length data) < two64)%Z ->
  let st := fold_left (fun st d => write_checkpoint_file prefix (fst d) (snd d) st) data (f, k) in
  snd st = (k + Z.of_nat (length data))%Z /\
  (forall i a t, nth_error data i = Some (a, t) ->
     fst st (checkpoint_path prefix (k + Z.of_nat i)) = Some a /\ fst st (info_path prefix (k + Z.of_nat i)) = Some (t ++ [newline])) /\
  (forall q, (forall i, (i < length data)%nat -> q <> checkpoint_path prefix (k + Z.of_nat i) /\ q <> info_path prefix (k + Z.of_nat i)) -> fst st q = f q).
Proof.
  induction data as [|[a t] data IH]; intros f k Hk Hb; cbn [fold_left].
  - cbn [snd fst length]. split; [lia|]. split; [intros i a t H; destruct i; discriminate|reflexivity].
  - cbn [fst snd]. set (f2 := set_file (set_file f (checkpoint_path prefix k) (Some a)) (info_path prefix k) (Some (t ++ [newline]))).
    assert (E : write_checkpoint_file prefix a t (f, k) = (f2, (k + 1)%Z)).
    { unfold write_checkpoint_file. fold f2. f_equal. unfold u64. cbn [length] in Hb. apply Z.mod_small. lia. }
    rewrite E. cbn [length] in Hb. destruct (IH f2 (k + 1)%Z ltac:(lia) ltac:(lia)) as (I1 & I2 & I3). cbv zeta in *. split; [rewrite I1; cbn [length]; lia|]. split.
    + intros i a' t' H. destruct i as [|i]; cbn [nth_error] in H.
      * injection H as <- <-. replace (k + Z.of_nat 0)%Z with k by lia. rewrite !I3.
        -- unfold f2. split; [rewrite set_other by apply paths_differ; apply set_same|apply set_same].
        -- intros j Hj. split; [apply not_eq_sym, paths_differ|intros Q; apply info_path_inj in Q; lia].
        -- intros j Hj. split; [intros Q; apply checkpoint_path_inj in Q; lia|apply paths_differ].
      * replace (k + Z.of_nat (S i))%Z with (k + 1 + Z.of_nat i)%Z by lia. apply I2, H.
    + intros q Hq. rewrite I3.
      * unfold f2. destruct (Hq 0%nat) as [Q1 Q2]; [cbn; lia|]. replace (k + Z.of_nat 0)%Z with k in Q1, Q2 by lia. rewrite set_other, set_other by assumption. reflexivity.
      * intros i Hi. destruct (Hq (S i)) as [Q1 Q2]; [cbn; lia|]. replace (k + Z.of_nat (S i))%Z with (k + 1 + Z.of_nat i)%Z in Q1, Q2 by lia. auto.
Qed.
(** Within one run the i-th call creates the files <prefix>i.blaze and <prefix>i.info; no two calls
    use the same file, and no other file changes. *)
Theorem C72_numbered_within_a_run : forall prefix f data, (Z.of_nat (length data) < two64)%Z ->
  (forall i a t, nth_error data i = Some (a, t) ->
     checkpoints prefix f data (prefix ++ dec (Z.of_nat i) ++ str ".blaze") = Some a /\
     checkpoints prefix f data (prefix ++ dec (Z.of_nat i) ++ str ".info") = Some (t ++ [newline])) /\
  (forall q, (forall i, (i < length data)%nat -> q <> prefix ++ dec (Z.of_nat i) ++ str ".blaze" /\ q <> prefix ++ dec (Z.of_nat i) ++ str ".info") ->
     checkpoints prefix f data q = f q).
Proof.
  intros prefix f data H. destruct (checkpoints_from prefix data f 0%Z ltac:(lia) ltac:(lia)) as (_ & I2 & I3). split; [intros i a t Hi; exact (I2 i a t Hi)|intros q Hq; exact (I3 q Hq)].
Qed.
(** (defect) The numbers start at 0 again in every run: a second run overwrites the first
    checkpoints of the first one and leaves the later ones, so that the directory mixes both. *)
Theorem C72_second_run_overwrites_refuted : forall prefix f data1 data2,
  (Z.of_nat (length data1) < two64)%Z -> (Z.of_nat (length data2) < two64)%Z ->
  let f2 := checkpoints prefix (checkpoints prefix f data1) data2 in
  (forall i a t, nth_error data2 i = Some (a, t) -> f2 (prefix ++ dec (Z.of_nat i) ++ str ".blaze") = Some a) /\
  (forall i a t, nth_error data1 i = Some (a, t) -> (length data2 <= i)%nat -> f2 (prefix ++ dec (Z.of_nat i) ++ str ".blaze") = Some a).
Proof.
  intros prefix f data1 data2 H1 H2 f2. destruct (C72_numbered_within_a_run prefix f data1 H1) as [A1 A2].
  destruct (C72_numbered_within_a_run prefix (checkpoints prefix f data1) data2 H2) as [B1 B2]. split.
  - intros i a t H. exact (proj1 (B1 i a t H)).
  - intros i a t H Hi. unfold f2. rewrite B2; [exact (proj1 (A1 i a t H))|].
    intros j Hj. split; [intros Q; apply (checkpoint_path_inj prefix) in Q; lia|apply paths_differ].
Qed.
(** The call at crash points: opening the archive truncates it, its characters reach the disk in
    parts, it is complete before the info file is opened. *)
Inductive checkpoint_pc := KBegin | KArchive | KBetween | KInfo | KEnd.
Inductive checkpoint_step (prefix : text) (k : Z) (archive time : text) : fs * checkpoint_pc -> fs * checkpoint_pc -> Prop :=
| k_open f : checkpoint_step prefix k archive time (f, KBegin) (set_file f (checkpoint_path prefix k) (Some []), KArchive)
| k_part f n : checkpoint_step prefix k archive time (f, KArchive) (set_file f (checkpoint_path prefix k) (Some (firstn n archive)), KArchive)
| k_close f : checkpoint_step prefix k archive time (f, KArchive) (set_file f (checkpoint_path prefix k) (Some archive), KBetween)
| k_info f : checkpoint_step prefix k archive time (f, KBetween) (set_file f (info_path prefix k) (Some []), KInfo)
| k_info_part f n : checkpoint_step prefix k archive time (f, KInfo) (set_file f (info_path prefix k) (Some (firstn n (time ++ [newline]))), KInfo)
| k_end f : checkpoint_step prefix k archive time (f, KInfo) (set_file f (info_path prefix k) (Some (time ++ [newline])), KEnd).
Inductive checkpoint_steps (prefix : text) (k : Z) (archive time : text) : fs * checkpoint_pc -> fs * checkpoint_pc -> Prop :=
| k_refl s : checkpoint_steps prefix k archive time s s
| k_more s t u : checkpoint_steps prefix k archive time s t -> checkpoint_step prefix k archive time t u -> checkpoint_steps prefix k archive time s u.
Lemma checkpoint_inv prefix k archive time f s : checkpoint_steps prefix k archive time (f, KBegin) s ->
  match snd s with
  | KBegin => fst s = f
  | KArchive => fst s (info_path prefix k) = f (info_path prefix k)
  | KBetween => fst s (checkpoint_path prefix k) = Some archive /\ fst s (info_path prefix k) = f (info_path prefix k)
  | KInfo => fst s (checkpoint_path prefix k) = Some archive
  | KEnd => fst s (checkpoint_path prefix k) = Some archive /\ fst s (info_path prefix k) = Some (time ++ [newline])
  end /\ forall q, q <> checkpoint_path prefix k -> q <> info_path prefix k -> fst s q = f q.
Proof.
  intros H. remember (f, KBegin) as s0 eqn:E. induction H as [s|s t u Hst IH Htu]; subst; [cbn; auto|]. specialize (IH eq_refl).
  assert (N1 : info_path prefix k <> checkpoint_path prefix k) by (apply not_eq_sym, paths_differ). pose proof (paths_differ prefix k k) as N2.
  destruct Htu; cbn [fst snd] in *; destruct IH as [I1 I2]; (split; [|intros q Q1 Q2; rewrite set_other by assumption; apply I2; assumption]).
  - subst. rewrite set_other by exact N1. reflexivity.
  - rewrite set_other by exact N1. exact I1.
  - rewrite set_same, set_other by exact N1. auto.
  - rewrite set_other by exact N2. apply I1.
  - rewrite set_other by exact N2. apply I1.
  - rewrite set_same, set_other by exact N2. auto.
Qed.
(** At every crash point: if the info file has been touched, the archive is complete; no other file
    has changed; and at the end both are complete. *)
Theorem C72_archive_complete_before_info : forall prefix k archive time f f' pc,
  checkpoint_steps prefix k archive time (f, KBegin) (f', pc) ->
  (f' (info_path prefix k) <> f (info_path prefix k) -> f' (checkpoint_path prefix k) = Some archive) /\
  (forall q, q <> checkpoint_path prefix k -> q <> info_path prefix k -> f' q = f q) /\
  (pc = KEnd -> f' (checkpoint_path prefix k) = Some archive /\ f' (info_path prefix k) = Some (time ++ [newline])).
Proof.
  intros prefix k archive time f f' pc H. apply checkpoint_inv in H. cbn [fst snd] in H. destruct H as [H1 H2]. split; [|split; [exact H2|]].
  - destruct pc; intros Q; try tauto. subst. contradiction.
  - intros ->. exact H1.
Qed.
(** The steps end in the state of [write_checkpoint_file]. *)
Theorem C72_steps_are_the_call : forall prefix k archive time f,
  checkpoint_steps prefix k archive time (f, KBegin)
    (set_file (set_file (set_file (set_file f (checkpoint_path prefix k) (Some [])) (checkpoint_path prefix k) (Some archive)) (info_path prefix k) (Some []))
       (info_path prefix k) (Some (time ++ [newline])), KEnd) /\
  forall f', checkpoint_steps prefix k archive time (f, KBegin) (f', KEnd) ->
    forall q, f' q = fst (write_checkpoint_file prefix archive time (f, k)) q.
Proof.
  intros prefix k archive time f. split.
  - do 4 (eapply k_more; [|constructor]). apply k_refl.
  - intros f' H q. apply C72_archive_complete_before_info in H as (_ & H2 & H3). destruct (H3 eq_refl) as [H4 H5]. unfold write_checkpoint_file. cbn [fst].
    destruct (list_eq_dec ascii_dec q (info_path prefix k)) as [->|N1]; [rewrite set_same; exact H5|]. rewrite (set_other _ _ _ q N1).
    destruct (list_eq_dec ascii_dec q (checkpoint_path prefix k)) as [->|N2]; [rewrite set_same; exact H4|]. rewrite (set_other _ _ _ q N2). apply H2; assumption.
Qed.
(** (defect) In a second run a crash can leave the new archive with the info file (the time) of the
    first run, for every pair of different checkpoints. *)
Theorem C72_stale_info_refuted : forall prefix k old_archive old_time archive time f,
  f (checkpoint_path prefix k) = Some old_archive -> f (info_path prefix k) = Some old_time ->
  exists f', checkpoint_steps prefix k archive time (f, KBegin) (f', KBetween) /\
    f' (checkpoint_path prefix k) = Some archive /\ f' (info_path prefix k) = Some old_time.
Proof.
  intros prefix k oa ot archive time f H1 H2. eexists. split; [do 2 (eapply k_more; [|constructor]); apply k_refl|].
  split; [apply set_same|]. rewrite !set_other by (apply not_eq_sym, paths_differ). exact H2.
Qed.
