(** PROPERTIES C58-C61 and C70: triplet lists, file headers, output files after a restart and
    printed tuples. *)
From Coq Require Import Ascii String Permutation Sorted.
From Verif Require Import Base M_Text Spec_Text Spec_LatticeReal Pf_Text P_Text M_Io Pf_Io.
Local Open Scope list_scope.

(** ** C58: triplet lists as text *)
(** the line of an element: row, column and value separated by tabs *)
Definition element_line {Scalar} (fmt : Scalar -> text) (e : tentry Scalar) : text :=
  dec (e_row e) ++ ascii_of_nat 9 :: dec (e_col e) ++ ascii_of_nat 9 :: fmt (e_val e).
Definition printable {Scalar} (fmt : Scalar -> text) : Prop :=
  forall v, ~ In (ascii_of_nat 9) (fmt v) /\ ~ In (ascii_of_nat 10) (fmt v).
(** The text is the number of elements, then one line per element in order. *)
Theorem C58_written_lines : forall {Scalar} (fmt : Scalar -> text) l,
  write_triplet_list fmt l false = file (dec (Z.of_nat (length (elements l))) :: map (element_line fmt) (elements l)) [].
Proof.
  intros Scalar fmt l. unfold write_triplet_list, file. cbn [flat_map]. rewrite app_nil_r, <- app_assoc. f_equal. f_equal.
  induction (elements l) as [|e es IH]; [reflexivity|]. cbn [flat_map map]. rewrite IH. f_equal. unfold write_element, element_line, tab, newline.
  cbn [app]. rewrite <- !app_assoc. cbn [app]. rewrite <- !app_assoc. reflexivity.
Qed.
(** None of these lines is skippable, so n + 1 calls of next_line give them back. *)
Lemma element_line_ok {Scalar} (fmt : Scalar -> text) e : printable fmt -> no_newline (element_line fmt e).
Proof.
  intros H Q. unfold element_line in Q. apply in_app_or in Q as [Q|[Q|Q]]; [exact (dec_not _ 10 ltac:(lia) Q)|discriminate|].
  apply in_app_or in Q as [Q|[Q|Q]]; [exact (dec_not _ 10 ltac:(lia) Q)|discriminate|]. exact (proj2 (H _) Q).
Qed.
Lemma starts_with_digit n r : ~ blank_or_comment (dec n ++ r).
Proof.
  intros (w & t & E & Hw & Ht). pose proof (dec_digits n) as D. destruct (dec n) as [|c s] eqn:Ed; [exact (dec_nonempty n Ed)|]. cbn in E. apply Forall_inv in D. unfold digit in D.
  destruct w as [|c' w].
  - cbn in E. destruct Ht as [->|(u & -> & _)]; [discriminate|]. injection E as -> _. cbn in D. lia.
  - cbn in E. injection E as -> _. apply Forall_inv in Hw. unfold space in Hw. cbn [In] in Hw. lia.
Qed.
Theorem C58_lines_can_be_read_back : forall {Scalar} (fmt : Scalar -> text) l, printable fmt ->
  exists s, terminates_with (fun fuel => read_lines fuel (S (length (elements l))) (open_text (write_triplet_list fmt l false)))
    (dec (Z.of_nat (length (elements l))) :: map (element_line fmt) (elements l), s).
Proof.
  intros Scalar fmt l H. rewrite C58_written_lines. set (cs := _ :: _).
  assert (L : lines_ok cs []).
  { split; [|intros []]. constructor; [exact (dec_not _ 10 ltac:(lia))|]. apply Forall_forall. intros x Hx. apply in_map_iff in Hx as (e & <- & _). apply element_line_ok, H. }
  assert (F : filter (fun x => negb (is_skippable_line x)) cs = cs).
  { assert (A : Forall (fun x => ~ blank_or_comment x) cs).
    { constructor; [rewrite <- (app_nil_r (dec _)); apply starts_with_digit|]. apply Forall_forall. intros x Hx. apply in_map_iff in Hx as (e & <- & _). apply starts_with_digit. }
    clearbody cs. clear -A. induction A as [|x xs Hx Hxs IH]; [reflexivity|]. cbn. destruct (is_skippable_line x) eqn:E; [apply skippable_ok in E; contradiction|]. cbn. rewrite IH. reflexivity. }
  pose proof (C56_all_data_lines_in_order cs [] L) as Q. cbv zeta in Q. rewrite F in Q.
  replace (length cs) with (S (length (elements l))) in Q by (unfold cs; cbn [length]; rewrite map_length; reflexivity). exact Q.
Qed.
(** The text determines the elements if the printed form determines the scalar. *)
Definition proper {Scalar} (e : tentry Scalar) : Prop := (0 <= e_row e)%Z /\ (0 <= e_col e)%Z.
Theorem C58_text_determines_elements : forall {Scalar} (fmt : Scalar -> text) l1 l2, printable fmt ->
  (forall v w, fmt v = fmt w -> v = w) -> Forall proper (elements l1) -> Forall proper (elements l2) ->
  write_triplet_list fmt l1 false = write_triplet_list fmt l2 false -> elements l1 = elements l2.
Proof.
  intros Scalar fmt l1 l2 H Hi H1 H2 E. unfold write_triplet_list, newline in E. cbn [app] in E.
  apply cut_unique in E as [_ E]; [|apply (dec_not _ 10); lia|apply (dec_not _ 10); lia].
  revert H1 H2 E. generalize (elements l2). induction (elements l1) as [|e es IH]; intros fs H1 H2 E.
  - destruct fs as [|e' fs]; [reflexivity|]. cbn in E. symmetry in E. apply app_eq_nil in E as [E _]. unfold write_element in E. apply app_eq_nil in E as [_ E]. discriminate.
  - destruct fs as [|e' fs]; [cbn in E; apply app_eq_nil in E as [E _]; unfold write_element in E; apply app_eq_nil in E as [_ E]; discriminate|].
    cbn [flat_map] in E. unfold write_element, tab, newline in E. rewrite <- ?app_assoc in E. cbn [app] in E. rewrite <- ?app_assoc in E. cbn [app] in E.
    apply cut_unique in E as [E1 E]; [|apply (dec_not _ 9); lia|apply (dec_not _ 9); lia]. rewrite <- ?app_assoc in E. cbn [app] in E.
    apply cut_unique in E as [E2 E]; [|apply (dec_not _ 9); lia|apply (dec_not _ 9); lia]. rewrite <- ?app_assoc in E. cbn [app] in E.
    apply cut_unique in E as [E3 E]; [|exact (proj2 (H _))|exact (proj2 (H _))].
    pose proof (Forall_inv H1) as [P1 P2]. pose proof (Forall_inv H2) as [P3 P4]. apply dec_inj in E1; [|assumption|assumption]. apply dec_inj in E2; [|assumption|assumption]. apply Hi in E3.
    destruct e, e'. cbn in *. subst. f_equal. apply IH; [exact (Forall_inv_tail H1)|exact (Forall_inv_tail H2)|exact E].
Qed.
Theorem C58_binary_writes_nothing : forall {Scalar} (fmt : Scalar -> text) l, write_triplet_list fmt l true = [].
Proof. reflexivity. Qed.
(** (defect) read_triplet_list consumes every file and returns the list it was given. *)
Theorem C58_reading_changes_nothing : forall {Scalar} t (l : tlist Scalar), exists s,
  rest s = [] /\ eofbit s = true /\ terminates_with (fun fuel => read_triplet_list fuel (open_text t) l false) (s, l).
Proof.
  intros Scalar t l. destruct (text_file t) as (cs & last & -> & H). exists (mkI [] true (is_empty last)). split; [reflexivity|]. split; [reflexivity|].
  exists (S (length cs)). intros fuel Hf. unfold read_triplet_list. apply read_loop_lines; assumption.
Qed.
(** (defect) so a written list with at least one element is never read back *)
Theorem C58_round_trip_refuted : forall {Scalar} (fmt : Scalar -> text) l fuel s l' binary, elements l <> [] ->
  read_triplet_list fuel (open_text (write_triplet_list fmt l binary)) (new_tlist (l_rows l) (l_cols l)) binary = Some (s, l') -> elements l' <> elements l.
Proof.
  intros Scalar fmt l fuel s l' binary H E. assert (Q : l' = new_tlist (l_rows l) (l_cols l)).
  { destruct binary; [inversion E; reflexivity|]. unfold read_triplet_list in E. revert E. generalize (open_text (write_triplet_list fmt l false)) (@nil ascii).
    induction fuel as [|n IH]; intros st b E; [discriminate|]. cbn [read_loop] in E. destruct (getline st b) as [st' b']. destruct (eofbit st'); [inversion E; reflexivity|]. eapply IH, E. }
  rewrite Q. cbn. congruence.
Qed.
(** (defect) on a file that could not be opened (fail bit set) it never returns *)
Theorem C58_unreadable_file_refuted : forall {Scalar} fuel r (l : tlist Scalar), read_triplet_list fuel (mkI r false true) l false = None.
Proof. intros Scalar fuel r l. unfold read_triplet_list. apply read_loop_fail. Qed.

(** ** C59: file headers *)
Definition clean_text (s : text) : Prop := no_newline s /\ no_cr s.
Definition clean_description (d : description) : Prop := Forall (fun e => clean_text (fst e) /\ clean_text (snd e)) d.
(** the descriptions before the first empty one *)
Fixpoint before_empty (ds : list description) : list description :=
  match ds with [] => [] | [] :: _ => [] | d :: ds' => d :: before_empty ds' end.
(** the line of an entry; [w] is the length of the longest key that has a value *)
Definition entry_line (prefix : text) (w : nat) (e : text * text) : text :=
  match e with
  | ([], _) => prefix
  | (k, []) => prefix ++ str " " ++ k
  | (k, v) => prefix ++ str " " ++ k ++ str ":" ++ repeat (ascii_of_nat 32) (w + 1 - length k) ++ v
  end.
Definition header_lines (prefix time : text) (w : nat) (ds : list description) : list text :=
  (prefix ++ str " Created:" ++ repeat (ascii_of_nat 32) (w + 1 - 7) ++ time) ::
  flat_map (fun d => str "#" :: map (entry_line prefix w) d) (before_empty ds).
(** [w] is the maximum of the lengths of the keys with a value *)
Definition key_width (w : nat) (ds : list description) : Prop :=
  (forall d k v, In d ds -> In (k, v) d -> v <> [] -> (length k <= w)%nat) /\
  (w = 0%nat \/ exists d k v, In d ds /\ In (k, v) d /\ v <> [] /\ length k = w).
Lemma max_desc_ok d : forall m, let m' := fold_left (fun m (e : text * text) => if is_empty (snd e) then m else Nat.max m (length (fst e))) d m in
  (m <= m')%nat /\ (forall k v : text, In (k, v) d -> v <> [] -> (length k <= m')%nat) /\ (m' = m \/ exists k v : text, In (k, v) d /\ v <> (@nil ascii) /\ length k = m').
Proof.
  induction d as [|[k v] d IH]; intros m; cbn [fold_left].
  - cbv zeta. split; [lia|]. split; [intros k v []|left; reflexivity].
  - cbn [fst snd]. destruct v as [|c v]; cbn [is_empty].
    + destruct (IH m) as (A & B & C). cbv zeta. split; [exact A|]. split.
      * intros k0 v0 [Q|Q] H; [inversion Q; subst; congruence|]. eapply B; eassumption.
      * destruct C as [C|(k0 & v0 & C1 & C2 & C3)]; [left; exact C|right; exists k0, v0; split; [right; exact C1|auto]].
    + destruct (IH (Nat.max m (@length ascii k))) as (A & B & C). cbv zeta. split; [lia|]. split.
      * intros k0 v0 [Q|Q] H; [inversion Q; subst; lia|]. eapply B; eassumption.
      * destruct C as [C|(k0 & v0 & C1 & C2 & C3)]; [|right; exists k0, v0; split; [right; exact C1|auto]].
        rewrite C. destruct (Nat.max_spec m (@length ascii k)) as [[_ ->]|[_ ->]]; [right; exists k, (c :: v); split; [left; reflexivity|split; [discriminate|reflexivity]]|left; reflexivity].
Qed.
Lemma max_key_len_ok ds : key_width (max_key_len ds) ds.
Proof.
  unfold max_key_len, key_width.
  assert (G : forall m, let m' := fold_left (fun m (d : description) => fold_left (fun m e => if is_empty (snd e) then m else Nat.max m (length (fst e))) d m) ds m in
    (m <= m')%nat /\ (forall d (k v : text), In d ds -> In (k, v) d -> v <> [] -> (length k <= m')%nat) /\
    (m' = m \/ exists d (k v : text), In d ds /\ In (k, v) d /\ v <> (@nil ascii) /\ length k = m')).
  { induction ds as [|d ds IH]; intros m; cbn [fold_left]; cbv zeta.
    - split; [lia|]. split; [intros d k v []|left; reflexivity].
    - destruct (max_desc_ok d m) as (A1 & B1 & C1). cbv zeta in *. set (m1 := fold_left _ d m) in *. destruct (IH m1) as (A & B & C). cbv zeta in *. split; [exact (Nat.le_trans _ _ _ A1 A)|]. split.
      + intros d0 k v [->|Q] H1 H2; [exact (Nat.le_trans _ _ _ (B1 k v H1 H2) A)|]. eapply B; eassumption.
      + destruct C as [C|(d0 & k & v & Q1 & Q2 & Q3 & Q4)]; [|right; exists d0, k, v; split; [right; exact Q1|auto]].
        destruct C1 as [C1|(k & v & Q1 & Q2 & Q3)]; [left; exact (eq_trans C C1)|right; exists d, k, v; split; [left; reflexivity|split; [exact Q1|split; [exact Q2|exact (eq_trans Q3 (eq_sym C))]]]]. }
  destruct (G 0%nat) as (_ & B & C). cbv zeta in *. split; [exact B|exact C].
Qed.
Lemma file_cons l ls t : file (l :: ls) t = l ++ ascii_of_nat 10 :: file ls t.
Proof. unfold file. cbn [flat_map]. rewrite <- !app_assoc. reflexivity. Qed.
Lemma file_app a b t : file (a ++ b) t = file a [] ++ file b t.
Proof. unfold file. rewrite flat_map_app, app_nil_r, app_assoc. reflexivity. Qed.
Lemma write_entry_line prefix w e : write_entry prefix w e = entry_line prefix w e ++ [newline].
Proof.
  destruct e as [k v]. unfold write_entry, entry_line. cbn [fst snd]. destruct k as [|c k]; cbn [is_empty]; [reflexivity|]. destruct v as [|c' v]; cbn [is_empty].
  - cbn [app str list_ascii_of_string]. rewrite <- app_assoc. reflexivity.
  - unfold spaces, blank. repeat rewrite <- app_assoc. cbn [app str list_ascii_of_string]. repeat rewrite <- app_assoc. cbn [app]. repeat rewrite <- app_assoc. reflexivity.
Qed.
(** The header consists of the creation time and, for each description before the first empty one,
    a line "#" and one line per entry. *)
Theorem C59_header_lines : forall time ds prefix, exists w, key_width w ds /\
  write_header time ds false prefix = file (header_lines prefix time w ds) [].
Proof.
  intros time ds prefix. exists (max_key_len ds). split; [apply max_key_len_ok|]. unfold write_header, header_lines. set (w := max_key_len ds). clearbody w.
  rewrite file_cons. unfold spaces, blank, newline. rewrite <- !app_assoc. cbn [app]. do 3 f_equal. f_equal. f_equal.
  induction ds as [|d ds IH]; [reflexivity|]. cbn [write_descriptions before_empty]. destruct d as [|e d]; [reflexivity|]. cbn [is_empty].
  set (x := e :: d). cbn [flat_map]. rewrite file_app. cbn [app]. rewrite file_cons. cbn [str list_ascii_of_string app].
  f_equal. f_equal. rewrite IH. f_equal. unfold file. rewrite app_nil_r. induction x as [|y ys IHy]; [reflexivity|]. cbn [flat_map map]. rewrite IHy. f_equal. apply write_entry_line.
Qed.
(** With the default prefix every line is a comment, so readers skip the header. *)
Lemma comment_line u : clean_text u -> blank_or_comment ("#"%char :: u).
Proof. intros [H1 H2]. exists [], ("#"%char :: u). split; [reflexivity|]. split; [constructor|]. right. exists u. auto. Qed.
Lemma clean_app a b : clean_text (a ++ b) <-> clean_text a /\ clean_text b.
Proof.
  unfold clean_text, no_newline, no_cr. split.
  - intros [H1 H2]. split; split; intros Q; ((apply H1; apply in_or_app; (left; exact Q) || (right; exact Q)) || (apply H2; apply in_or_app; (left; exact Q) || (right; exact Q))).
  - intros [[H1 H2] [H3 H4]]; split; intros Q; apply in_app_or in Q; destruct Q as [Q|Q]; contradiction.
Qed.
Lemma clean_spaces n : clean_text (repeat (ascii_of_nat 32) n).
Proof. split; intros Q; apply repeat_spec in Q; discriminate. Qed.
Lemma clean_lit c : c <> ascii_of_nat 10 -> c <> ascii_of_nat 13 -> clean_text [c].
Proof. intros H1 H2. split; intros [Q|[]]; congruence. Qed.
Lemma header_comments time w ds : clean_text time -> Forall clean_description ds ->
  Forall (fun l => exists u, l = "#"%char :: u /\ clean_text u) (header_lines (str "#") time w ds).
Proof.
  intros Ht Hd. constructor.
  - eexists. split; [reflexivity|].
    change (clean_text (str " Created:" ++ repeat (ascii_of_nat 32) (w + 1 - 7) ++ time)). rewrite !clean_app. split; [|split; [apply clean_spaces|exact Ht]].
    split; cbn; intros Q; repeat destruct Q as [Q|Q]; discriminate || contradiction.
  - apply Forall_flat_map. apply Forall_forall. intros d Hin. assert (Hc : clean_description d).
    { rewrite Forall_forall in Hd. apply Hd. clear -Hin. induction ds as [|d0 ds IH]; [contradiction|]. cbn in Hin. destruct d0; [contradiction|]. destruct Hin as [<-|Hin]; [left; reflexivity|right; apply IH, Hin]. }
    constructor; [exists []; split; [reflexivity|split; intros []]|]. apply Forall_forall. intros l Hl. apply in_map_iff in Hl as ([k v] & <- & He).
    unfold clean_description in Hc. rewrite Forall_forall in Hc. destruct (Hc _ He) as [Hk Hv]. cbn [fst snd] in *. unfold entry_line. destruct k as [|c k]; [exists []; split; [reflexivity|split; intros []]|].
    destruct v as [|c' v]; (eexists; split; [reflexivity|]).
    + change (clean_text ([" "%char] ++ (c :: k))). rewrite clean_app. split; [apply clean_lit; discriminate|exact Hk].
    + change (clean_text ([" "%char] ++ (c :: k) ++ [":"%char] ++ repeat (ascii_of_nat 32) (w + 1 - length (c :: k)) ++ (c' :: v))). rewrite !clean_app.
      repeat split; try apply clean_spaces; try apply Hk; try apply Hv; apply clean_lit; discriminate.
Qed.
Theorem C59_header_is_skipped : forall time ds, clean_text time -> Forall clean_description ds ->
  exists lines, write_header time ds false (str "#") = file lines [] /\ Forall no_newline lines /\ Forall blank_or_comment lines.
Proof.
  intros time ds Ht Hd. destruct (C59_header_lines time ds (str "#")) as (w & _ & E). exists (header_lines (str "#") time w ds). split; [exact E|].
  pose proof (header_comments time w ds Ht Hd) as H. split; (eapply Forall_impl; [|exact H]); intros l (u & -> & [Hu1 Hu2]).
  - intros [Q|Q]; [discriminate|contradiction].
  - apply comment_line. split; assumption.
Qed.
(** so next_line on header and body returns the first data line of the body *)
Theorem C59_next_line_after_header : forall time ds body last sk l ls, clean_text time -> Forall clean_description ds ->
  body = sk ++ l :: ls -> lines_ok body last -> Forall blank_or_comment sk -> ~ blank_or_comment l ->
  terminates_with (fun fuel => next_line fuel (open_text (write_header time ds false (str "#") ++ file body last))) (l, open_text (file ls last)).
Proof.
  intros time ds body last sk l ls Ht Hd -> [Hb1 Hb2] Hs Hl. destruct (C59_header_is_skipped time ds Ht Hd) as (hl & -> & H1 & H2).
  rewrite <- file_app, app_assoc. apply C56_next_line_is_first_other_line; [|apply Forall_app; split; assumption|exact Hl].
  split; [|exact Hb2]. rewrite <- app_assoc. apply Forall_app. split; assumption.
Qed.
(** All values start in the same column, [length prefix + w + 3]; the creation time does too iff
    the longest key has at least 6 characters (otherwise it starts in column length prefix + 9). *)
Theorem C59_alignment : forall prefix time w ds, key_width w ds ->
  (forall d k v, In d ds -> In (k, v) d -> k <> [] -> v <> [] ->
     exists h, entry_line prefix w (k, v) = h ++ v /\ length h = (length prefix + w + 3)%nat) /\
  exists h rest_lines, header_lines prefix time w ds = (h ++ time) :: rest_lines /\
    length h = (length prefix + Nat.max (w + 3) 9)%nat.
Proof.
  intros prefix time w ds [Hw _]. split.
  - intros d k v Hd Hk Hk0 Hv. specialize (Hw d k v Hd Hk Hv). unfold entry_line. destruct k as [|c k]; [contradiction|]. destruct v as [|c' v]; [contradiction|].
    exists (prefix ++ str " " ++ (c :: k) ++ str ":" ++ repeat (ascii_of_nat 32) (w + 1 - length (c :: k))). split; [repeat rewrite <- app_assoc; reflexivity|].
    repeat rewrite app_length. rewrite repeat_length. cbn [str list_ascii_of_string length] in *. lia.
  - eexists (prefix ++ str " Created:" ++ repeat (ascii_of_nat 32) (w + 1 - 7)), _. split; [unfold header_lines; rewrite <- !app_assoc; reflexivity|].
    rewrite !app_length, repeat_length. cbn [str list_ascii_of_string length]. lia.
Qed.
(** (defect) everything after an empty description is lost, except that its keys still widen the
    columns *)
Theorem C59_empty_description_hides_the_rest_refuted : forall prefix time w ds1 ds2, Forall (fun d => d <> []) ds1 ->
  header_lines prefix time w (ds1 ++ [] :: ds2) = header_lines prefix time w ds1 /\
  length (header_lines prefix time w ds1) = S (list_sum (map (fun d => S (length d)) ds1)).
Proof.
  intros prefix time w ds1 ds2 H. assert (E : forall r, before_empty (ds1 ++ r) = ds1 ++ before_empty r).
  { intros r. induction H as [|d ds Hd Hds IH]; [reflexivity|]. cbn. destruct d; [contradiction|]. rewrite IH. reflexivity. }
  unfold header_lines. rewrite E. cbn [before_empty]. rewrite app_nil_r.
  assert (E2 : before_empty ds1 = ds1) by (rewrite <- (app_nil_r ds1) at 1; rewrite E; apply app_nil_r). rewrite E2. split; [reflexivity|]. cbn [length]. f_equal.
  clear. induction ds1 as [|d ds IH]; [reflexivity|]. cbn [flat_map map list_sum]. rewrite app_length, IH. cbn [length]. rewrite map_length. reflexivity.
Qed.
(** (defect) the value of an entry with an empty key is lost *)
Theorem C59_value_without_key_refuted : forall prefix w v, entry_line prefix w ([], v) = prefix.
Proof. reflexivity. Qed.

(** ** C60: the output file after a restart *)
(** the lines next_line would return *)
Definition measurements (ls : list text) : list text := filter (fun l => negb (is_skippable_line l)) ls.
(** If the n-th measurement is a complete line, all lines up to it are copied, without their
    newline characters. *)
Theorem C60_enough_measurements : forall pre m post last, lines_ok (pre ++ m :: post) last -> ~ blank_or_comment m ->
  terminates_with (fun fuel => cleaned fuel (S (length (measurements pre))) (file (pre ++ m :: post) last)) (concat (pre ++ [m])).
Proof.
  intros pre m post last [H1 H2] Hm. exists (length pre + 1)%nat. intros fuel Hf. unfold cleaned.
  change (length (measurements pre)) with (count pre).
  destruct (is_skippable_line m) eqn:Em; [apply skippable_ok in Em; contradiction|].
  destruct (copy_lines (pre ++ [m]) 0 (S (count pre)) post last [] 0%nat []) as [b Hb].
  - apply Forall_app in H1 as [H1 H3]. apply Forall_app. split; [exact H1|]. constructor; [exact (Forall_inv H3)|constructor].
  - intros a b' E Hb. assert (Q : exists z, pre = a ++ z).
    { destruct b' as [|y b' _] using rev_ind; [contradiction|]. rewrite app_assoc in E. apply app_inj_tail in E as [-> _]. eauto. }
    destruct Q as [z ->]. rewrite count_app. lia.
  - rewrite <- app_assoc in Hb. cbn [app] in Hb. rewrite app_length, Nat.add_0_r in Hb. cbn [length] in Hb.
    assert (C : count (pre ++ [m]) = S (count pre)). { rewrite count_app, count_cons, Em. change (count []) with 0%nat. lia. }
    rewrite C in Hb. cbn [Nat.add copy_loop c_counter] in Hb. rewrite Nat.ltb_irrefl in Hb.
    unfold start_copy. erewrite copy_loop_mono; [|exact Hb|exact Hf]. reflexivity.
Qed.
(** n = 0 copies nothing *)
Theorem C60_zero : forall t fuel, cleaned fuel 0 t = Some [].
Proof. intros t fuel. destruct fuel; reflexivity. Qed.
(** If the complete lines have fewer than n measurements and the last line, without a newline, is a
    measurement, that line is copied until n is reached: once if it is the n-th measurement, and
    (defect) several times otherwise. *)
Theorem C60_unterminated_last_line_repeated : forall complete last j, lines_ok complete last -> ~ blank_or_comment last ->
  terminates_with (fun fuel => cleaned fuel (length (measurements complete) + S j) (file complete last))
    (concat complete ++ concat (repeat last (S j))).
Proof.
  intros complete last j [H1 H2] Hm. exists (length complete + S (S j))%nat. intros fuel Hf. unfold cleaned. change (length (measurements complete)) with (count complete).
  destruct (is_skippable_line last) eqn:Em; [apply skippable_ok in Em; contradiction|].
  destruct (copy_lines complete (S (S j)) (count complete + S j) [] last [] 0%nat [] H1) as [b Hb].
  - intros a b' -> _. rewrite count_app. lia.
  - rewrite app_nil_r in Hb. assert (Q : exists c, copy_loop (S (S j)) (count complete + S j) (mkC (open_text (file [] last)) b (0 + count complete) ([] ++ concat complete)) = Some c /\ c_out c = concat complete ++ concat (repeat last (S j))).
    { cbn [Nat.add]. remember (S j) as k eqn:Ek. cbn [copy_loop c_counter]. replace (Nat.ltb (count complete) (count complete + k)) with true by (symmetry; apply Nat.ltb_lt; lia).
      unfold copy_body. cbn [c_in c_buf c_counter c_out]. rewrite getline_tail by exact H2. rewrite Em. subst k.
      destruct (copy_again j (S j) (count complete + S j) (S (count complete)) (match last with [] => true | _ => false end) last (([] ++ concat complete) ++ last) Em ltac:(lia) ltac:(lia)) as (c & E1 & E2).
      exists c. split; [exact E1|]. rewrite E2. cbn [app repeat concat]. rewrite <- app_assoc. reflexivity. }
    destruct Q as (c & E1 & E2). rewrite E1 in Hb. unfold start_copy. rewrite (copy_loop_mono _ _ _ _ Hb fuel Hf). rewrite E2. reflexivity.
Qed.
(** (defect) If the file has fewer than n measurements and its last line (the empty one after the
    final newline, usually) is not a measurement, clean_output_file never returns. *)
Theorem C60_fewer_measurements_never_returns_refuted : forall complete last n, lines_ok complete last -> blank_or_comment last ->
  (length (measurements complete) < n)%nat -> forall fuel, cleaned fuel n (file complete last) = None.
Proof.
  intros complete last n [H1 H2] Hl Hn fuel. unfold cleaned. change (length (measurements complete)) with (count complete) in Hn.
  destruct (copy_loop fuel n (start_copy (file complete last))) as [c|] eqn:E; [|reflexivity]. exfalso.
  pose proof (copy_loop_mono _ _ _ _ E (length complete + S fuel) ltac:(lia)) as E2. unfold start_copy in E2.
  destruct (copy_lines complete (S fuel) n [] last [] 0%nat [] H1) as [b Hb].
  - intros a b' -> _. rewrite count_app in Hn. lia.
  - rewrite app_nil_r in Hb. rewrite Hb in E2. clear Hb E. cbn [Nat.add copy_loop c_counter] in E2. apply Nat.ltb_lt in Hn as Hn'. rewrite Hn' in E2.
    unfold copy_body in E2. cbn [c_in c_buf c_counter c_out] in E2. rewrite getline_tail in E2 by exact H2. apply skippable_ok in Hl. rewrite Hl in E2.
    rewrite copy_end in E2; [discriminate|exact Hl|exact Hn].
Qed.
(** (defect) The new file never contains a newline: all copied lines are glued into one. *)
Lemma no_newline_concat ls : Forall no_newline ls -> no_newline (concat ls).
Proof. intros H Q. apply in_concat in Q as (l & Hl & Q). rewrite Forall_forall in H. exact (H l Hl Q). Qed.
Theorem C60_new_file_is_one_line_refuted : forall fuel n t out, cleaned fuel n t = Some out -> no_newline out.
Proof.
  intros fuel n t out H. unfold cleaned in H. destruct (copy_loop fuel n (start_copy t)) as [c|] eqn:E; [|discriminate]. injection H as <-.
  assert (G : forall fuel c0 c, no_newline (c_buf c0) -> no_newline (c_out c0) -> copy_loop fuel n c0 = Some c -> no_newline (c_out c)).
  { clear. assert (B : forall c0, no_newline (c_buf c0) -> no_newline (c_buf (copy_body c0)) /\ exists l, no_newline l /\ c_out (copy_body c0) = c_out c0 ++ l).
    { intros c0 H. assert (Q : no_newline (c_buf (copy_body c0)) /\ c_out (copy_body c0) = c_out c0 ++ c_buf (copy_body c0)); [|destruct Q; eauto].
      unfold copy_body. destruct (getline (c_in c0) (c_buf c0)) as [s b] eqn:E. cbn [c_buf c_out]. split; [|reflexivity].
      unfold getline in E. destruct (eofbit (c_in c0) || failbit (c_in c0))%bool; [inversion E; subst; exact H|].
      assert (Sp : match split_line (rest (c_in c0)) with Some (l, _) => no_newline l | None => no_newline (rest (c_in c0)) end).
      { generalize (rest (c_in c0)). clear. intros x. induction x as [|ch x IH]; cbn [split_line]; [intros []|]. destruct (is_newline ch) eqn:Ec; [intros []|].
        assert (Hc : ch <> ascii_of_nat 10) by (intros Q; apply is_newline_ok in Q; congruence).
        destruct (split_line x) as [[l r]|]; (intros [Q|Q]; [exact (Hc Q)|exact (IH Q)]). }
      destruct (split_line (rest (c_in c0))) as [[l r]|]; inversion E; subst; exact Sp. }
    induction fuel as [|f IH]; intros c0 c H1 H2 E; cbn [copy_loop] in E; (destruct (Nat.ltb (c_counter c0) n); [|inversion E; subst; exact H2]); [discriminate|].
    destruct (B c0 H1) as (B1 & l & B2 & B3). eapply IH; [exact B1| |exact E]. rewrite B3. intros Q. apply in_app_or in Q as [Q|Q]; [exact (H2 Q)|exact (B2 Q)]. }
  eapply G; [| |exact E]; intros [].
Qed.
(** (defect) If the file starts with a comment line (as every output file of the programs does) the
    glued line is a comment: the measurements are lost for every reader. *)
Theorem C60_measurements_become_a_comment_refuted : forall u pre m post last,
  lines_ok (("#"%char :: u) :: pre ++ m :: post) last -> Forall no_cr (u :: pre ++ [m]) -> ~ blank_or_comment m ->
  exists out, terminates_with (fun fuel => cleaned fuel (S (length (measurements pre))) (file (("#"%char :: u) :: pre ++ m :: post) last)) out /\
    blank_or_comment out /\ forall fuel, next_line fuel (open_text out) = None.
Proof.
  intros u pre m post last H Hc Hm. exists (concat ((("#"%char :: u) :: pre) ++ [m])).
  assert (Hu : clean_text u). { split; [|exact (Forall_inv Hc)]. destruct H as [H _]. apply Forall_inv in H. intros Q. apply H. right. exact Q. }
  assert (B : blank_or_comment (concat ((("#"%char :: u) :: pre) ++ [m]))).
  { cbn [app concat]. cbn [app]. apply comment_line. apply clean_app. split; [exact Hu|]. apply Forall_inv_tail in Hc. destruct H as [H _]. apply Forall_inv_tail in H.
    split; [apply no_newline_concat|intros Q; apply in_concat in Q as (l & Hl & Q); rewrite Forall_forall in Hc; exact (Hc l Hl Q)].
    apply Forall_app in H as [H1 H2]. apply Forall_app. split; [exact H1|]. constructor; [exact (Forall_inv H2)|constructor]. }
  split; [|split; [exact B|]].
  - assert (S : is_skippable_line ("#"%char :: u) = true) by (apply skippable_ok, comment_line, Hu).
    replace (length (measurements pre)) with (length (measurements (("#"%char :: u) :: pre))) by (unfold measurements; cbn [filter]; rewrite S; reflexivity).
    apply (C60_enough_measurements (("#"%char :: u) :: pre) m post last H Hm).
  - intros fuel. change (concat ((("#"%char :: u) :: pre) ++ [m])) with (file [] (concat ((("#"%char :: u) :: pre) ++ [m]))). apply C57_never_returns_refuted.
    + split; [constructor|]. destruct H as [H _]. rewrite app_comm_cons in H. apply no_newline_concat. apply Forall_app in H as [H1 H2]. apply Forall_app. split; [exact H1|]. constructor; [exact (Forall_inv H2)|constructor].
    + constructor; [exact B|constructor].
Qed.

(** ** C61: printing a tuple *)
Fixpoint join (delimiter : text) (xs : list text) : text :=
  match xs with [] => [] | [x] => x | x :: xs' => x ++ delimiter ++ join delimiter xs' end.
(** (defect) every position shows the last component *)
Theorem C61_last_component_everywhere : forall head tail delimiter left right,
  print_tuple head tail delimiter left right = left ++ join delimiter (repeat (last (head :: tail) []) (S (length tail))) ++ right.
Proof.
  intros head tail delimiter left right. unfold print_tuple. f_equal. f_equal. assert (E : nth (length tail) (head :: tail) [] = last (head :: tail) []).
  { clear. revert head. induction tail as [|x xs IH]; intros head; [reflexivity|]. cbn [length]. change (nth (S (length xs)) (head :: x :: xs) []) with (nth (length xs) (x :: xs) []). rewrite IH. reflexivity. }
  assert (G : forall k, print_from (head :: tail) (length tail) k delimiter = join delimiter (repeat (last (head :: tail) []) (S k))).
  { induction k as [|k IH]; cbn [print_from]; rewrite E; [reflexivity|]. rewrite IH. reflexivity. }
  apply G.
Qed.
(** The components are printed in order for tuples whose components print alike, for example all
    1-tuples; *)
Theorem C61_equal_components : forall head tail delimiter left right, Forall (eq head) tail ->
  print_tuple head tail delimiter left right = left ++ join delimiter (head :: tail) ++ right.
Proof.
  intros head tail delimiter left right H. rewrite C61_last_component_everywhere. f_equal. f_equal. f_equal.
  assert (G : tail = repeat head (length tail)). { induction H as [|x xs Hx Hxs IH]; [reflexivity|]. cbn. rewrite <- IH, <- Hx. reflexivity. }
  assert (L : last (head :: tail) [] = head). { rewrite G. generalize (length tail). clear. intros n. induction n as [|n IH]; [reflexivity|]. cbn [repeat]. exact IH. }
  rewrite L. cbn [repeat]. rewrite <- G. reflexivity.
Qed.
(** (defect) and for no other tuple whose components print with the same number of characters. *)
Theorem C61_components_in_order_refuted : forall head tail delimiter left right,
  Forall (fun x => length x = length head) tail ->
  print_tuple head tail delimiter left right = left ++ join delimiter (head :: tail) ++ right -> Forall (eq head) tail.
Proof.
  intros head tail delimiter left right H E. rewrite C61_last_component_everywhere in E. apply app_inv_head in E. apply app_inv_tail in E.
  assert (Lz : length (last (head :: tail) []) = length head).
  { clear E. destruct tail as [|x xs] using rev_ind; [reflexivity|]. rewrite app_comm_cons, last_last. apply Forall_app in H as [_ H]. exact (Forall_inv H). }
  assert (E' : exists z : text, z = last (head :: tail) [] /\ join delimiter (repeat z (S (length tail))) = join delimiter (head :: tail)) by (eexists; split; [reflexivity|exact E]).
  clear E. destruct E' as (z & Ez & E). rewrite <- Ez in Lz. clear Ez. assert (G : forall xs n, Forall (fun x => length x = length z) xs -> n = length xs -> join delimiter (repeat z n) = join delimiter xs -> Forall (eq z) xs).
  { clear. induction xs as [|x xs IH]; intros n H -> E; [constructor|]. pose proof (Forall_inv H) as Hx. apply Forall_inv_tail in H.
    destruct xs as [|y ys].
    - cbn in E. constructor; [exact E|constructor].
    - cbn [length repeat join] in E. assert (Q : forall a b c d : text, length a = length b -> a ++ c = b ++ d -> a = b /\ c = d).
      { clear. induction a as [|p a IH]; intros [|q b] c d L E; try discriminate; [auto|]. cbn in *. injection E as -> E. destruct (IH b c d) as [-> ->]; auto. }
      apply Q in E as [-> E]; [|symmetry; exact Hx]. apply app_inv_head in E. constructor; [reflexivity|]. apply (IH (length (y :: ys)) H eq_refl E). }
  assert (A : Forall (eq z) (head :: tail)). { apply (G _ (S (length tail))); [constructor; [symmetry; exact Lz|]; eapply Forall_impl; [|exact H]; cbv beta; intros x Hx; congruence|reflexivity|exact E]. }
  pose proof (Forall_inv A) as ->. exact (Forall_inv_tail A).
Qed.
Example C61_pair : print_tuple (str "1") [str "2"] (str ",") (str "(") (str ")") = str "(2,2)".
Proof. reflexivity. Qed.
Theorem C61_compose_concatenates : forall ts, compose ts = concat ts.
Proof.
  intros ts. unfold compose. assert (G : forall a, fold_left (fun strm t => strm ++ t) ts a = a ++ concat ts).
  { induction ts as [|t ts IH]; intros a; cbn [fold_left concat]; [rewrite app_nil_r; reflexivity|]. rewrite IH, app_assoc. reflexivity. }
  apply (G []).
Qed.
