(** Proofs about regular expressions, getline and next_line. *)
From Coq Require Import Ascii String.
From Verif Require Import Base M_Text Spec_Text.
Local Open Scope list_scope.

Lemma nullable_ok r : nullable r = true <-> in_language r [].
Proof.
  induction r as [| |p|a IHa b IHb|a IHa b IHb|a IHa]; cbn [nullable].
  - split; [discriminate|intros H; inversion H].
  - split; [constructor|reflexivity].
  - split; [discriminate|intros H; inversion H].
  - rewrite andb_true_iff, IHa, IHb. split.
    + intros [H1 H2]. change (@nil ascii) with (@nil ascii ++ []). constructor; assumption.
    + intros H. inversion H as [| |? ? s t H1 H2 E1 E2| | | |]; subst. apply app_eq_nil in E2 as [-> ->]. auto.
  - rewrite orb_true_iff, IHa, IHb. split.
    + intros [H|H]; [apply L_left|apply L_right]; exact H.
    + intros H. inversion H; subst; auto.
  - split; [constructor|reflexivity].
Qed.
Lemma star_cons a s : in_language (RStar a) s -> forall c s', s = c :: s' ->
  exists u v, s' = u ++ v /\ in_language a (c :: u) /\ in_language (RStar a) v.
Proof.
  intros H. remember (RStar a) as r eqn:Er. revert Er. induction H; intros Er c0 s' E; inversion Er; subst.
  - discriminate.
  - destruct s as [|c1 s1].
    + cbn in E. apply IHin_language2; [reflexivity|exact E].
    + cbn in E. inversion E; subst. exists s1, t. auto.
Qed.
Lemma deriv_ok c r : forall s, in_language (deriv c r) s <-> in_language r (c :: s).
Proof.
  induction r as [| |p|a IHa b IHb|a IHa b IHb|a IHa]; cbn [deriv]; intros s.
  - split; intros H; inversion H.
  - split; intros H; inversion H.
  - destruct (p c) eqn:E; split; intros H; inversion H; subst; try congruence; constructor. exact E.
  - assert (Q : in_language (RSeq (deriv c a) b) s <-> exists u v, s = u ++ v /\ in_language a (c :: u) /\ in_language b v).
    { split.
      - intros H. inversion H as [| |? ? u v H1 H2 E1 E2| | | |]; subst. exists u, v. rewrite <- IHa. auto.
      - intros (u & v & -> & H1 & H2). constructor; [apply IHa, H1|exact H2]. }
    assert (R : in_language (RSeq a b) (c :: s) <-> (exists u v, s = u ++ v /\ in_language a (c :: u) /\ in_language b v) \/ (in_language a [] /\ in_language b (c :: s))).
    { split.
      - intros H. inversion H as [| |? ? u v H1 H2 E1 E2| | | |]; subst. destruct u as [|c1 u].
        + right. cbn in E2. subst. auto.
        + left. cbn in E2. inversion E2; subst. exists u, v. auto.
      - intros [(u & v & -> & H1 & H2)|[H1 H2]].
        + change (c :: u ++ v) with ((c :: u) ++ v). constructor; assumption.
        + change (c :: s) with ([] ++ (c :: s)). constructor; assumption. }
    rewrite R. destruct (nullable a) eqn:E.
    + apply nullable_ok in E. split.
      * intros H. inversion H; subst; [left; apply Q; assumption|right; split; [exact E|apply IHb; assumption]].
      * intros [H|[_ H]]; [apply L_left, Q, H|apply L_right, IHb, H].
    + rewrite Q. split; [auto|]. intros [H|[H _]]; [exact H|]. apply nullable_ok in H. congruence.
  - split.
    + intros H. inversion H; subst; [apply L_left, IHa|apply L_right, IHb]; assumption.
    + intros H. inversion H; subst; [apply L_left, IHa|apply L_right, IHb]; assumption.
  - split.
    + intros H. inversion H as [| |? ? u v H1 H2 E1 E2| | | |]; subst. change (c :: u ++ v) with ((c :: u) ++ v). constructor; [apply IHa, H1|exact H2].
    + intros H. destruct (star_cons a _ H c s eq_refl) as (u & v & -> & H1 & H2). constructor; [apply IHa, H1|exact H2].
Qed.
Lemma regex_match_ok s : forall r, regex_match s r = true <-> in_language r s.
Proof. induction s as [|c s IH]; intros r; cbn [regex_match]; [apply nullable_ok|]. rewrite IH. apply deriv_ok. Qed.

Lemma star_class p s : in_language (RStar (RClass p)) s <-> Forall (fun c => p c = true) s.
Proof.
  split.
  - intros H. remember (RStar (RClass p)) as r eqn:Er. revert Er. induction H; intros Er; inversion Er; subst; [constructor|].
    inversion H; subst. cbn. constructor; [assumption|]. apply IHin_language2. reflexivity.
  - induction 1 as [|c s Hc Hs IH]; [constructor|]. change (c :: s) with ([c] ++ s). constructor; [constructor; exact Hc|exact IH].
Qed.
Lemma class_s_ok c : class_s c = true <-> space c.
Proof.
  unfold class_s, space, code. set (n := nat_of_ascii c). clearbody n. rewrite orb_true_iff, andb_true_iff, Nat.eqb_eq, !Nat.leb_le. cbn [In]. lia.
Qed.
Lemma class_dot_ok c : class_dot c = true <-> c <> ascii_of_nat 10 /\ c <> ascii_of_nat 13.
Proof.
  unfold class_dot, code. rewrite negb_true_iff, orb_false_iff, !Nat.eqb_neq. split.
  - intros [H1 H2]. split; intros ->; [apply H1|apply H2]; reflexivity.
  - intros [H1 H2]. split; intros E; [apply H1|apply H2]; rewrite <- (ascii_nat_embedding c), E; reflexivity.
Qed.
Lemma class_hash_ok c : class_hash c = true <-> c = "#"%char.
Proof.
  unfold class_hash, code. rewrite Nat.eqb_eq. split; [|intros ->; reflexivity]. intros E. rewrite <- (ascii_nat_embedding c), E. reflexivity.
Qed.
Lemma skippable_ok s : is_skippable_line s = true <-> blank_or_comment s.
Proof.
  unfold is_skippable_line, blank_or_comment. rewrite regex_match_ok. unfold skip_regex. split.
  - intros H. inversion H as [| |? ? w t H1 H2 E1 E2| | | |]; subst. exists w, t. split; [reflexivity|]. split.
    + apply star_class in H1. eapply Forall_impl; [|exact H1]. intros c. apply class_s_ok.
    + inversion H2 as [| | |? ? ? H3|? ? ? H3| |]; subst.
      * right. inversion H3 as [| |? ? x u H4 H5 E1 E2| | | |]; subst. inversion H4 as [|? ? Hc| | | | |]; subst. apply class_hash_ok in Hc. subst c. exists u. split; [reflexivity|].
        apply star_class in H5. rewrite Forall_forall in H5. split; intros Hin; apply H5, class_dot_ok in Hin; tauto.
      * left. inversion H3. reflexivity.
  - intros (w & t & -> & Hw & Ht). constructor.
    + apply star_class. eapply Forall_impl; [|exact Hw]. intros c. apply class_s_ok.
    + destruct Ht as [->|(u & -> & H1 & H2)]; [apply L_right; constructor|]. apply L_left.
      change ("#"%char :: u) with (["#"%char] ++ u). constructor; [constructor; reflexivity|]. apply star_class. apply Forall_forall. intros c Hc. apply class_dot_ok.
      split; intros ->; contradiction.
Qed.

Lemma is_newline_ok c : is_newline c = true <-> c = ascii_of_nat 10.
Proof.
  unfold is_newline, code. rewrite Nat.eqb_eq. split; [|intros ->; reflexivity]. intros E. rewrite <- (ascii_nat_embedding c), E. reflexivity.
Qed.
Lemma split_line_app l r : no_newline l -> split_line (l ++ ascii_of_nat 10 :: r) = Some (l, r).
Proof.
  intros H. induction l as [|c l IH]; cbn [app split_line].
  - rewrite (proj2 (is_newline_ok _) eq_refl). reflexivity.
  - destruct (is_newline c) eqn:E; [apply is_newline_ok in E; subst; exfalso; apply H; left; reflexivity|].
    rewrite IH; [reflexivity|]. intros Hin. apply H. right. exact Hin.
Qed.
Lemma split_line_none l : no_newline l -> split_line l = None.
Proof.
  intros H. induction l as [|c l IH]; cbn [split_line]; [reflexivity|].
  destruct (is_newline c) eqn:E; [apply is_newline_ok in E; subst; exfalso; apply H; left; reflexivity|].
  rewrite IH; [reflexivity|]. intros Hin. apply H. right. exact Hin.
Qed.
(** every text is a file *)
Lemma text_file (t : text) : exists complete last, t = file complete last /\ lines_ok complete last.
Proof.
  induction t as [|c t (cs & l & -> & H1 & H2)].
  - exists [], []. split; [reflexivity|]. split; [constructor|intros []].
  - destruct (is_newline c) eqn:E.
    + apply is_newline_ok in E. subst c. exists ([] :: cs), l. split; [reflexivity|]. split; [|exact H2]. constructor; [intros []|exact H1].
    + assert (Hc : c <> ascii_of_nat 10) by (intros Q; apply is_newline_ok in Q; congruence).
      destruct cs as [|x cs].
      * exists [], (c :: l). split; [reflexivity|]. split; [constructor|]. intros [Q|H]; [exact (Hc Q)|exact (H2 H)].
      * inversion H1; subst. exists ((c :: x) :: cs), l. split; [reflexivity|]. split; [|exact H2]. constructor; [|assumption]. intros [Q|H]; [exact (Hc Q)|]. apply H3, H.
Qed.
Lemma getline_line l ls tail buf : no_newline l -> getline (open_text (file (l :: ls) tail)) buf = (open_text (file ls tail), l).
Proof.
  intros H. unfold getline, open_text. cbn [eofbit failbit rest orb]. unfold file. cbn [flat_map]. rewrite <- !app_assoc. cbn [app].
  rewrite split_line_app by exact H. reflexivity.
Qed.
Lemma getline_tail tail buf : no_newline tail ->
  getline (open_text (file [] tail)) buf = (mkI [] true (match tail with [] => true | _ => false end), tail).
Proof.
  intros H. unfold getline, open_text, file. cbn [eofbit failbit rest orb flat_map app]. rewrite split_line_none by exact H. reflexivity.
Qed.
Lemma getline_end buf f : getline (mkI [] true f) buf = (mkI [] true true, buf).
Proof. reflexivity. Qed.
Lemma skip_nil : is_skippable_line [] = true. Proof. reflexivity. Qed.

(** at the end of the file a skippable buffer keeps the loop running *)
Lemma loop_end fuel : forall f buf, is_skippable_line buf = true -> next_line_loop fuel (mkI [] true f) buf = None.
Proof. induction fuel as [|n IH]; intros f buf H; [reflexivity|]. cbn [next_line_loop]. rewrite getline_end, H. apply IH, H. Qed.
Lemma loop_stuck fuel : forall strm buf, (eofbit strm || failbit strm)%bool = true -> is_skippable_line buf = true -> next_line_loop fuel strm buf = None.
Proof.
  induction fuel as [|n IH]; intros strm buf Hs H; [reflexivity|]. cbn [next_line_loop]. unfold getline. rewrite Hs, H. apply IH; [|exact H]. cbn. apply orb_true_r.
Qed.
Lemma loop_lines : forall skipped fuel ls tail buf, Forall no_newline skipped -> Forall (fun l => is_skippable_line l = true) skipped ->
  exists buf', next_line_loop (length skipped + fuel) (open_text (file (skipped ++ ls) tail)) buf = next_line_loop fuel (open_text (file ls tail)) buf'.
Proof.
  induction skipped as [|l sk IH]; intros fuel ls tail buf H1 H2; [exists buf; reflexivity|]. pose proof (Forall_inv H1) as N1. pose proof (Forall_inv H2) as N2. apply Forall_inv_tail in H1, H2.
  cbn [length Nat.add next_line_loop app]. rewrite getline_line by exact N1. cbv beta in N2. rewrite N2. apply IH; assumption.
Qed.
Lemma loop_mono fuel : forall strm buf x, next_line_loop fuel strm buf = Some x -> forall n, (fuel <= n)%nat -> next_line_loop n strm buf = Some x.
Proof.
  induction fuel as [|f IH]; intros strm buf x H n Hn; [discriminate|]. destruct n as [|n]; [lia|]. cbn [next_line_loop] in *.
  destruct (getline strm buf) as [s b]. destruct (is_skippable_line b); [|exact H]. apply IH; [exact H|lia].
Qed.
