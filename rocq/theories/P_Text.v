(** PROPERTIES C56, C57: reading the lines of a text file. *)
From Coq Require Import Ascii String.
From Verif Require Import Base M_Text Spec_Text Spec_LatticeReal Pf_Text.
Local Open Scope list_scope.

(** ** C56 *)
(** the derivatives used as matcher decide the language of a regular expression *)
Theorem C56_regex_match_is_language : forall s r, regex_match s r = true <-> in_language r s.
Proof. exact regex_match_ok. Qed.
(** A line is skippable iff it is white space, optionally followed by # and a text without line
    terminators. *)
Theorem C56_skippable_iff_blank_or_comment : forall s, is_skippable_line s = true <-> blank_or_comment s.
Proof. exact skippable_ok. Qed.
Lemma loop_to l : forall skipped ls tail buf, lines_ok (skipped ++ l :: ls) tail -> Forall blank_or_comment skipped -> ~ blank_or_comment l ->
  forall fuel, (S (length skipped) <= fuel)%nat -> next_line_loop fuel (open_text (file (skipped ++ l :: ls) tail)) buf = Some (l, open_text (file ls tail)).
Proof.
  intros skipped ls tail buf [H1 H2] Hs Hl fuel Hf. apply Forall_app in H1 as [H1 H3].
  eapply loop_mono; [|exact Hf]. replace (S (length skipped)) with (length skipped + 1)%nat by lia.
  destruct (loop_lines skipped 1 (l :: ls) tail buf H1) as [b ->].
  - eapply Forall_impl; [|exact Hs]. intros x. apply skippable_ok.
  - cbn [next_line_loop]. rewrite getline_line by exact (Forall_inv H3).
    destruct (is_skippable_line l) eqn:E; [apply skippable_ok in E; contradiction|reflexivity].
Qed.
Lemma loop_to_last l : forall skipped buf, lines_ok skipped l -> Forall blank_or_comment skipped -> ~ blank_or_comment l ->
  forall fuel, (S (length skipped) <= fuel)%nat -> next_line_loop fuel (open_text (file skipped l)) buf = Some (l, mkI [] true false).
Proof.
  intros skipped buf [H1 H2] Hs Hl fuel Hf.
  eapply loop_mono; [|exact Hf]. replace (S (length skipped)) with (length skipped + 1)%nat by lia.
  destruct (loop_lines skipped 1 [] l buf H1) as [b Hb].
  - eapply Forall_impl; [|exact Hs]. intros x. apply skippable_ok.
  - rewrite app_nil_r in Hb. rewrite Hb. cbn [next_line_loop]. rewrite getline_tail by exact H2.
    destruct (is_skippable_line l) eqn:E; [apply skippable_ok in E; contradiction|].
    destruct l; [exfalso; apply Hl; exists [], []; repeat split; [constructor|left; reflexivity]|reflexivity].
Qed.
(** next_line returns the first line of the file that is neither blank nor a comment, and leaves
    the stream positioned right after it. *)
Theorem C56_next_line_is_first_other_line : forall skipped l ls last,
  lines_ok (skipped ++ l :: ls) last -> Forall blank_or_comment skipped -> ~ blank_or_comment l ->
  terminates_with (fun fuel => next_line fuel (open_text (file (skipped ++ l :: ls) last))) (l, open_text (file ls last)).
Proof. intros skipped l ls last H1 H2 H3. exists (S (length skipped)). intros fuel Hf. unfold next_line. apply loop_to; assumption. Qed.
(** the same if it is the unterminated last line; the stream then has its eof bit set *)
Theorem C56_next_line_last_line : forall skipped l,
  lines_ok skipped l -> Forall blank_or_comment skipped -> ~ blank_or_comment l ->
  terminates_with (fun fuel => next_line fuel (open_text (file skipped l))) (l, mkI [] true false).
Proof. intros skipped l H1 H2 H3. exists (S (length skipped)). intros fuel Hf. unfold next_line. apply loop_to_last; assumption. Qed.
(** Reading all data lines: n calls return the n non-skippable complete lines in order. *)
Fixpoint read_lines (fuel n : nat) (s : istream) : option (list text * istream) :=
  match n with
  | O => Some ([], s)
  | S n' => match next_line fuel s with
            | Some (l, s') => match read_lines fuel n' s' with Some (ls, s'') => Some (l :: ls, s'') | None => None end
            | None => None
            end
  end.
Lemma first_other cs : Exists (fun l => ~ blank_or_comment l) cs ->
  exists sk l ls, cs = sk ++ l :: ls /\ Forall blank_or_comment sk /\ ~ blank_or_comment l.
Proof.
  induction cs as [|c cs IH]; intros H; [inversion H|]. destruct (is_skippable_line c) eqn:E.
  - inversion H as [? ? H1|? ? H1]; subst; [apply skippable_ok in E; contradiction|].
    destruct (IH H1) as (sk & l & ls & -> & H2 & H3). exists (c :: sk), l, ls. split; [reflexivity|]. split; [constructor; [apply skippable_ok, E|exact H2]|exact H3].
  - exists [], c, cs. split; [reflexivity|]. split; [constructor|]. intros Q. apply skippable_ok in Q. congruence.
Qed.
Theorem C56_all_data_lines_in_order : forall complete last, lines_ok complete last ->
  let data := filter (fun l => negb (is_skippable_line l)) complete in
  exists s, terminates_with (fun fuel => read_lines fuel (length data) (open_text (file complete last))) (data, s).
Proof.
  intros complete. remember (length (filter (fun l => negb (is_skippable_line l)) complete)) as n eqn:En. revert complete En.
  induction n as [|n IH]; intros complete En last H; cbv zeta.
  - symmetry in En. apply length_zero_iff_nil in En. rewrite En. eexists. exists O. intros fuel _. reflexivity.
  - destruct (first_other complete) as (sk & l & ls & -> & Hs & Hl).
    { destruct (Exists_dec (fun l => ~ blank_or_comment l) complete) as [D|D]; [|exact D|].
      - intros x. destruct (is_skippable_line x) eqn:E; [right; intros Q; apply Q, skippable_ok, E|left; intros Q; apply skippable_ok in Q; congruence].
      - exfalso. assert (Z : filter (fun l => negb (is_skippable_line l)) complete = []).
        { clear -D. induction complete as [|c cs IH]; [reflexivity|]. cbn. destruct (is_skippable_line c) eqn:E; cbn [negb].
          - apply IH. intros Q. apply D. right. exact Q.
          - exfalso. apply D. left. intros Q. apply skippable_ok in Q. congruence. }
        rewrite Z in En. discriminate. }
    assert (F : filter (fun l => negb (is_skippable_line l)) (sk ++ l :: ls) = l :: filter (fun l => negb (is_skippable_line l)) ls).
    { rewrite filter_app. assert (Z : filter (fun l => negb (is_skippable_line l)) sk = []).
      { clear -Hs. induction Hs as [|c cs Hc Hcs IH]; [reflexivity|]. cbn. apply skippable_ok in Hc. rewrite Hc. exact IH. }
      rewrite Z. cbn [app filter]. destruct (is_skippable_line l) eqn:E; [apply skippable_ok in E; contradiction|reflexivity]. }
    rewrite F in En |- *. cbn [length] in En |- *. injection En as En.
    assert (Hls : lines_ok ls last). { destruct H as [H1 H2]. apply Forall_app in H1 as [_ H1]. split; [exact (Forall_inv_tail H1)|exact H2]. }
    destruct (IH ls En last Hls) as (s & m & Hm). exists s. exists (Nat.max m (S (length sk))). intros fuel Hf. rewrite <- En. cbn [read_lines].
    unfold next_line. rewrite loop_to; [|exact H|exact Hs|exact Hl|lia]. rewrite En, Hm by lia. reflexivity.
Qed.
(** (defect) . does not match a carriage return, so in a file with DOS line ends no comment line is
    skipped: next_line returns it as data.  Blank DOS lines are skipped. *)
Theorem C56_dos_comment_refuted : forall w u, Forall space w -> is_skippable_line (w ++ "#"%char :: u ++ [ascii_of_nat 13]) = false.
Proof.
  intros w u Hw. destruct (is_skippable_line _) eqn:E; [|reflexivity]. exfalso. apply skippable_ok in E as (w' & t & E & Hw' & Ht).
  assert (Hh : ~ space "#"%char) by (intros H; unfold space in H; cbn in H; lia).
  assert (Q : exists u', t = "#"%char :: u' /\ u' = u ++ [ascii_of_nat 13]).
  { revert w' Hw' E. induction Hw as [|c w Hc Hw IH]; intros w' Hw' E.
    - destruct w' as [|c' w']; cbn in E; [subst t; eauto|]. exfalso. apply Hh. injection E as -> _. exact (Forall_inv Hw').
    - destruct w' as [|c' w'].
      + cbn in E. destruct Ht as [->|(v & -> & _)]; [discriminate|]. exfalso. apply Hh. injection E as <- _. exact Hc.
      + cbn in E. injection E as <- E. apply (IH w' (Forall_inv_tail Hw') E). }
  destruct Q as (u' & -> & ->). destruct Ht as [Ht|(v & Ev & _ & Hv)]; [discriminate|]. injection Ev as <-. apply Hv. apply in_or_app. right. left. reflexivity.
Qed.

(** ** C57 *)
(** next_line terminates iff some remaining line (the unterminated last one counts) is neither
    blank nor a comment. *)
Theorem C57_terminates_iff_data_remains : forall complete last, lines_ok complete last ->
  ((exists x, terminates_with (fun fuel => next_line fuel (open_text (file complete last))) x) <->
   Exists (fun l => ~ blank_or_comment l) (complete ++ [last])).
Proof.
  intros complete last H. destruct (Exists_dec (fun l => ~ blank_or_comment l) (complete ++ [last])) as [D|D].
  - intros x. destruct (is_skippable_line x) eqn:E; [right; intros Q; apply Q, skippable_ok, E|left; intros Q; apply skippable_ok in Q; congruence].
  - split; [intros _; exact D|intros _]. destruct (first_other _ D) as (sk & l & ls & E & Hs & Hl).
    destruct ls as [|b ls' _] using rev_ind.
    + apply app_inj_tail in E as [-> ->]. eexists. apply C56_next_line_last_line; assumption.
    + rewrite app_comm_cons, app_assoc in E. apply app_inj_tail in E as [-> ->]. eexists. apply C56_next_line_is_first_other_line; eassumption.
  - split; [|intros Q; contradiction]. intros (x & n & Hn). exfalso.
    assert (N : forall fuel, next_line fuel (open_text (file complete last)) = None).
    { intros fuel. assert (Hc : Forall (fun l => is_skippable_line l = true) (complete ++ [last])).
      { apply Forall_forall. intros l Hin. destruct (is_skippable_line l) eqn:E; [reflexivity|]. exfalso. apply D. apply Exists_exists. exists l. split; [exact Hin|]. intros Q. apply skippable_ok in Q. congruence. }
      apply Forall_app in Hc as [Hc Hl]. apply Forall_inv in Hl. destruct H as [H1 H2].
      destruct (next_line fuel (open_text (file complete last))) as [y|] eqn:E; [|reflexivity]. exfalso. unfold next_line in E.
      pose proof (loop_mono _ _ _ _ E (length complete + S fuel) ltac:(lia)) as E2.
      destruct (loop_lines complete (S fuel) [] last [] H1 Hc) as [b Hb]. rewrite app_nil_r in Hb. rewrite Hb in E2. clear Hb.
      cbn [next_line_loop] in E2. rewrite getline_tail in E2 by exact H2. cbv beta in Hl. rewrite Hl in E2. rewrite loop_end in E2 by exact Hl. discriminate. }
    specialize (Hn n (le_n n)). cbv beta in Hn. rewrite N in Hn. discriminate.
Qed.
(** (defect) If only blank lines and comments remain, in particular at the end of the file, the
    call never returns, no matter how long one waits. *)
Theorem C57_never_returns_refuted : forall complete last, lines_ok complete last ->
  Forall blank_or_comment (complete ++ [last]) -> forall fuel, next_line fuel (open_text (file complete last)) = None.
Proof.
  intros complete last H Hall fuel. destruct (next_line fuel (open_text (file complete last))) as [x|] eqn:E; [|reflexivity]. exfalso.
  assert (T : exists x, terminates_with (fun fuel => next_line fuel (open_text (file complete last))) x).
  { exists x, fuel. intros m Hm. unfold next_line in *. eapply loop_mono; eassumption. }
  apply (C57_terminates_iff_data_remains complete last H) in T. apply Exists_exists in T as (l & Hin & Hl). apply Hl. rewrite Forall_forall in Hall. apply Hall, Hin.
Qed.
(** The same on every stream whose eof or fail bit is already set, for example after the last
    unterminated line has been read or if the file could not be opened. *)
Theorem C57_stuck_stream_refuted : forall strm fuel, eofbit strm = true \/ failbit strm = true -> next_line fuel strm = None.
Proof. intros strm fuel H. unfold next_line. apply loop_stuck; [apply orb_true_iff, H|reflexivity]. Qed.
(** every text is such a file, so the two cases above cover all inputs *)
Theorem C57_every_text_is_a_file : forall t, exists complete last, t = file complete last /\ lines_ok complete last.
Proof. exact text_file. Qed.

(** non-trivial instances *)
Example C56_example :
  terminates_with (fun fuel => next_line fuel (open_text (file [str "# head"; str "  "; str "1 2"; str "3 4"] (str ""))))
    (str "1 2", open_text (file [str "3 4"] (str ""))).
Proof.
  apply (C56_next_line_is_first_other_line [str "# head"; str "  "] (str "1 2") [str "3 4"] (str "")).
  - split; [repeat constructor; cbn; intros Q; repeat destruct Q as [Q|Q]; discriminate || contradiction|intros []].
  - repeat constructor; apply skippable_ok; reflexivity.
  - intros Q. apply skippable_ok in Q. discriminate.
Qed.
Example C57_example : forall fuel, next_line fuel (open_text (file [str "# only a header"] [])) = None.
Proof.
  apply C57_never_returns_refuted.
  - split; [repeat constructor; cbn; intros Q; repeat destruct Q as [Q|Q]; discriminate || contradiction|intros []].
  - repeat constructor; apply skippable_ok; reflexivity.
Qed.
