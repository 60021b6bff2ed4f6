(** Proofs about the text form of sparse matrices. *)
From Coq Require Import Ascii String DecimalString DecimalN Decimal.
From Verif Require Import Base M_Text Spec_Text Spec_LatticeReal Pf_Text P_Text M_Io Pf_Io M_Matrix M_EigenIo Spec_EigenIo.
Local Open Scope Z_scope.
Local Open Scope list_scope.

(** ** reading content lines *)
Lemma holds_next t c cs : holds_lines t (c :: cs) ->
  exists s', still_holds s' cs /\ terminates_with (fun fuel => next_line fuel (open_text t)) (c, s').
Proof.
  intros (complete & last & -> & L & C).
  assert (G : exists sk, Forall blank_or_comment sk /\ ~ blank_or_comment c /\
    ((exists ls, complete = sk ++ c :: ls /\ content (ls ++ [last]) cs) \/ (complete = sk /\ last = c /\ cs = []))).
  { clear L. induction complete as [|l ls IH]; cbn [app] in C.
    - inversion C as [|? ? ? H1 H2|? ? ? H1 H2]; subst; [inversion H2|]. inversion H2; subst. exists []. split; [constructor|]. split; [exact H1|]. right. auto.
    - inversion C as [|? ? ? H1 H2|? ? ? H1 H2]; subst.
      + destruct (IH H2) as (sk & S1 & S2 & [(ls' & -> & E)|(-> & -> & ->)]).
        * exists (l :: sk). split; [constructor; assumption|]. split; [exact S2|]. left. exists ls'. split; [reflexivity|exact E].
        * exists (l :: sk). split; [constructor; assumption|]. split; [exact S2|]. right. auto.
      + exists []. split; [constructor|]. split; [exact H1|]. left. exists ls. split; [reflexivity|exact H2]. }
  destruct G as (sk & S1 & S2 & [(ls & -> & E)|(-> & -> & ->)]).
  - exists (open_text (file ls last)). split.
    + left. exists (file ls last). split; [reflexivity|]. exists ls, last. split; [reflexivity|]. split; [|exact E].
      destruct L as [L1 L2]. apply Forall_app in L1 as [_ L1]. split; [exact (Forall_inv_tail L1)|exact L2].
    + apply C56_next_line_is_first_other_line; assumption.
  - exists (mkI [] true false). split; [right; auto|]. apply C56_next_line_last_line; assumption.
Qed.
Lemma still_next s c cs : still_holds s (c :: cs) ->
  exists s', still_holds s' cs /\ terminates_with (fun fuel => next_line fuel s) (c, s').
Proof. intros [(t & -> & H)|[_ H]]; [exact (holds_next t c cs H)|discriminate]. Qed.
Lemma still_none s fuel : still_holds s [] -> next_line fuel s = None.
Proof.
  intros [(t & -> & complete & last & -> & [L1 L2] & C)|[E _]].
  - assert (Sk : Forall blank_or_comment (complete ++ [last])).
    { clear L1 L2. remember (complete ++ [last]) as ls eqn:El. clear El. remember (@nil text) as cs eqn:Ec. induction C as [|l ls cs H C IH|]; [constructor|constructor; auto|discriminate]. }
    apply Forall_app in Sk as [Sk Sl]. apply Forall_inv in Sl.
    destruct (next_line fuel (open_text (file complete last))) as [x|] eqn:E; [|reflexivity]. exfalso.
    pose proof (loop_mono _ _ _ _ E (length complete + S fuel)%nat ltac:(lia)) as E2.
    destruct (loop_lines complete (S fuel) [] last [] L1) as [b Hb].
    { eapply Forall_impl; [|exact Sk]. intros y. apply skippable_ok. }
    rewrite app_nil_r in Hb. rewrite Hb in E2. cbn [next_line_loop] in E2. rewrite getline_tail in E2 by exact L2.
    apply skippable_ok in Sl. rewrite Sl in E2. rewrite loop_end in E2 by exact Sl. discriminate.
  - unfold next_line. apply loop_stuck; [rewrite E; reflexivity|reflexivity].
Qed.

(** ** characters *)
Lemma class_d_ok c : class_d c = true <-> digit c.
Proof. unfold class_d, digit, code. rewrite andb_true_iff, !Nat.leb_le. lia. Qed.
Lemma class_x_ok c : class_x c = true <-> c = "x"%char.
Proof. unfold class_x. apply Ascii.eqb_eq. Qed.
Lemma digit_not_space c : digit c -> ~ space c.
Proof. unfold digit, space. cbn [In]. lia. Qed.
Lemma skip_spaces w t : Forall space w -> skip_space (w ++ t) = skip_space t.
Proof. intros H. induction H as [|c w Hc Hw IH]; [reflexivity|]. cbn [app skip_space]. rewrite (proj2 (class_s_ok c) Hc). exact IH. Qed.
Lemma skip_none t : (forall c u, t = c :: u -> ~ space c) -> skip_space t = t.
Proof.
  intros H. destruct t as [|c u]; [reflexivity|]. cbn [skip_space]. destruct (class_s c) eqn:E; [|reflexivity]. exfalso. exact (H c u eq_refl (proj1 (class_s_ok c) E)).
Qed.
Lemma take_run d t : Forall digit d -> (forall c u, t = c :: u -> ~ digit c) -> take_digits (d ++ t) = (d, t).
Proof.
  intros H Ht. induction H as [|c d Hc Hd IH]; cbn [app take_digits].
  - destruct t as [|c u]; [reflexivity|]. cbn [take_digits]. destruct (class_d c) eqn:E; [|reflexivity]. exfalso. exact (Ht c u eq_refl (proj1 (class_d_ok c) E)).
  - rewrite (proj2 (class_d_ok c) Hc), IH. reflexivity.
Qed.
Lemma horner_from d : forall a, fold_left (fun a c => 10 * a + (Z.of_nat (code c) - 48)) d a = a * 10 ^ Z.of_nat (length d) + number d.
Proof.
  induction d as [|c d IH]; intros a; cbn [fold_left length number]; [change (10 ^ Z.of_nat 0) with 1; ring|]. rewrite IH. unfold code.
  rewrite Nat2Z.inj_succ, Z.pow_succ_r by lia. ring.
Qed.
Lemma horner_ok d : horner d = number d.
Proof. unfold horner. rewrite horner_from. ring. Qed.
Lemma number_nonneg d : Forall digit d -> 0 <= number d.
Proof.
  intros H. induction H as [|c d Hc Hd IH]; cbn [number]; [lia|]. unfold digit in Hc.
  pose proof (Z.pow_nonneg 10 (Z.of_nat (length d)) ltac:(lia)). nia.
Qed.
Lemma digit_head d n : numeral d n -> exists c d', d = c :: d' /\ digit c.
Proof. intros (H1 & H2 & _). destruct d as [|c d']; [contradiction|]. exists c, d'. split; [reflexivity|]. exact (Forall_inv H2). Qed.
Lemma sign_digit c : digit c -> Ascii.eqb c "-"%char = false /\ Ascii.eqb c "+"%char = false.
Proof. intros H. split; apply Ascii.eqb_neq; intros ->; unfold digit in H; cbn in H; lia. Qed.
Lemma strtoul_any w d t n : Forall space w -> numeral d n -> (forall c u, t = c :: u -> ~ digit c) -> strtoul (w ++ d ++ t) = Z.min n (two64 - 1).
Proof.
  intros Hw Hd Ht. destruct (digit_head d n Hd) as (c & d' & E & Hc). destruct (sign_digit c Hc) as [E1 E2]. destruct Hd as (_ & Hd & En).
  unfold strtoul. rewrite skip_spaces by exact Hw. rewrite skip_none; [|intros c0 u Q; rewrite E in Q; injection Q as <- _; apply digit_not_space, Hc].
  pose proof (take_run d t Hd Ht) as T. rewrite E in T |- *. cbn [app] in T |- *. rewrite E1, E2, T. cbn [fst]. rewrite <- E, horner_ok, En.
  destruct (Z.leb_spec two64 n); lia.
Qed.
Lemma strtoul_ok w d t n : Forall space w -> numeral d n -> (forall c u, t = c :: u -> ~ digit c) -> n < two64 -> strtoul (w ++ d ++ t) = n.
Proof. intros Hw Hd Ht Hn. rewrite (strtoul_any w d t n) by assumption. lia. Qed.
Lemma scan_ok w d t n : Forall space w -> numeral d n -> (forall c u, t = c :: u -> ~ digit c) -> n < two64 / 2 -> scan_int (w ++ d ++ t) = (n, Some t).
Proof.
  intros Hw Hd Ht Hn. destruct (digit_head d n Hd) as (c & d' & E & Hc). destruct (sign_digit c Hc) as [E1 E2]. destruct Hd as (_ & Hd & En).
  unfold scan_int. rewrite skip_spaces by exact Hw. rewrite skip_none; [|intros c0 u Q; rewrite E in Q; injection Q as <- _; apply digit_not_space, Hc].
  pose proof (take_run d t Hd Ht) as T. pose proof (number_nonneg d Hd) as P. rewrite E in T |- *. cbn [app] in T |- *. rewrite E1, E2, T. cbn [is_empty]. rewrite <- E, horner_ok, En in *.
  assert (0 <= two64 / 2) by (rewrite <- En in *; lia).
  destruct (Z.ltb_spec n (- (two64 / 2))); [lia|]. destruct (Z.leb_spec (two64 / 2) n); [lia|reflexivity].
Qed.

(** ** the dimension line *)
Lemma plus_class p s : in_language (r_plus (RClass p)) s <-> s <> [] /\ Forall (fun c => p c = true) s.
Proof.
  unfold r_plus. split.
  - intros H. inversion H as [| |? ? a b H1 H2 E1 E2| | | |]; subst. inversion H1; subst. apply star_class in H2. split; [discriminate|]. cbn. constructor; assumption.
  - intros [H1 H2]. destruct s as [|c s]; [contradiction|]. change (c :: s) with ([c] ++ s). constructor; [constructor; exact (Forall_inv H2)|]. apply star_class. exact (Forall_inv_tail H2).
Qed.
Lemma dimension_match l : regex_match l dimension_regex = true <-> exists r c, dimension_line l r c.
Proof.
  rewrite regex_match_ok. unfold dimension_regex. split.
  - intros H. inversion H as [| |? ? w1 t1 H1 H2 E1 E2| | | |]; subst. clear H.
    inversion H2 as [| |? ? d1 t2 H3 H4 E1 E2| | | |]; subst. clear H2. inversion H4 as [| |? ? w2 t3 H5 H6 E1 E2| | | |]; subst. clear H4.
    inversion H6 as [| |? ? x t4 H7 H8 E1 E2| | | |]; subst. clear H6. inversion H8 as [| |? ? w3 t5 H9 H10 E1 E2| | | |]; subst. clear H8.
    inversion H10 as [| |? ? d2 w4 H11 H12 E1 E2| | | |]; subst. clear H10. inversion H7; subst. 
    apply star_class in H1, H5, H9, H12. apply plus_class in H3, H11. destruct H3 as [N1 D1], H11 as [N2 D2].
    exists (number d1), (number d2), w1, d1, w2, w3, d2, w4. rewrite (proj1 (class_x_ok _) H0). split; [reflexivity|].
    assert (F : forall w, Forall (fun c => class_s c = true) w -> Forall space w) by (intros w; apply Forall_impl; intros a; apply class_s_ok).
    assert (G : forall w, Forall (fun c => class_d c = true) w -> Forall digit w) by (intros w; apply Forall_impl; intros a; apply class_d_ok).
    unfold numeral. repeat split; auto.
  - intros (r & c & w1 & d1 & w2 & w3 & d2 & w4 & -> & S1 & S2 & S3 & S4 & (N1 & D1 & _) & (N2 & D2 & _)).
    assert (F : forall w, Forall space w -> in_language (RStar (RClass class_s)) w) by (intros w Hw; apply star_class; revert Hw; apply Forall_impl; intros a; apply class_s_ok).
    assert (G : forall w, w <> [] -> Forall digit w -> in_language (r_plus (RClass class_d)) w).
    { intros w Hn Hw. apply plus_class. split; [exact Hn|]. revert Hw; apply Forall_impl; intros a; apply class_d_ok. }
    repeat apply L_seq; auto. constructor. reflexivity.
Qed.
Lemma space_not_digit c : space c -> ~ digit c.
Proof. unfold digit, space. cbn [In]. lia. Qed.
Lemma after_spaces w t : Forall space w -> (forall c u, t = c :: u -> ~ digit c) -> forall c u, w ++ t = c :: u -> ~ digit c.
Proof. intros Hw Ht c u E. destruct w as [|c0 w]; [exact (Ht c u E)|]. cbn in E. injection E as -> _. apply space_not_digit. exact (Forall_inv Hw). Qed.
Lemma dimension_any l r c : dimension_line l r c -> strtoul (sub1 l) = Z.min r (two64 - 1) /\ strtoul (sub2 l) = Z.min c (two64 - 1).
Proof.
  intros (w1 & d1 & w2 & w3 & d2 & w4 & -> & S1 & S2 & S3 & S4 & N1 & N2).
  assert (A1 : forall c0 u, w2 ++ ["x"%char] ++ w3 ++ d2 ++ w4 = c0 :: u -> ~ digit c0).
  { apply after_spaces; [exact S2|]. intros c0 u Q. cbn in Q. injection Q as <- _. unfold digit. cbn. lia. }
  assert (A2 : forall c0 u, w4 = c0 :: u -> ~ digit c0) by (intros c0 u ->; apply space_not_digit; exact (Forall_inv S4)).
  assert (K : forall d n t, numeral d n -> skip_space (d ++ t) = d ++ t).
  { intros d n t Hd. apply skip_none. intros c0 u Q. destruct (digit_head d n Hd) as (c1 & d' & -> & H1). cbn in Q. injection Q as <- _. apply digit_not_space, H1. }
  assert (U : forall d n, numeral d n -> strtoul d = Z.min n (two64 - 1)).
  { intros d n Hd. rewrite <- (app_nil_r d), <- (app_nil_l (d ++ [])). apply strtoul_any; [constructor|exact Hd|intros c0 u Q; discriminate]. }
  unfold sub1, sub2. rewrite (skip_spaces w1) by exact S1. rewrite (K d1 r _ N1), take_run by (exact A1 || apply N1). cbn [fst snd].
  split; [apply U; assumption|]. rewrite (skip_spaces w2) by exact S2. cbn [app skip_space]. replace (class_s "x"%char) with false by reflexivity.
  rewrite (skip_spaces w3) by exact S3. rewrite (K d2 c _ N2), take_run by (exact A2 || apply N2). cbn [fst]. apply U; assumption.
Qed.
Lemma dimension_values l r c : dimension_line l r c -> r < two64 -> c < two64 -> strtoul (sub1 l) = r /\ strtoul (sub2 l) = c.
Proof. intros D Hr Hc. destruct (dimension_any l r c D) as [-> ->]. lia. Qed.

(** ** the entries *)
Section Entries.
  Context {S : Type} (rd : text -> option (S * text)) (on_fail : option S -> option S).
  Lemma parse_ok old l i j v : entry_line rd l i j v -> i < two64 / 2 -> j < two64 / 2 -> parse_entry rd on_fail old l = Ok (i, j, v).
  Proof.
    intros (w1 & d1 & w2 & d2 & w3 & t & u & -> & S1 & S2 & S3 & E2 & E3 & N1 & N2 & Ht & R) Hi Hj. unfold parse_entry.
    assert (F : forall w t0, w <> [] -> Forall space w -> forall c0 u0, w ++ t0 = c0 :: u0 -> ~ digit c0).
    { intros w t0 Hn Hw c0 u0 Q. destruct w as [|a w]; [contradiction|]. cbn in Q. injection Q as -> _. apply space_not_digit. exact (Forall_inv Hw). }
    rewrite (scan_ok w1 d1 _ i) by (assumption || apply F; assumption). cbn iota beta.
    rewrite (scan_ok w2 d2 _ j) by (assumption || apply F; assumption). cbn iota beta.
    rewrite skip_spaces by exact S3. rewrite skip_none by exact Ht. rewrite R. reflexivity.
  Qed.
  (** the matrix after the insertion of a list of entries *)
  Definition good (r c : Z) (es : list (tentry S)) (m : ematrix S) : Prop :=
    em_rows m = r /\ em_cols m = c /\ forall i j v, em_at m i j = Some v <-> In (mkE _ i j v) es.
  Lemma entries_ok r c : r <= two64 / 2 -> c <= two64 / 2 ->
    forall lines es, Forall2 (fun l e => entry_line rd l (e_row e) (e_col e) (e_val e)) lines es ->
    forall done m s more, good r c done m -> NoDup (map (fun e => (e_row e, e_col e)) (done ++ es)) ->
    Forall (fun e => 0 <= e_row e < r /\ 0 <= e_col e < c) es -> still_holds s (lines ++ more) ->
    forall old, exists s' m', let old' := fold_left (fun _ e => Some (e_col e, e_val e)) es old in good r c (done ++ es) m' /\ still_holds s' more /\ 
      exists f0, forall fuel, (f0 <= fuel)%nat -> forall k,
        read_entries rd on_fail fuel (length lines + k) s old m = read_entries rd on_fail fuel k s' old' m'.
  Proof.
    intros Hr Hc lines es F. induction F as [|l e lines es Hl F IH]; intros done m s more G ND B H old.
    - exists s, m. rewrite app_nil_r. split; [exact G|]. split; [exact H|]. exists O. intros fuel _ k. reflexivity.
    - cbn [app] in H. destruct (still_next s l (lines ++ more) H) as (s1 & H1 & f1 & T1).
      pose proof (Forall_inv B) as [B1 B2]. apply Forall_inv_tail in B.
      pose proof G as (G1 & G2 & G3).
      assert (EI : exists m1, em_insert m (e_row e) (e_col e) (e_val e) = Ok m1 /\ good r c (done ++ [e]) m1).
      { unfold em_insert. rewrite G1, G2. replace ((0 <=? e_row e) && (e_row e <? r) && (0 <=? e_col e) && (e_col e <? c))%bool with true by (symmetry; rewrite !andb_true_iff, !Z.leb_le, !Z.ltb_lt; lia).
        assert (FR : forall v, ~ In (mkE _ (e_row e) (e_col e) v) done).
        { intros v Q. rewrite map_app in ND. cbn [map] in ND. apply NoDup_remove_2 in ND. apply ND. apply in_or_app. left. apply in_map_iff. exists (mkE _ (e_row e) (e_col e) v). split; [reflexivity|exact Q]. }
        destruct (em_at m (e_row e) (e_col e)) as [v|] eqn:Ea; [exfalso; apply G3 in Ea; exact (FR v Ea)|]. eexists. split; [reflexivity|]. split; [reflexivity|]. split; [reflexivity|].
        intros i j v. cbn [em_at]. destruct ((i =? e_row e) && (j =? e_col e))%bool eqn:Eq.
        - apply andb_true_iff in Eq as [Q1 Q2]. apply Z.eqb_eq in Q1, Q2. subst i j. rewrite in_app_iff. cbn [In]. split.
          + intros Q. injection Q as <-. right. left. destruct e; reflexivity.
          + intros [Q|[Q|[]]]; [exfalso; exact (FR v Q)|]. rewrite Q. reflexivity.
        - rewrite G3, in_app_iff. cbn [In]. split; [auto|]. intros [Q|[Q|[]]]; [exact Q|]. subst e. cbn [e_row e_col] in Eq. rewrite !Z.eqb_refl in Eq. discriminate. }
      destruct EI as (m1 & EI & Gm). 
      destruct (IH (done ++ [e]) m1 s1 more Gm) with (old := Some (e_col e, e_val e)) as (s' & m' & G' & H' & f0 & T').
      + rewrite <- app_assoc. exact ND.
      + exact B.
      + exact H1.
      + exists s', m'. rewrite <- app_assoc in G'. split; [exact G'|]. split; [exact H'|]. exists (Nat.max f0 f1). intros fuel Hf k.
        cbn [length Nat.add read_entries]. rewrite T1 by lia. rewrite (parse_ok old l _ _ _ Hl) by lia. rewrite EI. apply T'. lia.
  Qed.
End Entries.

(** ** decimal output *)
Lemma uint_acc d : forall acc, Zpos (Pos.of_uint_acc d acc) = fold_left (fun a c => 10 * a + (Z.of_nat (code c) - 48)) (str (NilEmpty.string_of_uint d)) (Zpos acc).
Proof.
  induction d as [|d IH|d IH|d IH|d IH|d IH|d IH|d IH|d IH|d IH|d IH]; intros acc; cbn [Pos.of_uint_acc NilEmpty.string_of_uint]; [reflexivity|rewrite IH; unfold str; cbn [list_ascii_of_string fold_left]; f_equal; match goal with |- context[code ?c] => let v := eval vm_compute in (code c) in change (code c) with v end; lia..].
Qed.
Lemma dec_number n : 0 <= n -> number (dec n) = n.
Proof.
  intros Hn. rewrite <- horner_ok. unfold dec.
  assert (E : Z.of_N (N.of_uint (N.to_uint (Z.to_N n))) = n) by (rewrite DecimalN.Unsigned.of_to; lia).
  rewrite <- E at 2. generalize (N.to_uint (Z.to_N n)). clear. intros d. unfold N.of_uint.
  assert (Q : horner (str (NilEmpty.string_of_uint d)) = Z.of_N (Pos.of_uint d)).
  { induction d; try reflexivity; cbn [Pos.of_uint Z.of_N]; try (rewrite uint_acc; reflexivity). rewrite <- IHd. reflexivity. }
  destruct d; [reflexivity|exact Q..].
Qed.
Lemma dec_numeral n : 0 <= n -> numeral (dec n) n.
Proof. intros H. split; [apply dec_nonempty|]. split; [apply dec_digits|apply dec_number, H]. Qed.
