(** Proofs about decimal numbers, written lists, headers and copied files. *)
From Coq Require Import Ascii String DecimalString DecimalN Decimal.
From Verif Require Import Base M_Text Spec_Text Spec_LatticeReal Pf_Text M_Io.
Local Open Scope list_scope.

Definition digit (c : ascii) : Prop := (48 <= nat_of_ascii c <= 57)%nat.
Lemma str_inj s t : str s = str t -> s = t.
Proof. intros H. rewrite <- (string_of_list_ascii_of_string s), <- (string_of_list_ascii_of_string t). unfold str in H. rewrite H. reflexivity. Qed.
Lemma empty_digits d : Forall digit (str (NilEmpty.string_of_uint d)).
Proof. induction d; cbn; constructor; try exact IHd; unfold digit; cbn; lia. Qed.
Lemma dec_digits n : Forall digit (dec n).
Proof.
  unfold dec. destruct (N.to_uint (Z.to_N n)) eqn:E; [|apply empty_digits..]. cbn. constructor; [unfold digit; cbn; lia|constructor].
Qed.
Lemma dec_nonempty n : dec n <> [].
Proof. unfold dec. destruct (N.to_uint (Z.to_N n)); discriminate. Qed.
Lemma dec_inj a b : (0 <= a)%Z -> (0 <= b)%Z -> dec a = dec b -> a = b.
Proof.
  intros Ha Hb H. unfold dec in H. apply str_inj in H.
  assert (E : N.to_uint (Z.to_N a) = N.to_uint (Z.to_N b)).
  { assert (Q : forall n, N.to_uint n <> Nil). { intros n Q. pose proof (DecimalN.Unsigned.of_to n) as R. rewrite Q in R. cbn in R. subst n. discriminate. }
    pose proof (NilZero.usu (N.to_uint (Z.to_N a)) (Q _)) as U1. pose proof (NilZero.usu (N.to_uint (Z.to_N b)) (Q _)) as U2. rewrite H in U1. congruence. }
  apply DecimalN.Unsigned.to_uint_inj in E. lia.
Qed.
Lemma digit_not c n : digit c -> (n < 48)%nat -> c <> ascii_of_nat n.
Proof. intros H Hn ->. unfold digit in H. rewrite nat_ascii_embedding in H; lia. Qed.
Lemma dec_not n k : (k < 48)%nat -> ~ In (ascii_of_nat k) (dec n).
Proof. intros Hk H. pose proof (dec_digits n) as D. rewrite Forall_forall in D. apply D in H. exact (digit_not _ k H Hk eq_refl). Qed.
Lemma cut_unique {A} (x : A) a : forall b r s, ~ In x a -> ~ In x b -> a ++ x :: r = b ++ x :: s -> a = b /\ r = s.
Proof.
  induction a as [|y a IH]; intros b r s Ha Hb E; destruct b as [|z b]; cbn in E; inversion E; subst; auto.
  - exfalso. apply Hb. left. reflexivity.
  - exfalso. apply Ha. left. reflexivity.
  - destruct (IH b r s) as [-> ->]; auto; intros Q; [apply Ha|apply Hb]; right; exact Q.
Qed.

(** ** read_triplet_list *)
Lemma read_loop_lines {Scalar} : forall complete last buf (l : tlist Scalar), lines_ok complete last ->
  forall fuel, (S (length complete) <= fuel)%nat ->
  read_loop fuel (open_text (file complete last)) buf l = Some (mkI [] true (is_empty last), l).
Proof.
  induction complete as [|c cs IH]; intros last buf l [H1 H2] fuel Hf; (destruct fuel as [|fuel]; [cbn in Hf; lia|]); cbn [read_loop].
  - rewrite getline_tail by exact H2. reflexivity.
  - rewrite getline_line by exact (Forall_inv H1). cbn [open_text eofbit]. change (mkI (file cs last) false false) with (open_text (file cs last)).
    apply IH; [split; [exact (Forall_inv_tail H1)|exact H2]|cbn in Hf; lia].
Qed.
Lemma read_loop_fail {Scalar} : forall fuel r buf (l : tlist Scalar), read_loop fuel (mkI r false true) buf l = None.
Proof. induction fuel as [|n IH]; intros r buf l; [reflexivity|]. cbn [read_loop]. unfold getline. cbn [eofbit failbit rest orb]. apply IH. Qed.

(** ** copying *)
Definition count (ls : list text) : nat := length (filter (fun l => negb (is_skippable_line l)) ls).
Lemma count_app a b : count (a ++ b) = (count a + count b)%nat.
Proof. unfold count. rewrite filter_app, app_length. reflexivity. Qed.
Lemma count_cons l ls : count (l :: ls) = ((if is_skippable_line l then 0 else 1) + count ls)%nat.
Proof. unfold count. cbn. destruct (is_skippable_line l); reflexivity. Qed.
(** the body on a complete line *)
Lemma copy_body_line l ls tail buf k out : no_newline l ->
  copy_body (mkC (open_text (file (l :: ls) tail)) buf k out) = mkC (open_text (file ls tail)) l (k + count [l]) (out ++ l).
Proof.
  intros H. unfold copy_body. cbn [c_in c_buf c_counter c_out]. rewrite getline_line by exact H. rewrite count_cons. cbn [count filter length]. unfold count. cbn.
  destruct (is_skippable_line l); f_equal; lia.
Qed.
Lemma copy_loop_mono fuel : forall n c x, copy_loop fuel n c = Some x -> forall m, (fuel <= m)%nat -> copy_loop m n c = Some x.
Proof.
  induction fuel as [|f IH]; intros n c x H m Hm; cbn [copy_loop] in H.
  - destruct (Nat.ltb (c_counter c) n) eqn:E; [discriminate|]. destruct m; cbn [copy_loop]; rewrite E; exact H.
  - destruct m as [|m]; [lia|]. cbn [copy_loop]. destruct (Nat.ltb (c_counter c) n) eqn:E; [|exact H]. apply IH; [exact H|lia].
Qed.
(** complete lines are copied without their newlines as long as the limit is not reached *)
Lemma copy_lines : forall pre fuel n post tail buf k out, Forall no_newline pre ->
  (forall a b, pre = a ++ b -> b <> [] -> (k + count a < n)%nat) ->
  exists buf', copy_loop (length pre + fuel) n (mkC (open_text (file (pre ++ post) tail)) buf k out) =
  copy_loop fuel n (mkC (open_text (file post tail)) buf' (k + count pre) (out ++ concat pre)).
Proof.
  induction pre as [|l pre IH]; intros fuel n post tail buf k out H1 H2.
  - exists buf. cbn [length Nat.add app concat]. change (count []) with 0%nat. rewrite Nat.add_0_r, app_nil_r. reflexivity.
  - pose proof (Forall_inv H1) as N1. apply Forall_inv_tail in H1.
    cbn [length Nat.add copy_loop]. cbn [c_counter]. pose proof (H2 [] (l :: pre) eq_refl ltac:(discriminate)) as Q. change (count []) with 0%nat in Q. rewrite Nat.add_0_r in Q.
    apply Nat.ltb_lt in Q. rewrite Q. cbn [app]. rewrite copy_body_line by exact N1.
    destruct (IH fuel n post tail l (k + count [l])%nat (out ++ l) H1) as [b Hb].
    + intros a b -> Hb. specialize (H2 (l :: a) b eq_refl Hb). rewrite (count_cons l a) in H2. rewrite (count_cons l []). change (count []) with 0%nat. lia.
    + exists b. rewrite Hb. f_equal. rewrite (count_cons l []), (count_cons l pre). change (count []) with 0%nat. cbn [concat]. rewrite app_assoc. f_equal; lia.
Qed.
(** at the end of the file a skippable buffer keeps the loop running *)
Lemma copy_end fuel : forall n k f buf out, is_skippable_line buf = true -> (k < n)%nat -> copy_loop fuel n (mkC (mkI [] true f) buf k out) = None.
Proof.
  induction fuel as [|m IH]; intros n k f buf out Hb Hk; cbn [copy_loop c_counter]; apply Nat.ltb_lt in Hk as Hk'; rewrite Hk'; [reflexivity|].
  unfold copy_body. cbn [c_in c_buf c_counter c_out]. rewrite getline_end, Hb. apply IH; assumption.
Qed.
(** at the end of the file a data line in the buffer is copied again and again *)
Lemma copy_again : forall m fuel n k f buf out, is_skippable_line buf = false -> (k + m = n)%nat -> (m <= fuel)%nat ->
  exists c, copy_loop fuel n (mkC (mkI [] true f) buf k out) = Some c /\ c_out c = out ++ concat (repeat buf m).
Proof.
  induction m as [|m IH]; intros fuel n k f buf out Hb Hk Hf.
  - exists (mkC (mkI [] true f) buf k out). cbn [repeat concat c_out]. rewrite app_nil_r. split; [|reflexivity].
    destruct fuel; cbn [copy_loop c_counter]; (replace (Nat.ltb k n) with false by (symmetry; apply Nat.ltb_ge; lia)); reflexivity.
  - destruct fuel as [|fuel]; [lia|]. cbn [copy_loop c_counter]. replace (Nat.ltb k n) with true by (symmetry; apply Nat.ltb_lt; lia).
    unfold copy_body. cbn [c_in c_buf c_counter c_out]. rewrite getline_end, Hb. destruct (IH fuel n (S k) true buf (out ++ buf) Hb ltac:(lia) ltac:(lia)) as (c & E1 & E2).
    exists c. split; [exact E1|]. rewrite E2. cbn [repeat concat]. rewrite app_assoc. reflexivity.
Qed.
