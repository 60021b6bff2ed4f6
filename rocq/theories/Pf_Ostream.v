(** PROOFS for C121: reading back what operator<< prints. *)
From Coq Require Import Reals Lra Lia Ascii String List ZArith.
From Flocq Require Import Core.
From Verif Require Import Base M_Text M_Io M_Ostream Spec_Numeral.
Import ListNotations.
Local Open Scope R_scope.
Local Open Scope list_scope.

Definition decimal (l : text) : Prop := Forall (fun c => exists d, (0 <= d < 10)%Z /\ c = digit d) l.
Lemma digit_cases d : (0 <= d < 10)%Z -> In d [0;1;2;3;4;5;6;7;8;9]%Z.
Proof. intros H. cbn. lia. Qed.
Lemma digit_ok d : (0 <= d < 10)%Z -> digit_value (digit d) = Some d.
Proof. intros H. apply digit_cases in H. cbn in H. repeat (destruct H as [<-|H]; [reflexivity|]). destruct H. Qed.
Lemma digit_not d c : (0 <= d < 10)%Z -> (c = "e" \/ c = "." \/ c = "-" \/ c = "+")%char -> Ascii.eqb (digit d) c = false.
Proof. intros H C. apply digit_cases in H. cbn in H. destruct C as [-> | [-> | [-> | ->]]]; repeat (destruct H as [<-|H]; [reflexivity|]); destruct H. Qed.
Lemma decimal_app l r : decimal l -> decimal r -> decimal (l ++ r).
Proof. intros. apply Forall_app. split; assumption. Qed.
Lemma digits_decimal k : forall m, decimal (digits k m).
Proof.
  induction k as [|k IH]; intros m; [constructor|]. cbn [digits]. apply decimal_app; [apply IH|]. constructor; [|constructor].
  exists (m mod 10)%Z. split; [apply Z.mod_pos_bound; lia|reflexivity].
Qed.
Lemma digits_length k : forall m, length (digits k m) = k.
Proof. induction k as [|k IH]; intros m; [reflexivity|]. cbn [digits]. rewrite app_length, IH. cbn. lia. Qed.
Lemma zeros_decimal k : decimal (repeat (digit 0) k).
Proof. apply Forall_forall. intros c Hc. apply repeat_spec in Hc. exists 0%Z. split; [lia|exact Hc]. Qed.
Lemma read_app l : forall acc r, read_digits acc (l ++ r) = match read_digits acc l with Some a => read_digits a r | None => None end.
Proof. induction l as [|c l IH]; intros acc r; cbn [app read_digits]; [reflexivity|]. destruct (digit_value c); [apply IH|reflexivity]. Qed.
Lemma read_one acc d : (0 <= d < 10)%Z -> read_digits acc [digit d] = Some (10 * acc + d)%Z.
Proof. intros H. cbn [read_digits]. rewrite digit_ok by exact H. reflexivity. Qed.
Lemma read_digits_of k : forall acc m, (0 <= m < 10 ^ Z.of_nat k)%Z -> read_digits acc (digits k m) = Some (acc * 10 ^ Z.of_nat k + m)%Z.
Proof.
  induction k as [|k IH]; intros acc m H; [cbn in *; f_equal; lia|]. cbn [digits]. rewrite read_app.
  rewrite Nat2Z.inj_succ, Z.pow_succ_r in * by lia. rewrite IH by (split; [apply Z.div_pos; lia|apply Z.div_lt_upper_bound; lia]).
  rewrite read_one by (apply Z.mod_pos_bound; lia). f_equal. pose proof (Z.div_mod m 10 ltac:(lia)). lia.
Qed.
Lemma read_zeros j : forall acc, read_digits acc (repeat (digit 0) j) = Some (acc * 10 ^ Z.of_nat j)%Z.
Proof.
  induction j as [|j IH]; intros acc; [cbn; f_equal; lia|]. cbn [repeat read_digits]. rewrite digit_ok by lia. rewrite IH. rewrite Nat2Z.inj_succ, Z.pow_succ_r by lia. f_equal. lia.
Qed.
Lemma read_decimal l : decimal l -> forall acc, exists v, read_digits acc l = Some v.
Proof.
  induction 1 as [|c l (d & Hd & ->) Hl IH]; intros acc; [eexists; reflexivity|]. cbn [read_digits]. rewrite digit_ok by exact Hd. apply IH.
Qed.
(** dropping zeros *)
Lemma drop_back l : exists j, l = repeat (digit 0) j ++ drop_zeros l.
Proof.
  induction l as [|c l (j & IH)]; [exists 0%nat; reflexivity|]. cbn [drop_zeros]. destruct (Ascii.eqb c (digit 0)) eqn:E.
  - apply Ascii.eqb_eq in E. subst c. exists (S j). cbn [repeat app]. f_equal. exact IH.
  - exists 0%nat. reflexivity.
Qed.
Lemma rev_zeros j : rev (repeat (digit 0) j) = repeat (digit 0) j.
Proof.
  assert (S1 : forall k, repeat (digit 0) k ++ [digit 0] = digit 0 :: repeat (digit 0) k) by (induction k as [|k IH]; [reflexivity|cbn [repeat app]; rewrite IH; reflexivity]).
  induction j as [|j IH]; [reflexivity|]. cbn [repeat rev]. rewrite IH. apply S1.
Qed.
Lemma fraction_cases p : decimal p -> exists s j, p = s ++ repeat (digit 0) j /\ decimal s /\ fraction p = match s with [] => [] | _ => str "." ++ s end.
Proof.
  intros D. destruct (drop_back (rev p)) as (j & E). exists (rev (drop_zeros (rev p))), j.
  assert (Ep : p = rev (drop_zeros (rev p)) ++ repeat (digit 0) j).
  { apply (f_equal (@rev ascii)) in E. rewrite rev_involutive, rev_app_distr, rev_zeros in E. exact E. }
  split; [exact Ep|]. split; [|unfold fraction; destruct (rev (drop_zeros (rev p))); reflexivity]. rewrite Ep in D. apply Forall_app in D. apply D.
Qed.
(** cutting *)
Lemma cut_none c l : decimal l -> (c = "e" \/ c = "." \/ c = "-" \/ c = "+")%char -> cut c l = (l, None).
Proof.
  intros D C. induction D as [|a l (d & Hd & ->) Hl IH]; [reflexivity|]. cbn [cut]. rewrite (digit_not d c Hd C), IH. reflexivity.
Qed.
Lemma cut_some c l r : decimal l -> (c = "e" \/ c = "." \/ c = "-" \/ c = "+")%char -> cut c (l ++ c :: r) = (l, Some r).
Proof.
  intros D C. induction D as [|a l (d & Hd & ->) Hl IH]; cbn [app cut]; [rewrite Ascii.eqb_refl; reflexivity|]. rewrite (digit_not d c Hd C), IH. reflexivity.
Qed.
Lemma power_add a b : powerRZ 10 (a + b) = powerRZ 10 a * powerRZ 10 b.
Proof. apply powerRZ_add. lra. Qed.
Lemma power_nat j : powerRZ 10 (Z.of_nat j) = IZR (10 ^ Z.of_nat j).
Proof. rewrite <- pow_IZR. symmetry. apply pow_powerRZ. Qed.
(** a numeral with a stripped fraction *)
Lemma unsigned_fraction w p tail x V : w <> [] -> decimal w -> decimal p -> read_digits 0 (w ++ p) = Some V ->
  (tail = [] /\ x = 0%Z \/ exists t, tail = "e"%char :: t /\ read_exponent (Some t) = Some x) ->
  unsigned (w ++ fraction p ++ tail) = Some (IZR V * powerRZ 10 (x - Z.of_nat (length p))).
Proof.
  intros Wn Dw Dp R T. destruct (fraction_cases p Dp) as (s & j & Ep & Ds & Ef).
  assert (Cm : forall mant, cut "." mant = (w, match s with [] => None | _ => Some s end) -> (forall r, cut "e" (mant ++ "e"%char :: r) = (mant, Some r)) -> cut "e" mant = (mant, None) ->
    unsigned (mant ++ tail) = Some (IZR V * powerRZ 10 (x - Z.of_nat (length p)))).
  { intros mant C1 C2 C3.
    assert (Ce : exists q, cut "e" (mant ++ tail) = (mant, q) /\ read_exponent q = Some x).
    { destruct T as [[-> ->]|(t & -> & Rt)]; [exists None; rewrite app_nil_r; split; [exact C3|reflexivity]|exists (Some t); split; [apply C2|exact Rt]]. }
    destruct Ce as (q & Cq & Rq). unfold unsigned. rewrite Cq. cbv beta iota. rewrite C1. cbv beta iota.
    destruct w as [|a w']; [contradiction|]. rewrite Rq. rewrite Ep, app_assoc, read_app in R.
    assert (F : match read_digits 0 ((a :: w') ++ s) with Some m => Some (IZR m * powerRZ 10 (x - Z.of_nat (length s))) | None => None end = Some (IZR V * powerRZ 10 (x - Z.of_nat (length p)))).
    { destruct (read_decimal _ (decimal_app _ _ Dw Ds) 0%Z) as (v & Rv). rewrite Rv in R |- *. rewrite read_zeros in R. injection R as <-. f_equal.
      rewrite Ep, app_length, repeat_length, Nat2Z.inj_add. rewrite mult_IZR, <- power_nat.
      replace (x - Z.of_nat (length s))%Z with (Z.of_nat j + (x - (Z.of_nat (length s) + Z.of_nat j)))%Z by lia. rewrite power_add. ring. }
    destruct s as [|c s]; exact F. }
  rewrite app_assoc. apply Cm.
  - rewrite Ef. destruct s as [|c s]; [rewrite app_nil_r; apply cut_none; auto|]. exact (cut_some "." w (c :: s) Dw (or_intror (or_introl eq_refl))).
  - intros r. rewrite Ef. destruct s as [|c s]; [rewrite app_nil_r; apply cut_some; auto|].
    assert (G : forall l, decimal l -> forall q, cut "e" (l ++ q) = (l ++ fst (cut "e" q), snd (cut "e" q))).
    { induction 1 as [|a l (d & Hd & ->) Hl IH]; intros q; cbn [app cut]; [destruct (cut "e" q); reflexivity|]. rewrite (digit_not d "e" Hd ltac:(auto)), IH. reflexivity. }
    rewrite <- app_assoc, (G w Dw). change ((str "." ++ c :: s) ++ "e"%char :: r) with ("."%char :: ((c :: s) ++ "e"%char :: r)). cbn [cut]. change (Ascii.eqb "." "e") with false. cbv iota. rewrite (cut_some "e" (c :: s) r Ds) by auto. reflexivity.
  - rewrite Ef. destruct s as [|c s]; [rewrite app_nil_r; apply cut_none; auto|].
    assert (G : forall l, decimal l -> forall q, cut "e" (l ++ q) = (l ++ fst (cut "e" q), snd (cut "e" q))).
    { induction 1 as [|a l (d & Hd & ->) Hl IH]; intros q; cbn [app cut]; [destruct (cut "e" q); reflexivity|]. rewrite (digit_not d "e" Hd ltac:(auto)), IH. reflexivity. }
    rewrite (G w Dw). change (str "." ++ c :: s) with ("."%char :: (c :: s)). cbn [cut]. change (Ascii.eqb "." "e") with false. cbv iota. pose proof (cut_none "e" (c :: s) Ds ltac:(auto)) as Q. cbn [cut] in Q. rewrite Q. reflexivity.
Qed.
Lemma unsigned_tail_none w p V : w <> [] -> decimal w -> decimal p -> read_digits 0 (w ++ p) = Some V ->
  unsigned (w ++ fraction p) = Some (IZR V * powerRZ 10 (- Z.of_nat (length p))).
Proof.
  intros Wn Dw Dp R. pose proof (unsigned_fraction w p [] 0 V Wn Dw Dp R (or_introl (conj eq_refl eq_refl))) as Q. rewrite app_nil_r in Q. exact Q.
Qed.
Lemma exponent_read e : exists t, exponent e = "e"%char :: t /\ read_exponent (Some t) = Some e.
Proof.
  unfold exponent.
  assert (Q : read_digits 0 (digits (Z.to_nat (Z.max 2 (Zdigits ten (Z.abs e)))) (Z.abs e)) = Some (Z.abs e)).
  { pose proof (Zdigits_correct ten (Z.abs e)) as [_ D]. rewrite Z.abs_involutive in D. rewrite read_digits_of; [f_equal; lia|]. rewrite Z2Nat.id by lia. split; [lia|].
    eapply Z.lt_le_trans; [exact D|]. apply Z.pow_le_mono_r; [reflexivity|lia]. }
  destruct (Z.ltb_spec e 0).
  - eexists. split; [reflexivity|]. unfold read_exponent. change (str "-" ++ ?l) with ("-"%char :: l). cbv iota. rewrite Ascii.eqb_refl, Q. cbn. f_equal. lia.
  - eexists. split; [reflexivity|]. unfold read_exponent. change (str "+" ++ ?l) with ("+"%char :: l). cbv iota. change (Ascii.eqb "+" "-") with false. rewrite Ascii.eqb_refl. cbv iota. rewrite Q. f_equal. lia.
Qed.
Lemma decimal_firstn k l : decimal l -> decimal (firstn k l).
Proof. intros D. rewrite <- (firstn_skipn k l) in D. apply Forall_app in D. apply D. Qed.
Lemma decimal_skipn k l : decimal l -> decimal (skipn k l).
Proof. intros D. rewrite <- (firstn_skipn k l) in D. apply Forall_app in D. apply D. Qed.
Lemma read_leading j l V : read_digits 0 l = Some V -> read_digits 0 (repeat (digit 0) j ++ l) = Some V.
Proof. intros R. rewrite read_app, read_zeros. rewrite Z.mul_0_l. exact R. Qed.
(** what the digits and the exponent say *)
Lemma show_digits_value m e : (100000 <= m < 1000000)%Z -> unsigned (show_digits m e) = Some (IZR m * powerRZ 10 (e - 5)).
Proof.
  intros Hm. unfold show_digits. pose proof (digits_decimal 6 m) as D. pose proof (digits_length 6 m) as L.
  pose proof (read_digits_of 6 0 m ltac:(cbn; lia)) as R. rewrite Z.mul_0_l, Z.add_0_l in R. remember (digits 6 m) as ds eqn:Eds. clear Eds.
  destruct (_ && _)%bool eqn:B.
  - apply andb_prop in B as [B1 B2]. apply Z.leb_le in B1. apply Z.ltb_lt in B2. destruct (Z.leb_spec 0 e) as [P|P].
    + rewrite (unsigned_tail_none _ _ m); [| |apply decimal_firstn, D|apply decimal_skipn, D|rewrite firstn_skipn; exact R].
      * do 2 f_equal. f_equal. rewrite skipn_length, L. lia.
      * destruct ds; [discriminate|]. replace (Z.to_nat (e + 1)) with (S (Z.to_nat e)) by lia. discriminate.
    + assert (Dp : decimal (repeat (digit 0) (Z.to_nat (- e - 1)) ++ ds)) by (apply decimal_app; [apply zeros_decimal|exact D]).
      pose proof (unsigned_tail_none [digit 0] _ m ltac:(discriminate) (zeros_decimal 1) Dp) as Q. cbn [app] in Q. rewrite Q.
      * do 2 f_equal. f_equal. rewrite app_length, repeat_length, L. lia.
      * exact (read_leading (S (Z.to_nat (- e - 1))) ds m R).
  - destruct (exponent_read e) as (t & Et & Rt).
    rewrite (unsigned_fraction (firstn 1 ds) (skipn 1 ds) (exponent e) e m).
    + do 2 f_equal. f_equal. rewrite skipn_length, L. lia.
    + destruct ds; discriminate.
    + apply decimal_firstn, D.
    + apply decimal_skipn, D.
    + rewrite firstn_skipn. exact R.
    + right. exists t. split; assumption.
Qed.
Lemma show_digits_head m e : (100000 <= m < 1000000)%Z -> exists d r, (0 <= d < 10)%Z /\ show_digits m e = digit d :: r.
Proof.
  intros Hm. unfold show_digits. pose proof (digits_decimal 6 m) as D. pose proof (digits_length 6 m) as L. destruct (digits 6 m) as [|c ds]; [discriminate|].
  inversion D as [|c' ds' (d & Hd & Ec) D']; subst. destruct (_ && _)%bool.
  - destruct (Z.leb_spec 0 e) as [P|P]; [|exists 0%Z; eexists; split; [lia|reflexivity]]. replace (Z.to_nat (e + 1)) with (S (Z.to_nat e)) by lia. exists d. eexists. split; [exact Hd|reflexivity].
  - exists d. eexists. split; [exact Hd|reflexivity].
Qed.
(** the six digits are those of the rounded number *)
Lemma ten_power e : bpow ten e = powerRZ 10 e.
Proof. apply (bpow_powerRZ ten). Qed.
Lemma six_spec x : x <> 0 -> let p := six x in (100000 <= fst p < 1000000)%Z /\
  IZR (fst p) * powerRZ 10 (snd p - 5) = round ten (FLX_exp 6) ZnearestE (Rabs x) /\
  (mag ten x - 1 <= snd p <= mag ten x)%Z.
Proof.
  intros Hx. unfold six. set (e := (mag ten x - 1)%Z). set (m := ZnearestE (Rabs x * bpow ten (5 - e))).
  assert (Bd : (100000 <= m <= 1000000)%Z).
  { pose proof (bpow_mag_le ten x Hx) as L. pose proof (bpow_mag_gt ten x) as G. fold e in L.
    assert (P : 0 < bpow ten (5 - e)) by apply bpow_gt_0.
    pose proof (Rmult_le_compat_r _ _ _ (Rlt_le _ _ P) L) as L'. pose proof (Rmult_le_compat_r _ _ _ (Rlt_le _ _ P) (Rlt_le _ _ G)) as G'.
    rewrite <- bpow_plus in L', G'. replace (e + (5 - e))%Z with 5%Z in L' by lia. replace (mag ten x + (5 - e))%Z with 6%Z in G' by (unfold e; lia).
    change (bpow ten 5) with (IZR 100000) in L'. change (bpow ten 6) with (IZR 1000000) in G'.
    unfold m. pose proof (valid_rnd_N (fun n => negb (Z.even n))) as V. split.
    - rewrite <- (Zrnd_IZR ZnearestE 100000). apply Zrnd_le; assumption.
    - rewrite <- (Zrnd_IZR ZnearestE 1000000). apply Zrnd_le; assumption. }
  assert (Rd : IZR m * powerRZ 10 (e - 5) = round ten (FLX_exp 6) ZnearestE (Rabs x)).
  { unfold round, F2R, scaled_mantissa, cexp, FLX_exp. cbn [Fnum Fexp]. rewrite mag_abs. rewrite <- ten_power. unfold m.
    replace (- (mag ten x - 6))%Z with (5 - e)%Z by (unfold e; lia). replace (mag ten x - 6)%Z with (e - 5)%Z by (unfold e; lia). reflexivity. }
  destruct (Z.eqb_spec m 1000000) as [E|E]; cbn [fst snd].
  - split; [lia|]. split; [|unfold e; lia]. rewrite <- Rd, E. replace (e + 1 - 5)%Z with (1 + (e - 5))%Z by lia. rewrite power_add. cbn [powerRZ]. change (Pos.to_nat 1) with 1%nat. simpl pow. ring.
  - split; [lia|]. split; [exact Rd|unfold e; lia].
Qed.
Lemma show6_value x : numeral (show6 x) = Some (round ten (FLX_exp 6) ZnearestE x).
Proof.
  unfold show6. destruct (Req_bool_spec x 0) as [->|Hx].
  - rewrite round_0 by apply valid_rnd_N. change (Some (0 * 1) = Some 0). f_equal. ring.
  - pose proof (six_spec x Hx) as (Hm & Hv & He). cbv zeta in *. destruct (six x) as [m e]. cbn [fst snd] in *.
    pose proof (show_digits_value m e Hm) as U. destruct (show_digits_head m e Hm) as (d & r & Hd & Eh).
    destruct (Rlt_bool_spec x 0) as [Neg|Pos].
    + change (str "-" ++ ?l) with ("-"%char :: l). unfold numeral. rewrite Ascii.eqb_refl, U. cbn [option_map]. f_equal. rewrite Hv, Rabs_left by exact Neg. rewrite round_NE_opp. ring.
    + cbn [app]. unfold numeral. rewrite Eh. rewrite (digit_not d "-" Hd) by auto. rewrite <- Eh, U. f_equal. rewrite Hv, Rabs_pos_eq by exact Pos. reflexivity.
Qed.
