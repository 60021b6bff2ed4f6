(** PROPERTY C121: what the numbers in the output files say. *)
From Coq Require Import Reals Lra Lia Ascii String List ZArith.
From Flocq Require Import Core Relative.
From Verif Require Import Base M_Text M_Io M_Double M_Ostream Spec_Numeral Pf_Ostream.
Import ListNotations.
Local Open Scope R_scope.
Local Open Scope list_scope.

Local Instance six_prec : Prec_gt_0 6 := eq_refl.
Local Instance double_prec : Prec_gt_0 53 := eq_refl.
Lemma power_IZR k : (0 <= k)%Z -> powerRZ 10 k = IZR (10 ^ k).
Proof. intros H. rewrite <- ten_power. symmetry. apply (IZR_Zpower ten k H). Qed.
(** every number can be read back, with a relative error of at most half a unit in the sixth digit *)
Theorem C121_error : forall x, exists r, numeral (show6 x) = Some r /\ Rabs (r - x) <= 5 / 1000000 * Rabs x.
Proof.
  intros x. exists (round ten (FLX_exp 6) ZnearestE x). split; [apply show6_value|].
  eapply Rle_trans; [apply (relative_error_N_FLX ten 6 eq_refl)|]. apply Req_le. rewrite ten_power. change (powerRZ 10 (Z.opp 6 + 1)) with (/ (10 ^ 5)). simpl pow. field.
Qed.
Local Lemma six_digit_format m k : (Z.abs m <= 1000000)%Z -> generic_format ten (FLX_exp 6) (IZR m * powerRZ 10 k).
Proof.
  intros Hm. apply generic_format_FLX. destruct (Z.eq_dec (Z.abs m) 1000000) as [e|].
  - exists (Float ten (m / 10) (k + 1)).
    + unfold F2R. cbn [Fnum Fexp]. rewrite ten_power, power_add. change (powerRZ 10 1) with (10 * 1). assert (E : m = (10 * (m / 10))%Z) by (destruct (Z.abs_eq_cases m 1000000) as [-> | ->]; [exact e|reflexivity|reflexivity]). rewrite E at 1. rewrite mult_IZR. ring.
    + cbn. destruct (Z.abs_eq_cases m 1000000) as [-> | ->]; [exact e|reflexivity|reflexivity].
  - exists (Float ten m k); [unfold F2R; cbn [Fnum Fexp]; rewrite ten_power; reflexivity|cbn; lia].
Qed.
(** no number with six digits is nearer *)
Theorem C121_nearest : forall x, exists r, numeral (show6 x) = Some r /\
  forall m k, (Z.abs m <= 1000000)%Z -> Rabs (r - x) <= Rabs (IZR m * powerRZ 10 k - x).
Proof.
  intros x. exists (round ten (FLX_exp 6) ZnearestE x). split; [apply show6_value|]. intros m k Hm.
  destruct (round_N_pt ten (FLX_exp 6) (fun n => negb (Z.even n)) x) as [_ Q]. apply Q. apply six_digit_format; exact Hm.
Qed.
(** numbers with at most six digits are kept *)
Theorem C121_exact : forall m k, (Z.abs m <= 1000000)%Z -> numeral (show6 (IZR m * powerRZ 10 k)) = Some (IZR m * powerRZ 10 k).
Proof.
  intros m k Hm. rewrite show6_value. f_equal. apply round_generic; [apply valid_rnd_N|apply six_digit_format; exact Hm].
Qed.
(** the order of two numbers is not turned round *)
Theorem C121_order : forall x y, x <= y -> exists r s, numeral (show6 x) = Some r /\ numeral (show6 y) = Some s /\ r <= s.
Proof.
  intros x y H. exists (round ten (FLX_exp 6) ZnearestE x), (round ten (FLX_exp 6) ZnearestE y). split; [apply show6_value|]. split; [apply show6_value|].
  apply round_le; [apply FLX_exp_valid; reflexivity|apply valid_rnd_N|exact H].
Qed.
(** a size every double but zero has *)
Definition double_size (x : R) : Prop := x = 0 \/ powerRZ 10 (-900) <= Rabs x <= powerRZ 10 900.
Lemma double_sizes x : is_double x -> Rabs x < 2 ^ 1024 -> double_size x.
Proof.
  intros D U. destruct (Req_dec x 0) as [->|Hx]; [left; reflexivity|right].
  assert (G : forall k, 0 < powerRZ 10 k) by (intros; apply powerRZ_lt; lra). split.
  - apply Rle_trans with (bpow radix2 (-1074)).
    + apply (Rmult_le_reg_r (powerRZ 10 900 * bpow radix2 1074)); [apply Rmult_lt_0_compat; [apply G|apply bpow_gt_0]|].
      replace (powerRZ 10 (-900) * (powerRZ 10 900 * bpow radix2 1074)) with (powerRZ 10 (-900 + 900) * bpow radix2 1074) by (rewrite powerRZ_add by lra; ring).
      replace (bpow radix2 (-1074) * (powerRZ 10 900 * bpow radix2 1074)) with (bpow radix2 (-1074 + 1074) * powerRZ 10 900) by (rewrite bpow_plus; ring).
      change (powerRZ 10 (-900 + 900)) with 1. change (bpow radix2 (-1074 + 1074)) with 1. rewrite !Rmult_1_l. rewrite power_IZR by lia. rewrite <- (IZR_Zpower radix2 1074) by lia. apply IZR_le. vm_compute. discriminate.
    + pose proof (FLT_format_generic radix2 (-1074) 53 x D) as [[m e] E _ He]. cbn in He. rewrite E, <- F2R_Zabs. unfold F2R. cbn [Fnum Fexp].
      assert (1 <= Z.abs m)%Z. { destruct (Z.eq_dec m 0) as [->|]; [exfalso; apply Hx; rewrite E; unfold F2R; cbn; ring|lia]. }
      apply Rle_trans with (1 * bpow radix2 e); [rewrite Rmult_1_l; apply bpow_le; exact He|]. apply Rmult_le_compat_r; [apply bpow_ge_0|]. apply (IZR_le 1). assumption.
  - apply Rlt_le. eapply Rlt_le_trans; [exact U|]. rewrite power_IZR by lia. rewrite pow_IZR. apply IZR_le. vm_compute. discriminate.
Qed.

(** a printed number is one word, of at most thirteen characters if it is a double: no tab, blank or line break in it *)
Definition number_character (c : ascii) : Prop := In c (list_ascii_of_string "0123456789.e+-").
Lemma digit_number d : (0 <= d < 10)%Z -> number_character (digit d).
Proof. intros H. apply digit_cases in H. cbn in H. unfold number_character. repeat (destruct H as [<-|H]; [vm_compute; tauto|]). destruct H. Qed.
Lemma decimal_number l : decimal l -> Forall number_character l.
Proof. unfold decimal. rewrite !Forall_forall. intros H c Hc. destruct (H c Hc) as (d & Hd & ->). apply digit_number, Hd. Qed.
Lemma fraction_number p : decimal p -> Forall number_character (fraction p) /\ (length (fraction p) <= S (length p))%nat.
Proof.
  intros D. destruct (fraction_cases p D) as (s & j & Ep & Ds & ->). destruct s as [|c s]; [split; [constructor|cbn; lia]|]. split.
  - apply Forall_app. split; [repeat constructor; vm_compute; tauto|apply decimal_number, Ds].
  - rewrite Ep, app_length, !app_length. cbn. lia.
Qed.
Theorem C121_word : forall x, Forall number_character (show6 x) /\ show6 x <> [] /\ (is_double x -> Rabs x < 2 ^ 1024 -> (length (show6 x) <= 13)%nat).
Proof.
  intros x. unfold show6. destruct (Req_bool_spec x 0) as [->|Hx]; [split; [constructor; [vm_compute; tauto|constructor]|split; [discriminate|intros _ _; cbn; lia]]|].
  destruct (six_spec x Hx) as (Hm & _ & He). cbv zeta in Hm, He. destruct (six x) as [m e]. cbn [fst snd] in *.
  assert (Mg : is_double x -> Rabs x < 2 ^ 1024 -> (Z.abs e < 1000)%Z).
  { intros Dx Ux. destruct (double_sizes x Dx Ux) as [?|[P1 P2]]; [contradiction|]. rewrite <- !ten_power in P1, P2. pose proof (bpow_mag_le ten x Hx) as L. pose proof (bpow_mag_gt ten x) as G.
    assert ((mag ten x - 1) <= 900)%Z by (apply (le_bpow ten); lra). assert (-900 < mag ten x)%Z by (apply (lt_bpow ten); lra). lia. }
  assert (S : Forall number_character (show_digits m e) /\ (1 <= length (show_digits m e))%nat /\ ((Z.abs e < 1000)%Z -> (length (show_digits m e) <= 12)%nat)).
  { destruct (show_digits_head m e Hm) as (d0 & r0 & _ & E0). assert (P1 : (1 <= length (show_digits m e))%nat) by (rewrite E0; cbn; lia).
    revert P1. unfold show_digits. pose proof (digits_decimal 6 m) as D. pose proof (digits_length 6 m) as L. generalize dependent (digits 6 m). intros ds D L. destruct (_ && _)%bool eqn:B.
    - apply andb_prop in B as [B1 B2]. apply Z.leb_le in B1. apply Z.ltb_lt in B2. destruct (Z.leb_spec 0 e) as [P|P].
      + destruct (fraction_number _ (decimal_skipn (Z.to_nat (e + 1)) ds D)) as [F1 F2]. intros P1. split; [apply Forall_app; split; [apply decimal_number, decimal_firstn, D|exact F1]|]. split; [exact P1|]. intros _.
        rewrite app_length, firstn_length. rewrite skipn_length in F2. lia.
      + assert (Dp : decimal (repeat (digit 0) (Z.to_nat (- e - 1)) ++ ds)) by (apply decimal_app; [apply zeros_decimal|exact D]).
        destruct (fraction_number _ Dp) as [F1 F2]. intros P1. split; [constructor; [vm_compute; tauto|exact F1]|]. split; [exact P1|]. intros _. rewrite app_length, repeat_length in F2. cbn [length]. lia.
    - destruct (fraction_number _ (decimal_skipn 1 ds D)) as [F1 F2]. intros P1. split.
      + apply Forall_app; split; [apply decimal_number, decimal_firstn, D|]. apply Forall_app; split; [exact F1|]. unfold exponent. apply Forall_app; split; [repeat constructor; vm_compute; tauto|].
        apply Forall_app; split; [destruct (e <? 0)%Z; repeat constructor; vm_compute; tauto|apply decimal_number, digits_decimal].
      + split; [exact P1|]. intros He3. rewrite !app_length, firstn_length. rewrite skipn_length in F2. unfold exponent. rewrite !app_length, digits_length. rewrite L in *. change (length (str "e")) with 1%nat. change (Nat.min 1 6) with 1%nat. change (6 - 1)%nat with 5%nat in F2. assert (S1 : forall b : bool, (length (if b then str "-" else str "+") <= 1)%nat) by (intros []; apply le_n). pose proof (S1 (e <? 0)%Z). assert (Zd : (Zdigits ten (Z.abs e) <= 3)%Z) by (apply Zdigits_le_Zpower; rewrite Z.abs_involutive; exact He3). lia. }
  destruct S as [S1 [S2 S3]]. split; [|split].
  - apply Forall_app. split; [destruct (Rlt_bool x 0); repeat constructor; vm_compute; tauto|exact S1].
  - intros C. apply app_eq_nil in C as [_ C]. rewrite C in S2. cbn in S2. lia.
  - intros Dx Ux. specialize (S3 (Mg Dx Ux)). rewrite app_length. destruct (Rlt_bool x 0); cbn [length str list_ascii_of_string]; lia.
Qed.

(** ** which numbers look the same *)
Lemma show6_of x m e : bpow ten e <= Rabs x < bpow ten (e + 1) -> Rabs (Rabs x * bpow ten (5 - e) - IZR m) < / 2 -> (m < 1000000)%Z ->
  show6 x = (if Rlt_bool x 0 then str "-" else []) ++ show_digits m e.
Proof.
  intros Hx Hm Lm. assert (Nx : x <> 0) by (intros ->; rewrite Rabs_R0 in Hx; pose proof (bpow_gt_0 ten e); lra).
  unfold show6. destruct (Req_bool_spec x 0) as [?|_]; [contradiction|].
  assert (Mg : mag ten x = (e + 1)%Z :> Z) by (apply mag_unique; replace (e + 1 - 1)%Z with e by lia; exact Hx).
  unfold six. rewrite Mg. replace (e + 1 - 1)%Z with e by lia. rewrite (Znearest_imp _ _ m Hm). destruct (Z.eqb_spec m 1000000); [lia|]. reflexivity.
Qed.
(** the program writes 1.23457e+06 for 1234567 and -0.125 for minus one eighth *)
Example C121_example : show6 1234567 = str "1.23457e+06" /\ show6 (- / 8) = str "-0.125" /\ numeral (str "1.23457e+06") = Some 1234570.
Proof.
  assert (E6 : bpow ten 6 = 1000000) by reflexivity. assert (E7 : bpow ten 7 = 10000000) by reflexivity.
  assert (A : Rabs (- / 8) = / 8) by (rewrite Rabs_Ropp; apply Rabs_pos_eq; lra).
  assert (B : Rabs 1234567 = 1234567) by (apply Rabs_pos_eq; lra).
  split; [|split].
  - rewrite (show6_of 1234567 123457 6).
    + destruct (Rlt_bool_spec 1234567 0); [lra|]. vm_compute. reflexivity.
    + rewrite B. change (6 + 1)%Z with 7%Z. rewrite E6, E7. lra.
    + rewrite B. change (5 - 6)%Z with (-1)%Z. change (bpow ten (-1)) with (/ 10). rewrite Rabs_left; lra.
    + reflexivity.
  - rewrite (show6_of (- / 8) 125000 (-1)).
    + destruct (Rlt_bool_spec (- / 8) 0); [|lra]. vm_compute. reflexivity.
    + rewrite A. change (bpow ten (-1)) with (/ 10). change (bpow ten (-1 + 1)) with 1. lra.
    + rewrite A. change (5 - -1)%Z with 6%Z. rewrite E6. replace (/ 8 * 1000000 - 125000) with 0 by lra. rewrite Rabs_R0. lra.
    + reflexivity.
  - assert (E : numeral (str "1.23457e+06") = Some (123457 * powerRZ 10 (6 - 5))) by reflexivity. rewrite E. f_equal. change (powerRZ 10 (6 - 5)) with (10 * 1). ring.
Qed.

(** two numbers not above 10^(e+1) in size that are more than a unit of the sixth digit of 10^e apart are printed as different numbers, in their order *)
Theorem C121_resolved : forall e x y, Rabs x <= powerRZ 10 (e + 1) -> Rabs y <= powerRZ 10 (e + 1) -> x + powerRZ 10 (e - 5) < y ->
  exists r s, numeral (show6 x) = Some r /\ numeral (show6 y) = Some s /\ r < s.
Proof.
  intros e x y Hx Hy Hd. rewrite <- !ten_power in *. pose proof (bpow_gt_0 ten e) as P. pose proof (bpow_gt_0 ten (e - 5)) as P5.
  assert (Er : forall z, Rabs z <= bpow ten (e + 1) -> Rabs (round ten (FLX_exp 6) ZnearestE z - z) <= / 2 * bpow ten (e - 5)).
  { intros z Z2. destruct (Req_dec z 0) as [->|Nz]; [rewrite round_0 by apply valid_rnd_N; rewrite Rminus_eq_0, Rabs_R0; lra|]. destruct (Rle_lt_or_eq_dec _ _ Z2) as [L|L].
    - eapply Rle_trans; [apply error_le_half_ulp; apply FLX_exp_valid; reflexivity|]. apply Rmult_le_compat_l; [lra|].
      rewrite ulp_neq_0 by exact Nz. unfold cexp, FLX_exp. apply bpow_le. pose proof (mag_le_bpow ten z (e + 1) Nz L). lia.
    - rewrite round_generic; [|apply valid_rnd_N|].
      + rewrite Rminus_eq_0, Rabs_R0. lra.
      + apply generic_format_abs_inv. rewrite L. apply generic_format_bpow. unfold FLX_exp. lia. }
  exists (round ten (FLX_exp 6) ZnearestE x), (round ten (FLX_exp 6) ZnearestE y). split; [apply show6_value|]. split; [apply show6_value|].
  pose proof (Er x Hx) as E1. pose proof (Er y Hy) as E2. apply Rabs_le_inv in E1, E2. lra.
Qed.
(** of more than 900001 numbers between 10^e and 10^(e+1) two look the same *)
Theorem C121_crowded : forall e l, Forall (fun x => powerRZ 10 e <= x <= powerRZ 10 (e + 1)) l -> (900001 < Z.of_nat (length l))%Z ->
  exists i j, (i < j < length l)%nat /\ show6 (nth i l 0) = show6 (nth j l 0).
Proof.
  intros e l F L.
  set (all := map (fun i => show_digits (100000 + Z.of_nat i) e) (seq 0 (Z.to_nat 900000)) ++ [show_digits 100000 (e + 1)]).
  assert (La : length all = Z.to_nat 900001).
  { unfold all. rewrite app_length, map_length, seq_length. cbn [length]. change (Z.to_nat 900001) with (Z.to_nat (900000 + 1)). rewrite Z2Nat.inj_add by lia. reflexivity. }
  assert (In_all : incl (map show6 l) all).
  { intros t Ht. apply in_map_iff in Ht as (x & <- & Hx). rewrite Forall_forall in F. destruct (F x Hx) as [F1 F2]. rewrite <- !ten_power in F1, F2.
    pose proof (bpow_gt_0 ten e) as P. assert (Nx : x <> 0) by lra. unfold show6. destruct (Req_bool_spec x 0) as [?|_]; [contradiction|]. destruct (Rlt_bool_spec x 0); [lra|]. cbn [app].
    pose proof (six_spec x Nx) as (Hm & _ & _). cbv zeta in Hm. unfold all. apply in_app_iff.
    destruct (Rle_lt_or_eq_dec _ _ F2) as [F3|F3].
    - assert (Mg : mag ten x = (e + 1)%Z :> Z) by (apply mag_unique_pos; replace (e + 1 - 1)%Z with e by lia; split; assumption).
      revert Hm. unfold six. rewrite Mg. replace (e + 1 - 1)%Z with e by lia. destruct (_ =? 1000000)%Z; cbn [fst snd]; intros Hm; [right; left; reflexivity|left].
      apply in_map_iff. exists (Z.to_nat (ZnearestE (Rabs x * bpow ten (5 - e)) - 100000)). split; [f_equal; lia|]. apply in_seq. split; [apply Nat.le_0_l|]. rewrite Nat.add_0_l. apply Z2Nat.inj_lt; lia.
    - right. left. assert (Mg : mag ten x = (e + 2)%Z :> Z) by (rewrite F3, mag_bpow; lia).
      unfold six. rewrite Mg. replace (e + 2 - 1)%Z with (e + 1)%Z by lia. rewrite F3, Rabs_pos_eq by apply bpow_ge_0. rewrite <- bpow_plus. replace (e + 1 + (5 - (e + 1)))%Z with 5%Z by lia.
      change (bpow ten 5) with (IZR 100000). rewrite (Znearest_imp _ _ 100000) by (rewrite Rminus_eq_0, Rabs_R0; lra). reflexivity. }
  assert (Dup : ~ NoDup (map show6 l)).
  { intros ND. pose proof (NoDup_incl_length ND In_all) as Q. rewrite map_length, La in Q. apply inj_le in Q. rewrite Z2Nat.id in Q by lia. lia. }
  assert (Dec : forall a b : text, {a = b} + {a <> b}) by (apply list_eq_dec, ascii_dec).
  assert (Find : forall k : list text, NoDup k \/ exists i j, (i < j < length k)%nat /\ nth i k [] = nth j k []).
  { induction k as [|a k [IH|(i & j & H & E)]]; [left; constructor| |right; exists (S i), (S j); split; [cbn; lia|exact E]].
    destruct (in_dec Dec a k) as [I|I]; [|left; constructor; assumption]. right. destruct (In_nth k a [] I) as (j & Hj & Ej). exists 0%nat, (S j). split; [cbn; lia|symmetry; exact Ej]. }
  destruct (Find (map show6 l)) as [ND|(i & j & H & E)]; [contradiction|]. rewrite map_length in H. exists i, j. split; [exact H|].
  rewrite (nth_indep _ [] (show6 0)), (nth_indep (map show6 l) [] (show6 0)), !map_nth in E by (rewrite map_length; lia). exact E.
Qed.
