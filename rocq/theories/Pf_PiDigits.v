(** PROOFS: the first digits of pi and the double nearest to it. *)
From Coq Require Import Reals Ratan Machin Lra QArith Qreals ZArith Lia.
From Flocq Require Import Core.
From Verif Require Import M_Double.
Local Open Scope R_scope.

Fixpoint qpow (x : Q) (n : nat) : Q := match n with O => 1%Q | S k => Qred (x * qpow x k) end.
Definition qterm (n : nat) : Q :=
  let d := inject_Z (Z.of_nat (2 * n + 1)) in
  Qred ((if Nat.even n then 1 else - (1)) * (2 * (qpow (1 # 3) (2 * n + 1) / d) + qpow (1 # 7) (2 * n + 1) / d))%Q.
Fixpoint qsum (n : nat) : Q := match n with O => qterm 0 | S k => Qred (qsum k + qterm (S k)) end.
Lemma qpow_ok x n : Q2R (qpow x n) = Q2R x ^ n.
Proof.
  induction n as [|n IH]; cbn [qpow pow]; [unfold Q2R; cbn; field|].
  rewrite (Qeq_eqR _ _ (Qred_correct _)), Q2R_mult, IH. reflexivity.
Qed.
Lemma sign_even n : (-1) ^ n = Q2R (if Nat.even n then 1 else - (1)).
Proof.
  induction n as [|n IH]; [cbn; unfold Q2R; cbn; field|]. rewrite Nat.even_succ, <- Nat.negb_even. cbn [pow]. rewrite IH.
  destruct (Nat.even n); unfold Q2R; cbn; field.
Qed.
Lemma qterm_ok n : Q2R (qterm n) = tg_alt PI_2_3_7_tg n.
Proof.
  unfold qterm. rewrite (Qeq_eqR _ _ (Qred_correct _)). unfold tg_alt, PI_2_3_7_tg, Ratan_seq.
  assert (D : Q2R (inject_Z (Z.of_nat (2 * n + 1))) = INR (2 * n + 1)) by (unfold Q2R, inject_Z; cbn [Qnum Qden]; rewrite Rinv_1, Rmult_1_r, <- INR_IZR_INZ; reflexivity).
  assert (D0 : ~ (inject_Z (Z.of_nat (2 * n + 1)) == 0)%Q).
  { intros E. apply Qeq_eqR in E. rewrite D in E. replace (Q2R 0) with 0 in E by (unfold Q2R; cbn; ring). apply (not_0_INR (2 * n + 1)); [lia|exact E]. }
  rewrite Q2R_mult, Q2R_plus, Q2R_mult, !Q2R_div by exact D0. rewrite !qpow_ok, D, <- sign_even.
  replace (Q2R (1 # 3)) with (/ 3) by (unfold Q2R; cbn; field). replace (Q2R (1 # 7)) with (/ 7) by (unfold Q2R; cbn; field).
  replace (Q2R 2) with 2 by (unfold Q2R; cbn; field). reflexivity.
Qed.
Lemma qsum_ok n : Q2R (qsum n) = sum_f_R0 (tg_alt PI_2_3_7_tg) n.
Proof.
  induction n as [|n IH]; cbn [qsum sum_f_R0]; [apply qterm_ok|].
  rewrite (Qeq_eqR _ _ (Qred_correct _)), Q2R_plus, IH, qterm_ok. reflexivity.
Qed.
(** the mantissa of the double nearest to pi *)
Definition pi_mantissa : Z := 884279719003555.
Lemma pi_digits : IZR pi_mantissa / 2 ^ 48 + / 2 ^ 53 < PI < IZR pi_mantissa / 2 ^ 48 + / 2 ^ 52.
Proof.
  pose proof (PI_2_3_7_ineq 8) as [A B]. rewrite <- qsum_ok in A, B. change (S (2 * 8)) with 17%nat in A. change (2 * 8)%nat with 16%nat in B.
  assert (LA : (inject_Z pi_mantissa / inject_Z (2 ^ 50) + 1 / inject_Z (2 ^ 55) < qsum 17)%Q) by (vm_compute; reflexivity).
  assert (LB : (qsum 16 < inject_Z pi_mantissa / inject_Z (2 ^ 50) + 1 / inject_Z (2 ^ 54))%Q) by (vm_compute; reflexivity).
  apply Qlt_Rlt in LA, LB. rewrite !Q2R_plus, !Q2R_div in LA, LB by (intros X; vm_compute in X; discriminate).
  assert (I : forall z, Q2R (inject_Z z) = IZR z) by (intros z; unfold Q2R, inject_Z; cbn [Qnum Qden]; field).
  rewrite !I in LA, LB. replace (Q2R 1) with 1 in LA, LB by (unfold Q2R; cbn; field).
  replace (IZR (2 ^ 50)) with (2 ^ 50) in LA, LB by (rewrite pow_IZR; reflexivity). replace (IZR (2 ^ 55)) with (2 ^ 55) in LA by (rewrite pow_IZR; reflexivity).
  replace (IZR (2 ^ 54)) with (2 ^ 54) in LB by (rewrite pow_IZR; reflexivity).
  unfold pi_mantissa in *. split; lra.
Qed.
Definition pi_double : R := IZR pi_mantissa / 2 ^ 48.
Lemma bp48 : bpow radix2 (-48) = / 2 ^ 48.
Proof. change (-48)%Z with (- (48))%Z. rewrite bpow_opp. f_equal. rewrite <- IZR_Zpower by lia. rewrite pow_IZR. reflexivity. Qed.
Lemma pi_is_double : is_double pi_double.
Proof.
  apply generic_format_FLT. exists (Float radix2 pi_mantissa (-48)); cbn [Fnum Fexp].
  - unfold pi_double, F2R. cbn [Fnum Fexp]. rewrite bp48. reflexivity.
  - vm_compute. reflexivity.
  - lia.
Qed.
Lemma pi_double_ulp : ulp radix2 (FLT_exp (-1074) 53) pi_double = / 2 ^ 51.
Proof.
  assert (E : pi_double = F2R (Float radix2 pi_mantissa (-48))) by (unfold pi_double, F2R; cbn [Fnum Fexp]; rewrite bp48; reflexivity).
  assert (M : (mag radix2 pi_double : Z) = 2%Z).
  { apply mag_unique. rewrite Rabs_pos_eq by (unfold pi_double, pi_mantissa; lra). cbn. unfold pi_double, pi_mantissa. lra. }
  rewrite ulp_neq_0 by (unfold pi_double, pi_mantissa; lra). unfold cexp. rewrite M. change (FLT_exp (-1074) 53 2) with (- (51))%Z.
  rewrite bpow_opp. f_equal. rewrite <- IZR_Zpower by lia. rewrite pow_IZR. reflexivity.
Qed.
Lemma round_pi : round_double PI = pi_double.
Proof.
  pose proof pi_digits as [A B]. fold pi_double in A, B. unfold round_double. apply Rle_antisym.
  - apply round_N_le_midp; [apply FLT_exp_valid; unfold Prec_gt_0; lia|exact pi_is_double|]. rewrite succ_eq_pos by (unfold pi_double, pi_mantissa; lra). rewrite pi_double_ulp.
    replace (pi_double + (pi_double + / 2 ^ 51)) with (2 * (pi_double + / 2 ^ 52)) by field. lra.
  - apply round_N_ge_midp; [apply FLT_exp_valid; unfold Prec_gt_0; lia|exact pi_is_double|].
    assert (pred radix2 (FLT_exp (-1074) 53) pi_double <= pi_double) by (apply pred_le_id). assert (0 < / 2 ^ 53) by (apply Rinv_0_lt_compat, pow_lt; lra). lra.
Qed.
Lemma round_two_pi : round_double (2 * PI) = 2 * pi_double.
Proof.
  rewrite <- round_pi. unfold round_double.
  pose proof pi_digits as [A B]. unfold pi_mantissa in *.
  assert (P : 2 < PI < 4) by lra.
  assert (M1 : (mag radix2 PI : Z) = 2%Z) by (apply mag_unique; rewrite Rabs_pos_eq by lra; cbn; lra).
  assert (M2 : (mag radix2 (2 * PI) : Z) = 3%Z) by (apply mag_unique; rewrite Rabs_pos_eq by lra; cbn; lra).
  assert (T : bpow radix2 1 = 2) by (cbn; lra).
  unfold round, scaled_mantissa, cexp. rewrite M1, M2. change (FLT_exp (-1074) 53 2) with (-51)%Z. change (FLT_exp (-1074) 53 3) with (-50)%Z.
  replace (2 * PI * bpow radix2 (- (-50))) with (PI * bpow radix2 (- (-51))) by (change (- (-51))%Z with (50 + 1)%Z; rewrite bpow_plus, T; change (- (-50))%Z with 50%Z; ring).
  unfold F2R. cbn [Fnum Fexp]. change (-50)%Z with (-51 + 1)%Z. rewrite bpow_plus, T. ring.
Qed.
