(** PROOFS: the numbers for double precision. *)
From Coq Require Import Reals Lra Psatz List ZArith Lia.
From Verif Require Import Base M_Matrix M_Dispersion Spec_Matrix Spec_Stability M_Ode P_Ode Pf_Stability Pf_Stability2 Pf_Stability3 P_Stability M_Rounding Spec_Rounding Pf_Rounding Pf_Rounding2 Pf_Rounding3 Pf_Rounding4.
Local Open Scope R_scope.
Local Open Scope list_scope.
Local Notation len u := (Z.of_nat (length u)).

(** (1 + x)^k (1 - k x) <= 1 *)
Lemma pow_recip x k : 0 <= x -> (1 + x) ^ k * (1 - INR k * x) <= 1.
Proof.
  intros X0. induction k as [|k IH]; [cbn; lra|]. cbn [pow]. rewrite S_INR.
  assert (P : 0 < (1 + x) ^ k) by (apply pow_lt; lra). pose proof (pos_INR k) as Ik.
  assert (E : (1 + x) * (1 - (INR k + 1) * x) <= 1 - INR k * x) by (assert (0 <= INR k * (x * x)) by (apply Rmult_le_pos; nra); nra).
  replace ((1 + x) * (1 + x) ^ k * (1 - (INR k + 1) * x)) with ((1 + x) ^ k * ((1 + x) * (1 - (INR k + 1) * x))) by ring.
  eapply Rle_trans; [apply Rmult_le_compat_l; [lra|exact E]|exact IH].
Qed.
Lemma pow_small x k : 0 <= x -> INR k * x <= 1 / 2 -> (1 + x) ^ k <= 1 + 2 * (INR k * x).
Proof.
  intros X0 B. pose proof (pow_recip x k X0) as Q. assert (P : 0 < (1 + x) ^ k) by (apply pow_lt; lra). set (y := INR k * x) in *.
  assert (Y0 : 0 <= y) by (apply Rmult_le_pos; [apply pos_INR|exact X0]). apply (Rmult_le_reg_r (1 - y)); [lra|]. eapply Rle_trans; [exact Q|]. nra.
Qed.
Lemma pow_79 x : 0 <= x -> x <= 1 / 6320 -> (1 + x) ^ 79 <= 1 + 80 * x.
Proof.
  intros X0 B. pose proof (pow_recip x 79 X0) as Q. replace (INR 79) with 79 in Q by (cbn; lra). apply (Rmult_le_reg_r (1 - 79 * x)); [lra|]. eapply Rle_trans; [exact Q|]. nra.
Qed.
Lemma expo4_15 a : 0 <= a -> a ^ 2 <= 8 -> expo4 a <= 15.
Proof.
  intros A0 A2. assert (a <= 283 / 100) by nra. unfold expo4. replace (a ^ 3) with (a ^ 2 * a) by ring. replace (a ^ 4) with (a ^ 2 * a ^ 2) by ring.
  assert (a ^ 2 * a <= 8 * (283 / 100)) by (apply Rmult_le_compat; nra). assert (a ^ 2 * a ^ 2 <= 8 * 8) by (apply Rmult_le_compat; nra). lra.
Qed.
Lemma half_pow a b : (a <= b)%nat -> / 2 ^ a = 2 ^ (b - a) * / 2 ^ b.
Proof.
  intros L. replace b with ((b - a) + a)%nat at 2 by lia. rewrite pow_add. rewrite Rinv_mult. rewrite <- Rmult_assoc, Rinv_r; [ring|]. apply pow_nonzero. lra.
Qed.
Lemma pow2_pos k : 0 < 2 ^ k. Proof. apply pow_lt. lra. Qed.

Section Numbers.
  Context (ar : arith).
  Hypothesis acc : accurate (/ 2 ^ 53) (/ 2 ^ 1075) (2 ^ 1023) ar.
  Context (n : Z) (m : bmat CR) (L : R).
  Hypothesis wf : well_formed m n.
  Hypothesis HW : Forall (fun r => (length r <= 14)%nat) (bm_done m).
  Hypothesis rows : row_bound n (entry m) L.
  Hypothesis anti : anti_hermitian CR n (entry m).
  Hypothesis L0 : 0 <= L.
  Context (h : R).
  Hypothesis Ha : h ^ 2 * L ^ 2 <= 8.
  Hypothesis Hn : IZR n <= 2 ^ 64.
  Hypothesis HL : L <= 2 ^ 500.
  Hypothesis Hh1 : / 2 ^ 1000 <= Rabs h.
  Hypothesis Hh2 : Rabs h <= 2 ^ 100.
  Let K := (4 * (14 + 2) + 15)%nat.
  Lemma u_pos : 0 <= / 2 ^ 53 <= 1 / 6320.
  Proof.
    split; [left; apply Rinv_0_lt_compat, pow2_pos|]. apply Rle_trans with (/ 2 ^ 13).
    - apply Rinv_le_contravar; [apply pow2_pos|]. apply Rle_pow; [lra|lia].
    - replace (2 ^ 13) with 8192 by ring. lra.
  Qed.
  Lemma eta_pos : 0 <= / 2 ^ 1075.
  Proof. left. apply Rinv_0_lt_compat, pow2_pos. Qed.
  Lemma pwK : pw (/ 2 ^ 53) K <= 1 + 80 * / 2 ^ 53 /\ pw (/ 2 ^ 53) K <= 2.
  Proof.
    destruct u_pos as [U0 U1]. assert (E : pw (/ 2 ^ 53) K <= 1 + 80 * / 2 ^ 53) by (apply (pow_79 (/ 2 ^ 53)); assumption). split; [exact E|]. lra.
  Qed.
  Lemma eta_h : / 2 ^ 1075 <= / 2 ^ 53 * (Rabs h / 6).
  Proof.
    apply Rle_trans with (/ 2 ^ 53 * (/ 2 ^ 1000 * / 2 ^ 3)).
    - rewrite <- !Rinv_mult, <- !pow_add. apply Rinv_le_contravar; [apply pow2_pos|]. apply Rle_pow; [lra|lia].
    - apply Rmult_le_compat_l; [apply u_pos|]. replace (2 ^ 3) with 8 by ring. pose proof (Rabs_pos h). lra.
  Qed.
  Lemma rel_bound : step_rel (/ 2 ^ 53) 14 L h <= / 2 ^ 42.
  Proof.
    unfold step_rel. fold K. destruct pwK as [P1 _]. destruct u_pos as [U0 _]. pose proof (pw_ge (/ 2 ^ 53) U0 K) as P0.
    assert (A0 : 0 <= Rabs h * L) by (apply Rmult_le_pos; [apply Rabs_pos|exact L0]).
    assert (E : expo4 (Rabs h * L) <= 15) by (apply expo4_15; [exact A0|rewrite Rpow_mult_distr, pow2_abs; exact Ha]).
    assert (E0 : 0 <= expo4 (Rabs h * L)) by (unfold expo4; pose proof (pow_le _ 2 A0); pose proof (pow_le _ 3 A0); pose proof (pow_le _ 4 A0); lra).
    apply Rle_trans with (80 * / 2 ^ 53 * 15); [apply Rmult_le_compat; lra|].
    rewrite (half_pow 42 53) by lia. replace (2 ^ (53 - 42)) with 2048 by (cbn; lra). lra.
  Qed.
  Lemma abs_bound : step_abs (/ 2 ^ 53) (/ 2 ^ 1075) n 14 h <= / 2 ^ 930.
  Proof.
    unfold step_abs. fold K. destruct pwK as [_ P2]. destruct u_pos as [U0 _]. pose proof (pw_ge (/ 2 ^ 53) U0 K) as P0.
    replace (INR 14) with 14 by (cbn; lra). set (e := / 2 ^ 1075). assert (e0 : 0 <= e) by apply eta_pos.
    assert (Q : sqrt (2 * IZR n) <= 2 ^ 33).
    { replace (2 ^ 33) with (sqrt (2 ^ 33 * 2 ^ 33)) by (apply sqrt_square; left; apply pow2_pos). apply sqrt_le_1_alt. rewrite <- pow_add.
      replace (2 ^ (33 + 33)) with (4 * 2 ^ 64) by (change (33 + 33)%nat with (2 + 64)%nat; rewrite pow_add; ring). pose proof (pow2_pos 64). lra. }
    pose proof (sqrt_pos (2 * IZR n)) as Q0. pose proof (Rabs_pos h) as Pg.
    assert (G : 6 * (Rabs h * (4 * 14 * e)) + 35 / 2 * (4 * 14 * e) <= 2 ^ 109 * e).
    { replace (6 * (Rabs h * (4 * 14 * e)) + 35 / 2 * (4 * 14 * e)) with ((336 * Rabs h + 980) * e) by field. apply Rmult_le_compat_r; [exact e0|].
      change 109%nat with (9 + 100)%nat. rewrite pow_add. replace (2 ^ 9) with 512 by ring. assert (980 <= 100 * 2 ^ 100); [|lra].
      assert (2 ^ 10 <= 2 ^ 100) by (apply Rle_pow; [lra|lia]). replace (2 ^ 10) with 1024 in H by ring. lra. }
    assert (G0 : 0 <= 6 * (Rabs h * (4 * 14 * e)) + 35 / 2 * (4 * 14 * e)) by (assert (0 <= Rabs h * (4 * 14 * e)) by (apply Rmult_le_pos; lra); lra).
    apply Rle_trans with (2 * (2 ^ 109 * e) * 2 ^ 33).
    - apply Rmult_le_compat; [apply Rmult_le_pos; lra|exact Q0| |exact Q]. apply Rmult_le_compat; lra.
    - unfold e. rewrite (half_pow 930 1075) by lia. replace (2 * (2 ^ 109 * / 2 ^ 1075) * 2 ^ 33) with (2 ^ 1 * 2 ^ 109 * 2 ^ 33 * / 2 ^ 1075) by ring.
      apply Rmult_le_compat_r; [exact e0|]. rewrite <- !pow_add. apply Rle_pow; [lra|lia].
  Qed.
  Lemma double_run k v x : len v = n -> (INR k <= 2 ^ 40) -> nrm (idx n) (vec v) <= 2 ^ 200 ->
    len (frun ar h m k v) = n /\
    nrm (idx n) (fun p => vec (frun ar h m k v) p + -1 * Pn n m h k x p) <=
      INR k * (nrm (idx n) (vec v) * / 2 ^ 41 + / 2 ^ 925) + nrm (idx n) (fun p => vec v p + -1 * x p).
  Proof.
    intros Lv Hk HV. destruct u_pos as [U0 U1]. pose proof eta_pos as E0. pose proof (pos_INR k) as Ik.
    set (d := step_rel (/ 2 ^ 53) 14 L h). set (th := step_abs (/ 2 ^ 53) (/ 2 ^ 1075) n 14 h). set (V := nrm (idx n) (vec v)) in *.
    assert (V0 : 0 <= V) by apply nrm_pos.
    assert (D0 : 0 <= d) by (apply step_rel_pos; [exact U0|exact L0]).
    assert (W1 : (1 <= 14)%nat) by lia.
    assert (T0 : 0 <= th) by (apply step_abs_pos; [exact U0|exact E0|exact W1]).
    pose proof rel_bound as DB. fold d in DB. pose proof abs_bound as TB. fold th in TB.
    assert (KD : INR k * d <= / 2 ^ 2).
    { apply Rle_trans with (2 ^ 40 * / 2 ^ 42); [apply Rmult_le_compat; lra|]. rewrite (half_pow 2 42) by lia. apply Rle_refl. }
    replace (/ 2 ^ 2) with (1 / 4) in KD by (cbn; field).
    assert (PD : (1 + d) ^ k <= 1 + 2 * (INR k * d)) by (apply pow_small; lra).
    assert (P2 : (1 + d) ^ k <= 2) by lra. assert (P1 : 1 <= (1 + d) ^ k) by (apply pow_R1_Rle; lra).
    assert (TK : INR k * th <= / 2 ^ 890).
    { apply Rle_trans with (2 ^ 40 * / 2 ^ 930); [apply Rmult_le_compat; lra|]. rewrite (half_pow 890 930) by lia. apply Rle_refl. }
    assert (S1 : / 2 ^ 890 <= 1) by (rewrite <- Rinv_1; apply Rinv_le_contravar; [lra|apply pow_R1_Rle; lra]).
    assert (S2 : / 2 ^ 1075 <= / 2 ^ 6) by (apply Rinv_le_contravar; [apply pow2_pos|apply Rle_pow; [lra|lia]]). replace (2 ^ 6) with 64 in S2 by ring.
    assert (Q1 : 1 <= 2 ^ 200) by (apply pow_R1_Rle; lra). assert (Q2 : 1 <= 2 ^ 500) by (apply pow_R1_Rle; lra). assert (Q3 : 1 <= 2 ^ 100) by (apply pow_R1_Rle; lra).
    assert (KT0 : 0 <= INR k * th) by (apply Rmult_le_pos; assumption).
    assert (HR : 100 * ((1 + L) * (1 + Rabs h) * (1 + (1 + d) ^ k * (V + INR k * th) + 4 * INR 14 * / 2 ^ 1075)) <= 2 ^ 1023).
    { replace (INR 14) with 14 by (cbn; lra). pose proof (Rabs_pos h) as Pg.
      assert (A1 : 1 + (1 + d) ^ k * (V + INR k * th) + 4 * 14 * / 2 ^ 1075 <= 2 ^ 3 * 2 ^ 200).
      { assert ((1 + d) ^ k * (V + INR k * th) <= 2 * (2 ^ 200 + 1)) by (apply Rmult_le_compat; lra). replace (2 ^ 3) with 8 by ring. lra. }
      assert (A0 : 0 <= 1 + (1 + d) ^ k * (V + INR k * th) + 4 * 14 * / 2 ^ 1075).
      { assert (0 <= (1 + d) ^ k * (V + INR k * th)) by (apply Rmult_le_pos; lra). lra. }
      assert (B1 : (1 + L) * (1 + Rabs h) <= (2 * 2 ^ 500) * (2 * 2 ^ 100)) by (apply Rmult_le_compat; lra).
      assert (B0 : 0 <= (1 + L) * (1 + Rabs h)) by (apply Rmult_le_pos; lra).
      apply Rle_trans with (2 ^ 7 * (2 ^ 1 * 2 ^ 500 * (2 ^ 1 * 2 ^ 100) * (2 ^ 3 * 2 ^ 200))).
      - apply Rmult_le_compat; [lra|apply Rmult_le_pos; assumption|replace (2 ^ 7) with 128 by ring; lra|]. apply Rmult_le_compat; [exact B0|exact A0|rewrite pow_1; exact B1|exact A1].
      - rewrite <- !pow_add. apply Rle_pow; [lra|lia]. }
    destruct (run_rounding (/ 2 ^ 53) (/ 2 ^ 1075) (2 ^ 1023) ar U0 E0 acc n m 14 L wf HW W1 rows anti L0 h Ha eta_h (Logic.proj2 pwK) k v x Lv HR) as [Ln E].
    split; [exact Ln|]. eapply Rle_trans; [exact E|]. fold d th V. apply Rplus_le_compat_r.
    assert (X1 : ((1 + d) ^ k - 1) * V <= INR k * (V * / 2 ^ 41)).
    { apply Rle_trans with (2 * (INR k * / 2 ^ 42) * V).
      - apply Rmult_le_compat_r; [exact V0|]. assert (INR k * d <= INR k * / 2 ^ 42) by (apply Rmult_le_compat_l; lra). lra.
      - rewrite (half_pow 41 42) by lia. replace (2 ^ (42 - 41)) with 2 by (cbn; lra). apply Req_le. ring. }
    assert (X2 : INR k * (1 + d) ^ k * th <= INR k * / 2 ^ 925).
    { rewrite Rmult_assoc. apply Rmult_le_compat_l; [exact Ik|]. apply Rle_trans with (2 * / 2 ^ 930); [apply Rmult_le_compat; lra|].
      rewrite (half_pow 925 930) by lia. apply Rmult_le_compat_r; [left; apply Rinv_0_lt_compat, pow2_pos|]. cbn. lra. }
    lra.
  Qed.
End Numbers.
