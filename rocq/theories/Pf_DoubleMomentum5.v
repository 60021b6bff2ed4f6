(** PROOFS: the rounding error of the eight steps of the momentum-space program. *)
From Coq Require Import Reals Lra Psatz List ZArith Lia.
From Verif Require Import Base M_Matrix M_Dispersion Spec_Matrix Spec_Stability M_Ode P_Ode Pf_Stability Pf_Stability2 Pf_Stability3 P_Stability M_Rounding Spec_Rounding Pf_Rounding Pf_Rounding2 Pf_Rounding3 Pf_Rounding4 Pf_Rounding5.
Local Open Scope R_scope.
Local Open Scope list_scope.
Local Notation len u := (Z.of_nat (length u)).

Section Numbers.
  Context (ar : arith).
  Hypothesis acc : accurate (/ 2 ^ 53) (/ 2 ^ 1075) (2 ^ 1023) ar.
  Context (N : Z) (m : bmat CR) (L : R).
  Hypothesis HN : (0 < N <= 2 ^ 12)%Z.
  Let n := (1 + N * N)%Z.
  Let W := Z.to_nat n.
  Hypothesis wf : well_formed m n.
  Hypothesis HW : Forall (fun r => (length r <= W)%nat) (bm_done m).
  Hypothesis rows : row_bound n (entry m) L.
  Hypothesis anti : anti_hermitian CR n (entry m).
  Hypothesis L0 : 0 <= L.
  Context (h : R).
  Hypothesis Ha : h ^ 2 * L ^ 2 <= 8.
  Hypothesis HL : L <= 2 ^ 500.
  Hypothesis Hh1 : / 2 ^ 1000 <= Rabs h.
  Hypothesis Hh2 : Rabs h <= 2 ^ 100.
  Let K := (4 * (W + 2) + 15)%nat.
  Let M := IZR N * IZR N.
  Lemma M_range : 1 <= M <= 2 ^ 24.
  Proof. unfold M. rewrite <- mult_IZR, pow_IZR. split; apply IZR_le; nia. Qed.
  Lemma W_val : INR W = 1 + M.
  Proof. unfold W, M. rewrite INR_IZR_INZ, Z2Nat.id by (unfold n; nia). unfold n. rewrite plus_IZR, mult_IZR. ring. Qed.
  Lemma K_val : INR K <= 31 * M.
  Proof. unfold K. rewrite plus_INR, mult_INR, plus_INR, W_val. pose proof M_range. cbn [INR]. lra. Qed.
  Lemma u_le k : (k <= 53)%nat -> / 2 ^ 53 = / 2 ^ (53 - k) * / 2 ^ k.
  Proof. intros Hk. rewrite <- Rinv_mult, <- pow_add. do 2 f_equal. lia. Qed.
  Lemma Ku : INR K * / 2 ^ 53 <= 31 * M * / 2 ^ 53 /\ 31 * M * / 2 ^ 53 <= 1 / 4.
  Proof.
    destruct u_pos as [U0 _]. split; [apply Rmult_le_compat_r; [exact U0|apply K_val]|]. apply Rle_trans with (2 ^ 5 * 2 ^ 24 * / 2 ^ 53).
    - apply Rmult_le_compat_r; [exact U0|]. pose proof M_range. replace (2 ^ 5) with 32 by ring. lra.
    - rewrite <- pow_add. replace (1 / 4) with (/ 2 ^ 2) by (cbn; field). rewrite (half_pow 2 53) by lia. apply Rmult_le_compat_r; [exact U0|]. apply Rle_pow; [lra|lia].
  Qed.
  Lemma pwK_m : pw (/ 2 ^ 53) K <= 1 + 62 * (M * / 2 ^ 53) /\ pw (/ 2 ^ 53) K <= 2.
  Proof.
    destruct u_pos as [U0 _]. destruct Ku as [K1 K2].
    assert (E : pw (/ 2 ^ 53) K <= 1 + 2 * (INR K * / 2 ^ 53)) by (apply (pow_small (/ 2 ^ 53) K U0); lra). split; lra.
  Qed.
  Lemma rel_m : step_rel (/ 2 ^ 53) W L h <= M * / 2 ^ 43.
  Proof.
    unfold step_rel. fold K. destruct pwK_m as [P1 _]. destruct u_pos as [U0 _]. pose proof (pw_ge (/ 2 ^ 53) U0 K) as P0. pose proof M_range as MR.
    assert (A0 : 0 <= Rabs h * L) by (apply Rmult_le_pos; [apply Rabs_pos|exact L0]).
    assert (E : expo4 (Rabs h * L) <= 15) by (apply expo4_15; [exact A0|rewrite Rpow_mult_distr, pow2_abs; exact Ha]).
    assert (E0 : 0 <= expo4 (Rabs h * L)) by (unfold expo4; pose proof (pow_le _ 2 A0); pose proof (pow_le _ 3 A0); pose proof (pow_le _ 4 A0); lra).
    apply Rle_trans with (62 * (M * / 2 ^ 53) * 15); [apply Rmult_le_compat; lra|].
    rewrite (half_pow 43 53) by lia. replace (2 ^ (53 - 43)) with 1024 by (cbn; lra). assert (0 <= M * / 2 ^ 53) by (apply Rmult_le_pos; lra). lra.
  Qed.
  Lemma abs_m : step_abs (/ 2 ^ 53) (/ 2 ^ 1075) n W h <= / 2 ^ 930.
  Proof.
    unfold step_abs. fold K. destruct pwK_m as [_ P2]. destruct u_pos as [U0 _]. pose proof (pw_ge (/ 2 ^ 53) U0 K) as P0. pose proof M_range as MR.
    rewrite W_val. set (e := / 2 ^ 1075). assert (e0 : 0 <= e) by apply eta_pos.
    assert (Q : sqrt (2 * IZR n) <= 2 ^ 13).
    { replace (2 ^ 13) with (sqrt (2 ^ 13 * 2 ^ 13)) by (apply sqrt_square; left; apply pow2_pos). apply sqrt_le_1_alt. rewrite <- pow_add.
      unfold n. rewrite plus_IZR, mult_IZR. fold M. replace (2 ^ (13 + 13)) with (4 * 2 ^ 24) by (change (13 + 13)%nat with (2 + 24)%nat; rewrite pow_add; ring). lra. }
    pose proof (sqrt_pos (2 * IZR n)) as Q0. pose proof (Rabs_pos h) as Pg.
    set (t := 4 * (1 + M) * e). assert (t0 : 0 <= t) by (unfold t; apply Rmult_le_pos; lra).
    assert (t1 : t <= 2 ^ 27 * e) by (unfold t; apply Rmult_le_compat_r; [exact e0|]; change 27%nat with (3 + 24)%nat; rewrite pow_add; replace (2 ^ 3) with 8 by ring; lra).
    assert (G : 6 * (Rabs h * t) + 35 / 2 * t <= 2 ^ 103 * t).
    { replace (6 * (Rabs h * t) + 35 / 2 * t) with ((6 * Rabs h + 35 / 2) * t) by field. apply Rmult_le_compat_r; [exact t0|].
      change 103%nat with (3 + 100)%nat. rewrite pow_add. replace (2 ^ 3) with 8 by ring.
      assert (2 ^ 10 <= 2 ^ 100) by (apply Rle_pow; [lra|lia]). replace (2 ^ 10) with 1024 in H by ring. lra. }
    assert (G0 : 0 <= 6 * (Rabs h * t) + 35 / 2 * t) by (assert (0 <= Rabs h * t) by (apply Rmult_le_pos; lra); lra).
    apply Rle_trans with (2 * (2 ^ 103 * (2 ^ 27 * e)) * 2 ^ 13).
    - apply Rmult_le_compat; [apply Rmult_le_pos; lra|exact Q0| |exact Q]. apply Rmult_le_compat; [lra|exact G0|exact P2|]. eapply Rle_trans; [exact G|]. apply Rmult_le_compat_l; [left; apply pow2_pos|exact t1].
    - unfold e. rewrite (half_pow 930 1075) by lia. replace (2 * (2 ^ 103 * (2 ^ 27 * / 2 ^ 1075)) * 2 ^ 13) with (2 ^ 1 * 2 ^ 103 * 2 ^ 27 * 2 ^ 13 * / 2 ^ 1075) by ring.
      apply Rmult_le_compat_r; [exact e0|]. rewrite <- !pow_add. apply Rle_pow; [lra|lia].
  Qed.
  Lemma run8 v x : len v = n -> nrm (idx n) (vec v) = 1 -> (forall p, In p (idx n) -> vec v p = x p) ->
    len (frun ar h m 8 v) = n /\
    nrm (idx n) (fun p => vec (frun ar h m 8 v) p + -1 * Pn n m h 8 x p) <= M * / 2 ^ 39 + / 2 ^ 926.
  Proof.
    intros Lv HV Ex. destruct u_pos as [U0 U1]. pose proof eta_pos as E0. pose proof M_range as MR.
    set (d := step_rel (/ 2 ^ 53) W L h). set (th := step_abs (/ 2 ^ 53) (/ 2 ^ 1075) n W h).
    assert (D0 : 0 <= d) by (apply step_rel_pos; [exact U0|exact L0]).
    assert (W1 : (1 <= W)%nat) by (unfold W, n; lia).
    assert (T0 : 0 <= th) by (apply step_abs_pos; [exact U0|exact E0|exact W1]).
    pose proof rel_m as DB. fold d in DB. pose proof abs_m as TB. fold th in TB.
    assert (G43 : 0 < / 2 ^ 43) by (apply Rinv_0_lt_compat, pow2_pos).
    assert (MD : M * / 2 ^ 43 <= / 2 ^ 19).
    { apply Rle_trans with (2 ^ 24 * / 2 ^ 43); [apply Rmult_le_compat_r; lra|]. rewrite (half_pow 19 43) by lia. apply Rle_refl. }
    assert (KD : INR 8 * d <= 1 / 4) by (replace (INR 8) with 8 by (cbn; ring); replace (2 ^ 19) with 524288 in MD by ring; lra).
    assert (PD : (1 + d) ^ 8 <= 1 + 2 * (INR 8 * d)) by (apply pow_small; lra).
    assert (P2 : (1 + d) ^ 8 <= 2) by lra. assert (P1 : 1 <= (1 + d) ^ 8) by (apply pow_R1_Rle; lra). replace (INR 8) with 8 in * by (cbn; ring).
    assert (S1 : / 2 ^ 930 <= / 2 ^ 6) by (apply Rinv_le_contravar; [apply pow2_pos|apply Rle_pow; [lra|lia]]). replace (2 ^ 6) with 64 in S1 by ring.
    assert (tau0 : 4 * INR W * / 2 ^ 1075 <= 1).
    { rewrite W_val. apply Rle_trans with (2 ^ 27 * / 2 ^ 27).
      - apply Rmult_le_compat; [lra|lra| |].
        + change 27%nat with (3 + 24)%nat. rewrite pow_add. replace (2 ^ 3) with 8 by ring. lra.
        + apply Rinv_le_contravar; [apply pow2_pos|apply Rle_pow; [lra|lia]].
      - apply Req_le, Rinv_r, pow_nonzero. lra. }
    assert (tau1 : 0 <= 4 * INR W * / 2 ^ 1075) by (apply Rmult_le_pos; [pose proof (pos_INR W); lra|exact E0]).
    assert (Q2 : 1 <= 2 ^ 500) by (apply pow_R1_Rle; lra). assert (Q3 : 1 <= 2 ^ 100) by (apply pow_R1_Rle; lra).
    assert (Y : (1 + d) ^ 8 * (1 + 8 * th) <= 2 * 2) by (apply Rmult_le_compat; lra).
    assert (Y0 : 0 <= (1 + d) ^ 8 * (1 + 8 * th)) by (apply Rmult_le_pos; lra).
    assert (HR : 100 * ((1 + L) * (1 + Rabs h) * (1 + (1 + d) ^ 8 * (nrm (idx n) (vec v) + INR 8 * th) + 4 * INR W * / 2 ^ 1075)) <= 2 ^ 1023).
    { rewrite HV. replace (INR 8) with 8 by (cbn; ring). pose proof (Rabs_pos h) as Pg.
      assert (B1 : (1 + L) * (1 + Rabs h) <= (2 * 2 ^ 500) * (2 * 2 ^ 100)) by (apply Rmult_le_compat; lra).
      assert (B0 : 0 <= (1 + L) * (1 + Rabs h)) by (apply Rmult_le_pos; lra).
      apply Rle_trans with (2 ^ 7 * (2 ^ 1 * 2 ^ 500 * (2 ^ 1 * 2 ^ 100) * 2 ^ 3)).
      - apply Rmult_le_compat; [lra|apply Rmult_le_pos; [exact B0|lra]|replace (2 ^ 7) with 128 by ring; lra|]. apply Rmult_le_compat; [exact B0|lra|rewrite pow_1; exact B1|replace (2 ^ 3) with 8 by ring; lra].
      - rewrite <- !pow_add. apply Rle_pow; [lra|lia]. }
    destruct (run_rounding (/ 2 ^ 53) (/ 2 ^ 1075) (2 ^ 1023) ar U0 E0 acc n m W L wf HW W1 rows anti L0 h Ha (eta_h h Hh1) (Logic.proj2 pwK_m) 8 v x Lv HR) as [Ln E].
    split; [exact Ln|]. eapply Rle_trans; [exact E|]. fold d th. rewrite HV. replace (INR 8) with 8 by (cbn; ring).
    assert (X0 : nrm (idx n) (fun p => vec v p + -1 * x p) <= 0).
    { eapply Rle_trans; [apply (nrm_le (idx n) _ (vec v) 0); [lra|]|lra]. unfold n2, dot. rewrite (SR_ext _ (fun _ => 0)); [rewrite SR_zero; lra|]. intros p Hp. rewrite (Ex p Hp). ring. }
    assert (X1 : / 2 ^ 39 = 16 * / 2 ^ 43) by (rewrite (half_pow 39 43) by lia; f_equal; cbn; lra).
    assert (X2 : / 2 ^ 926 = 16 * / 2 ^ 930) by (rewrite (half_pow 926 930) by lia; f_equal; replace (930 - 926)%nat with 4%nat by lia; ring).
    rewrite X1, X2. assert (8 * (1 + d) ^ 8 * th <= 16 * th) by (apply Rmult_le_compat_r; lra). lra.
  Qed.
End Numbers.
