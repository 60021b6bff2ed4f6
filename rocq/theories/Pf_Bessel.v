(** PROOFS for C79: the Bessel functions J_n(2t) = t^n F_n(t^2): derivative, recurrence, bound. *)
From Coq Require Import Reals Lra Psatz Lia.
From Coquelicot Require Import Coquelicot.
From Verif Require Import Pf_Stability Spec_Bessel.
Local Open Scope R_scope.

Definition bc (n k : nat) : R := (-1) ^ k / (INR (fact k) * INR (fact (k + n))).
Definition F (n : nat) (s : R) : R := PSeries (bc n) s.
Lemma fact_pos n : 0 < INR (fact n). Proof. apply INR_fact_lt_0. Qed.
Lemma bc_bound n k : Rabs (bc n k) <= / INR (fact k).
Proof.
  unfold bc, Rdiv. rewrite Rabs_mult, pow_1_abs, Rmult_1_l. pose proof (fact_pos k). pose proof (fact_pos (k + n)).
  assert (1 <= INR (fact (k + n))) by (apply (le_INR 1); pose proof (lt_O_fact (k + n)); lia).
  rewrite Rabs_pos_eq; [|left; apply Rinv_0_lt_compat; nra]. apply Rinv_le_contravar; nra.
Qed.
Lemma bc_disk n r : CV_disk (bc n) r.
Proof.
  unfold CV_disk. apply (@ex_series_le R_AbsRing R_CompleteNormedModule _ (fun k => (Rabs r) ^ k / INR (fact k))).
  - intros k. change (Rabs (Rabs (bc n k * r ^ k)) <= (Rabs r) ^ k / INR (fact k)).
    rewrite Rabs_Rabsolu, Rabs_mult, <- RPow_abs. unfold Rdiv. rewrite Rmult_comm. apply Rmult_le_compat_l; [apply pow_le, Rabs_pos|apply bc_bound].
  - exists (exp (Rabs r)). pose proof (is_exp_Reals (Rabs r)) as E. unfold is_pseries in E. eapply is_series_ext; [|exact E].
    intros k. cbn. unfold scal; cbn. unfold mult; cbn. rewrite pow_n_pow. unfold Rdiv. ring.
Qed.
Lemma bc_radius n r : Rbar_lt (Rabs r) (CV_radius (bc n)).
Proof.
  pose proof (bc_disk n (Rabs r + 1)) as D. unfold CV_radius. destruct (Lub_Rbar_correct (CV_disk (bc n))) as [Hu _].
  pose proof (Hu _ D) as Q. eapply Rbar_lt_le_trans; [|exact Q]. cbn. lra.
Qed.
Lemma bc_ex n s : ex_pseries (bc n) s.
Proof. apply CV_radius_inside, bc_radius. Qed.
Lemma bc_deriv n k : PS_derive (bc n) k = - bc (S n) k.
Proof.
  unfold PS_derive, bc. rewrite (fact_simpl k), mult_INR. replace (S k + n)%nat with (k + S n)%nat by lia.
  pose proof (fact_pos k). pose proof (fact_pos (k + S n)). pose proof (not_0_INR (S k) ltac:(lia)). cbn [pow]. field. repeat split; lra || assumption.
Qed.
Lemma F_deriv n s : derivable_pt_lim (F n) s (- F (S n) s).
Proof.
  apply is_derive_Reals. pose proof (is_derive_PSeries (bc n) s (bc_radius n s)) as D.
  rewrite (PSeries_ext _ (PS_opp (bc (S n)))), PSeries_opp in D; [exact D|]. intros k. rewrite bc_deriv. reflexivity.
Qed.
Lemma F_rec n s : F n s = INR (S n) * F (S n) s - s * F (S (S n)) s.
Proof.
  unfold F. rewrite <- (PSeries_scal (INR (S n)) (bc (S n)) s), <- (PSeries_incr_1 (bc (S (S n))) s).
  rewrite <- PSeries_minus.
  - apply PSeries_ext. intros k. unfold PS_minus, PS_plus, PS_opp, PS_scal, PS_incr_1. cbn. unfold plus, opp, scal; cbn. unfold mult; cbn.
    destruct k as [|k]; unfold bc.
    + cbn [pow Nat.add]. change zero with 0. rewrite (fact_simpl n), mult_INR. pose proof (fact_pos n). pose proof (fact_pos 0).
      change (match n with 0%nat => 1 | S _ => INR n + 1 end) with (INR (S n)). pose proof (not_0_INR (S n) ltac:(lia)). field. repeat split; lra || assumption.
    + change (match n with 0%nat => 1 | S _ => INR n + 1 end) with (INR (S n)).
      replace (k + S (S n))%nat with (S k + S n)%nat by lia. replace (S k + S n)%nat with (S (S k + n)) by lia.
      rewrite (fact_simpl (S k + n)), (fact_simpl k), !mult_INR. pose proof (fact_pos k). pose proof (fact_pos (S k + n)).
      pose proof (not_0_INR (S k) ltac:(lia)). pose proof (not_0_INR (S (S k + n)) ltac:(lia)).
      assert (E : INR (S (S k + n)) = INR (S k) + INR (S n)) by (rewrite <- plus_INR; f_equal; lia).
      cbn [pow]. rewrite E in *. field. repeat split; lra || assumption.
  - apply ex_pseries_scal; [unfold mult; cbn; ring|apply bc_ex].
  - apply ex_pseries_incr_1, bc_ex.
Qed.

(** J_n(2t) *)
Definition A (n : nat) (t : R) : R := t ^ n * F n (t ^ 2).
Lemma bessel_A n t : bessel_j n (2 * t) = A n t.
Proof.
  unfold bessel_j, A, F, PSeries. rewrite <- Series_scal_l. apply Series_ext. intros k. unfold bc.
  replace (2 * t / 2) with t by field. rewrite pow_add, pow_mult. unfold Rdiv. ring.
Qed.
Lemma F2_deriv n t : derivable_pt_lim (fun t => F n (t ^ 2)) t (- (2 * t) * F (S n) (t ^ 2)).
Proof.
  pose proof (derivable_pt_lim_comp (fun t => t ^ 2) (F n) t _ _ (derivable_pt_lim_pow t 2) (F_deriv n (t ^ 2))) as D.
  replace (- (2 * t) * F (S n) (t ^ 2)) with (- F (S n) (t ^ 2) * (INR 2 * t ^ pred 2)); [exact D|]. cbn [pred]. replace (INR 2) with 2 by (cbn; ring). ring.
Qed.
Lemma A_deriv0 t : derivable_pt_lim (A 0) t (- 2 * A 1 t).
Proof.
  unfold A. replace (- 2 * (t ^ 1 * F 1 (t ^ 2))) with (- (2 * t) * F 1 (t ^ 2)) by ring.
  eapply derivable_pt_lim_ext; [|apply (F2_deriv 0 t)]. intros z. cbn [pow]. ring.
Qed.
Lemma A_deriv n t : derivable_pt_lim (A (S n)) t (A n t - A (S (S n)) t).
Proof.
  unfold A. pose proof (derivable_pt_lim_mult (fun t => t ^ S n) (fun t => F (S n) (t ^ 2)) t _ _ (derivable_pt_lim_pow t (S n)) (F2_deriv (S n) t)) as D.
  cbn [pred] in D. replace (t ^ n * F n (t ^ 2) - t ^ S (S n) * F (S (S n)) (t ^ 2)) with
    (INR (S n) * t ^ n * F (S n) (t ^ 2) + t ^ S n * (- (2 * t) * F (S (S n)) (t ^ 2))); [exact D|].
  rewrite (F_rec n (t ^ 2)). set (s := F (S n) (t ^ 2)). set (v := F (S (S n)) (t ^ 2)). cbn [pow]. ring.
Qed.
Lemma A_sum n t : A n t + A (S (S n)) t = INR (S n) * t ^ n * F (S n) (t ^ 2).
Proof. unfold A. rewrite (F_rec n (t ^ 2)). set (s := F (S n) (t ^ 2)). set (v := F (S (S n)) (t ^ 2)). cbn [pow]. ring. Qed.
Lemma F_0 n : F n 0 = / INR (fact n).
Proof. unfold F. rewrite PSeries_0. unfold bc. cbn [pow Nat.add]. change (INR (fact 0)) with 1. pose proof (fact_pos n). field. lra. Qed.
Lemma A_at_0 n : A n 0 = if Nat.eqb n 0 then 1 else 0.
Proof.
  unfold A. replace (0 ^ 2) with 0 by ring. rewrite F_0. destruct n as [|n]; cbn [Nat.eqb pow]; [cbn; field|ring].
Qed.
Lemma A0_bound t : 0 <= t -> Rabs (A 0 t) <= 1.
Proof.
  intros Ht.
  assert (Q : A 0 t * A 0 t + A 1 t * A 1 t <= 1).
  { apply (le_by_deriv (fun t => A 0 t * A 0 t + A 1 t * A 1 t) (fun _ => 1)
      (fun t => (-2 * A 1 t * A 0 t + A 0 t * (-2 * A 1 t)) + ((A 0 t - A 2 t) * A 1 t + A 1 t * (A 0 t - A 2 t))) (fun _ => 0) t Ht).
    - rewrite !A_at_0. cbn. lra.
    - intros s. apply (derivable_pt_lim_plus (fun t => A 0 t * A 0 t) (fun t => A 1 t * A 1 t)).
      + apply (derivable_pt_lim_mult (A 0) (A 0)); apply A_deriv0.
      + apply (derivable_pt_lim_mult (A 1) (A 1)); apply (A_deriv 0).
    - intros s. apply (derivable_pt_lim_const 1).
    - intros s Hs. pose proof (A_sum 0 s) as E. cbn [pow] in E. change (INR 1) with 1 in E.
      assert (E1 : A 1 s = s * F 1 (s ^ 2)) by (unfold A; cbn [pow]; ring).
      replace (-2 * A 1 s * A 0 s + A 0 s * (-2 * A 1 s) + ((A 0 s - A 2 s) * A 1 s + A 1 s * (A 0 s - A 2 s)))
        with (-2 * A 1 s * (A 0 s + A 2 s)) by ring.
      rewrite E, E1. assert (0 <= s) by lra. pose proof (pow2_ge_0 (F 1 (s ^ 2))).
      replace (-2 * (s * F 1 (s ^ 2)) * (1 * 1 * F 1 (s * (s * 1)))) with (- 2 * (s * F 1 (s ^ 2) ^ 2)) by (cbn [pow]; ring). nra. }
  apply Rabs_le. pose proof (pow2_ge_0 (A 1 t)). nra.
Qed.
Lemma A_bound n : forall t, 0 <= t -> Rabs (A n t) <= t ^ n / INR (fact n).
Proof.
  induction n as [|n IH]; intros t Ht.
  - cbn [pow]. change (INR (fact 0)) with 1. replace (1 / 1) with 1 by field. apply A0_bound, Ht.
  - set (G := fun t => t ^ S n * A (S n) t).
    assert (DG : forall s, derivable_pt_lim G s (2 * s ^ S n * A n s)).
    { intros s. unfold G. pose proof (derivable_pt_lim_mult (fun t => t ^ S n) (A (S n)) s _ _ (derivable_pt_lim_pow s (S n)) (A_deriv n s)) as D.
      cbn [pred] in D. replace (2 * s ^ S n * A n s) with (INR (S n) * s ^ n * A (S n) s + s ^ S n * (A n s - A (S (S n)) s)); [exact D|].
      unfold A. rewrite (F_rec n (s ^ 2)). set (x := F (S n) (s ^ 2)). set (v := F (S (S n)) (s ^ 2)). cbn [pow]. ring. }
    set (H := fun t => t ^ (2 * S n) / INR (fact (S n))). pose proof (fact_pos n) as Fn. pose proof (not_0_INR (S n) ltac:(lia)) as Sn.
    assert (DH : forall s, derivable_pt_lim H s (2 * s ^ (2 * n + 1) / INR (fact n))).
    { intros s. unfold H. pose proof (derivable_pt_lim_scal (fun t => t ^ (2 * S n)) (/ INR (fact (S n))) s _ (derivable_pt_lim_pow s (2 * S n))) as D.
      replace (2 * s ^ (2 * n + 1) / INR (fact n)) with (/ INR (fact (S n)) * (INR (2 * S n) * s ^ pred (2 * S n))).
      - eapply derivable_pt_lim_ext; [|exact D]. intros z. unfold mult_real_fct, Rdiv. ring.
      - replace (pred (2 * S n)) with (2 * n + 1)%nat by lia. rewrite mult_INR, (fact_simpl n), mult_INR. replace (INR 2) with 2 by (cbn; ring). field. split; lra || assumption. }
    assert (Bd : forall s, 0 <= s -> Rabs (2 * s ^ S n * A n s) <= 2 * s ^ (2 * n + 1) / INR (fact n)).
    { intros s Hs. rewrite Rabs_mult, (Rabs_pos_eq (2 * s ^ S n)) by (pose proof (pow_le s (S n) Hs); lra).
      replace (2 * s ^ (2 * n + 1) / INR (fact n)) with (2 * s ^ S n * (s ^ n / INR (fact n))).
      - apply Rmult_le_compat_l; [pose proof (pow_le s (S n) Hs); lra|apply IH, Hs].
      - replace (2 * n + 1)%nat with (S n + n)%nat by lia. rewrite pow_add. unfold Rdiv. ring. }
    assert (G0 : G 0 = 0) by (unfold G; cbn [pow]; ring). assert (H0 : H 0 = 0) by (unfold H; cbn; unfold Rdiv; ring).
    assert (U : G t <= H t).
    { apply (le_by_deriv G H _ _ t Ht ltac:(lra) DG DH). intros s Hs. eapply Rle_trans; [apply Rle_abs|apply Bd; lra]. }
    assert (L : - G t <= H t).
    { apply (le_by_deriv (fun t => - G t) H _ _ t Ht ltac:(lra) (fun s => derivable_pt_lim_opp G s _ (DG s)) DH). intros s Hs.
      eapply Rle_trans; [apply Rle_abs|]. rewrite Rabs_Ropp. apply Bd; lra. }
    destruct (Req_dec t 0) as [->|T0].
    + rewrite A_at_0. cbn [Nat.eqb]. rewrite Rabs_R0. cbn [pow]. unfold Rdiv. lra.
    + assert (0 < t) by lra. pose proof (pow_lt t (S n) H1) as PT. apply Rmult_le_reg_l with (t ^ S n); [exact PT|].
      rewrite <- (Rabs_pos_eq (t ^ S n)) at 1 by lra. rewrite <- Rabs_mult. fold (G t).
      replace (t ^ S n * (t ^ S n / INR (fact (S n)))) with (H t) by (unfold H; replace (2 * S n)%nat with (S n + S n)%nat by lia; rewrite pow_add; unfold Rdiv; ring).
      apply Rabs_le. lra.
Qed.
Lemma A_sum_bound n t : 0 <= t -> Rabs (A n t + A (S (S n)) t) <= t ^ n / INR (fact n).
Proof.
  intros Ht. destruct (Req_dec t 0) as [->|T0].
  - rewrite !A_at_0. cbn [Nat.eqb]. destruct n as [|n]; cbn [Nat.eqb].
    + rewrite Rplus_0_r, Rabs_R1. cbn. lra.
    + rewrite Rplus_0_r, Rabs_R0. cbn [pow]. unfold Rdiv. lra.
  - assert (0 < t) by lra. pose proof (A_bound (S n) t Ht) as B. rewrite A_sum.
    pose proof (fact_pos n) as Fn. pose proof (lt_0_INR (S n) ltac:(lia)) as Sn.
    apply Rmult_le_reg_l with t; [exact H|]. rewrite <- (Rabs_pos_eq t) at 1 by lra. rewrite <- Rabs_mult.
    replace (t * (INR (S n) * t ^ n * F (S n) (t ^ 2))) with (INR (S n) * A (S n) t) by (unfold A; cbn [pow]; ring).
    rewrite Rabs_mult, (Rabs_pos_eq (INR (S n))) by lra.
    replace (t * (t ^ n / INR (fact n))) with (INR (S n) * (t ^ S n / INR (fact (S n)))).
    + apply Rmult_le_compat_l; [lra|exact B].
    + rewrite (fact_simpl n), mult_INR. cbn [pow]. field. split; lra.
Qed.
