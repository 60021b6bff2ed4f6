(** PROOFS: how a small change of the matrix changes a run of the integrator. *)
From Coq Require Import Reals Lra Psatz List ZArith Lia.
From Verif Require Import Base Pf_Stability.
Local Open Scope R_scope.

Section Perturbation.
  Context {T : Type} (I : list T) (S S' : T -> T -> R) (B de h : R).
  Hypothesis anti : forall i j, In i I -> In j I -> S i j = - S j i.
  Hypothesis anti' : forall i j, In i I -> In j I -> S' i j = - S' j i.
  Hypothesis B0 : 0 <= B.
  Hypothesis d0 : 0 <= de.
  Hypothesis h0 : 0 <= h.
  Hypothesis op : forall x, n2 I (ap I S x) <= B ^ 2 * n2 I x.
  Hypothesis op' : forall x, n2 I (ap I S' x) <= B ^ 2 * n2 I x.
  Hypothesis diff : forall x, n2 I (ap I (fun p q => S' p q - S p q) x) <= de ^ 2 * n2 I x.
  Hypothesis Hd : h ^ 2 * B ^ 2 <= 8.
  Local Notation nr := (nrm I).
  Lemma ap_diff x p : ap I S' x p = ap I (fun p q => S' p q - S p q) x p + ap I S x p.
  Proof. unfold ap. rewrite <- SR_add. apply SR_ext. intros j _. ring. Qed.
  Lemma apn_len x k : nr (apn I S' k x) <= B ^ k * nr x.
  Proof. apply nrm_le; [apply pow_le; exact B0|]. apply schur_n; assumption. Qed.
  Lemma apn_diff x k : nr (fun p => apn I S' k x p + -1 * apn I S k x p) <= INR k * (de * B ^ (k - 1)) * nr x.
  Proof.
    induction k as [|k IH].
    - cbn [apn INR]. rewrite (nrm_ext I _ (fun p => 0 * x p)) by (intros; ring). eapply Rle_trans; [apply (nrm_le I _ x 0); [lra|]|lra].
      unfold n2. rewrite dot_mul_l. lra.
    - cbn [apn]. replace (Datatypes.S k - 1)%nat with k by lia.
      rewrite (nrm_ext I _ (fun p => ap I (fun p q => S' p q - S p q) (apn I S' k x) p + ap I S (fun q => apn I S' k x q + -1 * apn I S k x q) p)).
      2:{ intros p _. rewrite (ap_add I S (apn I S' k x) (fun q => -1 * apn I S k x q)), ap_mul, ap_diff. ring. }
      eapply Rle_trans; [apply nrm_triangle|].
      assert (Q1 : nr (ap I (fun p q => S' p q - S p q) (apn I S' k x)) <= de * (B ^ k * nr x)).
      { eapply Rle_trans; [apply (nrm_le I _ (apn I S' k x) de); [exact d0|apply diff]|]. apply Rmult_le_compat_l; [exact d0|apply apn_len]. }
      assert (Q2 : nr (ap I S (fun q => apn I S' k x q + -1 * apn I S k x q)) <= B * (INR k * (de * B ^ (k - 1)) * nr x)).
      { eapply Rle_trans; [apply (nrm_le I _ (fun q => apn I S' k x q + -1 * apn I S k x q) B); [exact B0|apply op]|]. apply Rmult_le_compat_l; [exact B0|exact IH]. }
      eapply Rle_trans; [apply Rplus_le_compat; [exact Q1|exact Q2]|]. rewrite S_INR. destruct k as [|k].
      + cbn. lra.
      + replace (Datatypes.S k - 1)%nat with k by lia. apply Req_le. cbn [pow]. ring.
  Qed.
  Lemma P_diff_len x : nr (fun p => P I S' h x p + -1 * P I S h x p) <= 12 * h * de * nr x.
  Proof.
    set (d := fun k p => apn I S' k x p + -1 * apn I S k x p).
    assert (Q : forall k c, 0 <= c -> nr (fun p => c * d k p) <= c * (INR k * (de * B ^ (k - 1)) * nr x)).
    { intros k c Hc. eapply Rle_trans; [apply (nrm_le I _ (d k) c); [exact Hc|]|].
      - unfold n2. rewrite dot_mul_l, dot_mul_r. lra.
      - apply Rmult_le_compat_l; [exact Hc|apply apn_diff]. }
    assert (h2 : 0 <= h ^ 2) by apply pow2_ge_0. assert (h3 : 0 <= h ^ 3) by (apply pow_le; exact h0). assert (h4 : 0 <= h ^ 4) by (apply pow_le; exact h0).
    pose proof (Q 1%nat h h0) as Q1. pose proof (Q 2%nat (h ^ 2 / 2) ltac:(lra)) as Q2. pose proof (Q 3%nat (h ^ 3 / 6) ltac:(lra)) as Q3. pose proof (Q 4%nat (h ^ 4 / 24) ltac:(lra)) as Q4.
    rewrite (nrm_ext I _ (fun p => ((h * d 1%nat p + h ^ 2 / 2 * d 2%nat p) + h ^ 3 / 6 * d 3%nat p) + h ^ 4 / 24 * d 4%nat p)).
    2:{ intros p _. unfold P, d. cbn [apn]. ring. }
    eapply Rle_trans; [apply nrm_triangle|]. eapply Rle_trans; [apply Rplus_le_compat_r, nrm_triangle|]. eapply Rle_trans; [apply Rplus_le_compat_r, Rplus_le_compat_r, nrm_triangle|].
    assert (Z0 : 0 <= h * de * nr x) by (apply Rmult_le_pos; [apply Rmult_le_pos; assumption|apply nrm_pos]).
    assert (A0 : 0 <= h * B) by (apply Rmult_le_pos; assumption). assert (A2 : (h * B) ^ 2 <= 8) by (rewrite Rpow_mult_distr; exact Hd). set (a := h * B) in *.
    assert (A1 : a <= 283 / 100) by nra.
    assert (E : 1 + a + a ^ 2 / 2 + a ^ 3 / 6 <= 12) by (replace (a ^ 3) with (a ^ 2 * a) by ring; assert (a ^ 2 * a <= 8 * (283 / 100)) by (apply Rmult_le_compat; nra); nra).
    apply Rle_trans with ((1 + a + a ^ 2 / 2 + a ^ 3 / 6) * (h * de * nr x)).
    - eapply Rle_trans; [apply Rplus_le_compat; [apply Rplus_le_compat; [apply Rplus_le_compat; [exact Q1|exact Q2]|exact Q3]|exact Q4]|].
      apply Req_le. unfold a. cbn [Nat.sub pow INR]. field.
    - replace (12 * h * de * nr x) with (12 * (h * de * nr x)) by ring. apply Rmult_le_compat_r; assumption.
  Qed.
  (** k steps *)
  Fixpoint PnE (M : T -> T -> R) (k : nat) (x : T -> R) : T -> R := match k with O => x | Datatypes.S k' => PnE M k' (P I M h x) end.
  Lemma PnE_len k : forall x, nr (PnE S' k x) <= nr x.
  Proof.
    induction k as [|k IH]; intros x; cbn [PnE]; [lra|]. eapply Rle_trans; [apply IH|]. apply (nrm_P I S' B); assumption.
  Qed.
  Lemma runs_diff k : forall x y, nr (fun p => PnE S' k x p + -1 * PnE S k y p) <= INR k * (12 * h * de * nr x) + nr (fun p => x p + -1 * y p).
  Proof.
    induction k as [|k IH]; intros x y; [cbn [PnE INR]; lra|]. cbn [PnE]. eapply Rle_trans; [apply IH|]. rewrite S_INR.
    assert (Z0 : 0 <= 12 * h * de) by (apply Rmult_le_pos; [lra|exact d0]).
    assert (Q1 : nr (P I S' h x) <= nr x) by (apply (nrm_P I S' B); assumption).
    assert (Q2 : nr (fun p => P I S' h x p + -1 * P I S h y p) <= 12 * h * de * nr x + nr (fun p => x p + -1 * y p)).
    { rewrite (nrm_ext I _ (fun p => (P I S' h x p + -1 * P I S h x p) + P I S h (fun q => x q + -1 * y q) p)).
      - eapply Rle_trans; [apply nrm_triangle|]. apply Rplus_le_compat; [apply P_diff_len|]. apply (nrm_P I S B); assumption.
      - intros p Hp. rewrite (P_add I S h x (fun q => -1 * y q) p Hp), (P_mul I S h (-1) y p Hp). ring. }
    assert (Q3 : INR k * (12 * h * de * nr (P I S' h x)) <= INR k * (12 * h * de * nr x)) by (apply Rmult_le_compat_l; [apply pos_INR|]; apply Rmult_le_compat_l; assumption).
    lra.
  Qed.
End Perturbation.
