(** PROOFS for C78: the linear equation dy/dt = S y has exactly one solution for every start vector. *)
From Coq Require Import Reals Lra Psatz List.
From Coquelicot Require Import Coquelicot.
From Verif Require Import Pf_Stability.
Import ListNotations.
Local Open Scope R_scope.

Section Sol.
  Context {T : Type} (I : list T) (S : T -> T -> R) (B : R).
  Hypothesis opb : forall x, n2 I (ap I S x) <= B ^ 2 * n2 I x.
  Hypothesis B0 : 0 <= B.
  Variable x : T -> R.
  Definition coef (i : T) (k : nat) : R := apn I S k x i / INR (fact k).
  Definition flow (t : R) (i : T) : R := PSeries (coef i) t.
  Lemma comp_le (v : T -> R) i : In i I -> Rabs (v i) <= nrm I v.
  Proof.
    intros Hi. unfold nrm. rewrite <- sqrt_Rsqr_abs. apply sqrt_le_1_alt. unfold Rsqr, n2, dot. revert Hi. clear opb. induction I as [|a l IH]; [intros []|].
    intros [->|Hi]; cbn [SR].
    - pose proof (SR_nonneg (fun i => v i * v i) l (fun i _ => ltac:(nra))). lra.
    - pose proof (IH Hi). nra.
  Qed.
  Lemma coef_bound i k : In i I -> Rabs (coef i k) <= nrm I x * (B ^ k / INR (fact k)).
  Proof.
    intros Hi. pose proof (INR_fact_lt_0 k) as F. unfold coef, Rdiv. rewrite Rabs_mult, (Rabs_pos_eq (/ _)) by (left; apply Rinv_0_lt_compat; exact F).
    rewrite <- Rmult_assoc. apply Rmult_le_compat_r; [left; apply Rinv_0_lt_compat; exact F|].
    eapply Rle_trans; [apply comp_le; exact Hi|]. rewrite Rmult_comm. apply nrm_le; [apply pow_le, B0|]. apply (schur_n I S B opb).
  Qed.
  Lemma coef_disk i r : In i I -> CV_disk (coef i) r.
  Proof.
    intros Hi. unfold CV_disk.
    apply (@ex_series_le R_AbsRing R_CompleteNormedModule _ (fun k => nrm I x * ((B * Rabs r) ^ k / INR (fact k)))).
    - intros k. change (Rabs (Rabs (coef i k * r ^ k)) <= nrm I x * ((B * Rabs r) ^ k / INR (fact k))).
      rewrite Rabs_Rabsolu, Rabs_mult, <- RPow_abs, Rpow_mult_distr.
      replace (nrm I x * (B ^ k * Rabs r ^ k / INR (fact k))) with (nrm I x * (B ^ k / INR (fact k)) * Rabs r ^ k) by (unfold Rdiv; ring).
      apply Rmult_le_compat_r; [apply pow_le, Rabs_pos|]. apply coef_bound; exact Hi.
    - apply (ex_series_scal_l (nrm I x) (fun k => (B * Rabs r) ^ k / INR (fact k))). pose proof (is_exp_Reals (B * Rabs r)) as E.
      exists (exp (B * Rabs r)). unfold is_pseries in E. eapply is_series_ext; [|exact E]. intros k. cbn. unfold scal; cbn. unfold mult; cbn.
      rewrite pow_n_pow. unfold Rdiv. ring.
  Qed.
  Lemma coef_radius i r : In i I -> Rbar_lt (Rabs r) (CV_radius (coef i)).
  Proof.
    intros Hi. pose proof (coef_disk i (Rabs r + 1) Hi) as D. unfold CV_radius. destruct (Lub_Rbar_correct (CV_disk (coef i))) as [Hu _].
    pose proof (Hu _ D) as Q. eapply Rbar_lt_le_trans; [|exact Q]. cbn. lra.
  Qed.
  Lemma coef_ex i t : In i I -> ex_pseries (coef i) t.
  Proof. intros Hi. apply CV_radius_inside, coef_radius, Hi. Qed.
  Lemma derive_coef i k : PS_derive (coef i) k = SR (fun j => S i j * coef j k) I.
  Proof.
    unfold PS_derive, coef. cbn [apn]. unfold ap.
    rewrite (SR_ext (fun j => S i j * (apn I S k x j / INR (fact k))) (fun j => / INR (fact k) * (S i j * apn I S k x j))) by (intros; unfold Rdiv; ring). rewrite SR_mul.
    rewrite fact_simpl, mult_INR. pose proof (not_0_INR (Datatypes.S k) (Nat.neq_succ_0 k)). pose proof (INR_fact_neq_0 k). field; auto.
  Qed.
  Lemma pseries_SR (c : T -> R) t l : (forall j, In j l -> ex_pseries (coef j) t) ->
    ex_pseries (fun k => SR (fun j => c j * coef j k) l) t /\ PSeries (fun k => SR (fun j => c j * coef j k) l) t = SR (fun j => c j * flow t j) l.
  Proof.
    induction l as [|a l IH]; intros H; cbn [SR].
    - assert (E : is_pseries (fun _ => 0) t 0).
      { unfold is_pseries. eapply (is_series_ext (fun _ => 0)).
        - intros k. unfold scal; cbn. unfold mult; cbn. ring.
        - unfold is_series. eapply (filterlim_ext (fun _ => 0)); [|apply filterlim_const]. intros k. rewrite sum_n_const. ring. }
      split; [exists 0; exact E|apply is_pseries_unique; exact E].
    - destruct (IH (fun j Hj => H j (or_intror Hj))) as [X1 X2]. pose proof (H a (or_introl eq_refl)) as Xa.
      assert (Xb : ex_pseries (PS_scal (c a) (coef a)) t) by (apply ex_pseries_scal; [unfold mult; cbn; ring|exact Xa]).
      split.
      + apply (ex_pseries_plus (PS_scal (c a) (coef a)) (fun k => SR (fun j => c j * coef j k) l)); assumption.
      + rewrite <- X2. unfold flow. rewrite <- PSeries_scal. exact (PSeries_plus (PS_scal (c a) (coef a)) _ t Xb X1).
  Qed.
  Lemma flow_solution : solution I S flow.
  Proof.
    intros t i Hi. apply is_derive_Reals. pose proof (is_derive_PSeries (coef i) t (coef_radius i t Hi)) as D.
    replace (ap I S (flow t) i) with (PSeries (PS_derive (coef i)) t); [exact D|].
    rewrite (PSeries_ext _ (fun k => SR (fun j => S i j * coef j k) I)) by (intros; apply derive_coef).
    apply (pseries_SR (S i) t I). intros j Hj. apply coef_ex, Hj.
  Qed.
  Lemma flow_0 i : flow 0 i = x i.
  Proof. unfold flow. rewrite PSeries_0. unfold coef. cbn. field. Qed.
End Sol.
Section Uniq.
  Context {T : Type} (I : list T) (S : T -> T -> R).
  Hypothesis anti : forall i j, In i I -> In j I -> S i j = - S j i.
  Lemma solution_unique y w : solution I S y -> solution I S w -> (forall i, In i I -> y 0 i = w 0 i) -> forall t i, In i I -> y t i = w t i.
  Proof.
    intros Hy Hw H0 t i Hi.
    assert (D : solution I S (fun t i => y t i + -1 * w t i)).
    { intros s j Hj. rewrite ap_add, ap_mul. apply (derivable_pt_lim_plus (fun s => y s j) (fun s => -1 * w s j)); [apply Hy; exact Hj|].
      apply deriv_scal, Hw, Hj. }
    pose proof (norm_conserved I S anti _ D t) as Q. cbn beta in Q.
    assert (Z0 : n2 I (fun i => y 0 i + -1 * w 0 i) = 0).
    { unfold n2, dot. rewrite (SR_ext _ (fun _ => 0)); [apply SR_zero|]. intros j Hj. rewrite (H0 j Hj). ring. }
    rewrite Z0 in Q. pose proof (comp_le I (fun i => y t i + -1 * w t i) i Hi) as C. unfold nrm in C. rewrite Q, sqrt_0 in C.
    pose proof (Rabs_pos (y t i + -1 * w t i)). assert (E : Rabs (y t i + -1 * w t i) = 0) by lra.
    destruct (Req_dec (y t i + -1 * w t i) 0) as [E0|E0]; [lra|]. apply Rabs_no_R0 in E0. contradiction.
  Qed.
End Uniq.
