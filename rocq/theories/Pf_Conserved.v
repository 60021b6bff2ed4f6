(** PROOFS for C108: quadratic forms that commute with an antisymmetric generator. *)
From Coq Require Import Reals Lra Psatz.
From Verif Require Import Base Pf_Stability.
Local Open Scope R_scope.
Local Open Scope list_scope.

Section Gen.
  Context {T : Type} (I : list T) (S W : T -> T -> R).
  Hypothesis anti : forall i j, In i I -> In j I -> S i j = - S j i.
  Hypothesis sym : forall i j, In i I -> In j I -> W i j = W j i.
  Hypothesis comm : forall i j, In i I -> In j I -> SR (fun k => W i k * S k j) I = SR (fun k => S i k * W k j) I.
  Local Notation dot := (dot I).
  Local Notation ap := (ap I S).
  Local Notation apn := (apn I S).
  Local Notation apW := (Pf_Stability.ap I W).
  Definition qf (x y : T -> R) : R := dot x (apW y).
  Lemma qf_comm x y : qf x y = qf y x.
  Proof.
    unfold qf, Pf_Stability.dot, Pf_Stability.ap.
    rewrite (SR_ext _ (fun i => SR (fun j => x i * (W i j * y j)) I)) by (intros; rewrite <- SR_mul; reflexivity).
    rewrite SR_swap. apply SR_ext. intros j Hj. rewrite <- SR_mul. apply SR_ext. intros i Hi. rewrite (sym i j Hi Hj). ring.
  Qed.
  Lemma ap_comm x i : In i I -> apW (ap x) i = ap (apW x) i.
  Proof.
    intros Hi. unfold Pf_Stability.ap.
    rewrite (SR_ext _ (fun k => SR (fun j => W i k * S k j * x j) I)) by (intros; rewrite <- SR_mul; apply SR_ext; intros; ring).
    rewrite SR_swap.
    rewrite (SR_ext (fun j => S i j * _) (fun k => SR (fun j => S i k * W k j * x j) I)) by (intros; rewrite <- SR_mul; apply SR_ext; intros; ring).
    rewrite (SR_swap (fun k j => S i k * W k j * x j)). apply SR_ext. intros j Hj.
    rewrite (SR_ext _ (fun k => x j * (W i k * S k j))) by (intros; ring).
    rewrite (SR_ext (fun k => S i k * W k j * x j) (fun k => x j * (S i k * W k j))) by (intros; ring).
    rewrite !SR_mul, (comm i j Hi Hj). reflexivity.
  Qed.
  Lemma qf_ap x y : qf (ap x) y = - qf x (ap y).
  Proof.
    unfold qf. rewrite (dot_ap I S anti). f_equal. apply dot_ext; [reflexivity|]. intros i Hi. symmetry. apply ap_comm. exact Hi.
  Qed.
  Lemma qf_add_r x y z : qf x (fun i => y i + z i) = qf x y + qf x z.
  Proof. unfold qf. rewrite <- dot_add_r. apply dot_ext; [reflexivity|]. intros i _. apply ap_add. Qed.
  Lemma qf_mul_r x c y : qf x (fun i => c * y i) = c * qf x y.
  Proof. unfold qf. rewrite <- dot_mul_r. apply dot_ext; [reflexivity|]. intros i _. apply ap_mul. Qed.
  Lemma qf_add_l x y z : qf (fun i => y i + z i) x = qf y x + qf z x.
  Proof. rewrite qf_comm, qf_add_r, (qf_comm x y), (qf_comm x z). reflexivity. Qed.
  Lemma qf_mul_l x c y : qf (fun i => c * y i) x = c * qf y x.
  Proof. rewrite qf_comm, qf_mul_r, (qf_comm x y). reflexivity. Qed.
  Lemma qf_ext x y x' y' : (forall i, In i I -> x i = x' i) -> (forall i, In i I -> y i = y' i) -> qf x y = qf x' y'.
  Proof. intros H1 H2. unfold qf. apply dot_ext; [exact H1|]. intros i _. apply ap_ext. exact H2. Qed.

  (** the exact solution keeps the form *)
  Lemma qf_conserved y : solution I S y -> forall t, qf (y t) (y t) = qf (y 0) (y 0).
  Proof.
    intros Hy t. apply (deriv0_const (fun s => qf (y s) (y s))). intros u.
    assert (E : 0 = SR (fun i => ap (y u) i * apW (y u) i + y u i * apW (ap (y u)) i) I).
    { rewrite SR_add. change (0 = qf (ap (y u)) (y u) + qf (y u) (ap (y u))). rewrite qf_ap. ring. }
    rewrite E. unfold qf, Pf_Stability.dot. apply (deriv_SR (fun s i => y s i * apW (y s) i)). intros i Hi.
    apply (derivable_pt_lim_mult (fun s => y s i) (fun s => apW (y s) i)); [apply Hy; exact Hi|].
    unfold Pf_Stability.ap at 1. apply (deriv_SR (fun s j => W i j * y s j) (fun j => W i j * ap (y u) j)). intros j Hj. apply deriv_scal. apply Hy. exact Hj.
  Qed.
  (** a Runge-Kutta step changes it in sixth order *)
  Lemma qf_step h x : qf (P I S h x) (P I S h x) = qf x x - h ^ 6 / 72 * qf (apn 3 x) (apn 3 x) + h ^ 8 / 576 * qf (apn 4 x) (apn 4 x).
  Proof.
    unfold P. set (x1 := ap x). set (x2 := apn 2 x). set (x3 := apn 3 x). set (x4 := apn 4 x).
    assert (E2 : x2 = ap x1) by reflexivity. assert (E3 : x3 = ap x2) by reflexivity. assert (E4 : x4 = ap x3) by reflexivity.
    assert (S01 : qf x1 x = 0) by (pose proof (qf_ap x x) as Q; fold x1 in Q; rewrite (qf_comm x x1) in Q; lra).
    assert (S12 : qf x2 x1 = 0) by (pose proof (qf_ap x1 x1) as Q; rewrite <- E2 in Q; rewrite (qf_comm x1 x2) in Q; lra).
    assert (S23 : qf x3 x2 = 0) by (pose proof (qf_ap x2 x2) as Q; rewrite <- E3 in Q; rewrite (qf_comm x2 x3) in Q; lra).
    assert (S34 : qf x4 x3 = 0) by (pose proof (qf_ap x3 x3) as Q; rewrite <- E4 in Q; rewrite (qf_comm x3 x4) in Q; lra).
    assert (S02 : qf x2 x = - qf x1 x1) by (rewrite E2, qf_ap; fold x1; reflexivity).
    assert (S13 : qf x3 x1 = - qf x2 x2) by (rewrite E3, qf_ap, <- E2; reflexivity).
    assert (S24 : qf x4 x2 = - qf x3 x3) by (rewrite E4, qf_ap, <- E3; reflexivity).
    assert (S03 : qf x3 x = 0) by (rewrite E3, qf_ap; fold x1; rewrite S12; lra).
    assert (S14 : qf x4 x1 = 0) by (rewrite E4, qf_ap, <- E2, S23; lra).
    assert (S04 : qf x4 x = qf x2 x2) by (rewrite E4, qf_ap; fold x1; rewrite S13; lra).
    rewrite !qf_add_l, !qf_add_r, !qf_mul_l, !qf_mul_r.
    rewrite (qf_comm x x1), (qf_comm x x2), (qf_comm x x3), (qf_comm x x4), (qf_comm x1 x2), (qf_comm x1 x3), (qf_comm x1 x4),
      (qf_comm x2 x3), (qf_comm x2 x4), (qf_comm x3 x4), S01, S12, S23, S34, S02, S13, S24, S03, S14, S04. field.
  Qed.
  Lemma qf_drift B C h x : 0 <= C -> (forall v, n2 I (ap v) <= B ^ 2 * n2 I v) -> (forall v, Rabs (qf v v) <= C * n2 I v) ->
    h ^ 2 * B ^ 2 <= 8 -> Rabs (qf (P I S h x) (P I S h x) - qf x x) <= C * ((h * B) ^ 6 / 36) * n2 I x.
  Proof.
    intros HC Hop Hq Hh. rewrite qf_step.
    pose proof (schur_n I S B Hop 3 x) as Q3. pose proof (Hop (apn 3 x)) as Q4. change (ap (apn 3 x)) with (apn 4 x) in Q4.
    pose proof (Hq (apn 3 x)) as H3. pose proof (Hq (apn 4 x)) as H4. pose proof (n2_nonneg I (apn 3 x)) as P3. pose proof (n2_nonneg I (apn 4 x)) as P4.
    set (a := qf (apn 3 x) (apn 3 x)) in *. set (b := qf (apn 4 x) (apn 4 x)) in *. set (n3 := n2 I (apn 3 x)) in *. set (n4 := n2 I (apn 4 x)) in *. set (n0 := n2 I x) in *.
    assert (K6 : 0 <= h ^ 6) by (replace (h ^ 6) with ((h ^ 3) ^ 2) by ring; apply pow2_ge_0).
    assert (K2 : 0 <= h ^ 2) by apply pow2_ge_0.
    assert (M : h ^ 2 * n4 <= 8 * n3) by (apply Rle_trans with (h ^ 2 * (B ^ 2 * n3)); [apply Rmult_le_compat_l; assumption|nra]).
    replace (qf x x - h ^ 6 / 72 * a + h ^ 8 / 576 * b - qf x x) with (h ^ 6 * (h ^ 2 * b / 576 - a / 72)) by field.
    rewrite Rabs_mult, (Rabs_pos_eq _ K6).
    assert (M2 : Rabs (h ^ 2 * b / 576 - a / 72) <= C * n3 / 36).
    { assert (Rabs (h ^ 2 * b) <= 8 * (C * n3)).
      { rewrite Rabs_mult, (Rabs_pos_eq _ K2). apply Rle_trans with (h ^ 2 * (C * n4)); [apply Rmult_le_compat_l; assumption|]. nra. }
      unfold Rabs in *. repeat destruct Rcase_abs; lra. }
    apply Rle_trans with (h ^ 6 * (C * n3 / 36)); [apply Rmult_le_compat_l; assumption|].
    replace (C * ((h * B) ^ 6 / 36) * n0) with (h ^ 6 * (C * ((B ^ 3) ^ 2 * n0) / 36)) by field.
    apply Rmult_le_compat_l; [exact K6|]. apply Rmult_le_compat_r; [lra|]. apply Rmult_le_compat_l; assumption.
  Qed.
End Gen.
