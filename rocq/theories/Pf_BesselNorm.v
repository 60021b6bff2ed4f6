(** PROOFS for C105: J_0^2 + 2 sum_{n >= 1} J_n^2 <= 1, hence |J_n| <= 1 and |J_n(x) - J_n(y)| <= |x - y|. *)
From Coq Require Import Reals Lra Psatz Lia.
From Verif Require Import Pf_Stability Spec_Bessel Pf_Bessel.
Local Open Scope R_scope.

(** J_0^2 + 2 (J_1^2 + ... + J_n^2) *)
Fixpoint Q (n : nat) (t : R) : R := match n with O => A 0 t * A 0 t | S n => Q n t + 2 * (A (S n) t * A (S n) t) end.
Lemma Q_deriv n t : derivable_pt_lim (Q n) t (- 4 * A n t * A (S n) t).
Proof.
  induction n as [|n IH].
  - cbn [Q]. replace (-4 * A 0 t * A 1 t) with (-2 * A 1 t * A 0 t + A 0 t * (-2 * A 1 t)) by ring. apply (derivable_pt_lim_mult (A 0) (A 0)); apply A_deriv0.
  - replace (-4 * A (S n) t * A (S (S n)) t) with (-4 * A n t * A (S n) t + 2 * ((A n t - A (S (S n)) t) * A (S n) t + A (S n) t * (A n t - A (S (S n)) t))) by ring.
    apply (derivable_pt_lim_plus (Q n) (fun t => 2 * (A (S n) t * A (S n) t))); [exact IH|].
    apply (derivable_pt_lim_scal (fun t => A (S n) t * A (S n) t) 2). apply (derivable_pt_lim_mult (A (S n)) (A (S n))); apply A_deriv.
Qed.
Lemma Q_0 n : Q n 0 = 1.
Proof. induction n as [|n IH]; cbn [Q]; rewrite ?A_at_0; cbn [Nat.eqb]; lra. Qed.
Lemma QA n t : 0 <= t -> Q n t + A (S n) t * A (S n) t <= 1.
Proof.
  intros Ht. apply (le_by_deriv (fun t => Q n t + A (S n) t * A (S n) t) (fun _ => 1)
    (fun t => -4 * A n t * A (S n) t + ((A n t - A (S (S n)) t) * A (S n) t + A (S n) t * (A n t - A (S (S n)) t))) (fun _ => 0) t Ht).
  - rewrite Q_0, A_at_0. cbn. lra.
  - intros s. apply (derivable_pt_lim_plus (Q n) (fun t => A (S n) t * A (S n) t)); [apply Q_deriv|].
    apply (derivable_pt_lim_mult (A (S n)) (A (S n))); apply A_deriv.
  - intros s. apply (derivable_pt_lim_const 1).
  - intros s Hs. replace (_ + _) with (-2 * (A (S n) s * (A n s + A (S (S n)) s))) by ring. rewrite A_sum. unfold A. set (x := F (S n) (s ^ 2)).
    replace (s ^ S n * x * (INR (S n) * s ^ n * x)) with (INR (S n) * (s * ((s ^ n * x) ^ 2))) by (cbn [pow]; ring).
    assert (0 <= INR (S n) * (s * (s ^ n * x) ^ 2)) by (apply Rmult_le_pos; [apply pos_INR|apply Rmult_le_pos; [lra|apply pow2_ge_0]]). lra.
Qed.
Lemma Q_1 n t : 0 <= t -> Q n t <= 1.
Proof. intros Ht. pose proof (QA n t Ht). assert (0 <= A (S n) t * A (S n) t) by nra. lra. Qed.
Lemma Q_pos n t : 0 <= Q n t.
Proof. induction n as [|n IH]; cbn [Q]; [nra|]. assert (0 <= A (S n) t * A (S n) t) by nra. lra. Qed.
Lemma Q_square n t : A n t * A n t <= Q n t.
Proof. destruct n as [|n]; cbn [Q]; [lra|]. pose proof (Q_pos n t). assert (0 <= A (S n) t * A (S n) t) by nra. lra. Qed.
Lemma A_1 n t : 0 <= t -> Rabs (A n t) <= 1.
Proof. intros Ht. pose proof (Q_square n t). pose proof (Q_1 n t Ht). apply Rabs_le. nra. Qed.
(** the derivative with respect to 2t is at most 1 *)
Lemma A_slope n t : 0 <= t -> exists d, derivable_pt_lim (A n) t d /\ Rabs d <= 2.
Proof.
  intros Ht. destruct n as [|n].
  - exists (-2 * A 1 t). split; [apply A_deriv0|]. rewrite Rabs_mult, (Rabs_left (-2)) by lra. pose proof (A_1 1 t Ht). lra.
  - exists (A n t - A (S (S n)) t). split; [apply A_deriv|]. pose proof (A_1 n t Ht). pose proof (A_1 (S (S n)) t Ht).
    eapply Rle_trans; [apply Rabs_triang|]. rewrite Rabs_Ropp. lra.
Qed.
Lemma A_lip_lt n s t : 0 <= s < t -> Rabs (A n t - A n s) <= 2 * (t - s).
Proof.
  intros H. set (d := fun t => match n with O => -2 * A 1 t | S n => A n t - A (S (S n)) t end).
  assert (D : forall t, derivable_pt_lim (A n) t (d t)) by (intros x; unfold d; destruct n; [apply A_deriv0|apply A_deriv]).
  assert (B : forall t, 0 <= t -> Rabs (d t) <= 2).
  { intros x Hx. destruct (A_slope n x Hx) as (y & Y & L). rewrite (uniqueness_limite _ _ _ _ (D x) Y). exact L. }
  destruct (MVT_cor2 (A n) d s t (Logic.proj2 H) (fun c _ => D c)) as (c & E & Hc). rewrite E, Rabs_mult, (Rabs_pos_eq (t - s)) by lra.
  apply Rmult_le_compat_r; [lra|apply B; lra].
Qed.
Lemma A_lip n s t : 0 <= s -> 0 <= t -> Rabs (A n t - A n s) <= 2 * Rabs (t - s).
Proof.
  intros Hs Ht. destruct (Rtotal_order s t) as [L|[->|L]].
  - rewrite (Rabs_pos_eq (t - s)) by lra. apply A_lip_lt. lra.
  - rewrite !Rminus_diag_eq by reflexivity. rewrite Rabs_R0. lra.
  - rewrite Rabs_minus_sym, (Rabs_minus_sym t s), (Rabs_pos_eq (s - t)) by lra. apply A_lip_lt. lra.
Qed.
Lemma bessel_1 n x : 0 <= x -> Rabs (bessel_j n x) <= 1.
Proof. intros Hx. replace x with (2 * (x / 2)) by field. rewrite bessel_A. apply A_1. lra. Qed.
Lemma bessel_lip n x y : 0 <= x -> 0 <= y -> Rabs (bessel_j n x - bessel_j n y) <= Rabs (x - y).
Proof.
  intros Hx Hy. replace x with (2 * (x / 2)) at 1 by field. replace y with (2 * (y / 2)) at 1 by field. rewrite !bessel_A.
  eapply Rle_trans; [apply A_lip; lra|]. replace (x / 2 - y / 2) with (/ 2 * (x - y)) by field. rewrite Rabs_mult, (Rabs_pos_eq (/ 2)) by lra. lra.
Qed.
