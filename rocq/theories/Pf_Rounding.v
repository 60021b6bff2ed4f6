(** PROOFS: error analysis of one Runge-Kutta step. *)
From Coq Require Import Reals Lra Psatz List ZArith Lia.
From Verif Require Import Base M_Rounding Spec_Rounding.
Local Open Scope R_scope.
Local Open Scope list_scope.

Section Scalar.
  Context (u eta H : R) (ar : arith).
  Hypothesis u0 : 0 <= u.
  Hypothesis e0 : 0 <= eta.
  Hypothesis acc : accurate u eta H ar.
  Definition pw (k : nat) : R := (1 + u) ^ k.
  Lemma pw_ge k : 1 <= pw k.
  Proof. apply pow_R1_Rle. lra. Qed.
  Lemma pw_S k : pw (S k) = (1 + u) * pw k.
  Proof. reflexivity. Qed.
  Lemma pw_add j k : pw (j + k) = pw j * pw k.
  Proof. apply pow_add. Qed.
  Lemma pw_mono j k : (j <= k)%nat -> pw j <= pw k.
  Proof. intros L. apply Rle_pow; [lra|exact L]. Qed.

  (** y is the computed and x the exact value; X >= |x| *)
  Definition sdev (k : nat) (X t y x : R) : Prop :=
    Rabs x <= X /\ 0 <= t /\ Rabs (y - x) <= (pw k - 1) * X + pw k * t.
  Lemma sdev_X k X t y x : sdev k X t y x -> 0 <= X.
  Proof. intros (A & _). pose proof (Rabs_pos x). lra. Qed.
  Lemma sdev_hat k X t y x : sdev k X t y x -> Rabs y <= pw k * (X + t).
  Proof.
    intros (A & B & C). replace y with ((y - x) + x) by ring. eapply Rle_trans; [apply Rabs_triang|]. lra.
  Qed.
  Lemma sdev_exact x X : Rabs x <= X -> sdev 0 X 0 x x.
  Proof. intros A. split; [exact A|]. split; [lra|]. rewrite Rminus_diag_eq by reflexivity. rewrite Rabs_R0. cbn. lra. Qed.
  Lemma sdev_mono k k' X t t' y x : (k <= k')%nat -> t <= t' -> sdev k X t y x -> sdev k' X t' y x.
  Proof.
    intros Hk Ht S. pose proof (sdev_X _ _ _ _ _ S) as X0. destruct S as (A & B & C). pose proof (pw_mono k k' Hk). pose proof (pw_ge k).
    split; [exact A|]. split; [lra|]. assert (pw k * t <= pw k' * t') by (apply Rmult_le_compat; lra). nra.
  Qed.
  Lemma sdev_plus k X Y t s y x y' x' : sdev k X t y x -> sdev k Y s y' x' -> sdev k (X + Y) (t + s) (y + y') (x + x').
  Proof.
    intros (A & B & C) (A' & B' & C'). split; [eapply Rle_trans; [apply Rabs_triang|]; lra|]. split; [lra|].
    replace (y + y' - (x + x')) with ((y - x) + (y' - x')) by ring. eapply Rle_trans; [apply Rabs_triang|]. lra.
  Qed.
  Lemma sdev_opp k X t y x : sdev k X t y x -> sdev k X t (- y) (- x).
  Proof.
    intros (A & B & C). split; [rewrite Rabs_Ropp; exact A|]. split; [exact B|].
    replace (- y - - x) with (- (y - x)) by ring. rewrite Rabs_Ropp. exact C.
  Qed.
  (** multiplication by a coefficient that is itself inexact *)
  Lemma sdev_coef j k c' c X t y x : Rabs (c' - c) <= (pw j - 1) * Rabs c -> sdev k X t y x ->
    sdev (j + k) (Rabs c * X) (Rabs c * t) (c' * y) (c * x).
  Proof.
    intros Hc S. pose proof (sdev_hat _ _ _ _ _ S) as Hy. pose proof (sdev_X _ _ _ _ _ S) as X0. destruct S as (A & B & C). pose proof (Rabs_pos c).
    split; [rewrite Rabs_mult; apply Rmult_le_compat_l; lra|]. split; [apply Rmult_le_pos; lra|].
    replace (c' * y - c * x) with ((c' - c) * y + c * (y - x)) by ring. eapply Rle_trans; [apply Rabs_triang|]. rewrite !Rabs_mult.
    assert (E1 : Rabs (c' - c) * Rabs y <= (pw j - 1) * Rabs c * (pw k * (X + t))).
    { apply Rmult_le_compat; try apply Rabs_pos; assumption. }
    assert (E2 : Rabs c * Rabs (y - x) <= Rabs c * ((pw k - 1) * X + pw k * t)) by (apply Rmult_le_compat_l; lra).
    rewrite pw_add. lra.
  Qed.
  Lemma sdev_scale k c X t y x : sdev k X t y x -> sdev k (Rabs c * X) (Rabs c * t) (c * y) (c * x).
  Proof. intros S. apply (sdev_coef 0 k); [|exact S]. rewrite Rminus_diag_eq by reflexivity. rewrite Rabs_R0. cbn. lra. Qed.
  (** rounding *)
  Lemma sdev_round k X t y x z : pw k * (X + t) <= H -> within u eta H z y -> sdev k X t y x -> sdev (S k) X (t + eta) z x.
  Proof.
    intros Hr W S. pose proof (sdev_hat _ _ _ _ _ S) as Hy. pose proof (sdev_X _ _ _ _ _ S) as X0. destruct S as (A & B & C).
    split; [exact A|]. split; [lra|]. specialize (W (Rle_trans _ _ _ Hy Hr)).
    replace (z - x) with ((z - y) + (y - x)) by ring. eapply Rle_trans; [apply Rabs_triang|].
    assert (u * Rabs y <= u * (pw k * (X + t))) by (apply Rmult_le_compat_l; lra).
    pose proof (pw_ge (S k)). assert (eta <= pw (S k) * eta) by nra. rewrite pw_S in *. lra.
  Qed.
  Lemma sdev_fadd k X Y t s y x y' x' : pw k * (X + Y + (t + s)) <= H -> sdev k X t y x -> sdev k Y s y' x' ->
    sdev (S k) (X + Y) (t + s + eta) (f_add ar y y') (x + x').
  Proof. intros Hr S1 S2. apply (sdev_round k _ _ (y + y')); [exact Hr|apply acc|apply sdev_plus; assumption]. Qed.
  Lemma sdev_fmul j k c' c X t y x : pw (j + k) * (Rabs c * X + Rabs c * t) <= H -> Rabs (c' - c) <= (pw j - 1) * Rabs c -> sdev k X t y x ->
    sdev (S (j + k)) (Rabs c * X) (Rabs c * t + eta) (f_mul ar c' y) (c * x).
  Proof. intros Hr Hc S1. apply (sdev_round (j + k) _ _ (c' * y)); [exact Hr|apply acc|apply sdev_coef; assumption]. Qed.
End Scalar.

(** ** One row of the product *)
From Verif Require Import M_Matrix M_Dispersion Spec_Stability M_Ode Pf_Stability Pf_Stability2.
Section Row.
  Context (u eta H : R) (ar : arith).
  Hypothesis u0 : 0 <= u.
  Hypothesis e0 : 0 <= eta.
  Hypothesis acc : accurate u eta H ar.
  Local Notation pw := (pw u).
  Local Notation sdev := (sdev u).
  (** a row as a list of quadruples: the products x1 y1 and s x2 y2 are added *)
  Definition quadr := (R * R * (R * R))%type.
  Definition q1 (q : quadr) : R := fst (fst q) * snd (fst q).
  Definition q2 (q : quadr) : R := fst (snd q) * snd (snd q).
  Definition sg (s : bool) (x : R) : R := if s then - x else x.
  Definition qrow (s : bool) (l : list quadr) : R :=
    fold_left (fun a q => f_add ar a (f_add ar (f_mul ar (fst (fst q)) (snd (fst q))) (sg s (f_mul ar (fst (snd q)) (snd (snd q)))))) l 0.
  Definition qsum (s : bool) (l : list quadr) : R := SR (fun q => q1 q + sg s (q2 q)) l.
  Definition qabs (l : list quadr) : R := SR (fun q => Rabs (q1 q) + Rabs (q2 q)) l.
  Lemma qabs_pos l : 0 <= qabs l.
  Proof. apply SR_nonneg. intros q _. pose proof (Rabs_pos (q1 q)). pose proof (Rabs_pos (q2 q)). lra. Qed.
  Lemma qrow_dev s W l : (length l <= W)%nat -> pw (W + 2) * (qabs l + 4 * INR W * eta) <= H ->
    sdev (length l + 2) (qabs l) (4 * INR (length l) * eta) (qrow s l) (qsum s l).
  Proof.
    induction l as [|q l IH] using rev_ind; intros HW HR.
    - cbn [length]. unfold qrow, qsum, qabs. cbn [SR fold_left INR]. apply (sdev_mono u u0 0 2 _ 0); [lia|lra|].
      apply sdev_exact. rewrite Rabs_R0. lra.
    - rewrite app_length in *. cbn [length] in *.
      assert (Qa : qabs (l ++ [q]) = qabs l + (Rabs (q1 q) + Rabs (q2 q))) by (unfold qabs; rewrite SR_app; cbn [SR]; ring).
      assert (Qs : qsum s (l ++ [q]) = qsum s l + (q1 q + sg s (q2 q))) by (unfold qsum; rewrite SR_app; cbn [SR]; ring).
      assert (Qr : qrow s (l ++ [q]) = f_add ar (qrow s l) (f_add ar (f_mul ar (fst (fst q)) (snd (fst q))) (sg s (f_mul ar (fst (snd q)) (snd (snd q))))))
        by (unfold qrow; rewrite fold_left_app; reflexivity).
      pose proof (Rabs_pos (q1 q)) as P1. pose proof (Rabs_pos (q2 q)) as P2. pose proof (qabs_pos l) as P0. pose proof (pw_ge u u0 (W + 2)) as PW.
      assert (IW : INR (length l) + 1 <= INR W) by (rewrite <- S_INR; apply le_INR; lia). pose proof (pos_INR (length l)) as IP.
      assert (IE : INR (length l) * eta + eta <= INR W * eta) by (rewrite <- (Rmult_1_l eta) at 2; rewrite <- Rmult_plus_distr_r; apply Rmult_le_compat_r; lra).
      assert (IQ : 0 <= INR (length l) * eta) by (apply Rmult_le_pos; lra).
      rewrite Qa in HR.
      assert (Sub : forall k x, (k <= W + 2)%nat -> 0 <= x <= qabs l + (Rabs (q1 q) + Rabs (q2 q)) + 4 * INR W * eta -> pw k * x <= H).
      { intros k x Hk Hx. eapply Rle_trans; [|exact HR]. apply Rmult_le_compat; [pose proof (pw_ge u u0 k); lra|lra|apply pw_mono; assumption|lra]. }
      rewrite Qa, Qs, Qr. assert (HWl : (length l <= W)%nat) by lia. specialize (IH HWl).
      assert (IH' : sdev (length l + 2) (qabs l) (4 * INR (length l) * eta) (qrow s l) (qsum s l)).
      { apply IH. eapply Rle_trans; [|exact HR]. apply Rmult_le_compat_l; lra. }
      assert (F : forall a b, Rabs (a * b) <= qabs l + (Rabs (q1 q) + Rabs (q2 q)) -> sdev 1 (Rabs (a * b)) eta (f_mul ar a b) (a * b)).
      { intros a b Hab. pose proof (Rabs_pos (a * b)) as Pab.
        apply (sdev_mono u u0 1 1 _ (0 + eta)); [lia|lra|]. apply (sdev_round u eta H u0 e0 0 _ 0 (a * b)).
        - rewrite Rplus_0_r. apply Sub; [lia|lra].
        - apply acc.
        - apply sdev_exact. lra. }
      assert (S1 : sdev 1 (Rabs (q1 q)) eta (f_mul ar (fst (fst q)) (snd (fst q))) (q1 q)) by (apply F; fold (q1 q); lra).
      assert (S2 : sdev 1 (Rabs (q2 q)) eta (sg s (f_mul ar (fst (snd q)) (snd (snd q)))) (sg s (q2 q))).
      { assert (S2 : sdev 1 (Rabs (q2 q)) eta (f_mul ar (fst (snd q)) (snd (snd q))) (q2 q)) by (apply F; fold (q2 q); lra).
        destruct s; cbn [sg]; [apply sdev_opp|]; exact S2. }
      pose proof (fun G => sdev_fadd u eta H ar u0 e0 acc 1 _ _ _ _ _ _ _ _ G S1 S2) as S3. specialize (S3 ltac:(apply Sub; [lia|]; lra)).
      assert (S4 : sdev (length l + 2) (Rabs (q1 q) + Rabs (q2 q)) (3 * eta)
                    (f_add ar (f_mul ar (fst (fst q)) (snd (fst q))) (sg s (f_mul ar (fst (snd q)) (snd (snd q))))) (q1 q + sg s (q2 q))).
      { apply (sdev_mono u u0 2 _ _ (eta + eta + eta)); [lia|lra|exact S3]. }
      pose proof (fun G => sdev_fadd u eta H ar u0 e0 acc _ _ _ _ _ _ _ _ _ G IH' S4) as S5. specialize (S5 ltac:(apply Sub; [lia|]; lra)).
      apply (sdev_mono u u0 (S (length l + 2)) _ _ (4 * INR (length l) * eta + 3 * eta + eta)); [lia|rewrite plus_INR; cbn [INR]; lra|exact S5].
  Qed.
End Row.
