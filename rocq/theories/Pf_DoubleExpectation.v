(** Error bounds for C106. *)
From Coq Require Import Reals Lra Psatz List ZArith Lia.
From Flocq Require Import Core.
From Verif Require Import Base M_Rounding Spec_Rounding P_DoubleDispersion.
Local Open Scope R_scope.

Lemma abs_add x y z A B : Rabs (x - y) <= A -> Rabs (y - z) <= B -> Rabs (x - z) <= A + B.
Proof. intros H1 H2. replace (x - z) with ((x - y) + (y - z)) by ring. eapply Rle_trans; [apply Rabs_triang|lra]. Qed.
Lemma abs_from x y A : Rabs (x - y) <= A -> Rabs x <= Rabs y + A.
Proof. intros H. replace x with (y + (x - y)) by ring. eapply Rle_trans; [apply Rabs_triang|lra]. Qed.

Lemma sin_lip a b : Rabs (sin a - sin b) <= Rabs (a - b).
Proof. rewrite <- !cos_shift. eapply Rle_trans; [apply cos_lip|]. rewrite <- Rabs_Ropp. apply Req_le. f_equal. ring. Qed.

Section Errors.
  Context (u eta H : R) (ar : arith).
  Hypothesis Hu : 0 < u <= / 1000000.
  Hypothesis He : 0 <= eta <= u.
  Hypothesis Ha : accurate u eta H ar.
  (** (a' b) c with a' = a (1 + u) *)
  Lemma prod2 a a' b c : 0 <= a -> 0 <= b -> 0 <= c -> Rabs (a' - a) <= u * a -> 2 * (a * b) <= H -> 2 * (a * b * c) + c <= H ->
    Rabs (f_mul ar (f_mul ar a' b) c - a * b * c) <= 4 * u * (a * b * c) + eta * (2 + 2 * c).
  Proof.
    intros A B C E H1 H2. set (M := a * b) in *. assert (M0 : 0 <= M) by (apply Rmult_le_pos; assumption).
    assert (E1 : Rabs (a' * b - M) <= u * M).
    { unfold M. replace (a' * b - a * b) with ((a' - a) * b) by ring. rewrite Rabs_mult, (Rabs_pos_eq b) by exact B. replace (u * (a * b)) with (u * a * b) by ring. apply Rmult_le_compat_r; assumption. }
    assert (uM : 0 <= u * M <= M / 1000000) by (split; [apply Rmult_le_pos; lra|apply Rle_trans with (/ 1000000 * M); [apply Rmult_le_compat_r; lra|lra]]).
    pose proof (abs_from _ _ _ E1) as E2. rewrite (Rabs_pos_eq M) in E2 by exact M0.
    destruct (Ha a' b) as (_ & P & _). specialize (P ltac:(lra)). set (p := f_mul ar a' b) in *.
    assert (E3 : Rabs (p - M) <= u * (11 / 10 * M) + eta + u * M).
    { apply (abs_add p (a' * b) M); [|exact E1]. eapply Rle_trans; [exact P|]. apply Rplus_le_compat_r, Rmult_le_compat_l; lra. }
    pose proof (abs_from _ _ _ E3) as E4. rewrite (Rabs_pos_eq M) in E4 by exact M0.
    assert (E5 : Rabs p <= 11 / 10 * M + eta) by lra.
    assert (E6 : Rabs (p * c) <= 11 / 10 * (M * c) + eta * c).
    { rewrite Rabs_mult, (Rabs_pos_eq c) by exact C. replace (11 / 10 * (M * c) + eta * c) with ((11 / 10 * M + eta) * c) by ring. apply Rmult_le_compat_r; assumption. }
    assert (MC : 0 <= M * c) by (apply Rmult_le_pos; assumption). assert (ec : 0 <= eta * c <= c / 1000) by (split; [apply Rmult_le_pos; lra|replace (c / 1000) with (/ 1000 * c) by field; apply Rmult_le_compat_r; lra]).
    destruct (Ha p c) as (_ & Q & _). specialize (Q ltac:(lra)).
    assert (E7 : Rabs (p * c - M * c) <= 21 / 10 * (u * (M * c)) + eta * c).
    { replace (p * c - M * c) with ((p - M) * c) by ring. rewrite Rabs_mult, (Rabs_pos_eq c) by exact C. replace (21 / 10 * (u * (M * c)) + eta * c) with ((u * (11 / 10 * M) + eta + u * M) * c) by field. apply Rmult_le_compat_r; assumption. }
    eapply Rle_trans; [apply (abs_add _ _ _ _ _ Q E7)|].
    assert (E8 : u * Rabs (p * c) <= 11 / 10 * (u * (M * c)) + u * (eta * c)) by (replace (11 / 10 * (u * (M * c)) + u * (eta * c)) with (u * (11 / 10 * (M * c) + eta * c)) by field; apply Rmult_le_compat_l; lra).
    assert (u * (eta * c) <= 1 * (eta * c)) by (apply Rmult_le_compat_r; lra). assert (0 <= u * (M * c)) by (apply Rmult_le_pos; lra). lra.
  Qed.
  (** the sine of it *)
  Lemma sine_err fsin x X E : Rabs (fsin x - sin x) <= 2 * u * Rabs (sin x) + eta -> 0 <= X -> Rabs (x - X) <= E -> Rabs (fsin x - sin X) <= 2 * u * X + 2 * E + eta.
  Proof.
    intros F PX D. assert (L : Rabs (sin x - sin X) <= E). { eapply Rle_trans; [apply sin_lip|exact D]. }
    assert (E0 : 0 <= E) by (eapply Rle_trans; [apply Rabs_pos|exact D]).
    pose proof (abs_from _ _ _ L) as L2. assert (S : Rabs (sin X) <= X). { rewrite <- (Rabs_pos_eq X) at 2 by exact PX. apply sin_abs. }
    eapply Rle_trans; [apply (abs_add _ _ _ _ _ F L)|]. assert (2 * u * Rabs (sin x) <= 2 * u * (X + E)) by (apply Rmult_le_compat_l; lra). assert (2 * u * E <= 1 * E) by (apply Rmult_le_compat_r; lra). lra.
  Qed.
  (** a quotient with a denominator of relative error 5 u *)
  Lemma quotient_err s S d D al k : 0 < D -> 0 <= k -> Rabs (s - S) <= al * D -> Rabs S <= k * D -> Rabs (d - D) <= 5 * u * D -> 2 * k + 2 * al <= H ->
    Rabs (f_div ar s d - S / D) <= 11 / 10 * al + 7 * u * k + eta.
  Proof.
    intros D0 K0 Es Sk Ed HH. assert (A0 : 0 <= al). { apply Rmult_le_reg_r with D; [exact D0|]. rewrite Rmult_0_l. eapply Rle_trans; [apply Rabs_pos|exact Es]. }
    assert (dD : 99 / 100 * D <= d). { apply Rabs_le_inv in Ed. assert (5 * u * D <= / 100 * D) by (apply Rmult_le_compat_r; lra). lra. }
    assert (d0 : 0 < d) by lra.
    assert (Q : Rabs (s / d - S / D) <= 101 / 99 * (al + 5 * u * k)).
    { replace (s / d - S / D) with (((s - S) * D - S * (d - D)) / (D * d)) by (field; lra). unfold Rdiv at 1. rewrite Rabs_mult, Rabs_inv, (Rabs_pos_eq (D * d)) by (apply Rmult_le_pos; lra).
      apply Rmult_le_reg_r with (D * d); [apply Rmult_lt_0_compat; lra|]. rewrite Rmult_assoc, Rinv_l, Rmult_1_r by (apply Rmult_integral_contrapositive; lra).
      apply Rle_trans with (al * D * D + k * D * (5 * u * D)).
      - unfold Rminus at 1. eapply Rle_trans; [apply Rabs_triang|]. rewrite Rabs_Ropp, !Rabs_mult, (Rabs_pos_eq D) by lra. apply Rplus_le_compat; [apply Rmult_le_compat_r; lra|apply Rmult_le_compat; try apply Rabs_pos; assumption].
      - replace (al * D * D + k * D * (5 * u * D)) with ((al + 5 * u * k) * (D * D)) by ring. replace (101 / 99 * (al + 5 * u * k) * (D * d)) with ((al + 5 * u * k) * (101 / 99 * (D * d))) by ring.
        apply Rmult_le_compat_l; [assert (0 <= 5 * u * k) by (apply Rmult_le_pos; lra); lra|]. assert (D * (99 / 100 * D) <= D * d) by (apply Rmult_le_compat_l; lra). assert (0 <= D * D) by (apply Rle_0_sqr). lra. }
    assert (uk : 0 <= u * k <= k / 1000000) by (split; [apply Rmult_le_pos; lra|replace (k / 1000000) with (/ 1000000 * k) by field; apply Rmult_le_compat_r; lra]).
    assert (SD : Rabs (S / D) <= k). { unfold Rdiv. rewrite Rabs_mult, Rabs_inv, (Rabs_pos_eq D) by lra. apply Rmult_le_reg_r with D; [exact D0|]. rewrite Rmult_assoc, Rinv_l, Rmult_1_r by lra. exact Sk. }
    pose proof (abs_from _ _ _ Q) as Q2. assert (Q3 : Rabs (s / d) <= 11 / 10 * k + 11 / 10 * al) by lra.
    destruct (Ha s d) as (_ & _ & W). specialize (W ltac:(lra) ltac:(unfold within in *; lra)).
    eapply Rle_trans; [apply (abs_add _ _ _ _ _ W Q)|]. assert (u * Rabs (s / d) <= u * (11 / 10 * k + 11 / 10 * al)) by (apply Rmult_le_compat_l; lra).
    assert (u * al <= / 1000000 * al) by (apply Rmult_le_compat_r; lra). lra.
  Qed.
End Errors.
