(** THEOREMS: C62 (number helpers). *)
From Coq Require Import Reals Lra Psatz.
From Verif Require Import Base M_Number.
Local Open Scope R_scope.

Lemma Rltb_lt a b : Rltb a b = true <-> a < b.
Proof. unfold Rltb. destruct (Rlt_dec a b); split; intros; try discriminate; auto; contradiction. Qed.
Lemma Rltb_sub eps a b : Rltb (Rabs (a - b)) eps = Rltb (Rabs (b - a)) eps.
Proof. rewrite Rabs_minus_sym. reflexivity. Qed.

(** complex arithmetic, for any real scalar type *)
Section Cx.
Context (K : StarRing).
Add Ring KringC62 : (rth K).
Local Open Scope ring_scope_.
(** the embedding of a real number *)
Definition real_part_only (x : K) : cplx_ring K := (x, 0).

Theorem C62_products : forall a b : cplx_ring K,
  (multiply_with_conjugate a b : cplx_ring K) = rmul a (kconj b) /\
  kconj (multiply_with_conjugate a b : cplx_ring K) = multiply_with_conjugate b a /\
  real_part_only (add_conjugate_products a b) = radd (rmul a (kconj b)) (rmul b (kconj a)) /\
  add_conjugate_products a b = add_conjugate_products b a.
Proof.
  intros [a1 a2] [b1 b2]. unfold multiply_with_conjugate, add_conjugate_products, real_part_only. cbn [fst snd].
  repeat split; cbn; try (f_equal; ring); ring.
Qed.
Theorem C62_conjugate : forall a b : cplx_ring K,
  conjugate_cx (conjugate_cx a) = a /\
  conjugate_cx (radd a b : cplx_ring K) = radd (conjugate_cx a : cplx_ring K) (conjugate_cx b) /\
  conjugate_cx (rmul a b : cplx_ring K) = rmul (conjugate_cx a : cplx_ring K) (conjugate_cx b) /\
  fst (conjugate_cx a) = fst a /\ snd (conjugate_cx a) = ropp (snd a) /\
  (conjugate_re (fst a) = fst a).
Proof.
  intros [a1 a2] [b1 b2]. unfold conjugate_cx, conjugate_re. cbn. repeat split; f_equal; ring.
Qed.
End Cx.
Print Assumptions C62_products.
Print Assumptions C62_conjugate.

(** IsZero / IsEqual are tests of the distance against epsilon; the complex versions test the
    larger of the two coordinate distances. *)
Theorem C62_tolerance : forall eps, 0 < eps ->
  (forall a b, is_equal_fl eps a b = true <-> Rabs (a - b) < eps) /\
  (forall a b d, is_equal_fl_dev eps a b d = true <-> Rabs (a - b) < d + eps) /\
  (forall a b, is_equal_fl eps a b = is_zero_fl eps (a - b)) /\
  (forall a b d, is_equal_fl_dev eps a b d = is_zero_fl_dev eps (a - b) d) /\
  (forall a, is_zero_fl eps a = is_zero_fl_dev eps a 0) /\
  (forall a b, is_equal_cx eps a b = true <-> Rmax (Rabs (fst a - fst b)) (Rabs (snd a - snd b)) < eps) /\
  (forall a b d, is_equal_cx_dev eps a b d = true <-> Rmax (Rabs (fst a - fst b)) (Rabs (snd a - snd b)) < d + eps) /\
  (forall a, is_zero_cx eps a = true <-> Rmax (Rabs (fst a)) (Rabs (snd a)) < eps) /\
  (forall a d, is_zero_cx_dev eps a d = true <-> Rmax (Rabs (fst a)) (Rabs (snd a)) < d + eps).
Proof.
  intros eps He. assert (MX : forall x y z, x < z /\ y < z <-> Rmax x y < z).
  { intros x y z. unfold Rmax. destruct (Rle_dec x y); lra. }
  repeat split; intros; unfold is_equal_fl, is_equal_fl_dev, is_zero_fl, is_zero_fl_dev, is_equal_cx, is_equal_cx_dev, is_zero_cx, is_zero_cx_dev,
    is_equal_fl, is_equal_fl_dev, is_zero_fl, is_zero_fl_dev in *;
  repeat rewrite ?andb_true_iff, ?Rltb_lt in *; try (apply MX; assumption); try tauto.
  - f_equal; lra.
Qed.
Print Assumptions C62_tolerance.
(** IsEqual is reflexive and symmetric and only adds up tolerances: it is not transitive. *)
Theorem C62_equality : forall eps, 0 < eps ->
  (forall a, is_equal_fl eps a a = true) /\
  (forall a b, is_equal_fl eps a b = is_equal_fl eps b a) /\
  (forall a b c, is_equal_fl eps a b = true -> is_equal_fl eps b c = true -> is_equal_fl_dev eps a c eps = true) /\
  (forall a, is_equal_cx eps a a = true) /\
  (forall a b, is_equal_cx eps a b = is_equal_cx eps b a) /\
  (forall a b, is_equal_cx eps (fst a, - snd a) (fst b, - snd b) = is_equal_cx eps a b) /\
  ~ (forall a b c, is_equal_fl eps a b = true -> is_equal_fl eps b c = true -> is_equal_fl eps a c = true).
Proof.
  intros eps He. unfold is_equal_cx, is_equal_fl, is_equal_fl_dev. repeat split; intros.
  - apply Rltb_lt. rewrite Rminus_diag_eq, Rabs_R0; auto.
  - apply Rltb_sub.
  - rewrite Rltb_lt in *. replace (a - c) with ((a - b) + (b - c)) by lra. pose proof (Rabs_triang (a - b) (b - c)). lra.
  - rewrite andb_true_iff, !Rltb_lt. rewrite !Rminus_diag_eq, Rabs_R0; auto.
  - f_equal; apply Rltb_sub.
  - cbn [fst snd]. f_equal. replace (- snd a - - snd b) with (- (snd a - snd b)) by lra. rewrite Rabs_Ropp. reflexivity.
  - intros H. specialize (H 0 (eps * / 2) eps). rewrite !Rltb_lt in H.
    assert (eps < eps); [|lra]. replace eps with (Rabs (0 - eps)) at 1 by (rewrite Rabs_minus_sym, Rminus_0_r, Rabs_right; lra).
    apply H.
    + rewrite Rabs_minus_sym, Rminus_0_r, Rabs_right; lra.
    + rewrite Rabs_minus_sym. rewrite Rabs_right; lra.
Qed.
Print Assumptions C62_equality.
(** integral types: exact *)
Theorem C62_integral : forall a b,
  (is_equal_int a b = true <-> a = b) /\ (is_zero_int a = true <-> a = 0%Z) /\ is_equal_int a b = is_zero_int (a - b).
Proof.
  intros a b. unfold is_equal_int, is_zero_int. rewrite !Z.eqb_eq. repeat split; auto.
  destruct (Z.eqb_spec a b), (Z.eqb_spec (a - b) 0); lia.
Qed.
Print Assumptions C62_integral.
