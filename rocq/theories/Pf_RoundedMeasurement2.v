(** PROOFS: error of the products and of the sums in the site occupation. *)
From Coq Require Import Reals Lra Psatz List ZArith Lia Permutation.
From Verif Require Import Base Instances M_Operator M_Basis M_Matrix M_Ode M_Dispersion M_Number M_OpenMP Spec_OpenMP Pf_OpenMP M_SiteOccupation Spec_Stability
  M_Rounding Spec_Rounding Pf_Rounding M_RoundedMeasurement Pf_Threads Pf_RoundedSum Pf_RoundedMeasurement Pf_Matrix.
Local Open Scope R_scope.
Local Open Scope list_scope.

Definition square (z : CR) : R := fst z * fst z + snd z * snd z.
Definition half_squares (p q : CR) : R := (square p + square q) / 2.
Lemma square_pos z : 0 <= square z.
Proof. unfold square. nra. Qed.
Lemma half_squares_pos p q : 0 <= half_squares p q.
Proof. unfold half_squares. pose proof (square_pos p). pose proof (square_pos q). lra. Qed.
Lemma abs_prod a b : Rabs a * Rabs b <= (a * a + b * b) / 2.
Proof.
  assert (Q : forall x, Rabs x * Rabs x = x * x) by (intros x; rewrite <- Rabs_mult; apply Rabs_pos_eq; nra).
  pose proof (Q a). pose proof (Q b). pose proof (Rle_0_sqr (Rabs a - Rabs b)) as S. unfold Rsqr in S. lra.
Qed.

Definition re (s : summand) : R := match s with CSum z => fst z | RSum x => x end.
Definition im (s : summand) : list R := match s with CSum z => [snd z] | RSum _ => [] end.

Section Products.
  Context (u eta H : R) (ar : arith).
  Hypothesis u0 : 0 <= u <= 1 / 32.
  Hypothesis e0 : 0 <= eta <= 1.
  Hypothesis H0 : 2048 <= H.
  Hypothesis acc : accurate u eta H ar.
  Local Notation dev := (dev u eta).
  Local Notation dm := (dm u eta H ar u0 e0 H0 acc).
  Local Notation da := (da u eta H ar u0 e0 H0 acc).

  Definition close (k : nat) (W c : R) (s : summand) (x : CR) : Prop :=
    dev k W c (re s) (fst x) /\ match s with CSum z => dev k W c (snd z) (snd x) | RSum _ => snd x = 0 end.

  Lemma two_products p1 p2 q1 q2 w : Rabs p1 * Rabs q1 + Rabs p2 * Rabs q2 <= w -> w <= 4 ->
    dev 2 w 3 (f_add ar (f_mul ar p1 q1) (f_mul ar p2 q2)) (p1 * q1 + p2 * q2).
  Proof.
    intros A B. assert (P : forall a b, 0 <= Rabs a * Rabs b) by (intros; apply Rmult_le_pos; apply Rabs_pos).
    pose proof (P p1 q1). pose proof (P p2 q2).
    apply (da 1 (Rabs p1 * Rabs q1) (Rabs p2 * Rabs q2) 1 1 _ _ _ _ 2 w 3); try lra; try lia.
    - apply (dm 0 0 (Rabs p1) (Rabs q1) 0 0 _ _ _ _ 1 (Rabs p1 * Rabs q1) 1); try lra; try lia; apply dev_exact; lra.
    - apply (dm 0 0 (Rabs p2) (Rabs q2) 0 0 _ _ _ _ 1 (Rabs p2 * Rabs q2) 1); try lra; try lia; apply dev_exact; lra.
  Qed.

  Context (ke : nat) (E ce : R).
  Hypothesis ke7 : (ke <= 7)%nat.
  Hypothesis E34 : 0 <= E <= 34.
  Hypothesis ce29 : 0 <= ce <= 29.
  Context (p q : CR).
  Hypothesis p4 : square p <= 4.
  Hypothesis q4 : square q <= 4.
  Let w := half_squares p q.
  Lemma w4 : 0 <= w <= 4.
  Proof. split; [apply half_squares_pos|]. unfold w, half_squares. lra. Qed.
  Lemma mwc_dev : dev 2 w 3 (fst (f_multiply_with_conjugate ar p q)) (fst p * fst q + snd p * snd q) /\
    dev 2 w 3 (snd (f_multiply_with_conjugate ar p q)) (- fst p * snd q + fst q * snd p).
  Proof.
    unfold f_multiply_with_conjugate. cbn [fst snd]. split; apply two_products; try apply w4; unfold w, half_squares, square.
    - pose proof (abs_prod (fst p) (fst q)). pose proof (abs_prod (snd p) (snd q)). lra.
    - rewrite Rabs_Ropp. pose proof (abs_prod (fst p) (snd q)). pose proof (abs_prod (fst q) (snd p)). lra.
  Qed.
  (** x * z / 2 *)
  Lemma scaled_half xh x zh z m : 0 <= m <= 4 -> dev ke E ce xh x -> dev 2 m 3 zh z ->
    dev (ke + 4) (E * m / 2) 154 (f_div ar (f_mul ar xh zh) 2) (x * z / 2).
  Proof.
    intros Hm D Dz. assert (0 <= E * m <= 136) by nra. assert (m * ce <= 116) by nra.
    apply (dev_weak u eta u0 e0 (S (ke + 3)) (ke + 4) (E * m / 2) (E * m / 2) (306 / 2 + 1) 154); [lia|lra|lra|].
    apply (dev_half u eta H ar u0 e0 H0 acc); [lia|lra|lra|].
    apply (dm ke 2 E m ce 3 _ _ _ _ (ke + 3) (E * m) 306); try assumption; try lia; try lra.
  Qed.
  Lemma conjugate_product_close xh x : dev ke E ce xh x ->
    dev (ke + 4) (E * w / 2) 154 (fst (f_conjugate_product ar xh p q)) (fst (with_conjugate (F := Rring) (1 / 2) x p q)) /\
    dev (ke + 4) (E * w / 2) 154 (snd (f_conjugate_product ar xh p q)) (snd (with_conjugate (F := Rring) (1 / 2) x p q)).
  Proof.
    intros D. destruct mwc_dev as (D1 & D2). unfold f_conjugate_product, with_conjugate, halve, fmul, multiply_with_conjugate, cf_scale. cbn [fst snd].
    split.
    - match goal with |- Pf_RoundedMeasurement.dev _ _ _ _ _ _ ?t => replace t with (x * (fst p * fst q + snd p * snd q) / 2) by (cbn; field) end.
      apply scaled_half; [apply w4|exact D|exact D1].
    - match goal with |- Pf_RoundedMeasurement.dev _ _ _ _ _ _ ?t => replace t with (x * (- fst p * snd q + fst q * snd p) / 2) by (cbn; field) end.
      apply scaled_half; [apply w4|exact D|exact D2].
  Qed.
  Lemma with_conjugate_close xh x : dev ke E ce xh x ->
    close (ke + 5) (E * w) 400 (f_with_conjugate ar xh p q) (with_conjugate (F := Rring) (1 / 2) x p q).
  Proof.
    intros D. destruct (conjugate_product_close xh x D) as (D1 & D2). assert (0 <= E * w) by (pose proof w4; nra).
    split; cbn [re f_with_conjugate]; eapply dev_weak; try exact D1; try exact D2; try assumption; try lia; try lra.
  Qed.
  Lemma with_products_close xh x : dev ke E ce xh x ->
    close (ke + 5) (E * w) 400 (f_with_products ar xh p q) (with_products (F := Rring) (1 / 2) x p q).
  Proof.
    intros D. destruct mwc_dev as (D1 & _). pose proof w4. assert (0 <= E * w <= 136) by nra. assert (w * ce <= 116) by nra.
    split; [|reflexivity]. cbn [re f_with_products with_products of_real fst].
    match goal with |- Pf_RoundedMeasurement.dev _ _ _ _ _ _ ?t => replace t with (x * (2 * (fst p * fst q + snd p * snd q)) / 2) by (unfold add_conjugate_products; cbn; field) end.
    apply (dev_weak u eta u0 e0 (S (ke + 4)) (ke + 5) (E * (2 * w) / 2) (E * w) (674 / 2 + 1) 400); [lia|lra|lra|].
    apply (dev_half u eta H ar u0 e0 H0 acc); [lia|lra|lra|].
    apply (dm ke 3 E (2 * w) ce 7 _ _ _ _ (ke + 4) (E * (2 * w)) 674); try assumption; try lia; try lra.
    apply (dm 0 2 2 w 0 3 _ _ _ _ 3 (2 * w) 7); try lia; try lra; [apply dc; lra|exact D1].
  Qed.
  Lemma oplus_close xh x yh y a b : dev (ke + 4) (E * w / 2) 154 (fst a) (fst x) -> dev (ke + 4) (E * w / 2) 154 (snd a) (snd x) ->
    dev (ke + 4) (E * w / 2) 154 (fst b) (fst y) -> dev (ke + 4) (E * w / 2) 154 (snd b) (snd y) ->
    xh = a -> yh = b -> close (ke + 5) (E * w) 400 (CSum (cf_add ar xh yh)) (fst x + fst y, snd x + snd y).
  Proof.
    intros D1 D2 D3 D4 -> ->. pose proof w4. assert (0 <= E * w <= 136) by nra.
    split; cbn [re fst snd cf_add]; apply (da (ke + 4) (E * w / 2) (E * w / 2) 154 154 _ _ _ _ (ke + 5) (E * w) 400); try assumption; try lia; try lra.
  Qed.
End Products.

Section Norm.
  Context (u eta H : R) (ar : arith).
  Hypothesis u0 : 0 <= u <= 1 / 32.
  Hypothesis e0 : 0 <= eta <= 1.
  Hypothesis H0 : 2048 <= H.
  Hypothesis acc : accurate u eta H ar.
  Context (ke : nat) (E ce : R).
  Hypothesis ke7 : (ke <= 7)%nat.
  Hypothesis E34 : 0 <= E <= 34.
  Hypothesis ce29 : 0 <= ce <= 29.
  Lemma with_norm_close xh x p : square p <= 4 -> dev u eta ke E ce xh x ->
    close u eta (ke + 5) (E * half_squares p p) 400 (f_with_norm ar xh p p) (with_norm (F := Rring) (1 / 2) x p p).
  Proof.
    intros p4 D. destruct (mwc_dev u eta H ar u0 e0 H0 acc p p p4 p4) as (D1 & _). pose proof (w4 p p p4 p4) as W. assert (0 <= E * half_squares p p <= 136) by nra.
    split; [|reflexivity]. cbn [re f_with_norm with_norm of_real fst].
    match goal with |- Pf_RoundedMeasurement.dev _ _ _ _ _ _ ?t => replace t with (x * (fst p * fst p + snd p * snd p) / 2) by (unfold norm; cbn; field) end.
    apply (dev_weak u eta u0 e0 (ke + 4) (ke + 5) (E * half_squares p p / 2) (E * half_squares p p) 154 400); [lia|lra|lra|].
    apply (scaled_half u eta H ar u0 e0 H0 acc ke E ce); assumption.
  Qed.
End Norm.
