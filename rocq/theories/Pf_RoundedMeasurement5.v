(** PROOFS: the site occupation as a whole. *)
From Coq Require Import Reals Lra Psatz List ZArith Lia Permutation.
From Verif Require Import Base Instances M_Operator M_Basis M_Matrix M_Ode M_Dispersion M_Number M_OpenMP Spec_OpenMP Pf_OpenMP M_SiteOccupation Spec_Stability
  M_Rounding Spec_Rounding Pf_Rounding M_RoundedMeasurement Spec_RoundedMeasurement Pf_Threads Pf_RoundedSum Pf_RoundedMeasurement Pf_RoundedMeasurement2
  Pf_RoundedMeasurement3 Pf_RoundedMeasurement4 Pf_Matrix Pf_Stability.
Local Open Scope R_scope.
Local Open Scope list_scope.

Lemma SR_const {T} c (l : list T) : SR (fun _ => c) l = c * INR (length l).
Proof. induction l as [|x l IH]; cbn [SR length]; [cbn; ring|]. rewrite IH, S_INR. ring. Qed.
Lemma norm2_cons z v : norm2 (z :: v) = square z + norm2 v.
Proof. unfold norm2. rewrite sum_over_cons. reflexivity. Qed.
Lemma norm2_pos v : 0 <= norm2 v.
Proof. induction v as [|z v IH]; [unfold norm2; rewrite sum_over_nil; cbn; lra|]. rewrite norm2_cons. pose proof (square_pos z). lra. Qed.
Lemma squares_seq v : forall n, SR (fun k => square (nth k v ((0, 0) : CR))) (seq 0 n) <= norm2 v.
Proof.
  induction v as [|z v IH]; intros n.
  - rewrite (SR_ext _ (fun _ => 0)); [rewrite SR_zero; apply norm2_pos|]. intros [|k] _; cbn; unfold square; cbn; ring.
  - rewrite norm2_cons. destruct n as [|n]; cbn [seq SR nth].
    + pose proof (norm2_pos v). pose proof (square_pos z). lra.
    + rewrite <- seq_shift, SR_map. cbn [nth]. specialize (IH n). lra.
Qed.

Section Whole.
  Context (u eta H : R) (ar : arith).
  Hypothesis u0 : 0 <= u <= 1 / 32.
  Hypothesis e0 : 0 <= eta <= 1.
  Hypothesis H0 : 2048 <= H.
  Hypothesis acc : accurate u eta H ar.
  Context (ev : op hub -> op hub -> R).
  Hypothesis ev1 : forall a b, Rabs (ev a b) <= 1.
  Context (basis cbasis : list (monomial hub)) (v : list CR).
  Hypothesis v4 : norm2 v <= 4.
  Definition vn (i : Z) : CR := nth (Z.to_nat i) v (0, 0).
  Definition sq (i : Z) : R := square (vn i).
  Definition A (lo hi : Z) : R := SR sq (zrange lo hi).
  Lemma sq_pos i : 0 <= sq i. Proof. apply square_pos. Qed.
  Lemma A_pos lo hi : 0 <= A lo hi. Proof. apply SR_nonneg. intros; apply sq_pos. Qed.
  Lemma A_norm n : A 0 n <= norm2 v.
  Proof. unfold A, zrange. rewrite SR_map, Z.sub_0_r. eapply Rle_trans; [|apply (squares_seq v (Z.to_nat n))]. apply Req_le, SR_ext. intros k _. unfold sq, vn. rewrite Z.add_0_l, Nat2Z.id. reflexivity. Qed.
  Lemma sq4 i : sq i <= 4.
  Proof.
    unfold sq, vn. assert (Q : forall w k, norm2 w <= 4 -> square (nth k w ((0, 0) : CR)) <= 4).
    { induction w as [|z w IH]; intros k Hw; [destruct k; cbn; unfold square; cbn; lra|]. rewrite norm2_cons in Hw.
      pose proof (norm2_pos w). pose proof (square_pos z). destruct k; cbn [nth]; [lra|]. apply IH. lra. }
    apply Q, v4.
  Qed.
  Lemma read_vn i p : vread v i = Ok p -> p = vn i.
  Proof.
    unfold vread, vn. destruct (i <? 0)%Z; [discriminate|]. destruct (nth_error v (Z.to_nat i)) eqn:E; [|discriminate]. intros Q. injection Q as <-.
    symmetry. apply nth_error_nth, E.
  Qed.
  Definition weight (E : R) (i j : Z) : R := E * half_squares (vn i) (vn j).

  Lemma product_ok {B B'} (Rl : B' -> B -> Prop) ke E ce e' e mult' mult i j : (forall a b, approx (dev u eta ke E ce) (e' a b) (e a b)) ->
    (forall xh x, dev u eta ke E ce xh x -> Rl (mult' xh (vn i) (vn j)) (mult x (vn i) (vn j))) ->
    approx Rl (f_product basis cbasis v e' mult' i j)
      (obind (vread basis i) (fun a => obind (vread cbasis j) (fun b => obind (e a b) (fun x =>
        obind (vread v i) (fun p => obind (vread v j) (fun q => Ok (mult x p q))))))).
  Proof.
    intros He Hm y Ey. unfold f_product.
    destruct (vread basis i) as [a|]; [|discriminate]. cbn [obind] in *. destruct (vread cbasis j) as [b|]; [|discriminate]. cbn [obind] in *.
    destruct (e a b) as [x|] eqn:Ex; [|discriminate]. cbn [obind] in *. destruct (He a b x Ex) as (xh & -> & Dx). cbn [obind].
    destruct (vread v i) as [p|] eqn:Ep; [|discriminate]. cbn [obind] in *. destruct (vread v j) as [q|] eqn:Eq; [|discriminate]. cbn [obind] in *.
    injection Ey as <-. apply read_vn in Ep. apply read_vn in Eq. subst p q. eexists. split; [reflexivity|]. apply Hm, Dx.
  Qed.

  Section Kinds.
    Context (ke : nat) (E ce : R) (e' : monomial hub -> monomial hub -> outcome R) (e : monomial hub -> monomial hub -> outcome (car Rring)).
    Hypothesis ke7 : (ke <= 7)%nat.
    Hypothesis E34 : 0 <= E <= 34.
    Hypothesis ce29 : 0 <= ce <= 29.
    Hypothesis He : forall a b, approx (dev u eta ke E ce) (e' a b) (e a b).
    Local Notation cl := (close u eta (ke + 5)).
    Lemma prod_conj i j : approx (cl (weight E i j) 400) (f_product basis cbasis v e' (f_with_conjugate ar) i j)
      (product (F := Rring) basis cbasis v e (with_conjugate (F := Rring) (1 / 2)) i j).
    Proof. apply (product_ok (cl (weight E i j) 400) ke E ce e' e (f_with_conjugate ar) (with_conjugate (F := Rring) (1 / 2))); [exact He|]. intros xh x D. apply (with_conjugate_close u eta H ar u0 e0 H0 acc ke E ce); try assumption; apply sq4. Qed.
    Lemma prod_products i j : approx (cl (weight E i j) 400) (f_product basis cbasis v e' (f_with_products ar) i j)
      (product (F := Rring) basis cbasis v e (with_products (F := Rring) (1 / 2)) i j).
    Proof. apply (product_ok (cl (weight E i j) 400) ke E ce e' e (f_with_products ar) (with_products (F := Rring) (1 / 2))); [exact He|]. intros xh x D. apply (with_products_close u eta H ar u0 e0 H0 acc ke E ce); try assumption; apply sq4. Qed.
    Lemma prod_norm i : approx (cl (weight E i i) 400) (f_product basis cbasis v e' (f_with_norm ar) i i)
      (product (F := Rring) basis cbasis v e (with_norm (F := Rring) (1 / 2)) i i).
    Proof. apply (product_ok (cl (weight E i i) 400) ke E ce e' e (f_with_norm ar) (with_norm (F := Rring) (1 / 2))); [exact He|]. intros xh x D. apply (with_norm_close u eta H ar u0 e0 H0 acc ke E ce); try assumption; apply sq4. Qed.
    Lemma prod_raw i j : approx (fun a x => dev u eta (ke + 4) (weight E i j / 2) 154 (fst a) (fst x) /\ dev u eta (ke + 4) (weight E i j / 2) 154 (snd a) (snd x))
      (f_product basis cbasis v e' (f_conjugate_product ar) i j)
      (product (F := Rring) basis cbasis v e (with_conjugate (F := Rring) (1 / 2)) i j).
    Proof.
      apply (product_ok (fun (a x : CR) => dev u eta (ke + 4) (weight E i j / 2) 154 (fst a) (fst x) /\ dev u eta (ke + 4) (weight E i j / 2) 154 (snd a) (snd x)) ke E ce e' e (f_conjugate_product ar) (with_conjugate (F := Rring) (1 / 2))); [exact He|].
      intros xh x D. apply (conjugate_product_close u eta H ar u0 e0 H0 acc ke E ce); try assumption; apply sq4.
    Qed.
  End Kinds.
  Lemma prod_both ke E ce e1' e1 e2' e2 i j : (ke <= 7)%nat -> 0 <= E <= 34 -> 0 <= ce <= 29 ->
    (forall a b, approx (dev u eta ke E ce) (e1' a b) (e1 a b)) -> (forall a b, approx (dev u eta ke E ce) (e2' a b) (e2 a b)) ->
    approx (close u eta (ke + 5) (weight E i j) 400)
      (f_oplus ar (f_product basis cbasis v e1' (f_conjugate_product ar) i j) (f_product basis cbasis v e2' (f_conjugate_product ar) j i))
      (oplus (F := Rring) (product (F := Rring) basis cbasis v e1 (with_conjugate (F := Rring) (1 / 2)) i j)
        (product (F := Rring) basis cbasis v e2 (with_conjugate (F := Rring) (1 / 2)) j i)).
  Proof.
    intros K E34 C He1 He2 y Ey. unfold oplus, f_oplus in *.
    destruct (product (F := Rring) _ _ _ e1 _ i j) as [x1|] eqn:P1; [|discriminate]. cbn [obind] in Ey.
    destruct (product (F := Rring) _ _ _ e2 _ j i) as [x2|] eqn:P2; [|discriminate]. cbn [obind] in Ey. injection Ey as <-.
    destruct (prod_raw ke E ce e1' e1 K E34 C He1 i j x1 P1) as (a1 & -> & D1 & D2).
    destruct (prod_raw ke E ce e2' e2 K E34 C He2 j i x2 P2) as (a2 & -> & D3 & D4).
    cbn [obind]. eexists. split; [reflexivity|].
    assert (Sw : weight E j i = weight E i j) by (unfold weight, half_squares; rewrite (Rplus_comm (square (vn j))); reflexivity). rewrite Sw in *.
    apply (oplus_close u eta H ar u0 e0 H0 acc ke E K E34 (vn i) (vn j) (sq4 i) (sq4 j) a1 x1 a2 x2 a1 a2); try assumption; reflexivity.
  Qed.

  (** total weights *)
  Lemma weight_pos E i j : 0 <= E -> 0 <= weight E i j.
  Proof. intros P. apply Rmult_le_pos; [exact P|apply half_squares_pos]. Qed.
  Lemma weight_row E i c d : SR (weight E i) (zrange c d) = E / 2 * (INR (Z.to_nat (d - c)) * sq i + A c d).
  Proof.
    unfold weight, half_squares. rewrite SR_mul. rewrite (SR_ext _ (fun j => / 2 * sq i + / 2 * sq j)) by (intros; unfold sq; field).
    rewrite SR_add, SR_const, SR_mul, zrange_length. unfold A. field.
  Qed.
  Lemma weight_sum E a b c d : SR (fun i => SR (weight E i) (zrange c d)) (zrange a b) =
    E / 2 * (INR (Z.to_nat (d - c)) * A a b + INR (Z.to_nat (b - a)) * A c d).
  Proof.
    rewrite (SR_ext _ (fun i => E / 2 * (INR (Z.to_nat (d - c)) * sq i + A c d))) by (intros; apply weight_row).
    rewrite SR_mul, SR_add, SR_mul, SR_const, zrange_length. unfold A. ring.
  Qed.
  Lemma weight_sub E i c d d' : 0 <= E -> (c <= d <= d')%Z -> SR (weight E i) (zrange c d) <= SR (weight E i) (zrange c d').
  Proof.
    intros P L. rewrite (zrange_app c d d') by lia. rewrite SR_app. assert (0 <= SR (weight E i) (zrange d d')) by (apply SR_nonneg; intros; apply weight_pos, P). lra.
  Qed.
End Whole.
