(** PROOFS: error of one summand of the site occupation, and of the whole sum. *)
From Coq Require Import Reals Lra Psatz List ZArith Lia Permutation.
From Verif Require Import Base M_Operator M_Basis M_Matrix M_Ode M_Dispersion M_Number M_OpenMP M_SiteOccupation Spec_Stability
  M_Rounding Spec_Rounding Pf_Rounding M_RoundedMeasurement Pf_Threads Pf_RoundedSum.
Local Open Scope R_scope.
Local Open Scope list_scope.

Section Dev.
  Context (u eta H : R) (ar : arith).
  Hypothesis u0 : 0 <= u <= 1 / 32.
  Hypothesis e0 : 0 <= eta <= 1.
  Hypothesis H0 : 2048 <= H.
  Hypothesis acc : accurate u eta H ar.
  Local Notation pw := (pw u).
  Definition dev (k : nat) (X c y x : R) : Prop := sdev u k X (c * eta) y x.

  Lemma pw_20 k : (k <= 20)%nat -> pw k <= 2.
  Proof.
    intros L. apply Rle_trans with (pw 20); [apply pw_mono; [lra|exact L]|].
    unfold Pf_Rounding.pw. apply Rle_trans with ((1 + 1 / 32) ^ 20); [apply pow_incr; lra|]. lra.
  Qed.
  Lemma dev_c k X c y x : dev k X c y x -> 0 < eta -> 0 <= c.
  Proof. intros (_ & A & _) E. nra. Qed.
  Lemma dev_exact x X : Rabs x <= X -> dev 0 X 0 x x.
  Proof. intros A. unfold dev. rewrite Rmult_0_l. apply sdev_exact, A. Qed.
  Lemma dev_weak k k' X X' c c' y x : (k <= k')%nat -> X <= X' -> c <= c' -> dev k X c y x -> dev k' X' c' y x.
  Proof.
    intros Hk HX Hc D. pose proof (sdev_X _ _ _ _ _ _ D) as X0. apply (sdev_mono u ltac:(lra) k k' X (c * eta) (c' * eta)) in D; [|exact Hk|nra].
    destruct D as (A & B & C). pose proof (pw_ge u ltac:(lra) k'). split; [lra|]. split; [exact B|].
    eapply Rle_trans; [exact C|]. assert ((pw k' - 1) * X <= (pw k' - 1) * X') by (apply Rmult_le_compat_l; lra). lra.
  Qed.
  Lemma dev_opp k X c y x : dev k X c y x -> dev k X c (- y) (- x).
  Proof. apply sdev_opp. Qed.
  Lemma dev_fits k X c : (k <= 20)%nat -> 0 <= X -> 0 <= c * eta -> X + Rabs c <= 1000 -> pw k * (X + c * eta) <= H.
  Proof.
    intros Hk HX Hc HB. pose proof (pw_20 k Hk). pose proof (pw_ge u ltac:(lra) k). pose proof (Rle_abs c). pose proof (Rabs_pos c).
    assert (c * eta <= Rabs c) by nra. assert (pw k * (X + c * eta) <= 2 * 1000) by (apply Rmult_le_compat; lra). lra.
  Qed.
  Lemma dev_round k X c y x z : (k <= 20)%nat -> 0 <= c -> X + c <= 1000 -> within u eta H z y -> dev k X c y x -> dev (S k) X (c + 1) z x.
  Proof.
    intros Hk Hc HB W D. unfold dev in *. replace ((c + 1) * eta) with (c * eta + eta) by ring.
    apply (sdev_round u eta H ltac:(lra) ltac:(lra) k X (c * eta) y x z); [|exact W|exact D].
    apply dev_fits; [exact Hk|exact (sdev_X _ _ _ _ _ _ D)|exact (Logic.proj1 (Logic.proj2 D))|]. rewrite Rabs_pos_eq by exact Hc. exact HB.
  Qed.
  Lemma dev_add k X Y c d y x y' x' : (k <= 20)%nat -> 0 <= c -> 0 <= d -> X + Y + (c + d) <= 1000 ->
    dev k X c y x -> dev k Y d y' x' -> dev (S k) (X + Y) (c + d + 1) (f_add ar y y') (x + x').
  Proof.
    intros Hk Hc Hd HB D1 D2. apply (dev_round k _ _ (y + y')); [exact Hk|lra|exact HB|apply acc|].
    unfold dev. rewrite Rmult_plus_distr_r. apply sdev_plus; assumption.
  Qed.
  Lemma sdev_mul j k X Y s t y x y' x' : sdev u j X t y x -> sdev u k Y s y' x' -> sdev u (j + k) (X * Y) (X * s + Y * t + t * s) (y * y') (x * x').
  Proof.
    intros S1 S2. pose proof (sdev_X _ _ _ _ _ _ S1) as X0. pose proof (sdev_X _ _ _ _ _ _ S2) as Y0. pose proof (sdev_hat _ _ _ _ _ _ S2) as Hy.
    destruct S1 as (A & B & C). destruct S2 as (A' & B' & C'). pose proof (pw_ge u ltac:(lra) j) as Gj. pose proof (pw_ge u ltac:(lra) k) as Gk.
    split; [rewrite Rabs_mult; apply Rmult_le_compat; try apply Rabs_pos; assumption|]. split; [nra|].
    replace (y * y' - x * x') with ((y - x) * y' + x * (y' - x')) by ring. eapply Rle_trans; [apply Rabs_triang|]. rewrite !Rabs_mult.
    assert (E1 : Rabs (y - x) * Rabs y' <= ((pw j - 1) * X + pw j * t) * (pw k * (Y + s))) by (apply Rmult_le_compat; try apply Rabs_pos; assumption).
    assert (E2 : Rabs x * Rabs (y' - x') <= X * ((pw k - 1) * Y + pw k * s)) by (apply Rmult_le_compat; try apply Rabs_pos; assumption).
    rewrite pw_add. lra.
  Qed.
  Lemma dev_mul j k X Y c d y x y' x' : (j + k <= 20)%nat -> 0 <= c -> 0 <= d -> X * Y + (X * d + Y * c + c * d) <= 1000 ->
    dev j X c y x -> dev k Y d y' x' -> dev (S (j + k)) (X * Y) (X * d + Y * c + c * d + 1) (f_mul ar y y') (x * x').
  Proof.
    intros Hk Hc Hd HB D1 D2. pose proof (sdev_X _ _ _ _ _ _ D1) as X0. pose proof (sdev_X _ _ _ _ _ _ D2) as Y0.
    apply (dev_round (j + k) _ _ (y * y')); [exact Hk| |exact HB|apply acc|].
    - assert (0 <= X * d) by nra. assert (0 <= Y * c) by nra. nra.
    - unfold dev in *. pose proof (sdev_mul _ _ _ _ _ _ _ _ _ _ D1 D2) as S. eapply sdev_mono; [lra|apply le_n| |exact S].
      assert (0 <= c * d) by nra. assert (eta * eta <= eta) by nra. assert (c * d * (eta * eta) <= c * d * eta) by (apply Rmult_le_compat_l; assumption). lra.
  Qed.
  Lemma dev_half k X c y x : (k <= 20)%nat -> 0 <= c -> X + c <= 1000 -> dev k X c y x -> dev (S k) (X / 2) (c / 2 + 1) (f_div ar y 2) (x / 2).
  Proof.
    intros Hk Hc HB D. pose proof (sdev_X _ _ _ _ _ _ D) as X0. apply (dev_round k _ _ (y / 2)); [exact Hk|lra|lra|apply acc; lra|].
    unfold dev in *. replace (X / 2) with (Rabs (/ 2) * X) by (rewrite Rabs_pos_eq by lra; field).
    replace (c / 2 * eta) with (Rabs (/ 2) * (c * eta)) by (rewrite Rabs_pos_eq by lra; field).
    replace (y / 2) with (/ 2 * y) by field. replace (x / 2) with (/ 2 * x) by field. apply sdev_scale; exact D.
  Qed.
End Dev.

(** ** The expectation values *)
Section Values.
  Context (u eta H : R) (ar : arith).
  Hypothesis u0 : 0 <= u <= 1 / 32.
  Hypothesis e0 : 0 <= eta <= 1.
  Hypothesis H0 : 2048 <= H.
  Hypothesis acc : accurate u eta H ar.
  Local Notation dev := (dev u eta).
  Context (ev : op hub -> op hub -> R).
  Hypothesis ev1 : forall a b, Rabs (ev a b) <= 1.

  Lemma de a b : dev 0 1 0 (ev a b) (ev a b).
  Proof. apply dev_exact, ev1. Qed.
  Lemma dc x : 0 <= x -> dev 0 x 0 x x.
  Proof. intros A. apply dev_exact. rewrite Rabs_pos_eq by exact A. lra. Qed.
  (** products and sums with numerical bounds *)
  Lemma dm j k X Y c d y x y' x' l Z e : dev j X c y x -> dev k Y d y' x' -> (j + k <= 20)%nat -> 0 <= c -> 0 <= d -> X * Y <= Z ->
    X * d + Y * c + c * d + 1 <= e -> Z + e <= 1000 -> (S (j + k) <= l)%nat -> dev l Z e (f_mul ar y y') (x * x').
  Proof.
    intros D1 D2 A B C E F G L. eapply (dev_weak u eta u0 e0 (S (j + k)) l (X * Y) Z _ e); [exact L|exact E|exact F|].
    apply (dev_mul u eta H ar u0 e0 H0 acc); try assumption. lra.
  Qed.
  Lemma da k X Y c d y x y' x' l Z e : dev k X c y x -> dev k Y d y' x' -> (k <= 20)%nat -> 0 <= c -> 0 <= d -> X + Y <= Z ->
    c + d + 1 <= e -> Z + e <= 1000 -> (S k <= l)%nat -> dev l Z e (f_add ar y y') (x + x').
  Proof.
    intros D1 D2 A B C E F G L. eapply (dev_weak u eta u0 e0 (S k) l (X + Y) Z _ e); [exact L|exact E|exact F|].
    apply (dev_add u eta H ar u0 e0 H0 acc); try assumption. lra.
  Qed.
  Lemma dw k k' X c y x : (k <= k')%nat -> dev k X c y x -> dev k' X c y x.
  Proof. intros L D. apply (dev_weak u eta u0 e0 k k' X X c c); [exact L|lra|lra|exact D]. Qed.

  Definition approx {A B} (R : A -> B -> Prop) (x : outcome A) (y : outcome B) : Prop :=
    forall b, y = Ok b -> exists a, x = Ok a /\ R a b.
  Ltac side := try lia; try lra.
  Lemma so1_dev a b : approx (dev 1 2 1) (f_so1 ar ev a b) (so1_ev (F := Rring) ev a b).
  Proof.
    unfold f_so1, so1_ev. intros x E. destruct a as [|a0 [|]]; try discriminate. destruct b as [|b0 [|]]; try discriminate.
    injection E as <-. eexists. split; [reflexivity|].
    match goal with |- dev _ _ _ _ ?t => replace t with (2 * ev a0 b0) by (unfold two; cbn; ring) end.
    apply (dm 0 0 2 1 0 0 _ _ _ _ 1 2 1); [apply dc; lra|apply de|..]; side.
  Qed.
  Lemma so11_dev a b : approx (dev 1 2 1) (f_so_1_1 ar ev a b) (so_1_1 (F := Rring) ev a b).
  Proof.
    unfold f_so_1_1, so_1_1. intros x E. destruct a as [|a0 [|]]; try discriminate. destruct b as [|b0 [|]]; try discriminate.
    destruct (_ && index2 b0)%bool; [|discriminate].
    injection E as <-. eexists. split; [reflexivity|].
    match goal with |- dev _ _ _ _ ?t => replace t with (2 * ev a0 b0) by (unfold two; cbn; ring) end.
    apply (dm 0 0 2 1 0 0 _ _ _ _ 1 2 1); [apply dc; lra|apply de|..]; side.
  Qed.
  Lemma ret_dev (b : bool) e e' : dev 0 1 0 e e -> dev 0 1 0 e' e' ->
    dev 3 6 9 (f_mul ar 4 (f_mul ar (if b then f_add ar e (- (1 / 2)) else e) e')) (4 * ((if b then e - 1 / 2 else e) * e')).
  Proof.
    intros D D'. apply (dm 0 2 4 (3/2) 0 2 _ _ _ _ 3 6 9); [apply dc; lra|..]; side.
    apply (dm 1 0 (3/2) 1 1 0 _ _ _ _ 2 (3/2) 2); [|exact D'|..]; side.
    destruct b.
    - apply (da 0 1 (1/2) 0 0 _ _ _ _ 1 (3/2) 1); [exact D|apply dev_opp, dc; lra|..]; side.
    - apply (dev_weak u eta u0 e0 0 1 1 (3/2) 0 1); [lia|lra|lra|exact D].
  Qed.
  Lemma so13_dev a b : approx (dev 3 6 9) (f_so_1_3 ar ev a b) (so_1_3 (F := Rring) (1 / 2) ev a b).
  Proof.
    unfold f_so_1_3, so_1_3. intros x E. destruct a as [|a0 [|]]; try discriminate. destruct b as [|b0 [|b1 [|b2 [|]]]]; try discriminate.
    destruct (_ && index2 b2)%bool; [|discriminate].
    injection E as <-. eexists. split; [reflexivity|].
    match goal with |- dev _ _ _ _ ?t => replace t with (4 * ((if (index1 b0 =? index1 b1)%Z then ev b0 b1 - 1 / 2 else ev b0 b1) * ev a0 b2)) end.
    2:{ unfold four, two. destruct (index1 b0 =? index1 b1)%Z; cbn; ring. }
    apply ret_dev; apply de.
  Qed.
  Lemma so31_dev a b : approx (dev 3 6 9) (f_so_3_1 ar ev a b) (so_3_1 (F := Rring) (1 / 2) ev a b).
  Proof.
    unfold f_so_3_1, so_3_1. intros x E. destruct a as [|a0 [|a1 [|a2 [|]]]]; try discriminate. destruct b as [|b0 [|]]; try discriminate.
    destruct (_ && index2 b0)%bool; [|discriminate].
    injection E as <-. eexists. split; [reflexivity|].
    match goal with |- dev _ _ _ _ ?t => replace t with (4 * ((if (index1 a1 =? index1 a2)%Z then ev a1 a2 - 1 / 2 else ev a1 a2) * ev a0 b0)) end.
    2:{ unfold four, two. destruct (index1 a1 =? index1 a2)%Z; cbn; ring. }
    apply ret_dev; apply de.
  Qed.
  Lemma so33_dev a b : approx (dev 7 34 29) (f_so_3_3 ar ev a b) (so_3_3 (F := Rring) ev a b).
  Proof.
    unfold f_so_3_3, so_3_3. intros x E. destruct a as [|a0 [|a1 [|a2 [|]]]]; try discriminate. destruct b as [|b0 [|b1 [|b2 [|]]]]; try discriminate.
    destruct (_ && index2 b2)%bool; [|discriminate].
    injection E as <-. eexists. split; [reflexivity|].
    set (k1 := (index1 a1 =? index1 a2)%Z). set (k2 := (index1 b0 =? index1 b1)%Z). set (k3 := (index1 a2 =? index1 b0)%Z).
    set (e02 := ev a0 b2). set (e12 := ev a1 a2). set (f01 := ev b0 b1). set (e11 := ev a1 b1). set (f02 := ev b0 a2).
    match goal with |- dev _ _ _ _ ?t => replace t with
      (((8 * e02 * e12 * f01 + 8 * e02 * e11 * ((if k3 then 1 else 0) + - f02)) +
        (if k2 then (if k1 then 0 + - (4 * e02 * f01) else 0) + - (4 * e02 * e12) else (if k1 then 0 + - (4 * e02 * f01) else 0))) +
        (if (k1 && k2)%bool then 0 + 2 * e02 else 0)) end.
    2:{ unfold eight, four, two. destruct k1, k2, k3; cbn; ring. }
    assert (d02 : dev 0 1 0 e02 e02) by apply de. assert (d12 : dev 0 1 0 e12 e12) by apply de. assert (g01 : dev 0 1 0 f01 f01) by apply de.
    assert (d11 : dev 0 1 0 e11 e11) by apply de. assert (g02 : dev 0 1 0 f02 f02) by apply de.
    assert (M8 : dev 1 8 1 (f_mul ar 8 e02) (8 * e02)) by (apply (dm 0 0 8 1 0 0 _ _ _ _ 1 8 1); [apply dc; lra|assumption|..]; side).
    assert (M4 : dev 1 4 1 (f_mul ar 4 e02) (4 * e02)) by (apply (dm 0 0 4 1 0 0 _ _ _ _ 1 4 1); [apply dc; lra|assumption|..]; side).
    assert (M2 : dev 1 2 1 (f_mul ar 2 e02) (2 * e02)) by (apply (dm 0 0 2 1 0 0 _ _ _ _ 1 2 1); [apply dc; lra|assumption|..]; side).
    assert (M8e : forall y x, dev 0 1 0 y x -> dev 2 8 2 (f_mul ar (f_mul ar 8 e02) y) (8 * e02 * x))
      by (intros y x D; apply (dm 1 0 8 1 1 0 _ _ _ _ 2 8 2); [exact M8|exact D|..]; side).
    assert (M4e : forall y x, dev 0 1 0 y x -> dev 2 4 2 (f_mul ar (f_mul ar 4 e02) y) (4 * e02 * x))
      by (intros y x D; apply (dm 1 0 4 1 1 0 _ _ _ _ 2 4 2); [exact M4|exact D|..]; side).
    assert (D3 : dev 1 2 1 (f_add ar (if k3 then 1 else 0) (- f02)) ((if k3 then 1 else 0) + - f02)).
    { apply (da 0 1 1 0 0 _ _ _ _ 1 2 1); [|apply dev_opp; assumption|..]; side. destruct k3; apply dev_exact; rewrite ?Rabs_R0, ?Rabs_R1; lra. }
    assert (E6 : dev 5 24 19 (f_add ar (f_mul ar (f_mul ar (f_mul ar 8 e02) e12) f01) (f_mul ar (f_mul ar (f_mul ar 8 e02) e11) (f_add ar (if k3 then 1 else 0) (- f02))))
       (8 * e02 * e12 * f01 + 8 * e02 * e11 * ((if k3 then 1 else 0) + - f02))).
    { apply (da 4 8 16 3 15 _ _ _ _ 5 24 19); side.
      - apply (dm 2 0 8 1 2 0 _ _ _ _ 4 8 3); [apply M8e; assumption|assumption|..]; side.
      - apply (dm 2 1 8 2 2 1 _ _ _ _ 4 16 15); [apply M8e; assumption|exact D3|..]; side. }
    assert (E4a : dev 3 4 3 (if k1 then f_add ar 0 (- f_mul ar (f_mul ar 4 e02) f01) else 0) (if k1 then 0 + - (4 * e02 * f01) else 0)).
    { destruct k1.
      - apply (da 2 0 4 0 2 _ _ _ _ 3 4 3); [apply (dw 0 2); [lia|apply dc; lra]|apply dev_opp, M4e; assumption|..]; side.
      - apply (dev_weak u eta u0 e0 0 3 0 4 0 3); [lia|lra|lra|apply dc; lra]. }
    assert (E4 : dev 4 8 6 (if k2 then f_add ar (if k1 then f_add ar 0 (- f_mul ar (f_mul ar 4 e02) f01) else 0) (- f_mul ar (f_mul ar 4 e02) e12)
         else (if k1 then f_add ar 0 (- f_mul ar (f_mul ar 4 e02) f01) else 0))
       (if k2 then (if k1 then 0 + - (4 * e02 * f01) else 0) + - (4 * e02 * e12) else (if k1 then 0 + - (4 * e02 * f01) else 0))).
    { destruct k2.
      - apply (da 3 4 4 3 2 _ _ _ _ 4 8 6); [exact E4a|apply (dw 2 3); [lia|]; apply dev_opp, M4e; assumption|..]; side.
      - apply (dev_weak u eta u0 e0 3 4 4 8 3 6); [lia|lra|lra|exact E4a]. }
    assert (E2 : dev 2 2 2 (if (k1 && k2)%bool then f_add ar 0 (f_mul ar 2 e02) else 0) (if (k1 && k2)%bool then 0 + 2 * e02 else 0)).
    { destruct (k1 && k2)%bool.
      - apply (da 1 0 2 0 1 _ _ _ _ 2 2 2); [apply (dw 0 1); [lia|apply dc; lra]|exact M2|..]; side.
      - apply (dev_weak u eta u0 e0 0 2 0 2 0 2); [lia|lra|lra|apply dc; lra]. }
    apply (da 6 32 2 26 2 _ _ _ _ 7 34 29); [|apply (dw 2 6); [lia|exact E2]|..]; side.
    apply (da 5 24 8 19 6 _ _ _ _ 6 32 26); [exact E6|apply (dw 4 5); [lia|exact E4]|..]; side.
  Qed.
End Values.
