(** PROOFS for C105: rounding errors of the summands and of their sum. *)
From Coq Require Import Reals Lra Psatz List ZArith Permutation Lia.
From Flocq Require Import Core.
From Verif Require Import Base Instances Spec_Lattice M_Operator M_Lattice Pf_Lattice M_Basis M_Matrix Pf_Matrix M_Ode M_Dispersion M_Expectation M_OpenMP Spec_OpenMP Spec_Stability Pf_Stability Pf_Stability2
  M_Rounding Spec_Rounding M_Double Pf_Double Pf_Rounding Pf_Rounding5 P_Rounding M_RoundedMeasurement Pf_Threads Pf_RoundedSum Pf_RoundedMeasurement Pf_RoundedMeasurement2 Pf_RoundedMeasurement3 Pf_RoundedMeasurement4
  Spec_Programs Spec_Bessel Pf_Bessel Pf_BesselNorm M_Theory Spec_TheoryProgram M_TheoryProgram Pf_TheoryProgram.
Local Open Scope R_scope.
Local Open Scope list_scope.

(** ** (-i)^d *)
Lemma power_phase d : (0 <= d)%Z -> minus_i_power d = (cos (PI / 2 * IZR d), - sin (PI / 2 * IZR d)).
Proof.
  intros Hd. pose proof (Z.div_mod d 4 ltac:(lia)) as E. pose proof (Z.mod_pos_bound d 4 ltac:(lia)) as B. assert (Hq : (0 <= d / 4)%Z) by (apply Z.div_pos; lia).
  set (q := (d / 4)%Z) in *. set (r := (d mod 4)%Z) in *. unfold minus_i_power. fold r.
  assert (A : PI / 2 * IZR d = PI / 2 * IZR r + 2 * INR (Z.to_nat q) * PI). { rewrite E, plus_IZR, mult_IZR, (INR_IZR_INZ (Z.to_nat q)), Z2Nat.id by exact Hq. field. }
  rewrite A, cos_period, sin_period. clearbody r. clear E A. assert (C : (r = 0 \/ r = 1 \/ r = 2 \/ r = 3)%Z) by lia. destruct C as [->|[->|[-> | ->]]].
  - rewrite Rmult_0_r, cos_0, sin_0. f_equal; ring.
  - rewrite Rmult_1_r, cos_PI2, sin_PI2. reflexivity.
  - replace (PI / 2 * 2) with PI by field. rewrite cos_PI, sin_PI. f_equal; ring.
  - replace (PI / 2 * 3) with (3 * (PI / 2)) by ring. rewrite cos_3PI2, sin_3PI2. f_equal; ring.
Qed.
Definition unit_part (c : R) : Prop := c = 0 \/ c = 1 \/ c = -1.
Lemma power_parts d : unit_part (fst (minus_i_power d)) /\ unit_part (snd (minus_i_power d)).
Proof.
  unfold minus_i_power, unit_part. pose proof (Z.mod_pos_bound d 4 ltac:(lia)) as B. set (r := (d mod 4)%Z) in *. clearbody r.
  assert (C : (r = 0 \/ r = 1 \/ r = 2 \/ r = 3)%Z) by lia. destruct C as [->|[->|[-> | ->]]]; cbn [fst snd]; split; lra.
Qed.
Lemma unit_opp c : unit_part c -> unit_part (- c).
Proof. unfold unit_part. lra. Qed.
Lemma unit_exact garbage b c : is_double b -> Rabs b <= 2 -> unit_part c -> f_mul (double_arith garbage) b c = b * c.
Proof.
  intros D B C. cbn [f_mul double_arith].
  assert (L : 2 <= bpow radix2 1023) by (change 2 with (bpow radix2 1); apply bpow_le; lia).
  destruct C as [->|[->| ->]].
  - rewrite Rmult_0_r. apply double_zero.
  - rewrite Rmult_1_r. apply double_exact; [exact D|lra].
  - replace (b * -1) with (- b) by ring. apply double_exact; [apply double_opp, D|rewrite Rabs_Ropp; lra].
Qed.

(** ** One summand *)
Section Term.
  Context (garbage : R -> R).
  Notation ar := (double_arith garbage).
  Let u := / 2 ^ 53.
  Let eta := / 2 ^ 1075.
  Let H := 2 ^ 1023.
  Lemma u_small : 0 <= u <= 1 / 32.
  Proof.
    unfold u. split; [left; apply Rinv_0_lt_compat, pow2_pos|]. replace (1 / 32) with (/ 2 ^ 5) by (cbn; field). apply Rinv_le_contravar; [apply pow2_pos|apply Rle_pow; [lra|lia]].
  Qed.
  Lemma eta_small : 0 <= eta <= 1.
  Proof. unfold eta. split; [left; apply Rinv_0_lt_compat, pow2_pos|]. rewrite <- Rinv_1. apply Rinv_le_contravar; [lra|apply pow_R1_Rle; lra]. Qed.
  Lemma H_large : 2048 <= H.
  Proof. unfold H. replace 2048 with (2 ^ 11) by (cbn; lra). apply Rle_pow; [lra|lia]. Qed.
  Lemma acc : accurate u eta H ar. Proof. apply double_ok. Qed.
  Definition times (e : R) (p q : CR) : CR := (e * (fst p * fst q - snd p * snd q), e * (fst p * snd q + snd p * fst q)).
  Lemma close_term e p q : Rabs e <= 2 -> square p <= 4 -> square q <= 4 ->
    close u eta 3 (2 * half_squares p q) 7 (CSum (cf_scale ar e (cf_mul ar p q))) (times e p q).
  Proof.
    intros He Hp Hq. pose proof (w4 p q Hp Hq) as W. pose proof u_small as U. pose proof eta_small as E. pose proof H_large as HL.
    assert (S : forall zh z, dev u eta 2 (half_squares p q) 3 zh z -> dev u eta 3 (2 * half_squares p q) 7 (f_mul ar e zh) (e * z)).
    { intros zh z D. apply (dm u eta H ar U E HL acc 0 2 2 (half_squares p q) 0 3 _ _ _ _ 3 (2 * half_squares p q) 7); try lra; try lia; [|exact D].
      apply dev_exact. exact He. }
    assert (A : forall a b, 0 <= Rabs a * Rabs b) by (intros; apply Rmult_le_pos; apply Rabs_pos).
    split; cbn [re fst snd cf_scale cf_mul times]; apply S.
    - pose proof (abs_prod (fst p) (fst q)). pose proof (abs_prod (snd p) (snd q)).
      pose proof (A (fst p) (fst q)). pose proof (A (snd p) (snd q)). unfold half_squares, square in *.
      apply (da u eta H ar U E HL acc 1 (Rabs (fst p) * Rabs (fst q)) (Rabs (snd p) * Rabs (snd q)) 1 1 _ _ _ (- (snd p * snd q)) 2 _ 3); try lra; try lia.
      + apply (dm u eta H ar U E HL acc 0 0 (Rabs (fst p)) (Rabs (fst q)) 0 0 _ _ _ _ 1 (Rabs (fst p) * Rabs (fst q)) 1); try lra; try lia; apply dev_exact; lra.
      + apply dev_opp. apply (dm u eta H ar U E HL acc 0 0 (Rabs (snd p)) (Rabs (snd q)) 0 0 _ _ _ _ 1 (Rabs (snd p) * Rabs (snd q)) 1); try lra; try lia; apply dev_exact; lra.
    - apply (two_products u eta H ar U E HL acc); [|exact (Logic.proj2 W)]. unfold half_squares, square.
      pose proof (abs_prod (fst p) (snd q)). pose proof (abs_prod (snd p) (fst q)). lra.
  Qed.
  (** ** The sum over all pairs *)
  Section Total.
    Context (N : Z) (e : Z -> Z -> R) (h hc : Z -> CR).
    Hypothesis e2 : forall i j, site N i -> site N j -> Rabs (e i j) <= 2.
    Hypothesis hs : forall i, site N i -> square (hc i) = square (h i).
    Hypothesis h4 : forall i, site N i -> square (h i) <= 4.
    Let trm i j := CSum (cf_scale ar (e i j) (cf_mul ar (h i) (hc j))).
    Lemma row_close i J : site N i -> (forall j, In j J -> site N j) ->
      Close u eta 3 7 (map (trm i) J) (map (fun j => times (e i j) (h i) (hc j)) J) (SR (fun j => 2 * half_squares (h i) (h j)) J).
    Proof.
      intros Hi. induction J as [|j J IH]; intros HJ; cbn [map SR]; [constructor|]. constructor; [|apply IH; intros; apply HJ; right; assumption].
      assert (Hj : site N j) by (apply HJ; left; reflexivity). replace (half_squares (h i) (h j)) with (half_squares (h i) (hc j)) by (unfold half_squares; rewrite (hs j Hj); reflexivity).
      apply close_term; [apply e2; assumption|apply h4, Hi|rewrite (hs j Hj); apply h4, Hj].
    Qed.
    Lemma all_close I J : (forall i, In i I -> site N i) -> (forall j, In j J -> site N j) ->
      Close u eta 3 7 (flat_map (fun i => map (trm i) J) I) (flat_map (fun i => map (fun j => times (e i j) (h i) (hc j)) J) I) (SR (fun i => SR (fun j => 2 * half_squares (h i) (h j)) J) I).
    Proof.
      intros HI HJ. induction I as [|i I IH]; cbn [flat_map SR]; [constructor|]. apply Close_app; [apply row_close; [apply HI; left; reflexivity|exact HJ]|apply IH; intros; apply HI; right; assumption].
    Qed.
    Lemma rsum_SR {A} (f : A -> R) l : rsum (map f l) = SR f l.
    Proof. induction l as [|x l IH]; [reflexivity|]. cbn [map SR]. rewrite <- IH. reflexivity. Qed.
    Lemma rsum_app l l' : rsum (l ++ l') = rsum l + rsum l'.
    Proof. induction l as [|x l IH]; cbn [app]; [cbn; ring|]. change (rsum (?a :: ?l)) with (a + rsum l). rewrite IH. ring. Qed.
    Lemma rsum_all (g : CR -> R) I J : rsum (map g (flat_map (fun i => map (fun j => times (e i j) (h i) (hc j)) J) I)) = SR (fun i => SR (fun j => g (times (e i j) (h i) (hc j))) J) I.
    Proof.
      induction I as [|i I IH]; cbn [flat_map SR map]; [reflexivity|]. rewrite map_app, rsum_app, IH. f_equal. rewrite map_map. apply rsum_SR.
    Qed.
    Lemma total_weight : SR (fun i => SR (fun j => 2 * half_squares (h i) (h j)) (zrange 0 N)) (zrange 0 N) = 2 * INR (Z.to_nat N) * SR (fun i => square (h i)) (zrange 0 N).
    Proof.
      set (Z0 := zrange 0 N). assert (L : INR (length Z0) = INR (Z.to_nat N)) by (unfold Z0; rewrite zrange_length, Z.sub_0_r; reflexivity). rewrite <- L. clear L.
      rewrite (SR_ext _ (fun i => INR (length Z0) * square (h i) + SR (fun j => square (h j)) Z0)).
      - rewrite SR_add, SR_mul, Pf_Stability3.SR_const. ring.
      - intros i _. rewrite (SR_ext _ (fun j => square (h i) + square (h j))) by (intros; unfold half_squares; field). rewrite SR_add, Pf_Stability3.SR_const. reflexivity.
    Qed.
    Hypothesis HN : (1 <= N <= 2 ^ 20)%Z.
    Hypothesis h2 : SR (fun i => square (h i)) (zrange 0 N) <= 4.
    Lemma total_error Ls T : (Z.of_nat T <= 2 ^ 40)%Z -> length Ls = T -> Permutation (concat Ls) (flat_map (fun i => map (trm i) (zrange 0 N)) (zrange 0 N)) ->
      let z := f_accumulate ar (map (sum_up ((0, 0) : CR) (fplus ar)) Ls) in
      let b := IZR (N * N + Z.of_nat T + 3) * IZR N * / 2 ^ 48 in
      Rabs (fst z - SR (fun i => SR (fun j => fst (times (e i j) (h i) (hc j))) (zrange 0 N)) (zrange 0 N)) <= b /\
      Rabs (snd z - SR (fun i => SR (fun j => snd (times (e i j) (h i) (hc j))) (zrange 0 N)) (zrange 0 N)) <= b.
    Proof.
      intros HT LT HP z b.
      pose proof (all_close (zrange 0 N) (zrange 0 N) (fun i Hi => Logic.proj1 (zrange_in 0 N i) Hi) (fun i Hi => Logic.proj1 (zrange_in 0 N i) Hi)) as C. rewrite total_weight in C.
      set (W := 2 * INR (Z.to_nat N) * SR (fun i => square (h i)) (zrange 0 N)) in *.
      set (n := Z.to_nat (N * N)). set (K := (n + T + 3)%nat). pose proof u_small as U. pose proof eta_small as E.
      assert (EK : INR K = IZR (N * N + Z.of_nat T + 3)). { unfold K, n. rewrite INR_IZR_INZ. f_equal. rewrite !Nat2Z.inj_add, Z2Nat.id by nia. lia. }
      assert (K42 : INR K <= 2 ^ 42). { rewrite EK. replace (2 ^ 42) with (IZR (2 ^ 42)) by (rewrite (pow_IZR 2 42); reflexivity). apply IZR_le. assert (N * N <= 2 ^ 20 * 2 ^ 20)%Z by (apply Z.mul_le_mono_nonneg; lia). lia. }
      assert (N20 : 1 <= IZR N <= 2 ^ 20). { split; [apply IZR_le; lia|]. replace (2 ^ 20) with (IZR (2 ^ 20)) by (rewrite (pow_IZR 2 20); reflexivity). apply IZR_le. lia. }
      assert (W0 : 0 <= W) by (exact (Close_weight _ _ _ _ _ _ _ C)).
      assert (W8 : W <= 8 * IZR N).
      { unfold W. rewrite INR_IZR_INZ, Z2Nat.id by lia. assert (IZR N * SR (fun i => square (h i)) (zrange 0 N) <= IZR N * 4) by (apply Rmult_le_compat_l; lra). lra. }
      pose proof (pos_INR K) as K0. assert (Ku : INR K * u <= / 2 ^ 11).
      { apply Rle_trans with (2 ^ 42 * u); [apply Rmult_le_compat_r; lra|]. unfold u. rewrite (half_pow 11 53) by lia. apply Rle_refl. }
      assert (H11 : / 2 ^ 11 <= 1 / 2) by (cbn; lra).
      assert (Pw : 1 <= (1 + u) ^ K <= 1 + 2 * (INR K * u)) by (split; [apply pow_R1_Rle; lra|apply pow_small; lra]).
      assert (Ke : INR (n + T) * eta <= 1 /\ 0 <= INR (n + T) * eta).
      { assert (INR (n + T) <= INR K) by (apply le_INR; unfold K; lia). pose proof (pos_INR (n + T)). split; [|apply Rmult_le_pos; lra].
        apply Rle_trans with (2 ^ 42 * eta); [apply Rmult_le_compat; lra|]. unfold eta. rewrite <- (Rinv_r (2 ^ 42)) by (apply pow_nonzero; lra). apply Rmult_le_compat_l; [left; apply pow2_pos|].
        apply Rinv_le_contravar; [apply pow2_pos|apply Rle_pow; [lra|lia]]. }
      assert (Fit : pw u K * (W + (7 + 1) * INR (n + T) * eta) <= H).
      { unfold pw. apply Rle_trans with (2 * (2 ^ 23 + 8)).
        - apply Rmult_le_compat; [lra|clear -W0 Ke; lra|lra|]. replace (2 ^ 23) with (8 * 2 ^ 20) by (cbn; lra). clear -W8 N20 Ke. set (x := 2 ^ 20) in *. clearbody x. lra.
        - apply Rle_trans with (2 ^ 25); [cbn; lra|]. unfold H. apply Rle_pow; [lra|lia]. }
      assert (Len : (length (flat_map (fun i => map (trm i) (zrange 0 N)) (zrange 0 N)) <= n)%nat).
      { rewrite (Pf_Basis.flat_map_len _ _ (Z.to_nat N)) by (intros; rewrite map_length, zrange_length; f_equal; lia). rewrite zrange_length. unfold n. nia. }
      destruct (accumulate_err u eta H ar (Logic.proj1 U) (Logic.proj1 E) acc 3 7 ltac:(lra) Ls _ _ W n T HP C Len LT Fit) as (B1 & B2). fold z in B1, B2.
      rewrite !rsum_all in B1, B2.
      assert (BB : bound u eta 3 7 W n T <= b).
      { unfold bound. fold K. unfold pw. unfold b. rewrite <- EK.
        assert (Q1 : ((1 + u) ^ K - 1) * W <= 2 * (INR K * u) * (8 * IZR N)) by (apply Rmult_le_compat; lra).
        assert (Q2 : (1 + u) ^ K * ((7 + 1) * INR (n + T) * eta) <= 2 * ((7 + 1) * INR K * eta)).
        { apply Rmult_le_compat; [lra|clear -Ke; lra|lra|]. apply Rmult_le_compat_r; [lra|]. apply Rmult_le_compat_l; [lra|]. apply le_INR. unfold K. lia. }
        assert (Ee : eta <= u) by (unfold eta, u; apply Rinv_le_contravar; [apply pow2_pos|apply Rle_pow; [lra|lia]]).
        assert (Q3 : 2 * (8 * INR K * eta) <= 16 * INR K * u * IZR N).
        { replace (2 * (8 * INR K * eta)) with (16 * INR K * eta * 1) by ring. apply Rmult_le_compat; [apply Rmult_le_pos; lra|lra|apply Rmult_le_compat_l; lra|lra]. }
        replace (/ 2 ^ 48) with (32 * u); [lra|]. unfold u. rewrite (half_pow 48 53) by lia. replace (2 ^ (53 - 48)) with 32 by (cbn; lra). reflexivity. }
      split; [exact (Rle_trans _ _ _ B1 BB)|exact (Rle_trans _ _ _ B2 BB)].
    Qed.
  End Total.
End Term.
