(** PROOFS for C105: the Bessel functions of the program and the exact sum. *)
From Coq Require Import Reals Lra Psatz List ZArith Permutation Lia.
From Flocq Require Import Core.
From Verif Require Import Base Instances Spec_Lattice M_Operator M_Lattice Pf_Lattice M_Basis M_Matrix Pf_Matrix M_Ode M_Dispersion M_Expectation Spec_Stability Pf_Stability Pf_Stability2
  M_Rounding Spec_Rounding M_Double Pf_Double Pf_Rounding5 P_Rounding Pf_RoundedMeasurement2 P_LatticeDouble M_LatticeDouble
  Spec_Programs Spec_Bessel Pf_Bessel Pf_BesselNorm M_Theory Spec_TheoryProgram M_TheoryProgram Pf_TheoryProgram2.
Local Open Scope R_scope.
Local Open Scope list_scope.

(** ** sum_i J_d(i)^2 <= 1 on the ring *)
Lemma origin_small N i : (0 <= i <= N / 2)%Z -> (1 <= N)%Z -> from_origin N i = i.
Proof. intros Hi HN. unfold from_origin, ring_distance. pose proof (Z.mul_div_le N 2 ltac:(lia)). lia. Qed.
Lemma origin_large N i : (N / 2 < i < N)%Z -> (1 <= N)%Z -> from_origin N i = (N - i)%Z.
Proof. intros Hi HN. unfold from_origin, ring_distance. pose proof (Z.mod_pos_bound N 2 ltac:(lia)). pose proof (Z.div_mod N 2 ltac:(lia)). lia. Qed.
Lemma SR_reverse (f : Z -> R) N k : SR (fun i => f (N - i)%Z) (zrange (N - Z.of_nat k) N) = SR f (zrange 1 (Z.of_nat k + 1)).
Proof.
  induction k as [|k IH]; [rewrite !(zrange_nil) by lia; reflexivity|].
  rewrite (zrange_cons (N - Z.of_nat (S k))) by lia. cbn [SR]. replace (N - Z.of_nat (S k) + 1)%Z with (N - Z.of_nat k)%Z by lia. rewrite IH.
  rewrite (zrange_app 1 (Z.of_nat k + 1) (Z.of_nat (S k) + 1)) by lia. rewrite SR_app, (zrange_cons (Z.of_nat k + 1)), (zrange_nil (Z.of_nat k + 1 + 1)) by lia. cbn [SR].
  replace (N - (N - Z.of_nat (S k)))%Z with (Z.of_nat k + 1)%Z by lia. ring.
Qed.
Lemma Q_sum k t : Q k t = A 0 t * A 0 t + 2 * SR (fun d => A (Z.to_nat d) t * A (Z.to_nat d) t) (zrange 1 (Z.of_nat k + 1)).
Proof.
  induction k as [|k IH]; [rewrite zrange_nil by lia; cbn; ring|]. cbn [Q]. rewrite IH.
  rewrite (zrange_app 1 (Z.of_nat k + 1) (Z.of_nat (S k) + 1)) by lia. rewrite SR_app, (zrange_cons (Z.of_nat k + 1)), (zrange_nil (Z.of_nat k + 1 + 1)) by lia. cbn [SR].
  replace (Z.to_nat (Z.of_nat k + 1)) with (S k) by lia. ring.
Qed.
Lemma ring_norm N t : (1 <= N)%Z -> 0 <= t -> SR (fun i => bessel_j (Z.to_nat (from_origin N i)) (2 * t) * bessel_j (Z.to_nat (from_origin N i)) (2 * t)) (zrange 0 N) <= 1.
Proof.
  intros HN Ht. pose proof (Z.mod_pos_bound N 2 ltac:(lia)) as M. pose proof (Z.div_mod N 2 ltac:(lia)) as D. set (m := (N / 2)%Z) in *.
  set (f := fun d => A (Z.to_nat d) t * A (Z.to_nat d) t).
  rewrite (SR_ext _ (fun i => f (from_origin N i))) by (intros i _; unfold f; rewrite bessel_A; reflexivity).
  rewrite (zrange_app 0 (m + 1) N) by lia. rewrite SR_app.
  rewrite (SR_ext _ f (zrange 0 (m + 1))) by (intros i Hi; apply zrange_in in Hi; rewrite origin_small by (fold m; lia); reflexivity).
  rewrite (SR_ext _ (fun i => f (N - i)%Z) (zrange (m + 1) N)) by (intros i Hi; apply zrange_in in Hi; rewrite origin_large by (fold m; lia); reflexivity).
  replace (zrange (m + 1) N) with (zrange (N - Z.of_nat (Z.to_nat (N - m - 1))) N) by (f_equal; lia). rewrite SR_reverse.
  rewrite (zrange_cons 0) by lia. cbn [SR]. rewrite Z.add_0_l. apply Rle_trans with (Q (Z.to_nat m) t); [|apply Q_1, Ht]. rewrite Q_sum. fold f. rewrite !Z2Nat.id by lia.
  assert (F : forall a b, (a <= b)%Z -> (1 <= a)%Z -> SR f (zrange 1 a) <= SR f (zrange 1 b)).
  { intros a b Hab Ha. rewrite (zrange_app 1 a b) by lia. rewrite SR_app. assert (0 <= SR f (zrange a b)) by (apply SR_nonneg; intros; unfold f; nra). lra. }
  pose proof (F (N - m - 1 + 1)%Z (m + 1)%Z ltac:(lia) ltac:(lia)) as G. unfold f at 1. change (Z.to_nat 0) with 0%nat. lra.
Qed.

(** ** The argument *)
Lemma round_pos x : 0 <= x -> 0 <= round_double x.
Proof.
  intros Hx. unfold round_double. apply round_ge_generic; [apply FLT_exp_valid; exact prec53|apply valid_rnd_N|apply generic_format_0|exact Hx].
Qed.
Section Argument.
  Context (garbage : R -> R) (dt : R) (step : Z).
  Hypothesis Hk : (0 <= step < 2 ^ 52)%Z.
  Hypothesis Hd : 0 <= dt.
  Hypothesis Hx : 2 * IZR step * dt <= 2 ^ 29.
  Lemma product_time k : (0 <= k < 2 ^ 53)%Z -> IZR k * dt <= 2 ^ 29 ->
    let x := f_mul (double_arith garbage) (to_double garbage (IZR k)) dt in 0 <= x /\ Rabs (x - IZR k * dt) <= (IZR k * dt + 1) * / 2 ^ 53.
  Proof.
    intros Hk' B x. unfold x. pose proof (int_exact garbage k ltac:(lia)) as E. unfold to_double_int in E. rewrite E. cbn [f_mul double_arith].
    assert (P : 0 <= IZR k * dt) by (apply Rmult_le_pos; [apply IZR_le; lia|exact Hd]).
    assert (L : Rabs (IZR k * dt) <= 2 ^ 1023) by (rewrite Rabs_pos_eq by exact P; eapply Rle_trans; [exact B|apply Rle_pow; [lra|lia]]).
    split.
    - rewrite double_round; [apply round_pos, P|]. rewrite <- (bp 1023) in L. exact L.
    - pose proof (double_ok garbage (IZR k) dt) as (_ & W & _). unfold within in W. cbn [f_mul double_arith] in W. specialize (W L). rewrite (Rabs_pos_eq (IZR k * dt)) in W by exact P.
      assert (Ee : / 2 ^ 1075 <= / 2 ^ 53) by (apply Rinv_le_contravar; [apply pow2_pos|apply Rle_pow; [lra|lia]]). lra.
  Qed.
  Lemma argument_err : 0 <= th_argument garbage dt step /\ Rabs (th_argument garbage dt step - 2 * (IZR step * dt)) <= (2 * (IZR step * dt) + 1) * / 2 ^ 53.
  Proof.
    unfold th_argument. rewrite u64_id by (assert (2 ^ 53 < two64)%Z by reflexivity; lia).
    assert (E : IZR (2 * step) * dt = 2 * (IZR step * dt)) by (rewrite mult_IZR; ring).
    pose proof (product_time (2 * step) ltac:(lia)) as Q. rewrite E in Q. apply Q. lra.
  Qed.
  Lemma time_err : Rabs (th_time garbage dt step - IZR step * dt) <= (IZR step * dt + 1) * / 2 ^ 53.
  Proof.
    unfold th_time. apply (product_time step ltac:(lia)). assert (0 <= IZR step * dt) by (apply Rmult_le_pos; [apply IZR_le; lia|exact Hd]). lra.
  Qed.
End Argument.

(** ** The sum with inexact amplitudes and averages *)
Section Perturb.
  Context (N : Z) (a ah : Z -> R) (av avh : Z -> Z -> R) (C : Z -> Z -> R) (delta b : R).
  Hypothesis HN : (1 <= N)%Z.
  Hypothesis Hb : 0 <= b <= 1.
  Hypothesis Hd : 0 <= delta.
  Hypothesis Ha : forall i, site N i -> Rabs (a i) <= 1.
  Hypothesis Hah : forall i, site N i -> Rabs (ah i - a i) <= b.
  Hypothesis Hv : forall i j, site N i -> site N j -> Rabs (av i j) <= 1.
  Hypothesis Hvh : forall i j, site N i -> site N j -> Rabs (avh i j - av i j) <= delta.
  Hypothesis HC : forall i j, Rabs (C i j) <= 1.
  Hypothesis S2 : SR (fun i => ah i * ah i) (zrange 0 N) <= 4.
  Lemma pair_err i j : site N i -> site N j -> Rabs (avh i j * (ah i * ah j * C i j) - av i j * (a i * a j * C i j)) <= delta * ((ah i * ah i + ah j * ah j) / 2) + 3 * b.
  Proof.
    intros Hi Hj. pose proof (Ha i Hi) as A1. pose proof (Ha j Hj) as A2. pose proof (Hah i Hi) as B1. pose proof (Hah j Hj) as B2. pose proof (Hv i j Hi Hj) as V1. pose proof (Hvh i j Hi Hj) as V2.
    replace (avh i j * (ah i * ah j * C i j) - av i j * (a i * a j * C i j)) with (((avh i j - av i j) * (ah i * ah j) + av i j * ((ah i - a i) * ah j + a i * (ah j - a j))) * C i j) by ring.
    rewrite Rabs_mult. apply Rle_trans with (Rabs ((avh i j - av i j) * (ah i * ah j) + av i j * ((ah i - a i) * ah j + a i * (ah j - a j))) * 1); [apply Rmult_le_compat_l; [apply Rabs_pos|apply HC]|].
    rewrite Rmult_1_r. eapply Rle_trans; [apply Rabs_triang|]. apply Rplus_le_compat.
    - rewrite !Rabs_mult. apply Rmult_le_compat; [apply Rabs_pos|apply Rmult_le_pos; apply Rabs_pos|exact V2|apply abs_prod].
    - rewrite Rabs_mult. rewrite <- (Rmult_1_l (3 * b)). apply Rmult_le_compat; [apply Rabs_pos|apply Rabs_pos|exact V1|].
      eapply Rle_trans; [apply Rabs_triang|]. rewrite !Rabs_mult.
      assert (Aj : Rabs (ah j) <= 2). { replace (ah j) with (a j + (ah j - a j)) by ring. eapply Rle_trans; [apply Rabs_triang|]. lra. }
      assert (Rabs (ah i - a i) * Rabs (ah j) <= b * 2) by (apply Rmult_le_compat; try apply Rabs_pos; assumption).
      assert (Rabs (a i) * Rabs (ah j - a j) <= 1 * b) by (apply Rmult_le_compat; try apply Rabs_pos; assumption). lra.
  Qed.
  Lemma perturb_sum : Rabs (SR (fun i => SR (fun j => avh i j * (ah i * ah j * C i j)) (zrange 0 N)) (zrange 0 N) - SR (fun i => SR (fun j => av i j * (a i * a j * C i j)) (zrange 0 N)) (zrange 0 N))
    <= 4 * IZR N * delta + 3 * (IZR N * IZR N) * b.
  Proof.
    set (Z0 := zrange 0 N). assert (L : INR (length Z0) = IZR N) by (unfold Z0; rewrite zrange_length, Z.sub_0_r, INR_IZR_INZ, Z2Nat.id by lia; reflexivity).
    assert (N0 : 1 <= IZR N) by (apply IZR_le; lia).
    rewrite <- Pf_Rounding2.SR_sub. eapply Rle_trans; [apply SR_abs|].
    apply Rle_trans with (SR (fun i => SR (fun j => delta * ((ah i * ah i + ah j * ah j) / 2) + 3 * b) Z0) Z0).
    - apply SR_le. intros i Hi. rewrite <- Pf_Rounding2.SR_sub. eapply Rle_trans; [apply SR_abs|]. apply SR_le. intros j Hj.
      apply zrange_in in Hi, Hj. apply pair_err; assumption.
    - rewrite (SR_ext _ (fun i => delta / 2 * IZR N * (ah i * ah i) + (delta / 2 * SR (fun j => ah j * ah j) Z0 + IZR N * (3 * b)))).
      + rewrite SR_add, SR_mul, Pf_Stability3.SR_const, L. fold Z0 in S2. set (s := SR (fun j => ah j * ah j) Z0) in *. assert (IZR N * delta * s <= IZR N * delta * 4) by (apply Rmult_le_compat_l; [apply Rmult_le_pos; lra|exact S2]). lra.
      + intros i _. rewrite SR_add, Pf_Stability3.SR_const, L. rewrite (SR_ext _ (fun j => delta / 2 * (ah i * ah i) + delta / 2 * (ah j * ah j))) by (intros; field). rewrite SR_add, Pf_Stability3.SR_const, SR_mul, L. ring.
  Qed.
End Perturb.
Lemma SR_antisym (f : Z -> Z -> R) l : (forall i j, f i j = - f j i) -> SR (fun i => SR (f i) l) l = 0.
Proof.
  intros H. assert (E : SR (fun i => SR (f i) l) l = - SR (fun i => SR (f i) l) l).
  { rewrite (SR_swap f) at 1. replace (- SR (fun i => SR (f i) l) l) with (-1 * SR (fun i => SR (f i) l) l) by ring. rewrite <- SR_mul. apply SR_ext. intros i _. rewrite <- SR_mul. apply SR_ext. intros j _. rewrite H. ring. }
  lra.
Qed.
Lemma average_1 d : (0 <= d)%Z -> Rabs (object_average d) <= 1.
Proof.
  intros Hd. unfold object_average. destruct (Z.eqb_spec d 0) as [_|E]; [rewrite Rabs_R1; lra|].
  assert (D : 1 <= IZR d) by (apply IZR_le; lia). pose proof PI2_3_2 as P. unfold Rdiv. rewrite Rabs_mult, (Rabs_pos_eq (/ (PI * IZR d))) by (left; apply Rinv_0_lt_compat; nra).
  assert (S : Rabs (sin (IZR d * / 2)) <= 1) by (apply Rabs_le; apply SIN_bound). assert (I : / (PI * IZR d) <= 1) by (rewrite <- Rinv_1; apply Rinv_le_contravar; nra).
  rewrite <- (Rmult_1_l 1). apply Rmult_le_compat; [apply Rabs_pos|left; apply Rinv_0_lt_compat; nra|exact S|exact I].
Qed.
