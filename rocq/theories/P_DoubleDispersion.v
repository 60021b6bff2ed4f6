(** THEOREMS: C98 (the dispersion and the Fermi sea in double precision). *)
From Coq Require Import Reals Lra Psatz List ZArith Lia.
From Flocq Require Import Core.
From Verif Require Import Base M_LatticeReal M_Matrix M_OpenMP Pf_Matrix M_Dispersion Spec_MomentumProgram
  M_Rounding Spec_Rounding M_Double Pf_Double P_Rounding M_LatticeDouble P_LatticeDouble M_DoubleDispersion Spec_DoubleDispersion Pf_PiDigits.
Local Open Scope R_scope.
Local Open Scope list_scope.

Lemma sin_abs x : Rabs (sin x) <= Rabs x.
Proof.
  assert (P : forall y, 0 < y -> Rabs (sin y) <= y).
  { intros y Hy. destruct (Rle_lt_dec 1 y) as [H|H].
    - eapply Rle_trans; [|exact H]. apply Rabs_le, SIN_bound.
    - rewrite Rabs_pos_eq; [left; apply sin_lt_x; exact Hy|]. apply sin_ge_0; [lra|]. pose proof PI2_1. pose proof PI_RGT_0. lra. }
  destruct (Rtotal_order x 0) as [H|[->|H]].
  - rewrite <- (Ropp_involutive x) at 1. rewrite sin_neg, Rabs_Ropp, (Rabs_left x) by exact H. apply P. lra.
  - rewrite sin_0. lra.
  - rewrite (Rabs_pos_eq x) by lra. apply P, H.
Qed.
Lemma cos_lip a b : Rabs (cos a - cos b) <= Rabs (a - b).
Proof.
  rewrite form2. rewrite Rabs_mult, Rabs_mult, (Rabs_left (-2)) by lra. pose proof (sin_abs ((a - b) / 2)) as A.
  assert (B : Rabs (sin ((a + b) / 2)) <= 1) by apply Rabs_le, SIN_bound.
  unfold Rdiv in A at 2. rewrite Rabs_mult, (Rabs_pos_eq (/ 2)) in A by lra. pose proof (Rabs_pos (sin ((a - b) / 2))) as P. pose proof (Rabs_pos (sin ((a + b) / 2))) as P'. 
  assert (Q : Rabs (sin ((a - b) / 2)) * Rabs (sin ((a + b) / 2)) <= Rabs (sin ((a - b) / 2)) * 1) by (apply Rmult_le_compat_l; assumption). lra.
Qed.
Lemma sin_half x : 0 <= x -> x <= 1 -> x / 2 <= sin x.
Proof.
  intros H0 H1. pose proof (pre_sin_bound x 0 H0 ltac:(lra)) as [A _]. eapply Rle_trans; [|exact A].
  unfold sin_approx, sin_term. cbn. replace (x * (x * (x * 1)) / (1 + 1 + 1 + 1 + 1 + 1)) with (x * (x * x) / 6) by field. 
  assert (x * x <= 1) by nra. nra.
Qed.
Lemma e_small : 0 < e <= / 1000000.
Proof. split; [exact e_pos|]. unfold e. lra. Qed.

Section Value.
  Context (garbage fcos : R -> R) (N : Z) (J : R) (i : Z).
  Hypothesis FC : accurate_cosine fcos.
  Hypothesis HN : (0 < N <= 2 ^ 40)%Z.
  Hypothesis Hi : (0 <= i < N)%Z.
  Hypothesis HJ : Rabs J <= 2 ^ 1000.
  Let ar := double_arith garbage.
  Let W := - PI + IZR i * (2 * PI / IZR N).
  Let x := f_mul ar (f_pos ar (to_double_int garbage) (double_momentum_chain garbage N) i) 1.
  Let v := f_add ar 0 (fcos x).
  Lemma value_eq : f_dispersion_value ar (to_double_int garbage) fcos (double_momentum_chain garbage N) (chain_vectors (double_real_chain garbage N 1)) J i = f_mul ar (f_mul ar (-2) J) v.
  Proof. reflexivity. Qed.
  Lemma acc : accurate (/ 2 ^ 53) (/ 2 ^ 1075) (2 ^ 1023) ar. Proof. apply double_ok. Qed.
  Lemma W_pi : Rabs W <= PI.
  Proof.
    pose proof PI_RGT_0 as P. assert (N0 : 0 < IZR N) by (apply IZR_lt; lia). assert (I0 : 0 <= IZR i) by (apply IZR_le; lia). assert (I1 : IZR i <= IZR N) by (apply IZR_le; lia).
    unfold W. replace (IZR i * (2 * PI / IZR N)) with (2 * PI * (IZR i / IZR N)) by (field; lra).
    assert (0 <= IZR i / IZR N <= 1).
    { split; [apply Rmult_le_pos; [exact I0|left; apply Rinv_0_lt_compat, N0]|]. apply (Rmult_le_reg_r (IZR N)); [exact N0|]. unfold Rdiv. rewrite Rmult_assoc, Rinv_l by lra. lra. }
    apply Rabs_le. split; nra.
  Qed.
  Lemma PI_32 : PI <= 32 / 10.
  Proof. pose proof pi_digits as [_ B]. unfold pi_mantissa in B. lra. Qed.
  Lemma x_err : Rabs (x - W) <= 76 * e /\ Rabs x <= 4.
  Proof.
    pose proof (pos_err ar (to_double_int garbage) acc (int_exact garbage) _ _ N pi_err two_pi_err HN i Hi) as P. cbn beta in P. fold W in P.
    pose proof e_small as [E0 E1]. pose proof W_pi as WP. pose proof PI_32 as P3.
    set (p := f_pos ar (to_double_int garbage) (f_momentum_chain ar (to_double_int garbage) (round_double PI) (round_double (2 * PI)) N) i) in *.
    assert (Pp : Rabs p <= 35 / 10).
    { replace p with (W + (p - W)) by ring. eapply Rle_trans; [apply Rabs_triang|]. lra. }
    assert (Q : Rabs (x - p * 1) <= e * 4) by (apply (mul_err ar acc); [rewrite Rmult_1_r; lra|apply B_ok; lra]).
    assert (X : Rabs (x - W) <= 76 * e) by (replace (x - W) with ((x - p * 1) + (p - W)) by ring; eapply Rle_trans; [apply Rabs_triang|]; lra).
    split; [exact X|]. replace x with (W + (x - W)) by ring. eapply Rle_trans; [apply Rabs_triang|]. lra.
  Qed.
  Lemma eta_e : 0 <= / 2 ^ 1075 <= e.
  Proof. split; [left; apply Rinv_0_lt_compat, pow_lt; lra|]. unfold e. apply i2. lia. Qed.
  Lemma v_err : Rabs (v - cos W) <= 80 * e.
  Proof.
    destruct x_err as [X X4]. pose proof e_small as [E0 E1]. pose proof eta_e as [T0 T1]. pose proof (FC x X4) as F. fold e in F. pose proof (cos_lip x W) as C.
    assert (C1 : Rabs (cos x) <= 1) by apply Rabs_le, COS_bound.
    assert (F1 : Rabs (fcos x - cos x) <= 2 * e) by (eapply Rle_trans; [exact F|]; nra).
    assert (B : Rabs (0 + fcos x) <= 2).
    { replace (0 + fcos x) with (cos x + (fcos x - cos x)) by ring. eapply Rle_trans; [apply Rabs_triang|]. lra. }
    pose proof (add_err ar acc 0 (fcos x) 2 B (B_ok 2 ltac:(lra))) as A. fold v in A.
    replace (v - cos W) with ((v - (0 + fcos x)) + ((fcos x - cos x) + (cos x - cos W))) by ring.
    eapply Rle_trans; [apply Rabs_triang|]. pose proof (Rabs_triang (fcos x - cos x) (cos x - cos W)). lra.
  Qed.
  Lemma u_e : / 2 ^ 53 = e / 2.
  Proof. unfold e. replace (2 ^ 53) with (2 * 2 ^ 52) by (rewrite tech_pow_Rmult; reflexivity). field. Qed.
  Lemma a_err : Rabs (f_mul ar (-2) J - (-2) * J) <= e * Rabs J + / 2 ^ 1075.
  Proof.
    assert (A : Rabs (-2 * J) = 2 * Rabs J) by (rewrite Rabs_mult, (Rabs_left (-2)) by lra; ring).
    pose proof (acc (-2) J) as (_ & M & _). rewrite u_e in M. unfold within in M. rewrite A in M.
    eapply Rle_trans; [apply M|lra]. change 1023%nat with (1 + (22 + 1000))%nat. rewrite pow_add, pow_1. apply Rmult_le_compat_l; [lra|]. eapply Rle_trans; [exact HJ|apply p2; lia].
  Qed.
  Lemma value_err : Rabs (f_mul ar (f_mul ar (-2) J) v - (-2) * J * cos W) <= 170 * e * Rabs J + 4 * / 2 ^ 1075.
  Proof.
    pose proof a_err as A. pose proof v_err as V. pose proof e_small as [E0 E1]. pose proof eta_e as [T0 T1]. set (a := f_mul ar (-2) J) in *. set (t := / 2 ^ 1075) in *.
    pose proof (Rabs_pos J) as J0. assert (C1 : Rabs (cos W) <= 1) by apply Rabs_le, COS_bound.
    assert (VB : Rabs v <= 11 / 10) by (replace v with (cos W + (v - cos W)) by ring; eapply Rle_trans; [apply Rabs_triang|]; lra).
    assert (AB : Rabs a <= 21 / 10 * Rabs J + t).
    { replace a with (-2 * J + (a - -2 * J)) by ring. eapply Rle_trans; [apply Rabs_triang|]. rewrite (Rabs_mult (-2)), (Rabs_left (-2)) by lra. assert (e * Rabs J <= / 10 * Rabs J) by (apply Rmult_le_compat_r; lra). lra. }
    pose proof (Rabs_pos v) as V0. pose proof (Rabs_pos a) as A0.
    assert (PB : Rabs (a * v) <= 24 / 10 * Rabs J + 2 * t).
    { rewrite Rabs_mult. apply Rle_trans with ((21 / 10 * Rabs J + t) * (11 / 10)); [apply Rmult_le_compat; assumption|]. lra. }
    assert (M : Rabs (f_mul ar a v - a * v) <= e / 2 * Rabs (a * v) + t).
    { pose proof (acc a v) as (_ & Q & _). rewrite u_e in Q. apply Q. eapply Rle_trans; [exact PB|]. assert (T2 : t <= 1) by lra.
      assert (1 <= 2 ^ 1000) by (apply pow_R1_Rle; lra). change 1023%nat with (23 + 1000)%nat. rewrite pow_add. assert (8 <= 2 ^ 23) by (replace 8 with (2 ^ 3) by ring; apply p2; lia). nra. }
    assert (M2 : e / 2 * Rabs (a * v) <= e / 2 * (24 / 10 * Rabs J + 2 * t)) by (apply Rmult_le_compat_l; lra).
    assert (D : Rabs (a * v - -2 * J * cos W) <= (e * Rabs J + t) * (11 / 10) + 2 * Rabs J * (80 * e)).
    { replace (a * v - -2 * J * cos W) with ((a - -2 * J) * v + -2 * J * (v - cos W)) by ring. eapply Rle_trans; [apply Rabs_triang|]. rewrite !Rabs_mult, (Rabs_left (-2)) by lra.
      apply Rplus_le_compat; [apply Rmult_le_compat; try assumption; apply Rabs_pos|]. replace (- -2) with 2 by ring. apply Rmult_le_compat_l; [lra|exact V]. }
    replace (f_mul ar a v - -2 * J * cos W) with ((f_mul ar a v - a * v) + (a * v - -2 * J * cos W)) by ring. eapply Rle_trans; [apply Rabs_triang|].
    assert (E2 : e / 2 * (24 / 10 * Rabs J + 2 * t) <= 12 / 10 * (e * Rabs J) + t / 10).
    { assert (e * t <= / 10 * t) by (apply Rmult_le_compat_r; lra). lra. }
    assert (0 <= e * Rabs J) by (apply Rmult_le_pos; lra). lra.
  Qed.
  Lemma band_W : band N J i = -2 * J * cos W.
  Proof. unfold band, W. do 3 f_equal. field. apply not_0_IZR. lia. Qed.
End Value.

(** Every entry of the table is the energy of its momentum up to |J| / 2^44 (and underflow). *)
Theorem C98_table : forall garbage fcos N J, accurate_cosine fcos -> (0 < N <= 2 ^ 40)%Z -> Rabs J <= 2 ^ 1000 ->
  let table := double_table garbage fcos N J in
  Z.of_nat (length table) = N /\
  forall k, (0 <= k < N)%Z -> exists v, vread table k = Ok v /\ Rabs (v - band N J k) <= Rabs J / 2 ^ 44 + / 2 ^ 1073.
Proof.
  intros garbage fcos N J FC HN HJ table. unfold table, double_table, f_dispersion. change (ch_size (double_momentum_chain garbage N)) with N. split; [rewrite map_length, zrange_length; lia|].
  intros k Hk. eexists. split.
  - unfold vread. destruct (Z.ltb_spec k 0) as [C|_]; [lia|]. rewrite nth_error_map. replace (Z.to_nat k) with (Z.to_nat (k - 0)) by (f_equal; lia). rewrite zrange_nth by lia. reflexivity.
  - rewrite value_eq, (band_W N J k HN). eapply Rle_trans; [apply (value_err garbage fcos N J k FC HN Hk HJ)|].
    pose proof (Rabs_pos J) as J0. apply Rplus_le_compat.
    + unfold Rdiv. rewrite (Rmult_comm (Rabs J)). apply Rmult_le_compat_r; [exact J0|]. unfold e. rewrite (Pf_Rounding5.half_pow 44 52) by lia. replace (2 ^ (52 - 44)) with 256 by (cbn; lra).
      assert (0 < / 2 ^ 52) by (apply Rinv_0_lt_compat, pow_lt; lra). lra.
    + rewrite (Pf_Rounding5.half_pow 1073 1075) by lia. replace (2 ^ (1075 - 1073)) with 4 by (replace (1075 - 1073)%nat with 2%nat by lia; ring). lra.
Qed.
(** A momentum whose energy is not within this error of the Fermi energy 0 is classified as in exact
    arithmetic. *)
Theorem C98_occupation : forall garbage fcos N J k v, accurate_cosine fcos -> (0 < N <= 2 ^ 40)%Z -> Rabs J <= 2 ^ 1000 ->
  vread (double_table garbage fcos N J) k = Ok v ->
  Rabs J / 2 ^ 44 + / 2 ^ 1073 < Rabs (band N J k) -> (v < 0 <-> band N J k < 0).
Proof.
  intros garbage fcos N J k v FC HN HJ E G. destruct (C98_table garbage fcos N J FC HN HJ) as [L T].
  assert (Hk : (0 <= k < N)%Z).
  { unfold vread in E. destruct (Z.ltb_spec k 0) as [|K0]; [discriminate|]. destruct (nth_error _ _) eqn:X; [|discriminate].
    assert (Z.to_nat k < length (double_table garbage fcos N J))%nat by (apply nth_error_Some; rewrite X; discriminate). lia. }
  destruct (T k Hk) as (v' & E' & B). rewrite E in E'. injection E' as <-.
  unfold Rabs in B at 1, G at 2. revert B G. destruct (Rcase_abs (v - band N J k)), (Rcase_abs (band N J k)); intros; split; intros; lra.
Qed.

(** ** The momenta at the Fermi energy *)
Lemma band_cos N J i : (0 < N)%Z -> band N J i = 2 * J * cos (2 * PI * IZR i / IZR N).
Proof.
  intros HN. unfold band. replace (- PI + 2 * PI * IZR i / IZR N) with (- (PI - 2 * PI * IZR i / IZR N)) by ring. rewrite cos_neg. 
  rewrite cos_minus, cos_PI, sin_PI. ring.
Qed.
(** the angle of site i of 4m, measured from pi/2 or 3pi/2 *)
Lemma angle m i : (0 < m)%Z -> 2 * PI * IZR i / IZR (4 * m) = PI / 2 + PI / 2 * (IZR (i - m) / IZR m).
Proof. intros Hm. rewrite mult_IZR, minus_IZR. field. apply not_0_IZR. lia. Qed.
Lemma ratio m (d : Z) : (0 < m)%Z -> 0 < IZR m. Proof. intros. apply IZR_lt. lia. Qed.
Lemma band_sin m J i : (0 < m)%Z -> band (4 * m) J i = - (2 * J) * sin (PI / 2 * (IZR (i - m) / IZR m)).
Proof.
  intros Hm. rewrite band_cos by lia. rewrite angle by exact Hm. rewrite cos_plus, cos_PI2, sin_PI2. ring.
Qed.
(** The energy of the momenta -pi/2 and pi/2 is 0 *)
Theorem C98_fermi_points : forall m J, (0 < m)%Z -> band (4 * m) J m = 0 /\ band (4 * m) J (3 * m) = 0.
Proof.
  intros m J Hm. assert (M0 : IZR m <> 0) by (apply not_0_IZR; lia). rewrite !band_sin by exact Hm. split.
  - replace (m - m)%Z with 0%Z by lia. replace (PI / 2 * (0 / IZR m)) with 0 by (field; exact M0). rewrite sin_0. ring.
  - replace (3 * m - m)%Z with (2 * m)%Z by lia. rewrite mult_IZR. replace (PI / 2 * (2 * IZR m / IZR m)) with PI by (field; exact M0). rewrite sin_PI. ring.
Qed.
(** away from these two momenta the energy is at least 2|J| / m in magnitude and negative exactly between them *)
Lemma sin_away m d : (0 < m)%Z -> (1 <= d <= 2 * m - 1)%Z -> / (2 * IZR m) <= sin (PI / 2 * (IZR d / IZR m)).
Proof.
  intros Hm Hd. pose proof (ratio m d Hm) as M0. pose proof PI_RGT_0 as P0. pose proof PI_32 as P3. pose proof PI2_1 as P1.
  set (z := / IZR m). assert (Z0 : 0 < z) by apply Rinv_0_lt_compat, M0. assert (MZ : IZR m * z = 1) by (apply Rinv_r; lra).
  assert (M1 : 1 <= IZR m) by (apply IZR_le; lia). assert (Z1 : z <= 1) by nra.
  assert (D1 : 1 <= IZR d) by (apply IZR_le; lia). assert (D2 : IZR d <= 2 * IZR m - 1) by (replace (2 * IZR m - 1) with (IZR (2 * m - 1)) by (rewrite minus_IZR, mult_IZR; ring); apply IZR_le; lia).
  assert (K : forall y, z <= y -> y <= 1 -> z / 2 <= sin (PI / 2 * y)).
  { intros y Y0 Y1. apply Rle_trans with (sin (z)); [apply sin_half; lra|]. apply sin_incr_1; nra. }
  replace (/ (2 * IZR m)) with (z / 2) by (unfold z; field; lra). replace (IZR d / IZR m) with (IZR d * z) by reflexivity.
  destruct (Z_le_gt_dec d m) as [L|L].
  - apply K; [nra|]. assert (IZR d <= IZR m) by (apply IZR_le; lia). nra.
  - assert (IZR m <= IZR d) by (apply IZR_le; lia). replace (PI / 2 * (IZR d * z)) with (PI - PI / 2 * (2 - IZR d * z)) by field. rewrite sin_PI_x. apply K; nra.
Qed.
Lemma sin_outside m i : (0 < m)%Z -> (0 <= i < 4 * m)%Z -> (i < m \/ 3 * m < i)%Z -> sin (PI / 2 * (IZR (i - m) / IZR m)) <= - / (2 * IZR m).
Proof.
  intros Hm Hi O. assert (M0 : IZR m <> 0) by (apply not_0_IZR; lia).
  assert (E : exists d, (1 <= d <= 2 * m - 1)%Z /\ sin (PI / 2 * (IZR (i - m) / IZR m)) = - sin (PI / 2 * (IZR d / IZR m))).
  { destruct O as [O|O].
    - exists (m - i)%Z. split; [lia|]. rewrite <- sin_neg. f_equal. rewrite !minus_IZR. field. exact M0.
    - exists (i - 3 * m)%Z. split; [lia|]. rewrite <- neg_sin. f_equal. rewrite !minus_IZR, mult_IZR. field. exact M0. }
  destruct E as (d & Hd & ->). pose proof (sin_away m d Hm Hd). lra.
Qed.
Lemma band_exact m J i : (0 < m)%Z -> 0 < J -> (0 <= i < 4 * m)%Z ->
  (band (4 * m) J i < 0 <-> (m < i < 3 * m)%Z) /\ (i = m \/ i = (3 * m)%Z \/ J / IZR m <= Rabs (band (4 * m) J i)).
Proof.
  intros Hm HJ Hi. pose proof (ratio m 0 Hm) as M0. assert (Q : 0 < / (2 * IZR m)) by (apply Rinv_0_lt_compat; lra).
  assert (JM : J / IZR m = 2 * J * / (2 * IZR m)) by (field; lra). destruct (C98_fermi_points m J Hm) as [F1 F2].
  destruct (Z.eq_dec i m) as [->|N1]; [split; [split; intros X; [lra|lia]|auto]|].
  destruct (Z.eq_dec i (3 * m)) as [->|N2]; [split; [split; intros X; [lra|lia]|auto]|].
  rewrite band_sin by exact Hm. set (s := sin _).
  destruct (Z_lt_le_dec i m) as [L|L]; [|destruct (Z_lt_le_dec (3 * m) i) as [L'|L']].
  - assert (S : s <= - / (2 * IZR m)) by (apply sin_outside; lia). split; [split; intros X; [nra|lia]|]. right. right. rewrite JM, Rabs_pos_eq by nra. nra.
  - assert (S : s <= - / (2 * IZR m)) by (apply sin_outside; lia). split; [split; intros X; [nra|lia]|]. right. right. rewrite JM, Rabs_pos_eq by nra. nra.
  - assert (S : / (2 * IZR m) <= s) by (apply sin_away; lia). split; [split; intros X; [lia|nra]|]. right. right. rewrite JM, Rabs_left by nra. nra.
Qed.

Lemma abs_two x d : Rabs x <= d -> - d <= x <= d.
Proof. intros H. unfold Rabs in H. destruct (Rcase_abs x); lra. Qed.
Lemma inv_pos (a : nat) : 0 < / 2 ^ a. Proof. apply Rinv_0_lt_compat, pow_lt. lra. Qed.
Lemma abs_le_add x y d B : Rabs (x - y) <= d -> Rabs y + d <= B -> Rabs x <= B.
Proof. intros H1 H2. replace x with (y + (x - y)) by ring. eapply Rle_trans; [apply Rabs_triang|]. lra. Qed.
Lemma fc_small fcos x : accurate_cosine fcos -> Rabs x <= 4 -> Rabs (fcos x) <= 2.
Proof.
  intros FC X4. apply (abs_le_add _ _ _ _ (FC x X4)). fold e. assert (Rabs (cos x) <= 1) by apply Rabs_le, COS_bound. pose proof e_small as [E0 E1].
  assert (T : / 2 ^ 1075 <= e) by (unfold e; apply i2; lia). assert (e * Rabs (cos x) <= e * 1) by (apply Rmult_le_compat_l; lra). lra.
Qed.
Lemma neg_fl e t q J y z v a r : 0 < e <= / 1000000 -> 0 < t <= q -> 0 < q <= 1 -> 0 < J -> t < / 10 * (J * q) ->
  32 * q <= z -> z <= 1 -> Rabs (y - z) <= e * Rabs z + t ->
  Rabs (v - y) <= e / 2 * Rabs y + t -> Rabs (a - -2 * J) <= e * J + t -> Rabs (r - a * v) <= e / 2 * Rabs (a * v) + t -> r < 0.
Proof.
  intros [E0 E1] [T0 T1] [Q0 Q1] J0 TJ Z0 Z1 Y V A M. rewrite (Rabs_pos_eq z) in Y by lra. assert (X1 : e * z <= / 1000000 * z) by (apply Rmult_le_compat_r; lra).
  apply abs_two in Y. rewrite (Rabs_pos_eq y) in V by lra. assert (X2 : e / 2 * y <= / 1000000 * y) by (apply Rmult_le_compat_r; lra).
  apply abs_two in V. assert (VL : q <= v) by lra. assert (X3 : e * J <= / 1000000 * J) by (apply Rmult_le_compat_r; lra).
  assert (TJ2 : J * q <= J * 1) by (apply Rmult_le_compat_l; lra).
  apply abs_two in A. assert (AU : J <= - a) by lra.
  assert (P : J * q <= - a * v) by (apply Rmult_le_compat; lra). assert (P0 : 0 < J * q) by (apply Rmult_lt_0_compat; assumption).
  rewrite (Rabs_left (a * v)) in M by lra. assert (X4 : e / 2 * - (a * v) <= / 10 * - (a * v)) by (apply Rmult_le_compat_r; lra).
  apply abs_two in M. lra.
Qed.

(** the positions of the two momenta, for N a power of two *)
Section Power.
  Context (garbage fcos : R -> R) (k : nat) (J : R).
  Hypothesis FC : accurate_cosine fcos.
  Hypothesis Hk : (2 <= k <= 40)%nat.
  Let N := (2 ^ Z.of_nat k)%Z.
  Let m := (2 ^ Z.of_nat (k - 2))%Z.
  Let ar := double_arith garbage.
  Let c := double_momentum_chain garbage N.
  Lemma N4 : N = (4 * m)%Z.
  Proof. unfold N, m. rewrite <- (Z.pow_add_r 2 2) by lia. f_equal. lia. Qed.
  Lemma m_range : (1 <= m /\ 4 * m <= 2 ^ 40)%Z.
  Proof. unfold m. split; [pose proof (Z.pow_pos_nonneg 2 (Z.of_nat (k - 2))); lia|]. rewrite <- (Z.pow_add_r 2 2) by lia. apply Z.pow_le_mono_r; lia. Qed.
  (** exact operations *)
  Lemma exact_float z s x : (Z.abs z < 2 ^ 53)%Z -> (-1074 <= s <= 0)%Z -> x = IZR z * bpow radix2 s -> to_double garbage x = x.
  Proof.
    intros Hz Hs ->. apply double_exact.
    - apply generic_format_FLT. exists (Float radix2 z s); [reflexivity|exact Hz|exact (Logic.proj1 Hs)].
    - rewrite Rabs_mult, (Rabs_pos_eq (bpow radix2 s)) by apply bpow_ge_0. apply Rle_trans with (bpow radix2 53 * bpow radix2 s).
      + apply Rmult_le_compat_r; [apply bpow_ge_0|]. rewrite <- IZR_Zpower by lia. rewrite <- abs_IZR. apply IZR_le. cbn in Hz |- *. lia.
      + rewrite <- bpow_plus. apply bpow_le. lia.
  Qed.
  Lemma neg_pow (a : nat) : bpow radix2 (- Z.of_nat a) = / 2 ^ a. Proof. apply bm. Qed.
  Lemma m_real : IZR m = 2 ^ (k - 2). Proof. unfold m. rewrite pow_IZR. reflexivity. Qed.
  Lemma N_real : IZR N = 4 * 2 ^ (k - 2). Proof. rewrite N4, mult_IZR, m_real. reflexivity. Qed.
  Lemma pk : 0 < 2 ^ (k - 2). Proof. apply pow_lt. lra. Qed.
  Lemma dx_value : ch_dx c = pi_double / (2 * 2 ^ (k - 2)).
  Proof.
    pose proof m_range as [M1 M2]. pose proof pk as P. cbn [c ch_dx double_momentum_chain f_momentum_chain]. rewrite int_exact by (rewrite N4; lia). rewrite round_two_pi. cbn [f_div double_arith].
    replace (2 * pi_double / IZR N) with (pi_double / (2 * 2 ^ (k - 2))) by (rewrite N_real; field; lra).
    apply (exact_float pi_mantissa (- Z.of_nat (49 + (k - 2)))); [vm_compute; reflexivity|lia|]. rewrite neg_pow, pow_add. change 49%nat with (48 + 1)%nat. rewrite (pow_add 2 48 1). unfold pi_double. cbn [pow].
    field. lra.
  Qed.
  Lemma pos_value j : (j = 1 \/ j = 3)%Z -> f_pos ar (to_double_int garbage) c (j * m) = (IZR j / 2 - 1) * pi_double.
  Proof.
    intros Hj. pose proof m_range as [M1 M2]. pose proof pk as P. unfold f_pos. rewrite int_exact by lia. rewrite dx_value, mult_IZR, m_real.
    cbn [f_mul f_add ar double_arith c ch_x_min double_momentum_chain f_momentum_chain]. rewrite round_pi.
    replace (IZR j * 2 ^ (k - 2) * (pi_double / (2 * 2 ^ (k - 2)))) with (IZR j / 2 * pi_double) by (field; lra).
    assert (E1 : to_double garbage (IZR j / 2 * pi_double) = IZR j / 2 * pi_double).
    { apply (exact_float (j * pi_mantissa) (- Z.of_nat 49)); [destruct Hj as [-> | ->]; vm_compute; reflexivity|lia|]. rewrite neg_pow, mult_IZR. unfold pi_double. change 49%nat with (48 + 1)%nat. rewrite pow_add. cbn [pow]. field; lra. }
    rewrite E1. replace (- pi_double + IZR j / 2 * pi_double) with ((IZR j / 2 - 1) * pi_double) by ring.
    apply (exact_float ((j - 2) * pi_mantissa) (- Z.of_nat 49)); [destruct Hj as [-> | ->]; vm_compute; reflexivity|lia|]. rewrite neg_pow, mult_IZR, minus_IZR. unfold pi_double. change 49%nat with (48 + 1)%nat. rewrite pow_add. cbn [pow]. field; lra.
  Qed.
  (** the cosine of the double next to pi/2 is not zero *)
  Lemma cos_fermi j : (j = 1 \/ j = 3)%Z -> / 2 ^ 55 <= cos ((IZR j / 2 - 1) * pi_double).
  Proof.
    intros Hj. replace (cos ((IZR j / 2 - 1) * pi_double)) with (cos (pi_double / 2)).
    - pose proof pi_digits as [A B]. fold pi_double in A, B. replace (pi_double / 2) with (PI / 2 - (PI - pi_double) / 2) by field. rewrite cos_shift.
      apply Rle_trans with ((PI - pi_double) / 2 / 2); [|apply sin_half; lra]. replace (/ 2 ^ 55) with (/ 2 ^ 53 / 2 / 2) by (change 55%nat with (53 + 2)%nat; rewrite pow_add; replace (2 ^ 2) with 4 by ring; field; apply pow_nonzero; lra). lra.
    - destruct Hj as [-> | ->]; [rewrite <- cos_neg|]; f_equal; field.
  Qed.
  Hypothesis HJ : / 2 ^ 900 <= J <= 2 ^ 1000.
  Lemma fermi_negative j : (j = 1 \/ j = 3)%Z -> f_dispersion_value ar (to_double_int garbage) fcos c (chain_vectors (double_real_chain garbage N 1)) J (j * m) < 0.
  Proof.
    intros Hj. pose proof m_range as [M1 M2]. assert (HN : (0 < N <= 2 ^ 40)%Z) by (rewrite N4; lia). assert (Hi : (0 <= j * m < N)%Z) by (rewrite N4; lia).
    assert (J0 : 0 < / 2 ^ 900) by (apply Rinv_0_lt_compat, pow_lt; lra). assert (HA : Rabs J <= 2 ^ 1000) by (rewrite Rabs_pos_eq by lra; lra).
    pose proof (v_err garbage fcos N (j * m) FC HN Hi) as V. pose proof (a_err garbage J HA) as A. unfold ar, c. rewrite value_eq. fold ar c; fold ar c in V; fold ar in A.
    assert (X : f_mul ar (f_pos ar (to_double_int garbage) c (j * m)) 1 = (IZR j / 2 - 1) * pi_double).
    { rewrite pos_value by exact Hj. cbn [f_mul ar double_arith]. rewrite Rmult_1_r.
      apply (exact_float ((j - 2) * pi_mantissa) (- Z.of_nat 49)); [destruct Hj as [-> | ->]; vm_compute; reflexivity|lia|]. rewrite neg_pow, mult_IZR, minus_IZR. unfold pi_double. change 49%nat with (48 + 1)%nat. rewrite pow_add. cbn [pow]. field; lra. }
    rewrite X in *. set (x := (IZR j / 2 - 1) * pi_double) in *. pose proof (cos_fermi j Hj) as C. fold x in C.
    destruct (x_err garbage N (j * m) HN Hi) as [_ X4]. fold ar c in X4. rewrite X in X4. pose proof (FC x X4) as F. fold e in F.
    apply (neg_fl e (/ 2 ^ 1075) (/ 2 ^ 60) J (fcos x) (cos x) (f_add ar 0 (fcos x)) (f_mul ar (-2) J)); try assumption.
    - exact e_small.
    - split; [apply Rinv_0_lt_compat, pow_lt; lra|]. apply Rle_trans with (/ 2 ^ 63); [apply i2; lia|]. rewrite (Pf_Rounding5.half_pow 60 63) by lia. replace (63 - 60)%nat with 3%nat by lia. pose proof (inv_pos 63). lra.
    - split; [apply inv_pos|]. apply Rle_trans with (/ 2 ^ 0); [apply i2; lia|cbn; lra].
    - lra.
    - apply Rlt_le_trans with (/ 10 * (/ 2 ^ 900 * / 2 ^ 60)); [|apply Rmult_le_compat_l; [lra|]; apply Rmult_le_compat_r; [left; apply inv_pos|apply HJ]].
      rewrite <- Rinv_mult, <- pow_add. apply Rlt_le_trans with (/ 10 * / 2 ^ 1070).
      + rewrite (Pf_Rounding5.half_pow 1070 1075) by lia. replace (1075 - 1070)%nat with 5%nat by lia. replace (2 ^ 5) with 32 by ring. pose proof (inv_pos 1075). lra.
      + apply Rmult_le_compat_l; [lra|]. apply i2. lia.
    - eapply Rle_trans; [|exact C]. rewrite (Pf_Rounding5.half_pow 55 60) by lia. replace (60 - 55)%nat with 5%nat by lia. apply Req_le. ring.
    - apply COS_bound.
    - pose proof (double_ok garbage 0 (fcos x)) as (Q & _). fold ar in Q. unfold within in Q. rewrite Rplus_0_l, u_e in Q. apply Q.
      eapply Rle_trans; [apply (fc_small fcos x FC X4)|]. apply Rle_trans with (2 ^ 1); [lra|apply p2; lia].
    - rewrite (Rabs_pos_eq J) in A by lra. exact A.
    - pose proof (double_ok garbage (f_mul ar (-2) J) (f_add ar 0 (fcos x))) as (_ & Q & _). fold ar in Q. unfold within in Q. rewrite u_e in Q. apply Q.
      rewrite Rabs_mult. apply Rle_trans with (2 ^ 2 * 2 ^ 1000 * 2 ^ 1); [|rewrite <- !pow_add; apply p2; lia]. apply Rmult_le_compat; [apply Rabs_pos|apply Rabs_pos| |].
      + apply (abs_le_add _ (-2 * J) (e * Rabs J + / 2 ^ 1075) _ A). rewrite Rabs_mult, (Rabs_left (-2)) by lra. pose proof (eta_e) as [_ T]. pose proof e_small as [E0 E1].
        replace (2 ^ 2) with 4 by ring. assert (1 <= 2 ^ 1000) by (apply pow_R1_Rle; lra). pose proof (Rabs_pos J). assert (e * Rabs J <= / 1000000 * Rabs J) by (apply Rmult_le_compat_r; assumption). lra.
      + apply (abs_le_add _ _ _ _ V). rewrite pow_1. assert (Rabs (cos (- PI + IZR (j * m) * (2 * PI / IZR N))) <= 1) by apply Rabs_le, COS_bound. pose proof e_small. lra.
  Qed.
End Power.

(** (defect) For N a power of two (such as the default 16) the two momenta at the Fermi energy count as
    occupied in double precision: N/2 + 1 momenta lie below the Fermi energy; in exact arithmetic these two
    are not below it, and N/2 - 1 are. *)
Theorem C98_fermi_sea_refuted : forall garbage fcos (k : nat) J, accurate_cosine fcos -> (2 <= k <= 40)%nat -> / 2 ^ 900 <= J <= 2 ^ 1000 ->
  let N := (2 ^ Z.of_nat k)%Z in
  forall i, (0 <= i < N)%Z ->
    (exists v, vread (double_table garbage fcos N J) i = Ok v /\ (v < 0 <-> (N / 4 <= i <= 3 * (N / 4))%Z)) /\
    (band N J i < 0 <-> (N / 4 < i < 3 * (N / 4))%Z).
Proof.
  intros garbage fcos k J FC Hk HJ N i Hi. pose proof (N4 k Hk) as E4. fold N in E4. set (m := (2 ^ Z.of_nat (k - 2))%Z) in *.
  assert (Em : (N / 4)%Z = m) by (rewrite E4, Z.mul_comm; apply Z.div_mul; lia). rewrite Em. pose proof (m_range k Hk) as [M1 M2]. fold m in M1, M2.
  assert (J0 : 0 < / 2 ^ 900) by (apply Rinv_0_lt_compat, pow_lt; lra). assert (HA : Rabs J <= 2 ^ 1000) by (rewrite Rabs_pos_eq by lra; lra). assert (HN : (0 < N <= 2 ^ 40)%Z) by lia.
  destruct (band_exact m J i ltac:(lia) ltac:(lra) ltac:(lia)) as [B1 B2]. rewrite <- E4 in B1, B2. split; [|exact B1].
  destruct (C98_table garbage fcos N J FC HN HA) as [_ T]. destruct (T i Hi) as (v & Ev & Bv). exists v. split; [exact Ev|].
  assert (Val : forall j, (j = 1 \/ j = 3)%Z -> i = (j * m)%Z -> v < 0).
  { intros j Hj Ei. pose proof (fermi_negative garbage fcos k J FC Hk HJ j Hj) as F. fold m N in F. rewrite <- Ei in F. 
    assert (Ev' : vread (double_table garbage fcos N J) i = Ok (f_dispersion_value (double_arith garbage) (to_double_int garbage) fcos (double_momentum_chain garbage N) (chain_vectors (double_real_chain garbage N 1)) J i)).
    { unfold vread, double_table, f_dispersion. change (ch_size (double_momentum_chain garbage N)) with N. destruct (Z.ltb_spec i 0) as [C|_]; [lia|]. rewrite nth_error_map. replace (Z.to_nat i) with (Z.to_nat (i - 0)) by (f_equal; lia). rewrite zrange_nth by lia. reflexivity. }
    rewrite Ev in Ev'. injection Ev' as ->. exact F. }
  destruct B2 as [-> |[-> |B2]].
  - split; [intros _; lia|intros _; apply (Val 1%Z); lia].
  - split; [intros _; lia|intros _; apply (Val 3%Z); lia].
  - assert (G : Rabs J / 2 ^ 44 + / 2 ^ 1073 < Rabs (band N J i)).
    { eapply Rlt_le_trans; [|exact B2]. rewrite Rabs_pos_eq by lra. assert (MR : 0 < IZR m <= 2 ^ 38).
      { split; [apply IZR_lt; lia|]. rewrite pow_IZR. apply IZR_le. change (2 ^ Z.of_nat 38)%Z with (2 ^ 38)%Z. lia. }
      assert (IM : / 2 ^ 38 <= / IZR m) by (apply Rinv_le_contravar; lra).
      apply Rlt_le_trans with (J * / 2 ^ 38); [|apply Rmult_le_compat_l; lra].
      assert (A1 : / 2 ^ 44 = / 64 * / 2 ^ 38) by (change 44%nat with (6 + 38)%nat; rewrite pow_add, Rinv_mult; replace (2 ^ 6) with 64 by ring; reflexivity). unfold Rdiv. rewrite A1.
      assert (A2 : / 2 ^ 1073 < / 2 * (/ 2 ^ 900 * / 2 ^ 38)).
      { rewrite <- !Rinv_mult, <- pow_add, tech_pow_Rmult. apply Rinv_lt_contravar; [apply Rmult_lt_0_compat; apply pow_lt; lra|]. apply Rlt_pow; [lra|lia]. }
      assert (A3 : / 2 ^ 900 * / 2 ^ 38 <= J * / 2 ^ 38) by (apply Rmult_le_compat_r; [left; apply Rinv_0_lt_compat, pow_lt; lra|lra]).
      lra. }
    rewrite (C98_occupation garbage fcos N J i v FC HN HA Ev G), B1.
    assert (i <> m /\ i <> (3 * m)%Z).
    { assert (P : 0 < J / IZR m) by (apply Rmult_lt_0_compat; [lra|apply Rinv_0_lt_compat, IZR_lt; lia]). destruct (C98_fermi_points m J ltac:(lia)) as [F1 F2].
      split; intros ->; rewrite E4 in B2; [rewrite F1 in B2|rewrite F2 in B2]; rewrite Rabs_R0 in B2; lra. }
    lia.
Qed.

(** ** non-vacuity *)
(** the correctly rounded cosine is accurate *)
Theorem C98_cosine : accurate_cosine rounded_cosine.
Proof.
  intros x _. assert (C : Rabs (cos x) <= 1) by apply Rabs_le, COS_bound. unfold rounded_cosine.
  assert (L : Rabs (cos x) <= bpow radix2 1023) by (eapply Rle_trans; [exact C|]; change 1 with (bpow radix2 0); apply bpow_le; lia).
  rewrite <- (double_round (fun _ => 0) (cos x) L). pose proof (double_within (fun _ => 0) (cos x) L) as W. rewrite <- (bm 1075). eapply Rle_trans; [exact W|].
  apply Rplus_le_compat_r. apply Rmult_le_compat_r; [apply Rabs_pos|]. change (-53)%Z with (- Z.of_nat 53)%Z. rewrite bm. apply i2. lia.
Qed.
(** the default parameters of the program: momentum 4 of 16 has energy 0 and counts as occupied *)
Example C98_example : forall garbage, exists v, vread (double_table garbage rounded_cosine 16 1) 4 = Ok v /\ v < 0 /\ band 16 1 4 = 0 /\ ~ band 16 1 4 < 0 /\ band 16 1 8 < 0.
Proof.
  intros garbage. assert (P : 0 < / 2 ^ 900 <= 1) by (split; [apply inv_pos|]; apply Rle_trans with (/ 2 ^ 0); [apply i2; lia|cbn; lra]).
  destruct (C98_fermi_sea_refuted garbage rounded_cosine 4 1 C98_cosine ltac:(lia) ltac:(split; [lra|apply pow_R1_Rle; lra]) 4%Z ltac:(cbn; lia)) as [(v & E & O) B].
  destruct (C98_fermi_sea_refuted garbage rounded_cosine 4 1 C98_cosine ltac:(lia) ltac:(split; [lra|apply pow_R1_Rle; lra]) 8%Z ltac:(cbn; lia)) as [_ B8].
  change (2 ^ Z.of_nat 4)%Z with 16%Z in *. change (16 / 4)%Z with 4%Z in *. exists v. split; [exact E|]. split; [apply O; lia|]. destruct (C98_fermi_points 4 1 ltac:(lia)) as [F _]. change (4 * 4)%Z with 16%Z in F.
  split; [exact F|]. split; [lra|apply B8; lia].
Qed.
Print Assumptions C98_table.
Print Assumptions C98_occupation.
Print Assumptions C98_fermi_points.
Print Assumptions C98_fermi_sea_refuted.
Print Assumptions C98_cosine.
Print Assumptions C98_example.
