(** PROOFS: the rounding errors of the matrix of the momentum-space program. *)
From Coq Require Import Reals Lra Psatz List ZArith Lia.
From Flocq Require Import Core.
From Verif Require Import Base M_Operator M_Lattice Spec_Lattice Pf_Lattice M_LatticeReal M_Basis Pf_Basis M_Matrix M_Ode M_Dispersion Pf_Matrix Pf_Momentum P_Momentum P_Ode
  Spec_Stability Pf_Stability Pf_Stability2 Pf_Stability3 P_Stability Pf_Arrow M_Rounding Spec_Rounding Pf_Rounding5 P_Rounding M_Double Pf_Double M_LatticeDouble P_LatticeDouble M_DoubleMomentum Pf_DoubleMomentum Spec_MomentumProgram Pf_MomentumProgram
  Pf_DoubleMomentum2.
Local Open Scope R_scope.

(** four numbers added one after the other; u and eta are the relative and absolute rounding errors *)
Lemma sum4 u eta T V t1 t2 t3 w i1 a1 a2 a3 : 0 <= u <= 1 / 1000 -> 0 <= eta -> 0 <= T -> 0 <= V ->
  Rabs t1 <= T -> Rabs t2 <= T -> Rabs t3 <= T -> Rabs w <= V ->
  Rabs (i1 - w) <= u * Rabs w + eta -> Rabs (a1 - (t1 + t2)) <= u * Rabs (t1 + t2) + eta ->
  Rabs (a2 - (a1 + - t3)) <= u * Rabs (a1 + - t3) + eta -> Rabs (a3 - (a2 + i1)) <= u * Rabs (a2 + i1) + eta ->
  Rabs (a3 - (t1 + t2 - t3 + w)) <= 11 * (u * T) + 3 * (u * V) + 9 * eta.
Proof.
  intros Hu He HT HV B1 B2 B3 Bw Ei E1 E2 E3.
  assert (M : forall x y, Rabs x <= y -> u * Rabs x <= u * y) by (intros x y H; apply Rmult_le_compat_l; lra).
  assert (UT : u * T <= T / 1000) by (assert (u * T <= 1 / 1000 * T) by (apply Rmult_le_compat_r; lra); lra).
  assert (UV : u * V <= V / 1000) by (assert (u * V <= 1 / 1000 * V) by (apply Rmult_le_compat_r; lra); lra).
  assert (UE : u * eta <= eta / 1000) by (assert (u * eta <= 1 / 1000 * eta) by (apply Rmult_le_compat_r; lra); lra).
  pose proof (M _ _ Bw) as Mw. assert (Bi : Rabs i1 <= V + u * V + eta) by (revert Ei Bw Mw; unfold Rabs; repeat destruct (Rcase_abs _); intros; lra).
  assert (S1 : Rabs (t1 + t2) <= 2 * T) by (eapply Rle_trans; [apply Rabs_triang|lra]). pose proof (M _ _ S1) as M1.
  assert (Ba : Rabs a1 <= 2 * T + 2 * (u * T) + eta) by (revert S1 E1 M1; unfold Rabs; repeat destruct (Rcase_abs _); intros; lra).
  assert (S2 : Rabs (a1 + - t3) <= 4 * T + eta) by (eapply Rle_trans; [apply Rabs_triang|rewrite Rabs_Ropp; lra]). pose proof (M _ _ S2) as M2. rewrite Rmult_plus_distr_l in M2.
  assert (Bb : Rabs a2 <= 5 * T + 3 * eta).
  { replace a2 with ((a2 - (a1 + - t3)) + (a1 + - t3)) by ring. eapply Rle_trans; [apply Rabs_triang|lra]. }
  assert (S3 : Rabs (a2 + i1) <= 5 * T + 2 * V + 4 * eta) by (eapply Rle_trans; [apply Rabs_triang|lra]). pose proof (M _ _ S3) as M3. rewrite !Rmult_plus_distr_l in M3.
  replace (a3 - (t1 + t2 - t3 + w)) with ((a3 - (a2 + i1)) + ((a2 - (a1 + - t3)) + ((a1 - (t1 + t2)) + (i1 - w)))) by ring.
  eapply Rle_trans; [apply Rabs_triang|]. eapply Rle_trans; [apply Rplus_le_compat_l, Rabs_triang|]. eapply Rle_trans; [apply Rplus_le_compat_l, Rplus_le_compat_l, Rabs_triang|]. lra.
Qed.
Lemma sum2 u eta T V t w i1 a : 0 <= u <= 1 / 1000 -> 0 <= eta -> 0 <= T -> 0 <= V -> Rabs t <= T -> Rabs w <= V ->
  Rabs (i1 - w) <= u * Rabs w + eta -> Rabs (a - (t + i1)) <= u * Rabs (t + i1) + eta ->
  Rabs (a - (t + w)) <= 11 * (u * T) + 3 * (u * V) + 9 * eta.
Proof.
  intros Hu He HT HV Bt Bw Ei E.
  assert (M : forall x y, Rabs x <= y -> u * Rabs x <= u * y) by (intros x y H; apply Rmult_le_compat_l; lra).
  assert (UV : u * V <= V / 1000) by (assert (u * V <= 1 / 1000 * V) by (apply Rmult_le_compat_r; lra); lra).
  assert (UE : u * eta <= eta / 1000) by (assert (u * eta <= 1 / 1000 * eta) by (apply Rmult_le_compat_r; lra); lra).
  assert (UT : 0 <= u * T) by (apply Rmult_le_pos; lra). assert (UV0 : 0 <= u * V) by (apply Rmult_le_pos; lra).
  pose proof (M _ _ Bw) as Mw. assert (Bi : Rabs i1 <= V + u * V + eta) by (revert Ei Bw Mw; unfold Rabs; repeat destruct (Rcase_abs _); intros; lra).
  assert (S : Rabs (t + i1) <= T + 2 * V + eta) by (eapply Rle_trans; [apply Rabs_triang|lra]). pose proof (M _ _ S) as M1. rewrite !Rmult_plus_distr_l in M1.
  replace (a - (t + w)) with ((a - (t + i1)) + (i1 - w)) by ring. eapply Rle_trans; [apply Rabs_triang|]. lra.
Qed.
Lemma fl_facts garbage x M : Rabs x <= M -> 0 <= M -> 2 * M + 1 <= 2 ^ 1023 ->
  Rabs (to_double garbage x - x) <= / 2 ^ 53 * Rabs x + / 2 ^ 1075 /\ Rabs (to_double garbage x) <= 2 * M + 1 /\ is_double (to_double garbage x).
Proof.
  intros B M0 H. assert (Q : Rabs (to_double garbage x - x) <= / 2 ^ 53 * Rabs x + / 2 ^ 1075).
  { destruct (double_ok garbage x 0) as (Q & _ & _). cbn [double_arith f_add] in Q. replace (x + 0) with x in Q by ring. apply Q. lra. }
  split; [exact Q|]. assert (u1 : / 2 ^ 53 <= 1) by (rewrite <- Rinv_1; apply Rinv_le_contravar; [lra|apply pow_R1_Rle; lra]).
  assert (u2 : / 2 ^ 1075 <= 1) by (rewrite <- Rinv_1; apply Rinv_le_contravar; [lra|apply pow_R1_Rle; lra]).
  split.
  - assert (/ 2 ^ 53 * Rabs x <= 1 * M) by (apply Rmult_le_compat; [left; apply Rinv_0_lt_compat, pow2_pos|apply Rabs_pos|exact u1|exact B]).
    replace (to_double garbage x) with ((to_double garbage x - x) + x) by ring. eapply Rle_trans; [apply Rabs_triang|]. lra.
  - rewrite double_round by (rewrite <- (bp 1023) in H; change (Z.of_nat 1023) with 1023%Z in H; lra). apply generic_format_round; [apply FLT_exp_valid; reflexivity|apply valid_rnd_N].
Qed.

Section Errors.
  Variables (garbage : R -> R) (N : Z) (J U : R) (disp : Z -> R).
  Hypothesis HN : (0 < N <= 2 ^ 12)%Z.
  Hypothesis HJ : Rabs J <= 2 ^ 400.
  Hypothesis HU : Rabs U <= 2 ^ 400.
  Hypothesis Hdisp : forall k, site N k -> Rabs (disp k - band N J k) <= Rabs J / 2 ^ 44 + / 2 ^ 1073.
  Let ar := double_arith garbage.
  Let D := f_energy ar N (center N) disp U.
  Let be := f_coupling ar U (to_double_int garbage N).
  Let n := (1 + N * N)%Z.
  Lemma small_num : 0 < / 2 ^ 53 <= 1 / 1000 /\ 0 < / 2 ^ 1075 <= / 2 ^ 1073 /\ / 2 ^ 1073 <= 1 /\ / 2 ^ 44 <= 1.
  Proof.
    assert (G : forall k, 0 < / 2 ^ k) by (intros k; apply Rinv_0_lt_compat, pow2_pos).
    assert (O : forall k, / 2 ^ k <= 1) by (intros k; rewrite <- Rinv_1; apply Rinv_le_contravar; [lra|apply pow_R1_Rle; lra]).
    repeat split; try apply G; try apply O.
    - apply Rle_trans with (/ 2 ^ 10); [apply Rinv_le_contravar; [apply pow2_pos|apply Rle_pow; [lra|lia]]|]. replace (2 ^ 10) with 1024 by ring. lra.
    - apply Rinv_le_contravar; [apply pow2_pos|apply Rle_pow; [lra|lia]].
  Qed.
  Let T := 3 * Rabs J + / 2 ^ 1073.
  Lemma disp_le k : site N k -> Rabs (disp k) <= T.
  Proof.
    intros Hk. pose proof (Hdisp k Hk) as H. pose proof (band_bound N J k) as B. destruct small_num as (_ & _ & _ & S). pose proof (Rabs_pos J) as J0.
    assert (Rabs J / 2 ^ 44 <= Rabs J * 1) by (apply Rmult_le_compat_l; assumption).
    replace (disp k) with ((disp k - band N J k) + band N J k) by ring. eapply Rle_trans; [apply Rabs_triang|]. unfold T. lra.
  Qed.
  Lemma T_range : 0 <= T <= 4 * 2 ^ 400.
  Proof. unfold T. destruct small_num as (_ & A & B & _). pose proof (Rabs_pos J). assert (1 <= 2 ^ 400) by (apply pow_R1_Rle; lra). lra. Qed.
  Lemma huge : 1000 * 2 ^ 400 <= 2 ^ 1023.
  Proof. apply Rle_trans with (2 ^ 10 * 2 ^ 400); [apply Rmult_le_compat_r; [left; apply pow2_pos|replace (2 ^ 10) with 1024 by ring; lra]|]. rewrite <- pow_add. apply Rle_pow; [lra|lia]. Qed.
  Let good x := is_double x /\ Rabs x <= bpow radix2 1023.
  (** the diagonal *)
  Lemma energy_double r : (0 <= r < n)%Z -> good (D r) /\ Rabs (D r - energy N J U r) <= Rabs J / 2 ^ 42 + Rabs U / 2 ^ 51 + / 2 ^ 1070.
  Proof.
    intros Hr. pose proof T_range as [T0 T1]. destruct small_num as ([u0 u1] & [e0 e1] & e2 & _). pose proof huge as Hg. pose proof (Rabs_pos J) as J0. pose proof (Rabs_pos U) as U0.
    assert (One : 1 <= 2 ^ 400) by (apply pow_R1_Rle; lra). set (B := 2 ^ 400) in *. assert (N0 : (0 < N)%Z) by lia.
    assert (Bw : Rabs (U / 2) <= Rabs U / 2) by (unfold Rdiv; rewrite Rabs_mult, (Rabs_pos_eq (/ 2)) by lra; lra).
    destruct (fl_facts garbage (U / 2) (Rabs U / 2) Bw ltac:(lra) ltac:(lra)) as (Ei & Bi & _).
    assert (Fin : forall x, Rabs x <= 2 ^ 1023 -> Rabs x <= bpow radix2 1023) by (intros x Hx; rewrite <- (bp 1023) in Hx; exact Hx).
    assert (Num : 11 * (/ 2 ^ 53 * T) + 3 * (/ 2 ^ 53 * (Rabs U / 2)) + 9 * / 2 ^ 1075 + 3 * (Rabs J / 2 ^ 44 + / 2 ^ 1073) <= Rabs J / 2 ^ 42 + Rabs U / 2 ^ 51 + / 2 ^ 1070).
    { unfold T. rewrite Rmult_plus_distr_l. unfold Rdiv.
      assert (H1 : / 2 ^ 44 = 512 * / 2 ^ 53) by (rewrite (half_pow 44 53) by lia; f_equal; cbn; lra).
      assert (H2 : / 2 ^ 42 = 2048 * / 2 ^ 53) by (rewrite (half_pow 42 53) by lia; f_equal; cbn; lra).
      assert (H3 : / 2 ^ 51 = 4 * / 2 ^ 53) by (rewrite (half_pow 51 53) by lia; f_equal; cbn; lra).
      assert (H4 : / 2 ^ 1073 = 4 * / 2 ^ 1075) by (rewrite (half_pow 1073 1075) by lia; f_equal; replace (1075 - 1073)%nat with 2%nat by lia; ring).
      assert (H5 : / 2 ^ 1070 = 32 * / 2 ^ 1075) by (rewrite (half_pow 1070 1075) by lia; f_equal; replace (1075 - 1070)%nat with 5%nat by lia; ring).
      rewrite H1, H2, H3, H4, H5. clear H1 H2 H3 H4 H5.
      assert (P1 : 0 <= Rabs J * / 2 ^ 53) by (apply Rmult_le_pos; lra). assert (P2 : 0 <= Rabs U * / 2 ^ 53) by (apply Rmult_le_pos; lra).
      assert (P3 : / 2 ^ 53 * (4 * / 2 ^ 1075) <= 1 / 1000 * (4 * / 2 ^ 1075)) by (apply Rmult_le_compat_r; lra).
      set (u := / 2 ^ 53) in *. set (eta := / 2 ^ 1075) in *. clearbody u eta. lra. }
    unfold D, f_energy, energy. destruct (Z.eqb_spec r 0) as [->|Nr].
    - pose proof (q_site N N0) as Hq. pose proof (disp_le _ Hq) as Bt. pose proof (Hdisp _ Hq) as Et. set (t := disp (center N)) in *. set (b := band N J (center N)) in *.
      change (f_add ar t (f_div ar U 2)) with (to_double garbage (t + to_double garbage (U / 2))). set (i1 := to_double garbage (U / 2)) in *.
      assert (Bs : Rabs (t + i1) <= 10 * B) by (eapply Rle_trans; [apply Rabs_triang|]; lra).
      destruct (fl_facts garbage _ _ Bs ltac:(lra) ltac:(lra)) as (Ea & Ba & Ga). set (a := to_double garbage (t + i1)) in *. split; [split; [exact Ga|apply Fin; lra]|].
      pose proof (sum2 (/ 2 ^ 53) (/ 2 ^ 1075) T (Rabs U / 2) t (U / 2) i1 a ltac:(lra) ltac:(lra) T0 ltac:(lra) Bt Bw Ei Ea) as S.
      replace (a - (b + U / 2)) with ((a - (t + U / 2)) + (t - b)) by ring. eapply Rle_trans; [apply Rabs_triang|].
      assert (0 <= Rabs J / 2 ^ 44 + / 2 ^ 1073) by (eapply Rle_trans; [apply Rabs_pos|exact Et]). lra.
    - cbv zeta. fold (m1 N r). assert (R1 : (1 <= r < 1 + N * N)%Z) by (unfold n in Hr; lia). destruct (m_range N (center N) N0 r R1) as (S1 & S2 & S3 & _).
      assert (E1 : ((r - 1) / N)%Z = m1 N r) by reflexivity. assert (E2 : ((r - 1) mod N)%Z = m2 N r) by reflexivity. rewrite E2. change ((m1 N r + m2 N r - center N) mod N)%Z with (m3 N (center N) r).
      pose proof (disp_le _ S1) as B1. pose proof (disp_le _ S2) as B2. pose proof (disp_le _ S3) as B3. pose proof (Hdisp _ S1) as G1. pose proof (Hdisp _ S2) as G2. pose proof (Hdisp _ S3) as G3.
      set (t1 := disp (m1 N r)) in *. set (t2 := disp (m2 N r)) in *. set (t3 := disp (m3 N (center N) r)) in *.
      set (b1 := band N J (m1 N r)) in *. set (b2 := band N J (m2 N r)) in *. set (b3 := band N J (m3 N (center N) r)) in *.
      change (f_add ar (f_add ar (f_add ar t1 t2) (- t3)) (f_div ar U 2)) with (to_double garbage (to_double garbage (to_double garbage (t1 + t2) + - t3) + to_double garbage (U / 2))).
      set (i1 := to_double garbage (U / 2)) in *.
      assert (Bs1 : Rabs (t1 + t2) <= 8 * B) by (eapply Rle_trans; [apply Rabs_triang|]; lra).
      destruct (fl_facts garbage _ _ Bs1 ltac:(lra) ltac:(lra)) as (Ea1 & Ba1 & _). set (x1 := to_double garbage (t1 + t2)) in *.
      assert (Bs2 : Rabs (x1 + - t3) <= 21 * B) by (eapply Rle_trans; [apply Rabs_triang|]; rewrite Rabs_Ropp; lra).
      destruct (fl_facts garbage _ _ Bs2 ltac:(lra) ltac:(lra)) as (Ea2 & Ba2 & _). set (x2 := to_double garbage (x1 + - t3)) in *.
      assert (Bs3 : Rabs (x2 + i1) <= 46 * B) by (eapply Rle_trans; [apply Rabs_triang|]; lra).
      destruct (fl_facts garbage _ _ Bs3 ltac:(lra) ltac:(lra)) as (Ea3 & Ba3 & Ga). set (x3 := to_double garbage (x2 + i1)) in *. split; [split; [exact Ga|apply Fin; lra]|].
      pose proof (sum4 (/ 2 ^ 53) (/ 2 ^ 1075) T (Rabs U / 2) t1 t2 t3 (U / 2) i1 x1 x2 x3 ltac:(lra) ltac:(lra) T0 ltac:(lra) B1 B2 B3 Bw Ei Ea1 Ea2 Ea3) as S.
      replace (x3 - (b1 + b2 - b3 + U / 2)) with ((x3 - (t1 + t2 - t3 + U / 2)) + ((t1 - b1) + ((t2 - b2) + - (t3 - b3)))) by ring.
      eapply Rle_trans; [apply Rabs_triang|]. eapply Rle_trans; [apply Rplus_le_compat_l, Rabs_triang|]. eapply Rle_trans; [apply Rplus_le_compat_l, Rplus_le_compat_l, Rabs_triang|]. rewrite Rabs_Ropp. lra.
  Qed.
  (** the coupling *)
  Lemma coupling_double : good be /\ Rabs (be - U / (2 * IZR N)) <= / 2 ^ 53 * (Rabs U / (2 * IZR N)) + / 2 ^ 1075.
  Proof.
    assert (N1 : 1 <= IZR N) by (apply IZR_le; lia). pose proof (Rabs_pos U) as U0. pose proof huge as Hg. assert (One : 1 <= 2 ^ 400) by (apply pow_R1_Rle; lra).
    assert (E : be = to_double garbage (U / (2 * IZR N))).
    { unfold be, f_coupling. rewrite int_exact by lia. change (f_mul ar 2 (IZR N)) with (to_double garbage (2 * IZR N)). rewrite double_exact.
      - reflexivity.
      - rewrite <- mult_IZR. apply double_int. lia.
      - rewrite <- mult_IZR, <- abs_IZR. apply Rle_trans with (2 ^ 14).
        + rewrite pow_IZR. apply IZR_le. lia.
        + change 1023%Z with (Z.of_nat 1023). rewrite bp. apply Rle_pow; [lra|lia]. }
    assert (A : Rabs (U / (2 * IZR N)) = Rabs U / (2 * IZR N)) by (unfold Rdiv; rewrite Rabs_mult, (Rabs_pos_eq (/ (2 * IZR N))) by (left; apply Rinv_0_lt_compat; lra); reflexivity).
    assert (B : Rabs (U / (2 * IZR N)) <= Rabs U).
    { rewrite A. unfold Rdiv. rewrite <- (Rmult_1_r (Rabs U)) at 2. apply Rmult_le_compat_l; [exact U0|]. rewrite <- Rinv_1. apply Rinv_le_contravar; lra. }
    destruct (fl_facts garbage _ _ B U0 ltac:(lra)) as (E1 & B1 & G1). rewrite E. split; [|rewrite A in E1; exact E1].
    split; [exact G1|]. change 1023%Z with (Z.of_nat 1023). rewrite bp. lra.
  Qed.
End Errors.
