(** PROPERTY C106: the tables of averages in double precision. *)
From Coq Require Import Reals Lra Psatz List ZArith Lia.
From Flocq Require Import Core.
From Verif Require Import Base Instances Spec_Lattice M_Lattice M_Matrix Pf_Lattice Pf_Matrix M_Dispersion M_Expectation Spec_Expectation P_Dispersion P_Lattice P_Expectation M_Rounding Spec_Rounding M_Double Pf_Double Pf_Rounding5 P_Rounding
  M_LatticeDouble P_LatticeDouble Pf_PiDigits P_DoubleDispersion M_DoubleExpectation Spec_DoubleExpectation Pf_DoubleExpectation Spec_DoublePrograms Spec_TheoryProgram.
Local Open Scope R_scope.
Local Open Scope list_scope.

Notation u := (/ 2 ^ 53).
Notation eta := (/ 2 ^ 1075).
Lemma u_small : 0 < u <= / 1000000.
Proof. split; [apply Rinv_0_lt_compat, pow2_pos|]. apply Rinv_le_contravar; [lra|]. apply Rle_trans with (2 ^ 20); [cbn; lra|apply Rle_pow; [lra|lia]]. Qed.
Lemma eta_small : 0 <= eta <= u.
Proof. split; [left; apply Rinv_0_lt_compat, pow2_pos|]. apply Rinv_le_contravar; [apply pow2_pos|apply Rle_pow; [lra|lia]]. Qed.
Lemma eta_tiny : eta * 2 ^ 104 <= u * / 2 ^ 10.
Proof.
  rewrite (Rmult_comm eta). change 104%nat with (1075 - 971)%nat. rewrite <- half_pow by lia. rewrite <- Rinv_mult, <- pow_add. apply Rinv_le_contravar; [apply pow2_pos|apply Rle_pow; [lra|lia]].
Qed.
Lemma PI_bounds : 31 / 10 < PI < 32 / 10.
Proof. pose proof pi_digits as [A B]. unfold pi_mantissa in *. assert (/ 2 ^ 52 <= / 2 ^ 10) by (apply Rinv_le_contravar; [apply pow2_pos|apply Rle_pow; [lra|lia]]). pose proof u_small. split; [|]; cbn in *; lra. Qed.
Lemma pi_rel : Rabs (round_double PI - PI) <= u * PI.
Proof.
  rewrite round_pi. pose proof pi_digits as [A B]. fold pi_double in A, B. pose proof u_small. assert (E : / 2 ^ 52 = 2 * u) by (rewrite (half_pow 52 53) by lia; cbn [Nat.sub pow]; ring).
  rewrite Rabs_minus_sym, Rabs_pos_eq by lra. assert (2 * u <= PI * u) by (apply Rmult_le_compat_r; [lra|pose proof PI_bounds; lra]). lra.
Qed.

Section Chain.
  Context (garbage fsin : R -> R).
  Hypothesis FS : accurate_sine fsin.
  Notation ar := (double_arith garbage).
  Context (dx k : R) (d : Z).
  Hypothesis Hdx : / 2 ^ 100 <= dx <= 2 ^ 100.
  Hypothesis Hk : 0 <= k <= 4.
  Hypothesis Hd : (1 <= d < 2 ^ 52)%Z.
  Lemma dx_pos : 0 < dx. Proof. eapply Rlt_le_trans; [|apply Hdx]. apply Rinv_0_lt_compat, pow2_pos. Qed.
  Lemma d_real : 1 <= IZR d <= 2 ^ 52.
  Proof. split; [apply IZR_le; lia|]. replace (2 ^ 52) with (IZR (2 ^ 52)) by (rewrite (pow_IZR 2 52); reflexivity). apply IZR_le. lia. Qed.
  Lemma tiny : eta * (5 + 4 * dx) <= u * (dx / 1000).
  Proof.
    pose proof dx_pos as D0. pose proof eta_small as E0. pose proof u_small as U0. assert (B : 1 <= 2 ^ 100 * dx).
    { replace 1 with (2 ^ 100 * / 2 ^ 100) by (apply Rinv_r, pow_nonzero; lra). apply Rmult_le_compat_l; [left; apply pow2_pos|apply Hdx]. }
    assert (C : 5 + 4 * dx <= 2 ^ 104 * dx). { replace (2 ^ 104) with (16 * 2 ^ 100) by (change 104%nat with (4 + 100)%nat; rewrite pow_add; cbn [pow]; ring). assert (1 <= 2 ^ 100) by (apply pow_R1_Rle; lra). assert (1 * dx <= 2 ^ 100 * dx) by (apply Rmult_le_compat_r; lra). set (P := 2 ^ 100) in *. clearbody P. clear -B D0 H0. lra. }
    apply Rle_trans with (eta * (2 ^ 104 * dx)); [apply Rmult_le_compat_l; [apply E0|exact C]|]. rewrite <- Rmult_assoc.
    apply Rle_trans with (u * / 2 ^ 10 * dx); [apply Rmult_le_compat_r; [lra|apply eta_tiny]|]. rewrite Rmult_assoc. apply Rmult_le_compat_l; [lra|]. replace (/ 2 ^ 10) with (/ 1024) by (f_equal; ring). lra.
  Qed.
  Lemma huge x : x <= 2 ^ 200 -> 8 * x <= 2 ^ 1023.
  Proof. intros X. apply Rle_trans with (2 ^ 203); [change 203%nat with (3 + 200)%nat; rewrite pow_add; replace (2 ^ 3) with 8 by ring; apply Rmult_le_compat_l; lra|apply Rle_pow; [lra|lia]]. Qed.
  Lemma sizes a : 0 <= a <= 4 -> 0 <= a * IZR d <= 2 ^ 200 /\ 0 <= a * IZR d * dx <= 2 ^ 200 /\ dx <= 2 ^ 200.
  Proof.
    intros A. pose proof d_real as D. pose proof dx_pos as X. assert (B : a * IZR d <= 2 ^ 54). { replace (2 ^ 54) with (4 * 2 ^ 52) by (change 54%nat with (2 + 52)%nat; rewrite pow_add; cbn [pow]; ring). apply Rmult_le_compat; lra. }
    assert (P : 0 <= a * IZR d) by (apply Rmult_le_pos; lra). split; [|split].
    - split; [exact P|]. eapply Rle_trans; [exact B|]. apply Rle_pow; [lra|lia].
    - split; [apply Rmult_le_pos; lra|]. apply Rle_trans with (2 ^ 54 * 2 ^ 100); [apply Rmult_le_compat; [exact P|lra|exact B|apply Hdx]|]. rewrite <- pow_add. apply Rle_pow; [lra|lia].
    - eapply Rle_trans; [apply Hdx|]. apply Rle_pow; [lra|lia].
  Qed.
  Lemma one_huge : 1 <= 2 ^ 200. Proof. apply pow_R1_Rle; lra. Qed.
  Lemma value_err : Rabs (f_ev1_value garbage fsin dx k d - sin (k * IZR d * dx) / (PI * IZR d * dx)) <= 24 * u.
  Proof.
    pose proof dx_pos as D0. pose proof u_small as U0. pose proof eta_small as E0. pose proof d_real as Dr. pose proof PI_bounds as PB. pose proof tiny as T.
    destruct (sizes k Hk) as (K1 & K2 & X1). destruct (sizes PI ltac:(lra)) as (P1 & P2 & _). pose proof one_huge as OH.
    pose proof (huge _ OH). pose proof (huge _ (Logic.proj2 K1)). pose proof (huge _ (Logic.proj2 K2)). pose proof (huge _ (Logic.proj2 P1)). pose proof (huge _ (Logic.proj2 P2)). pose proof (huge _ X1).
    unfold f_ev1_value. rewrite (int_exact garbage d) by lia.
    set (X := k * IZR d * dx) in *. set (D := PI * IZR d * dx) in *. set (HH := 2 ^ 1023) in *.
    assert (Ex : Rabs (f_mul ar (f_mul ar k (IZR d)) dx - X) <= 4 * u * X + eta * (2 + 2 * dx)).
    { apply (prod2 u eta HH ar U0 E0 (double_ok garbage)); try lra. replace (k - k) with 0 by ring. rewrite Rabs_R0. apply Rmult_le_pos; lra. fold X. lra. }
    assert (Ed : Rabs (f_mul ar (f_mul ar (round_double PI) (IZR d)) dx - D) <= 4 * u * D + eta * (2 + 2 * dx)).
    { apply (prod2 u eta HH ar U0 E0 (double_ok garbage)); try lra. apply pi_rel. fold D. lra. }
    set (x := f_mul ar (f_mul ar k (IZR d)) dx) in *. set (dd := f_mul ar (f_mul ar (round_double PI) (IZR d)) dx) in *.
    assert (DX : dx <= D). { unfold D. rewrite <- (Rmult_1_l dx) at 1. apply Rmult_le_compat_r; [lra|]. replace 1 with (1 * 1) by ring. apply Rmult_le_compat; lra. }
    assert (uD : u * (dx / 1000) <= / 1000 * (u * D)). { replace (u * (dx / 1000)) with (/ 1000 * (u * dx)) by field. apply Rmult_le_compat_l; [lra|]. apply Rmult_le_compat_l; lra. }
    assert (edx : 0 <= eta * dx) by (apply Rmult_le_pos; lra).
    assert (Es : Rabs (fsin x - sin X) <= 2 * u * X + 2 * (4 * u * X + eta * (2 + 2 * dx)) + eta).
    { apply (sine_err u eta U0); [|lra|exact Ex]. eapply Rle_trans; [apply FS|]. apply Rplus_le_compat_r, Req_le. rewrite (half_pow 52 53) by lia. cbn [Nat.sub pow]. ring. }
    set (kap := k / PI). assert (KX : X = kap * D) by (unfold X, kap, D; field; lra).
    assert (K0 : 0 <= kap <= 13 / 10). { unfold kap. split; [apply Rmult_le_pos; [lra|left; apply Rinv_0_lt_compat; lra]|]. apply Rmult_le_reg_r with PI; [lra|]. unfold Rdiv. rewrite Rmult_assoc, Rinv_l by lra. lra. }
    eapply Rle_trans; [apply (quotient_err u eta HH ar U0 (double_ok garbage) (fsin x) (sin X) dd D (10 * u * kap + / 1000 * u) kap)|].
    - lra.
    - lra.
    - eapply Rle_trans; [exact Es|]. rewrite KX. replace ((10 * u * kap + / 1000 * u) * D) with (10 * (u * (kap * D)) + / 1000 * (u * D)) by ring. replace (2 * u * (kap * D) + 2 * (4 * u * (kap * D) + eta * (2 + 2 * dx)) + eta) with (10 * (u * (kap * D)) + eta * (5 + 4 * dx)) by ring. lra.
    - rewrite <- KX. rewrite <- (Rabs_pos_eq X) at 2 by lra. apply sin_abs.
    - eapply Rle_trans; [exact Ed|]. replace (4 * u * D + eta * (2 + 2 * dx)) with (4 * (u * D) + eta * (2 + 2 * dx)) by ring. replace (5 * u * D) with (5 * (u * D)) by ring. assert (0 <= u * D) by (apply Rmult_le_pos; lra). lra.
    - assert (u * kap <= 1 * kap) by (apply Rmult_le_compat_r; lra). lra.
    - assert (u * kap <= u * (13 / 10)) by (apply Rmult_le_compat_l; lra). assert (EU : eta <= / 100 * u). { pose proof eta_tiny as W. assert (eta * 2 ^ 10 <= eta * 2 ^ 104) by (apply Rmult_le_compat_l; [lra|apply Rle_pow; [lra|lia]]). replace (/ 2 ^ 10) with (/ 1024) in W by (f_equal; ring). replace (2 ^ 10) with 1024 in * by ring. lra. } lra.
  Qed.
End Chain.

Lemma double_nonneg garbage x : 0 <= x -> x <= 2 ^ 1023 -> 0 <= to_double garbage x.
Proof.
  intros H0 H1. rewrite double_round by (rewrite Rabs_pos_eq by exact H0; change 1023%Z with (Z.of_nat 1023); rewrite bp; exact H1). unfold round_double. apply round_ge_generic; [apply FLT_exp_valid; reflexivity|apply valid_rnd_N|apply generic_format_0|exact H0].
Qed.
Lemma u32 : / 2 ^ 48 = 32 * u. Proof. rewrite (half_pow 48 53) by lia. cbn [Nat.sub pow]. ring. Qed.
Lemma four_huge : 4 <= 2 ^ 1023. Proof. apply Rle_trans with (2 ^ 2); [lra|apply Rle_pow; [lra|lia]]. Qed.
Lemma momentum_err garbage filling : 0 <= filling <= 1 -> Rabs (f_fermi_momentum garbage filling - filling * PI) <= 7 * u /\ 0 <= f_fermi_momentum garbage filling <= 4.
Proof.
  intros Hf. pose proof u_small as U0. pose proof eta_small as E0. pose proof PI_bounds as PB. pose proof pi_rel as PR. pose proof four_huge as FH.
  set (p := round_double PI) in *. assert (P4 : 0 <= p <= 33 / 10). { apply Rabs_le_inv in PR. assert (u * PI <= / 1000000 * PI) by (apply Rmult_le_compat_r; lra). lra. }
  assert (Fp : 0 <= filling * p <= 33 / 10). { split; [apply Rmult_le_pos; lra|]. replace (33 / 10) with (1 * (33 / 10)) by ring. apply Rmult_le_compat; lra. }
  assert (N0 : 0 <= f_fermi_momentum garbage filling). { unfold f_fermi_momentum. fold p. apply double_nonneg; lra. }
  destruct (double_ok garbage filling p) as (_ & M & _). unfold within in M. rewrite Rabs_pos_eq in M by lra. specialize (M ltac:(lra)). change (f_mul (double_arith garbage) filling p) with (f_fermi_momentum garbage filling) in M.
  assert (u * (filling * p) <= u * (33 / 10)) by (apply Rmult_le_compat_l; lra).
  assert (E1 : Rabs (filling * p - filling * PI) <= u * (32 / 10)). { replace (filling * p - filling * PI) with (filling * (p - PI)) by ring. rewrite Rabs_mult, (Rabs_pos_eq filling) by lra. assert (u * PI <= u * (32 / 10)) by (apply Rmult_le_compat_l; lra). replace (u * (32 / 10)) with (1 * (u * (32 / 10))) by ring. apply Rmult_le_compat; try apply Rabs_pos; lra. }
  pose proof (abs_add _ _ _ _ _ M E1) as E2. assert (EU : eta <= / 100 * u). { pose proof eta_tiny as W. assert (eta * 2 ^ 10 <= eta * 2 ^ 104) by (apply Rmult_le_compat_l; [lra|apply Rle_pow; [lra|lia]]). replace (/ 2 ^ 10) with (/ 1024) in W by (f_equal; ring). replace (2 ^ 10) with 1024 in * by ring. lra. }
  assert (Fin : Rabs (f_fermi_momentum garbage filling - filling * PI) <= 7 * u) by lra. split; [exact Fin|]. split; [exact N0|]. apply Rabs_le_inv in M. lra.
Qed.
Lemma shift_err k k' d dx : 0 < IZR d -> 0 < dx -> Rabs (k - k') <= 7 * u -> Rabs (sin (k * IZR d * dx) / (PI * IZR d * dx) - sin (k' * IZR d * dx) / (PI * IZR d * dx)) <= 3 * u.
Proof.
  intros D X E. pose proof PI_bounds as PB. pose proof u_small as U0. set (q := IZR d * dx). assert (Q : 0 < q) by (apply Rmult_lt_0_compat; assumption).
  replace (k * IZR d * dx) with (k * q) by (unfold q; ring). replace (k' * IZR d * dx) with (k' * q) by (unfold q; ring). replace (PI * IZR d * dx) with (PI * q) by (unfold q; ring).
  replace (sin (k * q) / (PI * q) - sin (k' * q) / (PI * q)) with ((sin (k * q) - sin (k' * q)) * / (PI * q)) by (field; lra). rewrite Rabs_mult, Rabs_inv, (Rabs_pos_eq (PI * q)) by (apply Rmult_le_pos; lra).
  apply Rmult_le_reg_r with (PI * q); [apply Rmult_lt_0_compat; lra|]. rewrite Rmult_assoc, Rinv_l, Rmult_1_r by (apply Rmult_integral_contrapositive; lra).
  eapply Rle_trans; [apply sin_lip|]. replace (k * q - k' * q) with ((k - k') * q) by ring. rewrite Rabs_mult, (Rabs_pos_eq q) by lra. rewrite <- Rmult_assoc. apply Rmult_le_compat_r; [lra|]. assert (u * (31 / 10) <= u * PI) by (apply Rmult_le_compat_l; lra). lra.
Qed.
Lemma entry_err garbage fsin dx filling d : accurate_sine fsin -> / 2 ^ 100 <= dx <= 2 ^ 100 -> 0 <= filling <= 1 -> (1 <= d < 2 ^ 52)%Z ->
  Rabs (f_ev1_value garbage fsin dx (f_fermi_momentum garbage filling) d - sin (filling * PI * IZR d * dx) / (PI * IZR d * dx)) <= / 2 ^ 48.
Proof.
  intros FS Hx Hf Hd. destruct (momentum_err garbage filling Hf) as (E & B). pose proof (value_err garbage fsin FS dx _ d Hx B Hd) as V.
  assert (D0 : 0 < IZR d) by (apply IZR_lt; lia). pose proof (shift_err _ (filling * PI) d dx D0 (dx_pos dx Hx) E) as S. pose proof (abs_add _ _ _ _ _ V S). rewrite u32. pose proof u_small. lra.
Qed.

(** ** The chain *)
Theorem C106_chain : forall garbage fsin N dx filling a b, accurate_sine fsin -> (1 <= N <= 2 ^ 52)%Z -> / 2 ^ 100 <= dx <= 2 ^ 100 -> 0 <= filling <= 1 -> site N a -> site N b ->
  let ev := ev1 N (f_init_ev1 garbage fsin N dx filling) in
  (exists x, ev a b = Ok x /\ Rabs (x - fermi_sea_1d (filling * PI) (IZR (chain_distance N a b) * dx)) <= / 2 ^ 48) /\
  ev a b = ev b a /\ ev a a = Ok filling.
Proof.
  intros garbage fsin N dx filling a b FS HN Hx Hf Ha Hb ev. assert (N64 : (N < two64)%Z) by (assert (2 ^ 52 < two64)%Z by reflexivity; lia). pose proof (dx_pos dx Hx) as D0.
  assert (Dist : forall a b, site N a -> site N b -> chain_distance N a b = Z.min (Z.abs (a - b)) (N - Z.abs (a - b)) /\ (0 <= chain_distance N a b <= N / 2)%Z).
  { intros c e Hc He. destruct (C18_metric N c e c N64 Hc He Hc) as (_ & _ & _ & R). split; [apply chain_distance_eq; assumption|lia]. }
  assert (V : forall a b, site N a -> site N b -> ev a b = Ok (if (chain_distance N a b =? 0)%Z then filling else f_ev1_value garbage fsin dx (f_fermi_momentum garbage filling) (chain_distance N a b))).
  { intros c e Hc He. destruct (Dist c e Hc He) as (_ & R). unfold ev, ev1, f_init_ev1, f_ev1_table. rewrite vread_map by lia. reflexivity. }
  split; [|split].
  - rewrite V by assumption. eexists. split; [reflexivity|]. destruct (Z.eqb_spec (chain_distance N a b) 0) as [E|E].
    + rewrite E, Rmult_0_l, sea_1d_0. replace (filling * PI / PI) with filling by (field; apply PI_nz). replace (filling - filling) with 0 by ring. rewrite Rabs_R0. left. apply Rinv_0_lt_compat, pow2_pos.
    + assert (Z0 : IZR (chain_distance N a b) <> 0) by (apply not_0_IZR; exact E). rewrite sea_1d by (apply Rmult_integral_contrapositive; split; lra).
      destruct (Dist a b Ha Hb) as (_ & R). pose proof (Z.mul_div_le N 2 ltac:(lia)) as M2.
      replace (filling * PI * (IZR (chain_distance N a b) * dx)) with (filling * PI * IZR (chain_distance N a b) * dx) by ring. replace (PI * (IZR (chain_distance N a b) * dx)) with (PI * IZR (chain_distance N a b) * dx) by ring.
      apply entry_err; try assumption. lia.
  - rewrite !V by assumption. replace (chain_distance N b a) with (chain_distance N a b); [reflexivity|]. rewrite (Logic.proj1 (Dist a b Ha Hb)), (Logic.proj1 (Dist b a Hb Ha)). lia.
  - rewrite V by assumption. replace (chain_distance N a a) with 0%Z; [reflexivity|]. rewrite (Logic.proj1 (Dist a a Ha Ha)), Z.sub_diag. cbn. unfold site in Ha. lia.
Qed.
Print Assumptions C106_chain.

(** it is the table that C94 and the jump programs assume *)
Theorem C106_table : forall garbage fsin N filling, accurate_sine fsin -> (1 <= N <= 2 ^ 52)%Z -> 0 <= filling <= 1 ->
  table_near (/ 2 ^ 48) (f_init_ev1 garbage fsin N 1 filling) (init_ev1 N 1 filling).
Proof.
  intros garbage fsin N filling FS HN Hf. pose proof u_small as U0. pose proof (Z.mul_div_le N 2 ltac:(lia)) as M2. pose proof (Z.div_pos N 2 ltac:(lia) ltac:(lia)) as M0.
  assert (O1 : / 2 ^ 100 <= 1 <= 2 ^ 100). { assert (1 <= 2 ^ 100) by (apply pow_R1_Rle; lra). split; [rewrite <- Rinv_1; apply Rinv_le_contravar; lra|assumption]. }
  unfold f_init_ev1, f_ev1_table, init_ev1, ev1_table, calculate_fermi_momentum_1d. split; [rewrite !map_length; reflexivity|].
  intros d Hd. rewrite map_length, zrange_length in Hd. set (g := fun z : Z => _). set (h := fun z : Z => if (z =? 0)%Z then filling else sin _ / _).
  assert (At : forall f : Z -> R, nth d (map f (zrange 0 (N / 2 + 1))) 0 = f (Z.of_nat d)).
  { intros f. apply nth_error_nth. rewrite nth_error_map. replace d with (Z.to_nat (Z.of_nat d - 0)) at 1 by lia. rewrite zrange_nth by lia. reflexivity. }
  rewrite !At. unfold g, h. destruct (Z.eqb_spec (Z.of_nat d) 0) as [E|E].
  - replace (filling - filling) with 0 by ring. rewrite Rabs_R0, Rabs_pos_eq by lra. split; [left; apply Rinv_0_lt_compat, pow2_pos|lra].
  - pose proof (entry_err garbage fsin 1 filling (Z.of_nat d) FS O1 Hf ltac:(lia)) as V. split; [exact V|]. eapply Rle_trans; [apply (abs_from _ _ _ V)|].
    assert (D1 : 1 <= IZR (Z.of_nat d)) by (apply IZR_le; lia). pose proof PI_bounds as PB. rewrite u32.
    assert (S : Rabs (sin (filling * PI * IZR (Z.of_nat d) * 1) / (PI * IZR (Z.of_nat d) * 1)) <= 1 / 2).
    { assert (P3 : 2 <= PI * IZR (Z.of_nat d) * 1) by (rewrite Rmult_1_r; replace 2 with (2 * 1) by ring; apply Rmult_le_compat; lra). unfold Rdiv at 1. rewrite Rabs_mult, Rabs_inv, (Rabs_pos_eq (PI * _ * 1)) by lra.
      replace (1 / 2) with (1 * / 2) by field. apply Rmult_le_compat; [apply Rabs_pos|left; apply Rinv_0_lt_compat; lra|apply Rabs_le, SIN_bound|apply Rinv_le_contravar; lra]. }
    lra.
Qed.
Print Assumptions C106_table.
(** and the one that C105 assumes *)
Theorem C106_theory_table : forall garbage fsin N, accurate_sine fsin -> (1 <= N <= 2 ^ 52)%Z -> accurate_table (/ 2 ^ 48) N (f_ev1_table garbage fsin N 1 1 (1 / 2)).
Proof.
  intros garbage fsin N FS HN. pose proof u_small as U0. pose proof (Z.mul_div_le N 2 ltac:(lia)) as M2. pose proof (Z.div_pos N 2 ltac:(lia) ltac:(lia)) as M0.
  assert (O1 : / 2 ^ 100 <= 1 <= 2 ^ 100). { assert (1 <= 2 ^ 100) by (apply pow_R1_Rle; lra). split; [rewrite <- Rinv_1; apply Rinv_le_contravar; lra|assumption]. }
  unfold f_ev1_table. split; [rewrite map_length, zrange_length; lia|]. intros k Hk. rewrite nth_error_map. replace (Z.to_nat k) with (Z.to_nat (k - 0)) by (f_equal; lia). rewrite zrange_nth by lia.
  cbn [option_map]. eexists. split; [reflexivity|]. unfold object_average. destruct (Z.eqb_spec k 0) as [E|E].
  - replace (1 - 1) with 0 by ring. rewrite Rabs_R0. left. apply Rinv_0_lt_compat, pow2_pos.
  - pose proof (value_err garbage fsin FS 1 (1 / 2) k O1 ltac:(lra) ltac:(lia)) as V. rewrite !Rmult_1_r in V. replace (1 / 2 * IZR k) with (IZR k / 2) in V by field. rewrite u32. lra.
Qed.
Print Assumptions C106_theory_table.

(** ** Half filling: the averages at even distances *)
Lemma exact_pi garbage (s : nat) x : (s <= 1074)%nat -> x = pi_double * 2 ^ 48 * / 2 ^ s -> to_double garbage x = x.
Proof.
  intros Hs E. apply (exact_float garbage 2 ltac:(lia) pi_mantissa (- Z.of_nat s)); [vm_compute; reflexivity|lia|]. rewrite E, neg_pow. unfold pi_double. field. apply pow_nonzero; lra.
Qed.
Section Half.
  Context (garbage fsin : R -> R) (j : nat).
  Hypothesis FS : accurate_sine fsin.
  Hypothesis Hj : (j <= 48)%nat.
  Notation ar := (double_arith garbage).
  Let d := (2 ^ Z.of_nat (S j))%Z.
  Lemma d_power : IZR d = 2 * 2 ^ j. Proof. unfold d. rewrite <- (pow_IZR 2 (S j)). reflexivity. Qed.
  Lemma d_range : (1 <= d < 2 ^ 52)%Z.
  Proof. unfold d. split; [pose proof (Z.pow_pos_nonneg 2 (Z.of_nat (S j))); lia|apply Z.pow_lt_mono_r; lia]. Qed.
  Lemma argument_value : f_mul ar (f_mul ar (f_fermi_momentum garbage (1 / 2)) (to_double_int garbage d)) 1 = 2 ^ j * pi_double.
  Proof.
    pose proof d_range as R. rewrite int_exact by lia. rewrite d_power. assert (P48 : 2 ^ 48 <> 0) by (apply pow_nonzero; lra). assert (Ps : 2 ^ (48 - j) <> 0) by (apply pow_nonzero; lra).
    assert (PP : 2 ^ 48 = 2 ^ j * 2 ^ (48 - j)) by (rewrite <- pow_add; f_equal; lia).
    assert (E : to_double garbage (2 ^ j * pi_double) = 2 ^ j * pi_double) by (apply (exact_pi garbage (48 - j)); [lia|]; rewrite PP; field; exact Ps).
    unfold f_fermi_momentum. rewrite round_pi. cbn [f_mul double_arith]. rewrite (exact_pi garbage 49 (1 / 2 * pi_double)); [|lia|change 49%nat with (48 + 1)%nat; rewrite pow_add; cbn [pow]; field; exact P48].
    replace (1 / 2 * pi_double * (2 * 2 ^ j)) with (2 ^ j * pi_double) by field. rewrite E, Rmult_1_r. exact E.
  Qed.
  Lemma sine_large : 2 ^ j * / 2 ^ 54 <= Rabs (sin (2 ^ j * pi_double)).
  Proof.
    pose proof pi_digits as [A B]. fold pi_double in A, B. set (de := PI - pi_double) in *. assert (P : 0 < 2 ^ j) by apply pow2_pos. assert (D : u < de < / 2 ^ 52) by (unfold de; lra).
    assert (S1 : Rabs (sin (2 ^ j * pi_double)) = Rabs (sin (2 ^ j * de))).
    { replace (2 ^ j * pi_double) with (2 ^ j * PI - 2 ^ j * de) by (unfold de; ring). destruct j as [|i]; cbn [pow].
      - rewrite !Rmult_1_l. rewrite sin_minus, sin_PI, cos_PI. rewrite <- Rabs_Ropp. rewrite <- (Rabs_Ropp (sin de)). f_equal. ring.
      - replace (2 * 2 ^ i * PI - 2 * 2 ^ i * de) with (- (2 * 2 ^ i * de) + 2 * INR (2 ^ i) * PI) by (rewrite pow_INR; replace (INR 2) with 2 by (cbn; lra); ring). rewrite sin_period, sin_neg, Rabs_Ropp. reflexivity. }
    rewrite S1. assert (L : 2 ^ j * de <= 1).
    { apply Rle_trans with (2 ^ 52 * / 2 ^ 52); [|rewrite Rinv_r by (apply pow_nonzero; lra); lra]. apply Rmult_le_compat; [lra|pose proof u_small; lra|apply Rle_pow; [lra|lia]|lra]. }
    assert (L0 : 0 <= 2 ^ j * de) by (apply Rmult_le_pos; pose proof u_small; lra). pose proof (sin_half _ L0 L) as Sh. rewrite Rabs_pos_eq by lra.
    eapply Rle_trans; [|exact Sh]. replace (/ 2 ^ 54) with (u / 2) by (change 54%nat with (53 + 1)%nat; rewrite pow_add; cbn [pow]; field; apply pow_nonzero; lra).
    assert (2 ^ j * u <= 2 ^ j * de) by (apply Rmult_le_compat_l; lra). lra.
  Qed.
  Lemma value_large : / 2 ^ 60 <= Rabs (f_ev1_value garbage fsin 1 (f_fermi_momentum garbage (1 / 2)) d).
  Proof.
    unfold f_ev1_value. rewrite argument_value. pose proof sine_large as S. pose proof (FS (2 ^ j * pi_double)) as F. set (s := fsin _) in *. set (S0 := sin _) in *. assert (P : 1 <= 2 ^ j) by (apply pow_R1_Rle; lra).
    pose proof u_small as U0. pose proof eta_small as E0. pose proof PI_bounds as PB. pose proof d_range as R. rewrite int_exact by lia. pose proof d_power as Dp.
    assert (O1 : / 2 ^ 100 <= 1 <= 2 ^ 100). { assert (1 <= 2 ^ 100) by (apply pow_R1_Rle; lra). split; [rewrite <- Rinv_1; apply Rinv_le_contravar; lra|assumption]. }
    assert (ES : eta <= / 1000 * (/ 2 ^ 54)). { apply Rle_trans with (/ 2 ^ 10 * / 2 ^ 54); [rewrite <- Rinv_mult, <- pow_add; apply Rinv_le_contravar; [apply pow2_pos|apply Rle_pow; [lra|lia]]|]. apply Rmult_le_compat_r; [left; apply Rinv_0_lt_compat, pow2_pos|]. apply Rinv_le_contravar; [lra|cbn; lra]. }
    set (q := / 2 ^ 54) in *. assert (q0 : 0 < q) by (apply Rinv_0_lt_compat, pow2_pos). assert (qj : q <= 2 ^ j * q) by (rewrite <- (Rmult_1_l q) at 1; apply Rmult_le_compat_r; lra).
    assert (s_large : 9 / 10 * (2 ^ j * q) <= Rabs s).
    { pose proof (abs_from S0 s _ ltac:(rewrite Rabs_minus_sym; exact F)) as G. assert (/ 2 ^ 52 * Rabs S0 <= / 100 * Rabs S0) by (apply Rmult_le_compat_r; [apply Rabs_pos|apply Rinv_le_contravar; [lra|apply Rle_trans with (2 ^ 7); [cbn; lra|apply Rle_pow; [lra|lia]]]]). lra. }
    assert (Ed : Rabs (f_mul ar (f_mul ar (round_double PI) (IZR d)) 1 - PI * IZR d * 1) <= 4 * u * (PI * IZR d * 1) + eta * (2 + 2 * 1)).
    { pose proof (sizes 1 d O1 R PI ltac:(lra)) as (Z1 & Z2 & _). pose proof (huge _ (Logic.proj2 Z1)). pose proof (huge _ one_huge). apply (prod2 u eta (2 ^ 1023) ar U0 E0 (double_ok garbage)); try lra. apply pi_rel. }
    set (dd := f_mul ar (f_mul ar (round_double PI) (IZR d)) 1) in *. rewrite Dp, Rmult_1_r in Ed. assert (DD : 1 <= dd <= 8 * 2 ^ j).
    { apply Rabs_le_inv in Ed. assert (X1 : PI * (2 * 2 ^ j) <= 64 / 10 * 2 ^ j) by (replace (64 / 10 * 2 ^ j) with (32 / 10 * (2 * 2 ^ j)) by field; apply Rmult_le_compat_r; lra).
      assert (X2 : 62 / 10 * 2 ^ j <= PI * (2 * 2 ^ j)) by (replace (62 / 10 * 2 ^ j) with (31 / 10 * (2 * 2 ^ j)) by field; apply Rmult_le_compat_r; lra).
      assert (u * (PI * (2 * 2 ^ j)) <= / 1000000 * (PI * (2 * 2 ^ j))) by (apply Rmult_le_compat_r; lra). lra. }
    assert (sj : Rabs s <= 2). { pose proof (abs_from s S0 _ F) as G. assert (Rabs S0 <= 1) by (apply Rabs_le, SIN_bound). assert (/ 2 ^ 52 * Rabs S0 <= / 100 * Rabs S0) by (apply Rmult_le_compat_r; [apply Rabs_pos|apply Rinv_le_contravar; [lra|apply Rle_trans with (2 ^ 7); [cbn; lra|apply Rle_pow; [lra|lia]]]]). lra. }
    assert (Q : Rabs (s / dd) = Rabs s * / dd) by (unfold Rdiv; rewrite Rabs_mult, Rabs_inv, (Rabs_pos_eq dd) by lra; reflexivity).
    assert (Q1 : Rabs (s / dd) <= 2). { rewrite Q. replace 2 with (2 * / 1) by field. apply Rmult_le_compat; [apply Rabs_pos|left; apply Rinv_0_lt_compat; lra|exact sj|apply Rinv_le_contravar; lra]. }
    assert (Q2 : / 10 * q <= Rabs (s / dd)). { rewrite Q. apply Rmult_le_reg_r with dd; [lra|]. rewrite (Rmult_assoc (Rabs s)), Rinv_l, Rmult_1_r by lra. apply Rle_trans with (/ 10 * q * (8 * 2 ^ j)); [apply Rmult_le_compat_l; lra|]. lra. }
    destruct (double_ok garbage s dd) as (_ & _ & W). pose proof four_huge. specialize (W ltac:(lra) ltac:(lra)). pose proof (abs_from (s / dd) (f_div ar s dd) _ ltac:(rewrite Rabs_minus_sym; exact W)) as G.
    assert (u * Rabs (s / dd) <= / 1000 * Rabs (s / dd)) by (apply Rmult_le_compat_r; [apply Rabs_pos|lra]).
    assert (T : / 2 ^ 60 = / 64 * q) by (unfold q; change 60%nat with (6 + 54)%nat; rewrite pow_add, Rinv_mult; f_equal; f_equal; ring). lra.
  Qed.
End Half.
(** Rounding defect: at half filling the averages at even distances vanish, but at the distances 2, 4, 8, ... the object
    holds values different from 0 (pi is not a double). *)
Theorem C106_half_filling_refuted : forall garbage fsin N a b j, accurate_sine fsin -> (1 <= N <= 2 ^ 52)%Z -> site N a -> site N b -> (j <= 48)%nat ->
  chain_distance N a b = (2 ^ Z.of_nat (S j))%Z ->
  fermi_sea_1d (1 / 2 * PI) (IZR (chain_distance N a b) * 1) = 0 /\
  exists x, ev1 N (f_init_ev1 garbage fsin N 1 (1 / 2)) a b = Ok x /\ / 2 ^ 60 <= Rabs x.
Proof.
  intros garbage fsin N a b j FS HN Ha Hb Hj E. pose proof (d_range j Hj) as R. split.
  - rewrite E. rewrite sea_1d by (rewrite Rmult_1_r; apply not_0_IZR; lia). rewrite d_power. replace (1 / 2 * PI * (2 * 2 ^ j * 1)) with (0 + INR (2 ^ j) * PI) by (rewrite pow_INR; replace (INR 2) with 2 by (cbn; lra); field).
    replace (sin (0 + INR (2 ^ j) * PI)) with 0; [unfold Rdiv; ring|]. symmetry. apply sin_eq_0_1. exists (Z.of_nat (2 ^ j)). rewrite <- INR_IZR_INZ. ring.
  - assert (N64 : (N < two64)%Z) by (assert (2 ^ 52 < two64)%Z by reflexivity; lia). destruct (C18_metric N a b a N64 Ha Hb Ha) as (_ & _ & _ & B).
    unfold ev1, f_init_ev1, f_ev1_table. rewrite vread_map by lia. rewrite E. destruct (Z.eqb_spec (2 ^ Z.of_nat (S j)) 0) as [C|_]; [lia|]. eexists. split; [reflexivity|]. apply value_large; assumption.
Qed.
Print Assumptions C106_half_filling_refuted.
