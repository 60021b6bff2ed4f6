(** THEOREMS: C92 (positions and momenta in double precision lead to the right sites). *)
From Coq Require Import Reals Lra Psatz List ZArith Lia.
From Flocq Require Import Core.
From Verif Require Import Base M_Operator M_Lattice Spec_Lattice Pf_Lattice M_LatticeReal Spec_LatticeReal Pf_LatticeReal M_Basis Pf_Basis P_Basis
  M_Rounding Spec_Rounding M_Double Pf_Double P_Rounding M_LatticeDouble.
Local Open Scope R_scope.
Local Open Scope list_scope.

Lemma bp1023 : bpow radix2 1023 = 2 ^ 1023.
Proof. exact (bp 1023). Qed.
Definition e : R := / 2 ^ 52.
Lemma e_pos : 0 < e.
Proof. unfold e. apply Rinv_0_lt_compat, pow_lt. lra. Qed.
Lemma p2 (a b : nat) : (a <= b)%nat -> 2 ^ a <= 2 ^ b.
Proof. intros H. apply Rle_pow; [lra|exact H]. Qed.
Lemma i2 (a b : nat) : (a <= b)%nat -> / 2 ^ b <= / 2 ^ a.
Proof. intros H. apply Rinv_le_contravar; [apply pow_lt; lra|apply p2, H]. Qed.
Lemma within_e x y B : within (/ 2 ^ 53) (/ 2 ^ 1075) (2 ^ 1023) y x -> Rabs x <= B -> / 2 ^ 1000 <= B <= 2 ^ 1000 -> Rabs (y - x) <= e * B.
Proof.
  intros W HB [B1 B2]. assert (H : Rabs x <= 2 ^ 1023) by (eapply Rle_trans; [exact HB|]; eapply Rle_trans; [exact B2|apply p2; lia]).
  eapply Rle_trans; [apply (W H)|]. assert (E : e = / 2 ^ 53 + / 2 ^ 53).
  { unfold e. replace (2 ^ 53) with (2 * 2 ^ 52) by (rewrite tech_pow_Rmult; reflexivity). field. }
  rewrite E, Rmult_plus_distr_r. assert (P : 0 <= / 2 ^ 53) by (apply Rlt_le, Rinv_0_lt_compat, pow_lt; lra).
  apply Rplus_le_compat; [apply Rmult_le_compat_l; assumption|].
  apply Rle_trans with (/ 2 ^ 53 * / 2 ^ 1000); [|apply Rmult_le_compat_l; assumption].
  rewrite <- Rinv_mult. rewrite <- pow_add. apply i2. lia.
Qed.
Lemma near_int x z : Rabs (x - IZR z) < / 2 -> round_away x = z.
Proof.
  intros H. pose proof (round_away_near x) as N0. apply Rabs_def2 in H. 
  assert (A : (round_away x - z < 1)%Z) by (apply lt_IZR; rewrite minus_IZR; lra).
  assert (B : (-1 < round_away x - z)%Z) by (apply lt_IZR; rewrite minus_IZR; lra). lia.
Qed.

Section Acc.
  Context (ar : arith) (conv : Z -> R).
  Hypothesis acc : accurate (/ 2 ^ 53) (/ 2 ^ 1075) (2 ^ 1023) ar.
  Hypothesis Hconv : forall k, (Z.abs k < 2 ^ 53)%Z -> conv k = IZR k.
  Lemma add_err a b B : Rabs (a + b) <= B -> / 2 ^ 1000 <= B <= 2 ^ 1000 -> Rabs (f_add ar a b - (a + b)) <= e * B.
  Proof. intros H1 H2. apply within_e; [apply acc|exact H1|exact H2]. Qed.
  Lemma mul_err a b B : Rabs (a * b) <= B -> / 2 ^ 1000 <= B <= 2 ^ 1000 -> Rabs (f_mul ar a b - (a * b)) <= e * B.
  Proof. intros H1 H2. apply within_e; [apply acc|exact H1|exact H2]. Qed.
  Lemma div_err a b B : b <> 0 -> Rabs (a / b) <= B -> / 2 ^ 1000 <= B <= 2 ^ 1000 -> Rabs (f_div ar a b - (a / b)) <= e * B.
  Proof. intros H0 H1 H2. apply within_e; [apply acc, H0|exact H1|exact H2]. Qed.
  Lemma B_ok B : 1 <= B <= 1000 -> / 2 ^ 1000 <= B <= 2 ^ 1000.
  Proof.
    intros H. split.
    - apply Rle_trans with 1; [|lra]. rewrite <- (Rinv_1). apply Rinv_le_contravar; [lra|]. apply pow_R1_Rle. lra.
    - apply Rle_trans with (2 ^ 10); [lra|apply p2; lia].
  Qed.
  (** the error of an addition whose exact result is known *)
  Lemma add_near a b x y ea eb B : Rabs (a - x) <= ea -> Rabs (b - y) <= eb -> Rabs (x + y) + ea + eb <= B -> 1 <= B <= 1000 ->
    Rabs (f_add ar a b - (x + y)) <= ea + eb + e * B.
  Proof.
    intros Ha Hb HB Hr. assert (Hab : Rabs (a + b) <= B).
    { replace (a + b) with ((x + y) + ((a - x) + (b - y))) by ring. eapply Rle_trans; [apply Rabs_triang|]. pose proof (Rabs_triang (a - x) (b - y)). lra. }
    pose proof (add_err a b B Hab (B_ok B Hr)) as E.
    replace (f_add ar a b - (x + y)) with ((f_add ar a b - (a + b)) + ((a - x) + (b - y))) by ring.
    eapply Rle_trans; [apply Rabs_triang|]. pose proof (Rabs_triang (a - x) (b - y)). lra.
  Qed.

  (** ** Momentum space *)
  Context (pi two_pi : R) (N : Z).
  Hypothesis Hpi : Rabs (pi - PI) <= 4 * e.
  Hypothesis Htpi : Rabs (two_pi - 2 * PI) <= 8 * e.
  Hypothesis HN : (0 < N <= 2 ^ 40)%Z.
  Let c := f_momentum_chain ar conv pi two_pi N.
  Let dx := 2 * PI / IZR N.
  Let W (s : Z) : R := - PI + IZR s * dx.
  Lemma N_pos : 1 <= IZR N <= 2 ^ 40.
  Proof. split; [apply IZR_le; lia|]. rewrite pow_IZR. apply IZR_le. change (2 ^ Z.of_nat 40)%Z with (2 ^ 40)%Z. lia. Qed.
  Lemma pi_b : 3 < PI <= 4.
  Proof. pose proof PI_4. pose proof PI2_3_2. unfold PI2 in *. lra. Qed.
  Lemma dx_pos : / 2 ^ 38 <= dx.
  Proof.
    unfold dx. pose proof pi_b. pose proof N_pos as [N1 N2]. unfold Rdiv. apply Rle_trans with (4 * / IZR N); [|apply Rmult_le_compat_r; [apply Rlt_le, Rinv_0_lt_compat; lra|lra]].
    apply Rle_trans with (4 * / 2 ^ 40); [|apply Rmult_le_compat_l; [lra|apply Rinv_le_contravar; lra]].
    replace (2 ^ 40) with (4 * 2 ^ 38) by ring. rewrite Rinv_mult. lra.
  Qed.
  Lemma e_small : 2 ^ 14 * e = / 2 ^ 38.
  Proof. unfold e. field. Qed.
  Lemma e_num : e <= / 1000000000.
  Proof. unfold e. apply Rinv_le_contravar; lra. Qed.
  Lemma dx_N : IZR N * dx = 2 * PI.
  Proof. unfold dx. field. pose proof N_pos. lra. Qed.
  Lemma s_dx s a : (Z.abs s <= a * N)%Z -> Rabs (IZR s * dx) <= IZR a * (2 * PI).
  Proof.
    intros H. rewrite Rabs_mult, <- abs_IZR. pose proof dx_pos as D. assert (0 < / 2 ^ 38) by (apply Rinv_0_lt_compat; lra).
    rewrite (Rabs_pos_eq dx) by lra. rewrite <- dx_N, <- Rmult_assoc, <- mult_IZR. apply Rmult_le_compat_r; [lra|]. apply IZR_le. exact H.
  Qed.
  Lemma fdx_err : Rabs (ch_dx c - dx) <= 4 * e * dx.
  Proof.
    unfold c, f_momentum_chain. cbn [ch_dx]. rewrite Hconv by lia. pose proof N_pos as [N1 N2]. pose proof pi_b as Pb. pose proof e_num as En. pose proof e_pos as Ep.
    set (B := (2 * PI + 8 * e) / IZR N). pose proof dx_pos as D. assert (D0 : 0 < / 2 ^ 38) by (apply Rinv_0_lt_compat; lra).
    assert (I0 : 0 < / IZR N) by (apply Rinv_0_lt_compat; lra).
    assert (T : Rabs (two_pi / IZR N) <= B).
    { unfold B, Rdiv. rewrite Rabs_mult, (Rabs_pos_eq (/ IZR N)) by lra. apply Rmult_le_compat_r; [lra|].
      replace two_pi with (2 * PI + (two_pi - 2 * PI)) by ring. eapply Rle_trans; [apply Rabs_triang|]. rewrite (Rabs_pos_eq (2 * PI)) by lra. lra. }
    assert (BD : dx <= B <= dx * (1 + 2 * e)).
    { unfold B, dx, Rdiv. split; [apply Rmult_le_compat_r; lra|]. replace (2 * PI * / IZR N * (1 + 2 * e)) with ((2 * PI * (1 + 2 * e)) * / IZR N) by ring. apply Rmult_le_compat_r; [lra|]. nra. }
    assert (Q : dx <= 8) by (unfold dx, Rdiv; assert (/ IZR N <= 1) by (rewrite <- Rinv_1; apply Rinv_le_contravar; lra); nra).
    assert (E : Rabs (f_div ar two_pi (IZR N) - two_pi / IZR N) <= e * B).
    { apply div_err; [lra|exact T|]. split.
      - apply Rle_trans with (/ 2 ^ 38); [apply i2; lia|]. lra.
      - apply Rle_trans with (2 ^ 10); [nra|apply p2; lia]. }
    replace (f_div ar two_pi (IZR N) - dx) with ((f_div ar two_pi (IZR N) - two_pi / IZR N) + (two_pi - 2 * PI) * / IZR N) by (unfold dx; field; lra).
    eapply Rle_trans; [apply Rabs_triang|]. rewrite (Rabs_mult (two_pi - 2 * PI)), (Rabs_pos_eq (/ IZR N)) by lra.
    assert (G : Rabs (two_pi - 2 * PI) * / IZR N <= 8 * e * / IZR N) by (apply Rmult_le_compat_r; lra).
    assert (G2 : 8 * e * / IZR N <= 2 * e * dx) by (unfold dx, Rdiv; replace (2 * e * (2 * PI * / IZR N)) with (4 * PI * e * / IZR N) by ring; apply Rmult_le_compat_r; [lra|apply Rmult_le_compat_r; lra]).
    assert (G3 : e * B <= 2 * e * dx) by nra. lra.
  Qed.

  Definition good (s : Z) (d : R) (v : R) : Prop := Rabs (v - W s) <= d * e.
  Lemma pos_err i : (0 <= i < N)%Z -> Rabs (f_pos ar conv c i - W i) <= 72 * e.
  Proof.
    intros Hi. pose proof fdx_err as F. pose proof dx_pos as D. pose proof pi_b as Pb. pose proof e_num as En. pose proof e_pos as Ep. pose proof N_pos as [N1 N2].
    assert (D0 : 0 < / 2 ^ 38) by (apply Rinv_0_lt_compat; lra). unfold f_pos. rewrite Hconv by lia.
    pose proof (s_dx i 1 ltac:(lia)) as SD. assert (I0 : 0 <= IZR i) by (apply IZR_le; lia).
    set (fd := ch_dx c) in *. rewrite (Rabs_pos_eq (IZR i * dx)) in SD by nra.
    assert (M0 : Rabs (IZR i * fd - IZR i * dx) <= 32 * e).
    { replace (IZR i * fd - IZR i * dx) with (IZR i * (fd - dx)) by ring. rewrite Rabs_mult, (Rabs_pos_eq (IZR i)) by exact I0.
      apply Rle_trans with (IZR i * (4 * e * dx)); [apply Rmult_le_compat_l; lra|]. nra. }
    assert (M1 : Rabs (IZR i * fd) <= 9).
    { replace (IZR i * fd) with (IZR i * dx + (IZR i * fd - IZR i * dx)) by ring. eapply Rle_trans; [apply Rabs_triang|]. rewrite (Rabs_pos_eq (IZR i * dx)) by nra. lra. }
    pose proof (mul_err (IZR i) fd 9 M1 (B_ok 9 ltac:(lra))) as M2.
    assert (M3 : Rabs (f_mul ar (IZR i) fd - IZR i * dx) <= 41 * e).
    { replace (f_mul ar (IZR i) fd - IZR i * dx) with ((f_mul ar (IZR i) fd - IZR i * fd) + (IZR i * fd - IZR i * dx)) by ring. eapply Rle_trans; [apply Rabs_triang|]. lra. }
    assert (X : ch_x_min c = - pi) by reflexivity. rewrite X.
    assert (X1 : Rabs (- pi - - PI) <= 4 * e) by (rewrite <- Rabs_Ropp; replace (- (- pi - - PI)) with (pi - PI) by ring; exact Hpi).
    unfold W. eapply Rle_trans; [apply (add_near _ _ _ _ _ _ 8 X1 M3); [|lra]|].
    - assert (Q : Rabs (- PI + IZR i * dx) <= PI) by (apply Rabs_le; split; nra). lra.
    - lra.
  Qed.
  (** the sum of two momenta minus a third *)
  Lemma sum_err i1 i2 q : (0 <= i1 < N)%Z -> (0 <= i2 < N)%Z -> (0 <= q < N)%Z ->
    good (i1 + i2 - q) 300 (f_sub ar (f_add ar (f_pos ar conv c i1) (f_pos ar conv c i2)) (f_pos ar conv c q)).
  Proof.
    intros H1 H2 Hq. pose proof (pos_err i1 H1) as P1. pose proof (pos_err i2 H2) as P2. pose proof (pos_err q Hq) as Pq. pose proof e_num as En. pose proof e_pos as Ep. pose proof pi_b as Pb.
    assert (B : forall i, (0 <= i < N)%Z -> Rabs (W i) <= 4).
    { intros i Hi. unfold W. pose proof (s_dx i 1 ltac:(lia)) as SD. assert (I0 : 0 <= IZR i) by (apply IZR_le; lia). pose proof dx_pos as D.
      assert (D0 : 0 < / 2 ^ 38) by (apply Rinv_0_lt_compat; lra). rewrite (Rabs_pos_eq (IZR i * dx)) in SD by nra. apply Rabs_le; split; nra. }
    pose proof (B i1 H1) as B1. pose proof (B i2 H2) as B2. pose proof (B q Hq) as Bq.
    assert (S1 : Rabs (f_add ar (f_pos ar conv c i1) (f_pos ar conv c i2) - (W i1 + W i2)) <= 153 * e).
    { eapply Rle_trans; [apply (add_near _ _ _ _ _ _ 9 P1 P2); [|lra]|lra]. pose proof (Rabs_triang (W i1) (W i2)). lra. }
    unfold good, f_sub. replace (W (i1 + i2 - q)) with ((W i1 + W i2) + - W q) by (unfold W; rewrite minus_IZR, plus_IZR; ring).
    assert (Pq' : Rabs (- f_pos ar conv c q - - W q) <= 72 * e) by (rewrite <- Rabs_Ropp; replace (- (- f_pos ar conv c q - - W q)) with (f_pos ar conv c q - W q) by ring; exact Pq).
    eapply Rle_trans; [apply (add_near _ _ _ _ _ _ 13 S1 Pq'); [|lra]|lra].
    pose proof (Rabs_triang (W i1 + W i2) (- W q)) as T. rewrite Rabs_Ropp in T. pose proof (Rabs_triang (W i1) (W i2)). lra.
  Qed.
  Lemma W_range s : (- N <= s <= 2 * N)%Z -> Rabs (W s) <= 3 * PI.
  Proof.
    intros Hs. unfold W. pose proof dx_N as DN. pose proof dx_pos as D. assert (D0 : 0 < / 2 ^ 38) by (apply Rinv_0_lt_compat; lra). pose proof pi_b.
    assert (A1 : - IZR N <= IZR s) by (rewrite <- opp_IZR; apply IZR_le; lia). assert (A2 : IZR s <= 2 * IZR N) by (rewrite <- mult_IZR; apply IZR_le; lia).
    apply Rabs_le. split; nra.
  Qed.
  Lemma W_gap s t : (s + 1 <= t)%Z -> W s + 2 ^ 14 * e <= W t.
  Proof.
    intros H. unfold W. rewrite e_small. pose proof dx_pos as D. assert (D0 : 0 < / 2 ^ 38) by (apply Rinv_0_lt_compat; lra).
    assert (A : IZR s + 1 <= IZR t) by (rewrite <- plus_IZR; apply IZR_le; exact H). nra.
  Qed.
  Lemma W_0 : W 0 = - PI. Proof. unfold W. ring. Qed.
  Lemma W_N : W N = PI. Proof. unfold W. rewrite dx_N. ring. Qed.
  Lemma W_shift s : W (s + N) = W s + 2 * PI. Proof. unfold W. rewrite plus_IZR, Rmult_plus_distr_r, dx_N. ring. Qed.
  Lemma up s d v : (- N <= s <= N)%Z -> good s d v -> 0 <= d <= 1000 -> good (s + N) (d + 30) (f_add ar v two_pi).
  Proof.
    intros Hs G Hd. unfold good in *. rewrite W_shift. pose proof e_num as En. pose proof e_pos as Ep. pose proof pi_b as Pb.
    eapply Rle_trans; [apply (add_near _ _ _ _ _ _ 21 G Htpi); [|lra]|lra].
    pose proof (W_range s ltac:(lia)) as B. pose proof (Rabs_triang (W s) (2 * PI)) as T. rewrite (Rabs_pos_eq (2 * PI)) in T by lra. nra.
  Qed.
  Lemma down s d v : (0 <= s <= 2 * N)%Z -> good s d v -> 0 <= d <= 1000 -> good (s - N) (d + 30) (f_sub ar v two_pi).
  Proof.
    intros Hs G Hd. unfold good, f_sub in *. replace (W (s - N)) with (W s + - (2 * PI)) by (rewrite <- (Z.sub_add N s) at 1; rewrite W_shift; ring).
    pose proof e_num as En. pose proof e_pos as Ep. pose proof pi_b as Pb.
    assert (H : Rabs (- two_pi - - (2 * PI)) <= 8 * e) by (rewrite <- Rabs_Ropp; replace (- (- two_pi - - (2 * PI))) with (two_pi - 2 * PI) by ring; exact Htpi).
    eapply Rle_trans; [apply (add_near _ _ _ _ _ _ 21 G H); [|lra]|lra].
    pose proof (W_range s ltac:(lia)) as B. pose proof (Rabs_triang (W s) (- (2 * PI))) as T. rewrite Rabs_Ropp, (Rabs_pos_eq (2 * PI)) in T by lra. nra.
  Qed.
  Lemma below_ok fuel s d v : (- N < s < 2 * N)%Z -> good s d v -> 0 <= d <= 900 ->
    exists s' v', f_while_below ar (S fuel) (- pi) two_pi v = Some v' /\ (0 <= s' < 2 * N)%Z /\ (s' mod N = s mod N)%Z /\ good s' (d + 30) v'.
  Proof.
    intros Hs G Hd. pose proof e_pos as Ep. assert (Lo : Rabs (- pi - W 0) <= 4 * e).
    { rewrite W_0, <- Rabs_Ropp. replace (- (- pi - - PI)) with (pi - PI) by ring. exact Hpi. }
    apply Rabs_le_inv in Lo. pose proof G as G0. unfold good in G0. apply Rabs_le_inv in G0. assert (G1 : d * e <= 900 * e) by (apply Rmult_le_compat_r; lra).
    cbn [f_while_below]. destruct (Rlt_dec v (- pi)) as [Lt|Ge].
    - assert (S0 : (s <= 0)%Z).
      { apply Z.nlt_ge. intros C. pose proof (W_gap 0 s ltac:(lia)). lra. }
      pose proof (up s d v ltac:(lia) G ltac:(lra)) as G'. exists (s + N)%Z, (f_add ar v two_pi). split.
      + assert (Q : ~ f_add ar v two_pi < - pi).
        { intros C. unfold good in G'. apply Rabs_le_inv in G'. pose proof (W_gap 0 (s + N) ltac:(lia)). lra. }
        destruct fuel; cbn [f_while_below]; destruct (Rlt_dec (f_add ar v two_pi) (- pi)) as [C|_]; [contradiction (Q C)|reflexivity|contradiction (Q C)|reflexivity].
      + split; [lia|]. split; [|exact G']. replace (s + N)%Z with (s + 1 * N)%Z by lia. apply Z.mod_add. lia.
    - exists s, v. split; [reflexivity|]. split; [|split; [reflexivity|]].
      + split; [|lia]. apply Z.nlt_ge. intros C. pose proof (W_gap s 0 ltac:(lia)). lra.
      + unfold good in *. apply Rabs_le. lra.
  Qed.
  Lemma above_ok fuel s d v : (0 <= s < 2 * N)%Z -> good s d v -> 0 <= d <= 900 ->
    exists s' v', f_while_above ar (S fuel) pi two_pi v = Some v' /\ (0 <= s' <= N)%Z /\ (s' mod N = s mod N)%Z /\ good s' (d + 30) v'.
  Proof.
    intros Hs G Hd. pose proof e_pos as Ep. assert (Hi : Rabs (pi - W N) <= 4 * e) by (rewrite W_N; exact Hpi).
    apply Rabs_le_inv in Hi. pose proof G as G0. unfold good in G0. apply Rabs_le_inv in G0. assert (G1 : d * e <= 900 * e) by (apply Rmult_le_compat_r; lra).
    cbn [f_while_above]. destruct (Rlt_dec pi v) as [Lt|Ge].
    - assert (S0 : (N <= s)%Z).
      { apply Z.nlt_ge. intros C. pose proof (W_gap s N ltac:(lia)). lra. }
      pose proof (down s d v ltac:(lia) G ltac:(lra)) as G'. exists (s - N)%Z, (f_sub ar v two_pi). split.
      + assert (Q : ~ pi < f_sub ar v two_pi).
        { intros C. unfold good in G'. apply Rabs_le_inv in G'. pose proof (W_gap (s - N) N ltac:(lia)). lra. }
        destruct fuel; cbn [f_while_above]; destruct (Rlt_dec pi (f_sub ar v two_pi)) as [C|_]; [contradiction (Q C)|reflexivity|contradiction (Q C)|reflexivity].
      + split; [lia|]. split; [|exact G']. replace (s - N)%Z with (s + (-1) * N)%Z by lia. apply Z.mod_add. lia.
    - exists s, v. split; [reflexivity|]. split; [|split; [reflexivity|]].
      + split; [lia|]. apply Z.nlt_ge. intros C. pose proof (W_gap N s ltac:(lia)). lra.
      + unfold good in *. apply Rabs_le. lra.
  Qed.
  Lemma index_ok s d v : (0 <= s <= N)%Z -> good s d v -> 0 <= d <= 900 ->
    round_away (f_div ar (f_sub ar v (- pi)) (ch_dx c)) = s.
  Proof.
    intros Hs G Hd. pose proof e_num as En. pose proof e_pos as Ep. pose proof pi_b as Pb. pose proof N_pos as [N1 N2]. pose proof fdx_err as F. pose proof dx_pos as D.
    assert (D0 : 0 < / 2 ^ 38) by (apply Rinv_0_lt_compat; lra). set (fd := ch_dx c) in *. unfold good in G.
    assert (Hi : Rabs (- - pi - PI) <= 4 * e) by (rewrite Ropp_involutive; exact Hpi).
    assert (SD : 0 <= IZR s * dx <= 2 * PI).
    { rewrite <- dx_N. split; [apply Rmult_le_pos; [apply IZR_le; lia|lra]|]. apply Rmult_le_compat_r; [lra|apply IZR_le; lia]. }
    assert (Y : Rabs (f_sub ar v (- pi) - IZR s * dx) <= 1000 * e).
    { replace (IZR s * dx) with (W s + PI) by (unfold W; ring). unfold f_sub. assert (G1 : d * e <= 900 * e) by (apply Rmult_le_compat_r; lra).
      assert (G' : Rabs (v - W s) <= 900 * e) by lra.
      eapply Rle_trans; [apply (add_near _ _ _ _ _ _ 10 G' Hi); [|lra]|lra]. replace (W s + PI) with (IZR s * dx) by (unfold W; ring). rewrite Rabs_pos_eq; lra. }
    set (y := f_sub ar v (- pi)) in *.
    apply Rabs_le_inv in F. assert (FQ : 4 * e * dx <= / 8 * dx) by (apply Rmult_le_compat_r; lra). assert (FD : 7 / 8 * dx <= fd) by lra. assert (FP : 0 < fd) by lra.
    assert (IS : 0 <= IZR s <= 2 ^ 40) by (split; [apply IZR_le; lia|]; apply Rle_trans with (IZR N); [apply IZR_le; lia|lra]).
    assert (Z1 : Rabs (y / fd - IZR s) <= / 8).
    { replace (y / fd - IZR s) with ((y - IZR s * fd) / fd) by (field; lra). unfold Rdiv. rewrite Rabs_mult, (Rabs_pos_eq (/ fd)) by (apply Rlt_le, Rinv_0_lt_compat; exact FP).
      assert (K : Rabs (y - IZR s * fd) <= 1032 * e).
      { replace (y - IZR s * fd) with ((y - IZR s * dx) + - (IZR s * (fd - dx))) by ring. eapply Rle_trans; [apply Rabs_triang|]. rewrite Rabs_Ropp, Rabs_mult, (Rabs_pos_eq (IZR s)) by lra.
        assert (Q : Rabs (fd - dx) <= 4 * e * dx) by (apply Rabs_le; lra). assert (Q1 : IZR s * Rabs (fd - dx) <= IZR s * (4 * e * dx)) by (apply Rmult_le_compat_l; lra).
        replace (IZR s * (4 * e * dx)) with (4 * e * (IZR s * dx)) in Q1 by ring. assert (Q2 : 4 * e * (IZR s * dx) <= 4 * e * 8) by (apply Rmult_le_compat_l; lra). lra. }
      apply Rle_trans with (1032 * e * / fd); [apply Rmult_le_compat_r; [apply Rlt_le, Rinv_0_lt_compat; exact FP|exact K]|].
      apply Rmult_le_reg_r with fd; [exact FP|]. rewrite Rmult_assoc, Rinv_l, Rmult_1_r by lra.
      pose proof e_small as Es. assert (Q : 2 ^ 14 * e <= dx) by lra. lra. }
    set (B := 2 ^ 41). assert (YB : Rabs (y / fd) <= B).
    { replace (y / fd) with (IZR s + (y / fd - IZR s)) by ring. eapply Rle_trans; [apply Rabs_triang|]. rewrite (Rabs_pos_eq (IZR s)) by lra. unfold B. lra. }
    assert (Z2 : Rabs (f_div ar y fd - y / fd) <= e * B).
    { apply div_err; [lra|exact YB|]. unfold B. split; [apply Rle_trans with 1; [|lra]|apply p2; lia]. rewrite <- Rinv_1. apply Rinv_le_contravar; [lra|apply pow_R1_Rle; lra]. }
    apply near_int. replace (f_div ar y fd - IZR s) with ((f_div ar y fd - y / fd) + (y / fd - IZR s)) by ring.
    eapply Rle_lt_trans; [apply Rabs_triang|]. assert (EB : e * B <= / 8) by (unfold e, B; lra). lra.
  Qed.
  (** a number close to the momentum with index s is mapped to s mod N *)
  Lemma call_ok fuel s d v : (- N < s < 2 * N)%Z -> good s d v -> 0 <= d <= 800 ->
    f_call ar (S fuel) c v = Some (Ok (s mod N)%Z).
  Proof.
    intros Hs G Hd. unfold f_call. change (ch_x_min c) with (- pi). change (ch_length c) with two_pi. change (ch_x_max c) with pi. change (ch_size c) with N.
    destruct (below_ok fuel s d v Hs G ltac:(lra)) as (s1 & v1 & -> & H1 & M1 & G1).
    destruct (above_ok fuel s1 (d + 30) v1 H1 G1 ltac:(lra)) as (s2 & v2 & -> & H2 & M2 & G2).
    rewrite (index_ok s2 (d + 30 + 30) v2 H2 G2 ltac:(lra)).
    assert (T : to_u64 s2 = Ok s2).
    { unfold to_u64. destruct (0 <=? s2)%Z eqn:Q1; [|apply Z.leb_gt in Q1; lia]. destruct (s2 <? two64)%Z eqn:Q2; [reflexivity|]. apply Z.ltb_ge in Q2. pose proof P_EigenIo.two64_eq. lia. }
    rewrite T, M2, M1. reflexivity.
  Qed.
  Lemma i3_ok fuel q i1 i2 : site N q -> site N i1 -> site N i2 -> f_mom_i3 ar conv (S fuel) c q i1 i2 = Some (Ok ((i1 + i2 - q) mod N)%Z).
  Proof.
    intros Hq H1 H2. unfold f_mom_i3. unfold site in *. apply (call_ok fuel _ 300); [lia|apply sum_err; assumption|lra].
  Qed.
End Acc.

(** ** double *)
Lemma e_split : e = / 2 ^ 53 + / 2 ^ 53.
Proof. unfold e. replace (2 ^ 53) with (2 * 2 ^ 52) by (rewrite tech_pow_Rmult; reflexivity). field. Qed.
Lemma int_exact garbage k : (Z.abs k < 2 ^ 53)%Z -> to_double_int garbage k = IZR k.
Proof.
  intros H. unfold to_double_int. apply double_exact; [apply double_int; exact H|]. rewrite <- abs_IZR. rewrite <- IZR_Zpower by lia. apply IZR_le.
  apply Z.le_trans with (2 ^ 53)%Z; [lia|]. change (Zaux.radix_val radix2) with 2%Z. apply Z.pow_le_mono_r; lia.
Qed.
Lemma const_err x B : Rabs x <= B -> 1 <= B <= 1000 -> Rabs (round_double x - x) <= e * B.
Proof.
  intros H HB. rewrite <- (double_round (fun x => x)).
  - apply within_e; [|exact H|apply B_ok; exact HB]. pose proof (double_within (fun x => x) x) as W.
    replace (bpow radix2 (-53)) with (/ 2 ^ 53) in W by (symmetry; apply (bm 53)). replace (bpow radix2 (-1075)) with (/ 2 ^ 1075) in W by (symmetry; apply (bm 1075)).
    replace (bpow radix2 1023) with (2 ^ 1023) in W by (symmetry; apply (bp 1023)). exact W.
  - eapply Rle_trans; [exact H|]. rewrite bp1023. apply Rle_trans with (2 ^ 10); [lra|apply p2; lia].
Qed.
Lemma pi_err : Rabs (round_double PI - PI) <= 4 * e.
Proof. pose proof pi_b. rewrite (Rmult_comm 4 e). apply const_err; [rewrite Rabs_pos_eq; lra|lra]. Qed.
Lemma two_pi_err : Rabs (round_double (2 * PI) - 2 * PI) <= 8 * e.
Proof. pose proof pi_b. rewrite (Rmult_comm 8 e). apply const_err; [rewrite Rabs_pos_eq; lra|lra]. Qed.

(** ** C92 *)
(** the site looked up for k_i1 + k_i2 - k_q is the one with exactly this momentum, modulo 2 pi *)
Theorem C92_momentum_lookup : forall garbage N q i1 i2 fuel, (0 < N <= 2 ^ 40)%Z -> site N q -> site N i1 -> site N i2 -> (1 <= fuel)%nat ->
  f_mom_i3 (double_arith garbage) (to_double_int garbage) fuel (double_momentum_chain garbage N) q i1 i2 = Some (Ok ((i1 + i2 - q) mod N)%Z).
Proof.
  intros garbage N q i1 i2 fuel HN Hq H1 H2 Hf. destruct fuel as [|fuel]; [lia|].
  apply (i3_ok (double_arith garbage) (to_double_int garbage) (double_ok garbage) (int_exact garbage) _ _ N pi_err two_pi_err HN fuel q i1 i2 Hq H1 H2).
Qed.
(** a number within 2^-44 of the momentum of site i is mapped to site i *)
Theorem C92_momentum_near : forall garbage N i v fuel, (0 < N <= 2 ^ 40)%Z -> site N i -> (1 <= fuel)%nat ->
  Rabs (v - (- PI + IZR i * (2 * PI / IZR N))) <= / 2 ^ 44 ->
  f_call (double_arith garbage) fuel (double_momentum_chain garbage N) v = Some (Ok i).
Proof.
  intros garbage N i v fuel HN Hi Hf Hv. destruct fuel as [|fuel]; [lia|]. unfold site in Hi. rewrite <- (Z.mod_small i N) by lia.
  apply (call_ok (double_arith garbage) (to_double_int garbage) (double_ok garbage) (int_exact garbage) _ _ N pi_err two_pi_err HN fuel i 256 v); [lia| |lra].
  unfold good. eapply Rle_trans; [exact Hv|]. unfold e. lra.
Qed.
(** in particular every site is found again from its computed momentum *)
Theorem C92_momentum_inverse : forall garbage N i fuel, (0 < N <= 2 ^ 40)%Z -> site N i -> (1 <= fuel)%nat ->
  f_call (double_arith garbage) fuel (double_momentum_chain garbage N) (f_pos (double_arith garbage) (to_double_int garbage) (double_momentum_chain garbage N) i) = Some (Ok i).
Proof.
  intros garbage N i fuel HN Hi Hf. apply C92_momentum_near; try assumption. eapply Rle_trans.
  - apply (pos_err (double_arith garbage) (to_double_int garbage) (double_ok garbage) (int_exact garbage) _ _ N pi_err two_pi_err HN i Hi).
  - unfold e. lra.
Qed.
(** the momentum-space basis computed with doubles is the one of exact arithmetic *)
Theorem C92_momentum_basis : forall garbage N q, (0 < N <= 2 ^ 40)%Z -> site N q ->
  exists b, terminates_with (fun fuel => f_mom_basis (double_arith garbage) (to_double_int garbage) fuel (double_momentum_chain garbage N) q) (Ok b) /\
    terminates_with (fun fuel => mom_basis fuel (momentum_chain N) q) (Ok b).
Proof.
  intros garbage N q HN Hq. pose proof P_EigenIo.two64_eq as T64. exists (mom_closed N q). split; [|apply mom_basis_value; [lia|exact Hq]].
  assert (Hs : visited chain_begin (chain_end N) N = Zseq N) by (pose proof (chain_regular N ltac:(lia)) as (_ & E & _); exact E).
  assert (H : terminates_with (fun fuel => mapM (fun i1 => mapM (fun i2 =>
                match f_mom_i3 (double_arith garbage) (to_double_int garbage) fuel (double_momentum_chain garbage N) q i1 i2 with
                | None => None
                | Some UB => Some UB
                | Some (Ok i3) => Some (Ok [hop true i1 true; hop true i2 false; hop false i3 false])
                end) (Zseq N)) (Zseq N)) (Ok (map (fun i1 => map (mom_mono N q i1) (Zseq N)) (Zseq N)))).
  { apply (mapM_ok (fun fuel i1 => mapM (fun i2 => _) (Zseq N))). intros i1 H1. apply Zseq_in in H1.
    apply (mapM_ok (fun fuel i2 => _)). intros i2 H2. apply Zseq_in in H2. exists 1%nat. intros fuel Hf.
    rewrite C92_momentum_lookup by assumption. reflexivity. }
  destruct H as (m & Hm). exists m. intros fuel Hf. unfold f_mom_basis. change (ch_size (double_momentum_chain garbage N)) with N. rewrite Hs, (Hm fuel Hf). reflexivity.
Qed.
(** real space: every site is found again from its computed position *)
Theorem C92_real_inverse : forall garbage N dx i fuel, (0 < N <= 2 ^ 50)%Z -> site N i -> / 2 ^ 900 <= dx <= 2 ^ 900 ->
  let ar := double_arith garbage in let conv := to_double_int garbage in let c := double_real_chain garbage N dx in
  f_call ar fuel c (f_pos ar conv c i) = Some (Ok i).
Proof.
  intros garbage N dx i fuel HN Hi Hd ar conv c. unfold site in Hi. pose proof P_EigenIo.two64_eq as T64.
  assert (D0 : 0 < dx) by (eapply Rlt_le_trans; [|apply Hd]; apply Rinv_0_lt_compat, pow_lt; lra).
  assert (I0 : 0 <= IZR i) by (apply IZR_le; lia). assert (I1 : IZR i <= 2 ^ 50) by (rewrite pow_IZR; apply IZR_le; change (2 ^ Z.of_nat 50)%Z with (2 ^ 50)%Z; lia).
  assert (Big : forall k, 0 <= k <= 2 ^ 50 -> 0 <= k * dx <= bpow radix2 1023).
  { intros k Hk. split; [apply Rmult_le_pos; lra|]. rewrite bp1023. apply Rle_trans with (2 ^ 50 * 2 ^ 900); [apply Rmult_le_compat; [apply Hk|apply Rlt_le, D0|apply Hk|apply Hd]|]. rewrite <- pow_add. apply p2. lia. }
  assert (AR : Rabs (IZR i * dx) <= bpow radix2 1023) by (rewrite Rabs_pos_eq; apply (Big (IZR i)); lra).
  set (v := round_double (IZR i * dx)).
  assert (FM : forall x, is_double x -> Rabs x <= bpow radix2 1023 -> to_double garbage x = x) by (intros; apply double_exact; assumption).
  assert (DV : is_double v) by (unfold v, is_double, round_double; apply generic_format_round; [apply FLT_exp_valid; reflexivity|apply valid_rnd_N]).
  assert (V0 : 0 <= v).
  { unfold v, round_double. replace 0 with (round radix2 (FLT_exp (-1074) 53) ZnearestE 0) by (apply round_0; apply valid_rnd_N).
    apply Generic_fmt.round_le; [apply FLT_exp_valid; reflexivity|apply valid_rnd_N|apply (Big (IZR i)); lra]. }
  assert (V1 : Rabs v <= bpow radix2 1023) by (apply round_max; exact AR).
  assert (CI : forall k, (0 <= k <= 2 ^ 50)%Z -> conv k = IZR k) by (intros k Hk; apply int_exact; lia).
  assert (EV : f_pos ar conv c i = v).
  { unfold f_pos, c, double_real_chain, f_real_chain. cbn [ch_x_min ch_dx]. change (f_mul (double_arith garbage)) with (f_mul ar). rewrite CI by lia.
    cbn [ar double_arith f_add f_mul]. rewrite (double_round garbage _ AR). rewrite Rplus_0_l. apply FM; assumption. }
  rewrite EV. unfold f_call. cbn [c double_real_chain f_real_chain ch_x_min ch_x_max ch_length ch_dx ch_size].
  assert (BL : forall l, f_while_below ar fuel 0 l v = Some v).
  { intros l. destruct fuel; cbn [f_while_below]; destruct (Rlt_dec v 0); try lra; reflexivity. }
  rewrite BL. fold conv ar. assert (U1 : u64 (N - 1) = (N - 1)%Z) by (apply u64_id; lia). rewrite U1, CI by lia.
  assert (XM : f_mul ar dx (IZR (N - 1)) = round_double (IZR (N - 1) * dx)).
  { cbn [ar double_arith f_mul]. rewrite Rmult_comm. apply double_round. assert (Q : 0 <= IZR (N - 1) <= 2 ^ 50) by (split; [apply IZR_le; lia|rewrite pow_IZR; apply IZR_le; change (2 ^ Z.of_nat 50)%Z with (2 ^ 50)%Z; lia]).
    rewrite Rabs_pos_eq; apply (Big _ Q). }
  assert (AB : forall l, f_while_above ar fuel (f_mul ar dx (IZR (N - 1))) l v = Some v).
  { intros l. rewrite XM. assert (LE : v <= round_double (IZR (N - 1) * dx)).
    { unfold v, round_double. apply Generic_fmt.round_le; [apply FLT_exp_valid; reflexivity|apply valid_rnd_N|]. apply Rmult_le_compat_r; [lra|apply IZR_le; lia]. }
    destruct fuel; cbn [f_while_above]; destruct (Rlt_dec (round_double (IZR (N - 1) * dx)) v); try lra; reflexivity. }
  rewrite AB. assert (SB : f_sub ar v 0 = v).
  { unfold f_sub. cbn [ar double_arith f_add]. rewrite Ropp_0, Rplus_0_r. apply FM; assumption. }
  rewrite SB. cbn [ar double_arith f_div].
  assert (acc := double_ok garbage).
  assert (W1 : Rabs (v - IZR i * dx) <= / 2 ^ 53 * (IZR i * dx) + / 2 ^ 1075).
  { destruct (acc (IZR i) dx) as (_ & A & _). unfold within in A. cbn [double_arith f_mul] in A. rewrite (double_round garbage _ AR) in A. fold v in A.
    rewrite bp1023 in AR. rewrite <- (Rabs_pos_eq (IZR i * dx)) at 2 by (apply (Big (IZR i)); lra). apply A, AR. }
  assert (P53 : 0 < / 2 ^ 53) by (apply Rinv_0_lt_compat; lra).
  assert (W2 : Rabs (v / dx - IZR i) <= / 2 ^ 53 * IZR i + / 2 ^ 100).
  { replace (v / dx - IZR i) with ((v - IZR i * dx) * / dx) by (field; lra). rewrite Rabs_mult, (Rabs_pos_eq (/ dx)) by (apply Rlt_le, Rinv_0_lt_compat; exact D0).
    apply Rle_trans with ((/ 2 ^ 53 * (IZR i * dx) + / 2 ^ 1075) * / dx); [apply Rmult_le_compat_r; [apply Rlt_le, Rinv_0_lt_compat; exact D0|exact W1]|].
    rewrite Rmult_plus_distr_r. replace (/ 2 ^ 53 * (IZR i * dx) * / dx) with (/ 2 ^ 53 * IZR i) by (field; lra). apply Rplus_le_compat_l.
    apply Rle_trans with (/ 2 ^ 1075 * 2 ^ 900).
    - apply Rmult_le_compat_l; [apply Rlt_le, Rinv_0_lt_compat, pow_lt; lra|]. rewrite <- (Rinv_inv (2 ^ 900)). apply Rinv_le_contravar; [apply Rinv_0_lt_compat, pow_lt; lra|apply Hd].
    - apply Rmult_le_reg_l with (2 ^ 1075); [apply pow_lt; lra|]. rewrite <- Rmult_assoc, Rinv_r, Rmult_1_l by (apply pow_nonzero; lra).
      replace (2 ^ 1075) with (2 ^ 975 * 2 ^ 100) by (rewrite <- pow_add; reflexivity). rewrite Rmult_assoc, Rinv_r, Rmult_1_r by (apply pow_nonzero; lra). apply p2. lia. }
  assert (S1 : / 2 ^ 53 * IZR i <= / 8) by (apply Rle_trans with (/ 2 ^ 53 * 2 ^ 50); [apply Rmult_le_compat_l; lra|lra]).
  assert (S2 : / 2 ^ 100 <= / 1024) by (replace 1024 with (2 ^ 10) by ring; apply i2; lia).
  set (B := 2 ^ 51). assert (QB : Rabs (v / dx) <= B).
  { replace (v / dx) with (IZR i + (v / dx - IZR i)) by ring. eapply Rle_trans; [apply Rabs_triang|]. rewrite (Rabs_pos_eq (IZR i)) by lra. unfold B. lra. }
  assert (W3 : Rabs (to_double garbage (v / dx) - v / dx) <= / 2 ^ 53 * B + / 2 ^ 1075).
  { destruct (acc v dx) as (_ & _ & A). specialize (A ltac:(lra)). unfold within in A. cbn [double_arith f_div] in A.
    eapply Rle_trans; [apply A|]; [eapply Rle_trans; [exact QB|unfold B; apply p2; lia]|]. apply Rplus_le_compat_r, Rmult_le_compat_l; lra. }
  assert (S3 : / 2 ^ 1075 <= / 1024) by (replace 1024 with (2 ^ 10) by ring; apply i2; lia).
  assert (S4 : / 2 ^ 53 * B = / 4) by (unfold B; field).
  rewrite (near_int _ i).
  2:{ replace (to_double garbage (v / dx) - IZR i) with ((to_double garbage (v / dx) - v / dx) + (v / dx - IZR i)) by ring. eapply Rle_lt_trans; [apply Rabs_triang|]. lra. }
  assert (T : to_u64 i = Ok i).
  { unfold to_u64. destruct (0 <=? i)%Z eqn:Q1; [|apply Z.leb_gt in Q1; lia]. destruct (i <? two64)%Z eqn:Q2; [reflexivity|]. apply Z.ltb_ge in Q2. lia. }
  rewrite T. rewrite Z.mod_small by lia. reflexivity.
Qed.
(** real space with spacing 1: the lookup of an integer coordinate is exact, on both sides of the lattice *)
Theorem C92_real_unit : forall garbage N z fuel, (0 < N <= 2 ^ 50)%Z -> (Z.abs z <= 2 ^ 50)%Z -> (Z.to_nat (Z.abs z) <= fuel)%nat ->
  f_call (double_arith garbage) fuel (double_real_chain garbage N 1) (IZR z) = Some (Ok (z mod N)%Z).
Proof.
  intros garbage N z fuel HN Hz Hf. pose proof P_EigenIo.two64_eq as T64. set (ar := double_arith garbage).
  assert (P50 : (2 ^ 50 = 1125899906842624)%Z) by reflexivity. assert (P53 : (2 ^ 53 = 9007199254740992)%Z) by reflexivity.
  assert (EI : forall k, (Z.abs k < 2 ^ 53)%Z -> to_double garbage (IZR k) = IZR k) by (intros k Hk; exact (int_exact garbage k Hk)).
  assert (BL : forall f z, (Z.abs z <= 2 ^ 50)%Z -> (- z <= Z.of_nat f)%Z -> f_while_below ar f 0 (IZR N) (IZR z) = Some (IZR (if (z <? 0)%Z then z mod N else z))).
  { induction f as [|f IH]; intros y Hy Hfy; cbn [f_while_below]; destruct (Rlt_dec (IZR y) 0) as [L|L].
    - apply lt_IZR in L. lia.
    - destruct (Z.ltb_spec y 0) as [Q|Q]; [exfalso; apply L, IZR_lt, Q|reflexivity].
    - apply lt_IZR in L. destruct (Z.ltb_spec y 0) as [_|Q]; [|lia]. cbn [ar double_arith f_add]. rewrite <- plus_IZR, EI by lia. rewrite IH by lia.
      f_equal. f_equal. destruct (Z.ltb_spec (y + N) 0) as [Q|Q]; [rewrite <- (Z_mod_plus_full y 1 N), Z.mul_1_l; reflexivity|].
      rewrite <- (Z_mod_plus_full y 1 N), Z.mul_1_l. symmetry. apply Z.mod_small. lia.
    - destruct (Z.ltb_spec y 0) as [Q|Q]; [exfalso; apply L, IZR_lt, Q|reflexivity]. }
  assert (AB : forall f z, (0 <= z <= 2 ^ 50)%Z -> (z <= Z.of_nat f)%Z -> f_while_above ar f (IZR (N - 1)) (IZR N) (IZR z) = Some (IZR (z mod N))).
  { induction f as [|f IH]; intros y Hy Hfy; cbn [f_while_above]; destruct (Rlt_dec (IZR (N - 1)) (IZR y)) as [L|L].
    - apply lt_IZR in L. lia.
    - rewrite Z.mod_small; [reflexivity|]. assert (~ (N - 1 < y)%Z) by (intros Q; apply L, IZR_lt, Q). lia.
    - apply lt_IZR in L. unfold f_sub. cbn [ar double_arith f_add]. rewrite <- opp_IZR, <- plus_IZR, EI by lia. rewrite IH by lia.
      rewrite <- (Z_mod_plus_full (y + - N) 1 N), Z.mul_1_l. do 3 f_equal. ring.
    - rewrite Z.mod_small; [reflexivity|]. assert (~ (N - 1 < y)%Z) by (intros Q; apply L, IZR_lt, Q). lia. }
  unfold f_call, double_real_chain, f_real_chain. cbn [ch_x_min ch_x_max ch_length ch_dx ch_size]. fold ar.
  assert (U1 : u64 (N - 1) = (N - 1)%Z) by (apply u64_id; lia). rewrite U1, !int_exact by lia.
  assert (E1 : f_mul ar 1 (IZR (N - 1)) = IZR (N - 1)) by (cbn [ar double_arith f_mul]; rewrite Rmult_1_l; apply EI; lia).
  assert (E2 : f_mul ar (IZR N) 1 = IZR N) by (cbn [ar double_arith f_mul]; rewrite Rmult_1_r; apply EI; lia). rewrite E1, E2.
  rewrite BL by lia. set (y := if (z <? 0)%Z then (z mod N)%Z else z). pose proof (Z.mod_pos_bound z N ltac:(lia)) as MB.
  assert (Y : (0 <= y <= 2 ^ 50)%Z /\ (y mod N = z mod N)%Z /\ (y <= Z.of_nat fuel \/ y < N)%Z).
  { unfold y. destruct (Z.ltb_spec z 0); [split; [lia|]; split; [apply Z.mod_mod; lia|right; lia]|split; [lia|]; split; [reflexivity|left; lia]]. }
  destruct Y as (Y1 & Y2 & Y3).
  assert (EA : f_while_above ar fuel (IZR (N - 1)) (IZR N) (IZR y) = Some (IZR (y mod N))).
  { destruct Y3 as [Y3|Y3]; [apply AB; assumption|]. rewrite Z.mod_small by lia.
    destruct fuel; cbn [f_while_above]; destruct (Rlt_dec (IZR (N - 1)) (IZR y)) as [L|L]; try reflexivity; apply lt_IZR in L; lia. }
  rewrite EA, Y2. unfold f_sub. cbn [ar double_arith f_add f_div]. rewrite Ropp_0, Rplus_0_r, EI by lia. unfold Rdiv. rewrite Rinv_1, Rmult_1_r, EI by lia.
  rewrite round_away_IZR. assert (T : to_u64 (z mod N) = Ok (z mod N)%Z).
  { unfold to_u64. destruct (0 <=? z mod N)%Z eqn:Q1; [|apply Z.leb_gt in Q1; lia]. destruct (z mod N <? two64)%Z eqn:Q2; [reflexivity|]. apply Z.ltb_ge in Q2. lia. }
  rewrite T, Z.mod_mod by lia. reflexivity.
Qed.
(** the zone edge: k_0 = -pi, so k_1 + k_9 - k_3 has index 7 and k_0 + k_2 - k_9 index 3 (one winding) on ten sites *)
Example C92_ten_sites garbage : 
  f_mom_i3 (double_arith garbage) (to_double_int garbage) 1 (double_momentum_chain garbage 10) 3 1 9 = Some (Ok 7%Z) /\
  f_mom_i3 (double_arith garbage) (to_double_int garbage) 1 (double_momentum_chain garbage 10) 9 0 2 = Some (Ok 3%Z).
Proof. split; rewrite C92_momentum_lookup; try (unfold site; lia); reflexivity. Qed.
Print Assumptions C92_momentum_lookup.
Print Assumptions C92_momentum_near.
Print Assumptions C92_momentum_inverse.
Print Assumptions C92_momentum_basis.
Print Assumptions C92_real_inverse.
Print Assumptions C92_real_unit.
