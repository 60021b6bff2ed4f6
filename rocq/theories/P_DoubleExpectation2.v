(** PROPERTY C106, continued: the square lattice. *)
From Coq Require Import Reals Lra Psatz List ZArith Lia Ascii String.
From Flocq Require Import Core.
From Verif Require Import Base Instances Spec_Lattice M_Lattice M_Matrix Pf_Lattice Pf_Matrix M_Dispersion M_Expectation Spec_Expectation P_Dispersion P_Lattice P_Expectation M_Rounding Spec_Rounding M_Double Pf_Double Pf_Rounding5 P_Rounding
  M_LatticeDouble P_LatticeDouble Pf_PiDigits P_DoubleDispersion M_DoubleExpectation Spec_DoubleExpectation Pf_DoubleExpectation P_DoubleExpectation M_OpenMP Spec_OpenMP M_Text M_Io Spec_Stability Spec_RoundedMeasurement Spec_TheoryProgram M_TheoryProgram P_TheoryProgram.
Local Open Scope R_scope.
Local Open Scope list_scope.

Lemma eta_100 : 0 <= eta <= / 100 * u.
Proof. pose proof eta_small as E0. split; [lra|]. pose proof eta_tiny as W. assert (eta * 2 ^ 10 <= eta * 2 ^ 104) by (apply Rmult_le_compat_l; [lra|apply Rle_pow; [lra|lia]]). replace (/ 2 ^ 10) with (/ 1024) in W by (f_equal; ring). replace (2 ^ 10) with 1024 in * by ring. lra. Qed.
Section Square.
  Context (garbage fsin : R -> R).
  Hypothesis FS : accurate_sine fsin.
  Notation ar := (double_arith garbage).
  Lemma mul_err a a' b b' ea eb A B : Rabs (a' - a) <= ea -> Rabs (b' - b) <= eb -> Rabs a <= A -> Rabs b <= B -> A <= 1 -> B <= 1 -> ea <= / 100 -> eb <= / 100 ->
    Rabs (f_mul ar a' b' - a * b) <= (A + / 100) * eb + B * ea + u * ((A + / 100) * (B + / 100)) + eta.
  Proof.
    intros E1 E2 HA HB A1 B1 ea1 eb1. pose proof u_small as U0. pose proof (abs_from _ _ _ E1) as F1. pose proof (abs_from _ _ _ E2) as F2. pose proof (Rabs_pos a) as a0. pose proof (Rabs_pos b) as b0.
    assert (P : Rabs (a' * b') <= (A + / 100) * (B + / 100)) by (rewrite Rabs_mult; apply Rmult_le_compat; try apply Rabs_pos; lra).
    assert (P4 : (A + / 100) * (B + / 100) <= 2 * 2) by (apply Rmult_le_compat; lra).
    destruct (double_ok garbage a' b') as (_ & M & _). pose proof four_huge. specialize (M ltac:(lra)).
    assert (D : Rabs (a' * b' - a * b) <= (A + / 100) * eb + B * ea).
    { replace (a' * b' - a * b) with (a' * (b' - b) + b * (a' - a)) by ring. eapply Rle_trans; [apply Rabs_triang|]. rewrite !Rabs_mult. apply Rplus_le_compat; apply Rmult_le_compat; try apply Rabs_pos; lra. }
    eapply Rle_trans; [apply (abs_add _ _ _ _ _ M D)|]. assert (u * Rabs (a' * b') <= u * ((A + / 100) * (B + / 100))) by (apply Rmult_le_compat_l; lra). lra.
  Qed.
  (** division by an integer *)
  Lemma div_err a a' m e A : 1 <= m -> Rabs (a' - a) <= e * m -> Rabs a' <= A -> A <= 2 -> Rabs (f_div ar a' m - a / m) <= e + u * A + eta.
  Proof.
    intros M1 E HA A2. pose proof u_small as U0. assert (I : 0 < / m <= 1) by (split; [apply Rinv_0_lt_compat; lra|rewrite <- Rinv_1; apply Rinv_le_contravar; lra]).
    assert (Q : Rabs (a' / m) <= A). { unfold Rdiv. rewrite Rabs_mult, (Rabs_pos_eq (/ m)) by lra. rewrite <- (Rmult_1_r A). apply Rmult_le_compat; try apply Rabs_pos; lra. }
    assert (D : Rabs (a' / m - a / m) <= e). { replace (a' / m - a / m) with ((a' - a) * / m) by (unfold Rdiv; ring). rewrite Rabs_mult, (Rabs_pos_eq (/ m)) by lra. apply Rmult_le_reg_r with m; [lra|]. rewrite Rmult_assoc, Rinv_l, Rmult_1_r by lra. exact E. }
    destruct (double_ok garbage a' m) as (_ & _ & W). pose proof four_huge. specialize (W ltac:(lra) ltac:(lra)). eapply Rle_trans; [apply (abs_add _ _ _ _ _ W D)|].
    assert (u * Rabs (a' / m) <= u * A) by (apply Rmult_le_compat_l; lra). lra.
  Qed.
  (** std::sin(pi_half * m) *)
  Let s (m : Z) := fsin (f_mul ar (round_double (PI / 2)) (IZR m)).
  Lemma s_err m : (1 <= m < 2 ^ 52)%Z -> Rabs (s m - sin (PI / 2 * IZR m)) <= 12 * u * IZR m /\ Rabs (s m) <= 101 / 100.
  Proof.
    intros Hm. pose proof u_small as U0. pose proof eta_100 as E0. pose proof PI_bounds as PB. pose proof (d_real m Hm) as M.
    assert (F52 : forall x, Rabs (fsin x - sin x) <= 2 * u * Rabs (sin x) + eta). { intros x. eapply Rle_trans; [apply FS|]. apply Rplus_le_compat_r, Req_le. rewrite (half_pow 52 53) by lia. cbn [Nat.sub pow]. ring. }
    split.
    2:{ unfold s. set (x := f_mul ar _ _). eapply Rle_trans; [apply (abs_from _ _ _ (F52 x))|]. assert (Rabs (sin x) <= 1) by apply Rabs_le, SIN_bound. assert (2 * u * Rabs (sin x) <= 2 * u * 1) by (apply Rmult_le_compat_l; lra). lra. }
    set (hp := round_double (PI / 2)). pose proof four_huge as FH.
    assert (Hh : Rabs (hp - PI / 2) <= 2 * u).
    { pose proof (double_within (fun _ => 0) (PI / 2)) as W. unfold within in W. rewrite (double_round (fun _ => 0)) in W by (rewrite Rabs_pos_eq by lra; change 1023%Z with (Z.of_nat 1023); rewrite bp; lra).
      change (-53)%Z with (- Z.of_nat 53)%Z in W. change (-1075)%Z with (- Z.of_nat 1075)%Z in W. rewrite !bm in W. change 1023%Z with (Z.of_nat 1023) in W. rewrite bp in W. rewrite Rabs_pos_eq in W by lra. specialize (W ltac:(lra)). unfold hp.
      assert (u * (PI / 2) <= u * (16 / 10)) by (apply Rmult_le_compat_l; lra). lra. }
    assert (hpB : 0 <= hp <= 17 / 10) by (apply Rabs_le_inv in Hh; lra).
    assert (M0 : 0 <= hp * IZR m <= 17 / 10 * IZR m) by (split; [apply Rmult_le_pos; lra|apply Rmult_le_compat_r; lra]).
    destruct (double_ok garbage hp (IZR m)) as (_ & W & _). unfold within in W. rewrite Rabs_pos_eq in W by lra.
    specialize (W ltac:(apply Rle_trans with (2 * 2 ^ 52); [lra|]; apply Rle_trans with (2 ^ 53); [right; reflexivity|apply Rle_pow; [lra|lia]])).
    assert (um : u <= u * IZR m) by (rewrite <- (Rmult_1_r u) at 1; apply Rmult_le_compat_l; lra).
    assert (D : Rabs (hp * IZR m - PI / 2 * IZR m) <= 2 * (u * IZR m)).
    { replace (hp * IZR m - PI / 2 * IZR m) with ((hp - PI / 2) * IZR m) by ring. rewrite Rabs_mult, (Rabs_pos_eq (IZR m)) by lra. replace (2 * (u * IZR m)) with (2 * u * IZR m) by ring. apply Rmult_le_compat_r; lra. }
    pose proof (abs_add _ _ _ _ _ W D) as E. assert (u * (hp * IZR m) <= u * (17 / 10 * IZR m)) by (apply Rmult_le_compat_l; lra).
    assert (X0 : 0 <= PI / 2 * IZR m <= 16 / 10 * IZR m) by (split; [apply Rmult_le_pos; lra|apply Rmult_le_compat_r; lra]).
    assert (uX : u * (PI / 2 * IZR m) <= u * (16 / 10 * IZR m)) by (apply Rmult_le_compat_l; lra).
    eapply Rle_trans; [apply (sine_err u eta U0 fsin _ (PI / 2 * IZR m) (4 * (u * IZR m))); [apply F52|lra|fold hp; lra]|]. lra.
  Qed.
  Lemma g_err m : (1 <= m < 2 ^ 52)%Z -> Rabs (f_div ar (s m) (IZR m) - sin (PI / 2 * IZR m) / IZR m) <= 14 * u.
  Proof.
    intros Hm. destruct (s_err m Hm) as (E & B). pose proof (d_real m Hm) as M. pose proof u_small as U0. pose proof eta_100 as E0.
    eapply Rle_trans; [apply (div_err _ _ _ (12 * u) (101 / 100)); lra|]. lra.
  Qed.
  Lemma g_1 m : (1 <= m)%Z -> Rabs (sin (PI / 2 * IZR m) / IZR m) <= 1.
  Proof.
    intros Hm. assert (1 <= IZR m) by (apply IZR_le; lia). assert (I : 0 < / IZR m <= 1) by (split; [apply Rinv_0_lt_compat; lra|rewrite <- Rinv_1; apply Rinv_le_contravar; lra]).
    unfold Rdiv at 1. rewrite Rabs_mult, (Rabs_pos_eq (/ IZR m)) by lra. replace 1 with (1 * 1) by ring. apply Rmult_le_compat; [apply Rabs_pos|lra|apply Rabs_le, SIN_bound|lra].
  Qed.
  Lemma pi_B : Rabs (round_double PI - PI) <= 4 * u /\ 31 / 10 <= round_double PI <= 33 / 10.
  Proof. pose proof u_small as U0. pose proof PI_bounds as PB. pose proof pi_rel as PR. assert (u * PI <= u * 4) by (apply Rmult_le_compat_l; lra). rewrite round_pi in *. pose proof pi_digits as [A B]. fold pi_double in A, B. split; [lra|]. split; [unfold pi_double, pi_mantissa; cbn; lra|lra]. Qed.
  (** 1 / pi *)
  Lemma p2_err : Rabs (f_div ar 1 (round_double PI) - 1 / PI) <= u /\ Rabs (1 / PI) <= 1 / 3.
  Proof.
    pose proof u_small as U0. pose proof PI_bounds as PB. pose proof eta_100 as E0. destruct pi_B as (P & Q). set (p := round_double PI) in *.
    assert (I : forall y, 31 / 10 <= y -> 0 <= 1 / y <= 1 / 3). { intros y Hy. unfold Rdiv. rewrite !Rmult_1_l. split; [left; apply Rinv_0_lt_compat; lra|apply Rinv_le_contravar; lra]. }
    split; [|rewrite Rabs_pos_eq; apply I; lra].
    assert (D : Rabs (1 / p - 1 / PI) <= 1 / 2 * u).
    { replace (1 / p - 1 / PI) with ((PI - p) * (1 / p * (1 / PI))) by (field; lra). rewrite Rabs_mult, Rabs_minus_sym. pose proof (I p ltac:(lra)) as I1. pose proof (I PI ltac:(lra)) as I2.
      replace (1 / 2 * u) with (4 * u * (1 / 8)) by field. apply Rmult_le_compat; try apply Rabs_pos; [exact P|]. rewrite Rabs_pos_eq by (apply Rmult_le_pos; lra). apply Rle_trans with (1 / 3 * (1 / 3)); [apply Rmult_le_compat; lra|lra]. }
    destruct (double_ok garbage 1 p) as (_ & _ & W). pose proof four_huge. unfold within in W. rewrite (Rabs_pos_eq (1 / p)) in W by (apply I; lra). pose proof (I p ltac:(lra)) as I1. specialize (W ltac:(lra) ltac:(lra)).
    eapply Rle_trans; [apply (abs_add _ _ _ _ _ W D)|]. assert (u * (1 / p) <= u * (1 / 3)) by (apply Rmult_le_compat_l; lra). lra.
  Qed.
  (** 2 / pi^2 *)
  Lemma p1_err : Rabs (f_div ar 2 (f_mul ar (round_double PI) (round_double PI)) - 2 / (PI * PI)) <= 2 * u /\ Rabs (2 / (PI * PI)) <= 1 / 4.
  Proof.
    pose proof u_small as U0. pose proof PI_bounds as PB. pose proof eta_100 as E0. destruct pi_B as (P & Q). set (p := round_double PI) in *.
    assert (PP : 96 / 10 <= PI * PI <= 103 / 10). { split; [apply Rle_trans with (31 / 10 * (31 / 10)); [lra|apply Rmult_le_compat; lra]|apply Rle_trans with (32 / 10 * (32 / 10)); [apply Rmult_le_compat; lra|lra]]. }
    assert (pp : 96 / 10 <= p * p <= 11). { split; [apply Rle_trans with (31 / 10 * (31 / 10)); [lra|apply Rmult_le_compat; lra]|apply Rle_trans with (33 / 10 * (33 / 10)); [apply Rmult_le_compat; lra|lra]]. }
    assert (D1 : Rabs (p * p - PI * PI) <= 26 * u).
    { replace (p * p - PI * PI) with ((p - PI) * (p + PI)) by ring. rewrite Rabs_mult, (Rabs_pos_eq (p + PI)) by lra. replace (26 * u) with (4 * u * (65 / 10)) by field. apply Rmult_le_compat; try apply Rabs_pos; lra. }
    destruct (double_ok garbage p p) as (_ & W & _). assert (FH : 16 <= 2 ^ 1023) by (apply Rle_trans with (2 ^ 4); [lra|apply Rle_pow; [lra|lia]]). unfold within in W. rewrite (Rabs_pos_eq (p * p)) in W by lra. specialize (W ltac:(lra)).
    pose proof (abs_add _ _ _ _ _ W D1) as D2. set (q := f_mul ar p p) in *. assert (D3 : Rabs (q - PI * PI) <= 38 * u). { assert (u * (p * p) <= u * 11) by (apply Rmult_le_compat_l; lra). lra. }
    assert (qB : 95 / 10 <= q) by (apply Rabs_le_inv in D3; lra).
    assert (I : forall y, 95 / 10 <= y -> 0 <= / y <= 10 / 95). { intros y Hy. split; [left; apply Rinv_0_lt_compat; lra|]. replace (10 / 95) with (/ (95 / 10)) by field. apply Rinv_le_contravar; lra. }
    pose proof (I q qB) as I1. pose proof (I (PI * PI) ltac:(lra)) as I2. split; [|rewrite Rabs_pos_eq; unfold Rdiv in *; lra].
    assert (D : Rabs (2 / q - 2 / (PI * PI)) <= u).
    { replace (2 / q - 2 / (PI * PI)) with ((PI * PI - q) * (2 * (/ q * / (PI * PI)))) by (field; lra). rewrite Rabs_mult, Rabs_minus_sym. assert (B : 0 <= / q * / (PI * PI) <= 10 / 95 * (10 / 95)) by (split; [apply Rmult_le_pos; lra|apply Rmult_le_compat; lra]).
      apply Rle_trans with (38 * u * (2 / 90)); [|lra]. apply Rmult_le_compat; try apply Rabs_pos; [exact D3|]. rewrite Rabs_pos_eq; lra. }
    destruct (double_ok garbage 2 q) as (_ & _ & V). unfold within in V. assert (B2 : 0 <= 2 / q <= 1) by (unfold Rdiv; lra). rewrite (Rabs_pos_eq (2 / q)) in V by lra. specialize (V ltac:(lra) ltac:(lra)).
    eapply Rle_trans; [apply (abs_add _ _ _ _ _ V D)|]. assert (2 / q <= 1 / 4) by (unfold Rdiv in *; lra). assert (u * (2 / q) <= u * (1 / 4)) by (apply Rmult_le_compat_l; lra). lra.
  Qed.
  Lemma diagonal_err m : (1 <= m < 2 ^ 52)%Z -> Rabs (f_div ar (f_mul ar (f_div ar 1 (round_double PI)) (s m)) (IZR m) - 1 / PI * sin (PI / 2 * IZR m) / IZR m) <= / 2 ^ 48.
  Proof.
    intros Hm. destruct (s_err m Hm) as (E & B). pose proof (d_real m Hm) as M. pose proof u_small as U0. pose proof eta_100 as E0. destruct p2_err as (P & Q). set (p := f_div ar 1 _) in *. set (S := sin _) in *.
    assert (S1 : Rabs S <= 1) by apply Rabs_le, SIN_bound. pose proof (abs_from _ _ _ P) as P1. assert (P2 : Rabs p <= 34 / 100) by lra.
    assert (um : u <= u * IZR m) by (rewrite <- (Rmult_1_r u) at 1; apply Rmult_le_compat_l; lra).
    assert (D : Rabs (p * s m - 1 / PI * S) <= 6 * (u * IZR m)).
    { replace (p * s m - 1 / PI * S) with (p * (s m - S) + S * (p - 1 / PI)) by ring. eapply Rle_trans; [apply Rabs_triang|]. rewrite !Rabs_mult.
      assert (Rabs p * Rabs (s m - S) <= 34 / 100 * (12 * u * IZR m)) by (apply Rmult_le_compat; try apply Rabs_pos; assumption). assert (Rabs S * Rabs (p - 1 / PI) <= 1 * u) by (apply Rmult_le_compat; try apply Rabs_pos; assumption). lra. }
    assert (B2 : Rabs (p * s m) <= 34 / 100 * (101 / 100)) by (rewrite Rabs_mult; apply Rmult_le_compat; try apply Rabs_pos; assumption).
    destruct (double_ok garbage p (s m)) as (_ & W & _). pose proof four_huge. specialize (W ltac:(lra)). assert (u * Rabs (p * s m) <= u * (34 / 100 * (101 / 100))) by (apply Rmult_le_compat_l; lra).
    pose proof (abs_add _ _ _ _ _ W D) as D2. pose proof (abs_from _ _ _ W) as B3.
    eapply Rle_trans; [apply (div_err _ _ _ (7 * u) (1 / 2)); lra|]. rewrite u32. lra.
  Qed.
  Lemma other_err m n : (1 <= m < 2 ^ 52)%Z -> (1 <= n < 2 ^ 52)%Z ->
    Rabs (f_mul ar (f_mul ar (f_div ar 2 (f_mul ar (round_double PI) (round_double PI))) (f_div ar (s m) (IZR m))) (f_div ar (s n) (IZR n)) -
          2 / (PI * PI) * (sin (PI / 2 * IZR m) / IZR m) * (sin (PI / 2 * IZR n) / IZR n)) <= / 2 ^ 48.
  Proof.
    intros Hm Hn. pose proof u_small as U0. pose proof eta_100 as E0. destruct p1_err as (P & Q). pose proof (g_err m Hm) as G1. pose proof (g_err n Hn) as G2. pose proof (g_1 m ltac:(lia)) as H1. pose proof (g_1 n ltac:(lia)) as H2.
    set (p := f_div ar 2 _) in *. set (g := sin (PI / 2 * IZR m) / IZR m) in *. set (h := sin (PI / 2 * IZR n) / IZR n) in *. set (g' := f_div ar (s m) (IZR m)) in *. set (h' := f_div ar (s n) (IZR n)) in *. set (p0 := 2 / (PI * PI)) in *.
    assert (E1 : Rabs (f_mul ar p g' - p0 * g) <= 7 * u). { eapply Rle_trans; [apply (mul_err _ _ _ _ (2 * u) (14 * u) (1 / 4) 1); lra|]. lra. }
    assert (B1 : Rabs (p0 * g) <= 1 / 4). { rewrite Rabs_mult. rewrite <- (Rmult_1_r (1 / 4)). apply Rmult_le_compat; try apply Rabs_pos; assumption. }
    eapply Rle_trans; [apply (mul_err _ _ _ _ (7 * u) (14 * u) (1 / 4) 1); lra|]. rewrite u32. lra.
  Qed.
  Lemma value2_err dx dy : (0 <= dx <= 2 ^ 50)%Z -> (0 <= dy <= 2 ^ 50)%Z -> Rabs (f_ev2_value garbage fsin dx dy - ev2_value dx dy) <= / 2 ^ 48.
  Proof.
    intros X Y. assert (T : (2 ^ 52 < two64)%Z) by reflexivity. unfold f_ev2_value, ev2_value. cbn zeta. rewrite (u64_id (dx + dy)) by lia.
    destruct (Z.eqb_spec dx dy) as [E|E].
    - destruct (Z.eqb_spec dx 0) as [E0|E0]; [replace (1 / 2 - 1 / 2) with 0 by ring; rewrite Rabs_R0; left; apply Rinv_0_lt_compat, pow2_pos|]. rewrite int_exact by lia. apply diagonal_err. lia.
    - destruct (Z.ltb_spec dy dx); rewrite (u64_id (_ - _)) by lia; rewrite !int_exact by lia; apply other_err; lia.
  Qed.
End Square.

(** every element of the table *)
Theorem C106_square_table : forall garbage fsin Nx Ny i, accurate_sine fsin -> (1 <= Nx <= 2 ^ 50)%Z -> (1 <= Ny <= 2 ^ 50)%Z ->
  (0 <= i < (Nx / 2 + 1) * (Ny / 2 + 1))%Z ->
  exists x y, vread (f_ev2_table garbage fsin Nx Ny) i = Ok x /\ vread (ev2_table Nx Ny) i = Ok y /\ Rabs (x - y) <= / 2 ^ 48.
Proof.
  intros garbage fsin Nx Ny i FS HX HY Hi. unfold f_ev2_table, ev2_table. rewrite !vread_map by lia. eexists _, _. split; [reflexivity|]. split; [reflexivity|].
  pose proof (Z.mul_div_le Nx 2 ltac:(lia)). pose proof (Z.mul_div_le Ny 2 ltac:(lia)). pose proof (Z.div_pos Ny 2 ltac:(lia) ltac:(lia)). pose proof (Z.div_pos Nx 2 ltac:(lia) ltac:(lia)).
  pose proof (Z.mod_pos_bound i (Ny / 2 + 1) ltac:(lia)) as M. assert (D : (i / (Ny / 2 + 1) < Nx / 2 + 1)%Z) by (apply Z.div_lt_upper_bound; lia). pose proof (Z.div_pos i (Ny / 2 + 1) ltac:(lia) ltac:(lia)).
  apply value2_err; [exact FS|lia|lia].
Qed.
Print Assumptions C106_square_table.
Theorem C106_square : forall garbage fsin N a b, accurate_sine fsin -> (1 <= N)%Z -> (N * N < two64)%Z -> site (N * N) a -> site (N * N) b ->
  let ev := ev2 N N (f_ev2_table garbage fsin N N) in
  (exists x, ev a b = Ok x /\ Rabs (x - fermi_sea_2d (IZR (sq_distance_x N a b)) (IZR (sq_distance_y N N a b))) <= / 2 ^ 48) /\
  ev a b = ev b a /\ ev a a = Ok (1 / 2).
Proof.
  intros garbage fsin N a b FS HN Hf Ha Hb ev. assert (N32 : (N <= 2 ^ 50)%Z). { destruct (Z.le_gt_cases N (2 ^ 50)) as [L|L]; [exact L|exfalso]. assert (2 ^ 50 * 2 ^ 50 <= N * N)%Z by (apply Z.mul_le_mono_nonneg; lia). assert (two64 < 2 ^ 50 * 2 ^ 50)%Z by reflexivity. lia. }
  pose proof (Z.mul_div_le N 2 ltac:(lia)) as M2. pose proof (Z.div_pos N 2 ltac:(lia) ltac:(lia)) as M0.
  set (i := fun a b => ((N / 2 + 1) * sq_distance_x N a b + sq_distance_y N N a b)%Z).
  assert (R : forall a b, site (N * N) a -> site (N * N) b -> (0 <= i a b < (N / 2 + 1) * (N / 2 + 1))%Z /\ u64 (i a b) = i a b /\ (0 <= sq_distance_x N a b <= N / 2)%Z /\ (0 <= sq_distance_y N N a b <= N / 2)%Z).
  { intros c d Hc Hd. destruct (C25_metric N c d HN Hf Hc Hd) as (_ & _ & X & Y & _). destruct (C25_ring_distances N c d HN Hf Hc Hd) as ((_ & X0 & _) & (_ & Y0 & _) & _).
    assert (X1 : (0 <= sq_distance_x N c d <= N / 2)%Z) by lia. assert (Y1 : (0 <= sq_distance_y N N c d <= N / 2)%Z) by lia. unfold i. assert (Q : (0 <= (N / 2 + 1) * sq_distance_x N c d + sq_distance_y N N c d < (N / 2 + 1) * (N / 2 + 1))%Z) by nia. split; [exact Q|]. split; [|split; assumption]. apply u64_id.
    assert (P : ((N / 2 + 1) * (N / 2 + 1) <= 2 ^ 63 \/ 2 ^ 31 < N / 2)%Z). { destruct (Z.le_gt_cases (N / 2) (2 ^ 31)) as [L|L]; [left|right; exact L]. apply Z.le_trans with ((2 ^ 31 + 1) * (2 ^ 31 + 1))%Z; [apply Z.mul_le_mono_nonneg; lia|reflexivity || lia]. }
    destruct P as [P|P]; [assert (2 ^ 63 < two64)%Z by reflexivity; lia|exfalso]. assert ((2 ^ 32 * 2 ^ 32) <= N * N)%Z by (apply Z.mul_le_mono_nonneg; lia). assert (two64 <= 2 ^ 32 * 2 ^ 32)%Z by (vm_compute; congruence). lia. }
  split; [|split].
  - destruct (R a b Ha Hb) as (Q & E & X & Y). destruct (C106_square_table garbage fsin N N (i a b) FS ltac:(lia) ltac:(lia) Q) as (x & y & V1 & V2 & D). exists x. unfold ev, ev2. fold (i a b). rewrite E. split; [exact V1|].
    destruct (C41_square N a b HN Hf Ha Hb) as (S & _). unfold ev2 in S. fold (i a b) in S. rewrite E, V2 in S. injection S as <-. exact D.
  - destruct (C25_metric N a b HN Hf Ha Hb) as (S1 & S2 & _). unfold ev, ev2. rewrite S1, S2. reflexivity.
  - destruct (C25_metric N a a HN Hf Ha Ha) as (_ & _ & _ & _ & Z0). destruct (Logic.proj2 Z0 eq_refl) as [Z1 Z2]. destruct (R a a Ha Ha) as (Q & E & _). unfold ev, ev2. rewrite Z1, Z2, Z.mul_0_r. cbn [Z.add]. rewrite u64_id by (assert (0 < two64)%Z by reflexivity; lia).
    unfold f_ev2_table. rewrite vread_map by nia. f_equal.
Qed.
Print Assumptions C106_square.
(** the correctly rounded sine is accurate enough *)
Theorem C106_sine : accurate_sine rounded_sine.
Proof.
  intros x. assert (C : Rabs (sin x) <= 1) by apply Rabs_le, SIN_bound. unfold rounded_sine.
  assert (L : Rabs (sin x) <= bpow radix2 1023) by (eapply Rle_trans; [exact C|]; change 1 with (bpow radix2 0); apply bpow_le; lia).
  rewrite <- (double_round (fun _ => 0) (sin x) L). pose proof (double_within (fun _ => 0) (sin x) L) as W. rewrite <- (bm 1075). eapply Rle_trans; [exact W|].
  apply Rplus_le_compat_r. apply Rmult_le_compat_r; [apply Rabs_pos|]. change (-53)%Z with (- Z.of_nat 53)%Z. rewrite bm. apply i2. lia.
Qed.
Print Assumptions C106_sine.
(** hubbard_real_1d_kinetic_theory with its own table: only boost's Bessel function and std::sin are left unspecified *)
Theorem C106_theory_program : forall garbage bessel fsin N dt steps T0 b show s writable f r,
  theory_sizes N dt steps T0 -> accurate_bessel b bessel -> b <= / 2 ^ 20 -> accurate_sine fsin ->
  shares T0 0 N s -> theory_main garbage bessel (f_ev1_table garbage fsin N 1 1 (1 / 2)) N dt steps show T0 s writable f = Some r ->
  exists time value,
    r = Ok (if writable then set_file f (str "theory.txt") (Some (theory_lines show time value steps)) else f, 0%Z) /\
    forall k, (0 <= k < steps)%Z -> let t := IZR k * dt in
      Rabs (time k - t) <= (t + 1) * / 2 ^ 53 /\ near (theory_error N T0 (/ 2 ^ 48) b t) (value k) (theory_exact N t, 0).
Proof.
  intros garbage bessel fsin N dt steps T0 b show s writable f r HS Hb b20 FS Sh H. apply (C105_file garbage bessel _ N dt steps T0 (/ 2 ^ 48) b show s writable f r HS Hb b20) in H; try assumption.
  - apply C106_theory_table; [exact FS|]. destruct HS as (X & _). lia.
  - rewrite <- Rinv_1. apply Rinv_le_contravar; [lra|apply pow_R1_Rle; lra].
Qed.
Print Assumptions C106_theory_program.
(** instances *)
Example ex_chain : exists x, ev1 128 (f_init_ev1 (fun _ => 0) rounded_sine 128 1 (1 / 2)) 0 4 = Ok x /\ / 2 ^ 60 <= Rabs x <= / 2 ^ 48.
Proof.
  destruct (C106_half_filling_refuted (fun _ => 0) rounded_sine 128 0 4 1 C106_sine ltac:(lia) ltac:(unfold site; lia) ltac:(unfold site; lia) ltac:(lia) ltac:(vm_compute; reflexivity)) as (Z & x & E & L).
  destruct (C106_chain (fun _ => 0) rounded_sine 128 1 (1 / 2) 0 4 C106_sine ltac:(lia)) as ((y & E2 & B) & _); try (unfold site; lia).
  { assert (1 <= 2 ^ 100) by (apply pow_R1_Rle; lra). split; [rewrite <- Rinv_1; apply Rinv_le_contravar; lra|assumption]. }
  { lra. }
  rewrite E in E2. injection E2 as <-. rewrite Z, Rminus_0_r in B. exists x. split; [exact E|]. split; assumption.
Qed.
Example ex_square : exists x, ev2 4 4 (f_ev2_table (fun _ => 0) rounded_sine 4 4) 0 5 = Ok x /\ Rabs (x - fermi_sea_2d 1 1) <= / 2 ^ 48.
Proof. apply (C106_square (fun _ => 0) rounded_sine 4 0 5 C106_sine); unfold site; try lia; vm_compute; reflexivity. Qed.
