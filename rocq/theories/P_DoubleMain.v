(** PROPERTY C107: the real-space programs in double precision, tables included. *)
From Coq Require Import Reals Lra Psatz List ZArith Lia Permutation.
From Flocq Require Import Core.
From Verif Require Import Base Instances M_Operator Spec_Lattice M_Lattice M_LatticeReal Spec_LatticeReal M_Basis Pf_Basis M_Matrix Spec_Matrix Pf_Lattice Pf_Matrix M_Dispersion M_OpenMP Spec_OpenMP M_SiteOccupation M_FermiJump Pf_FermiJump P_Basis P_FermiJump M_Ode M_Programs
  M_Expectation Spec_Expectation P_Dispersion P_Lattice P_Expectation M_Rounding Spec_Rounding M_Double Pf_Double Pf_Rounding5 P_Rounding
  M_LatticeDouble P_LatticeDouble Pf_PiDigits P_DoubleDispersion M_DoubleExpectation Spec_DoubleExpectation Pf_DoubleExpectation P_DoubleExpectation P_DoubleExpectation2
  Spec_Stability Spec_Programs Spec_JumpPrograms Spec_RoundedJump M_DoublePrograms Spec_DoublePrograms P_DoublePrograms P_DoublePrograms2 M_DoubleJumpPrograms Spec_DoubleJump P_DoubleJumpPrograms M_DoubleMain Spec_DoubleMain.
Local Open Scope R_scope.
Local Open Scope list_scope.

Lemma wave_sine fsin : accurate_wave fsin sin -> accurate_sine fsin.
Proof. intros H x. apply H. Qed.
Lemma wave_err f exact x X E : accurate_wave f exact -> (forall a, Rabs (exact a) <= 1) -> (forall a b, Rabs (exact a - exact b) <= Rabs (a - b)) ->
  Rabs (x - X) <= E -> Rabs (f x - exact X) <= 3 * u + E.
Proof.
  intros A B L HE. destruct (A x) as (Hx & _). pose proof u_small as U0. pose proof eta_100 as E1. assert (E2 : / 2 ^ 52 = 2 * u) by (rewrite (half_pow 52 53) by lia; cbn [Nat.sub pow]; ring). rewrite E2 in Hx.
  assert (2 * u * Rabs (exact x) <= 2 * u * 1) by (apply Rmult_le_compat_l; [lra|apply B]). replace (f x - exact X) with ((f x - exact x) + (exact x - exact X)) by ring.
  eapply Rle_trans; [apply Rabs_triang|]. pose proof (L x X). lra.
Qed.
Lemma cos_1 a : Rabs (cos a) <= 1. Proof. apply Rabs_le, COS_bound. Qed.
Lemma sin_1 a : Rabs (sin a) <= 1. Proof. apply Rabs_le, SIN_bound. Qed.
Lemma pos_exact garbage i : (Z.abs i < 2 ^ 53)%Z -> f_add (double_arith garbage) 0 (f_mul (double_arith garbage) (to_double_int garbage i) 1) = IZR i.
Proof. intros H. cbn [double_arith f_add f_mul]. rewrite (int_exact garbage i H), Rmult_1_r. pose proof (int_exact garbage i H) as E. unfold to_double_int in E. rewrite E, Rplus_0_l. exact E. Qed.
Lemma from_vread (coef : list (R * R)) a z : vread coef a = Ok z -> nth (Z.to_nat a) coef (0, 0) = z.
Proof. unfold vread. destruct (_ <? _)%Z; [discriminate|]. destruct (nth_error coef (Z.to_nat a)) eqn:E; [|discriminate]. intros H. injection H as <-. apply nth_error_nth. exact E. Qed.

(** ** The factors *)
Section Factors.
  Context (garbage fcos fsin : R -> R).
  Hypothesis FC : accurate_wave fcos cos.
  Hypothesis FS : accurate_wave fsin sin.
  Notation ar := (double_arith garbage).
  (** a table whose phases are computed up to E *)
  Lemma near_phases coef N (phase phi : Z -> R) E : Z.of_nat (length coef) = N ->
    (forall i, (0 <= i < N)%Z -> vread coef i = Ok (fcos (phase i), fsin (phase i))) ->
    (forall i, (0 <= i < N)%Z -> Rabs (phase i - phi i) <= E) -> phases_near (3 * u + E) coef N phi.
  Proof.
    intros L V P. split; [exact L|]. split.
    - apply Forall_forall. intros z Hz. apply (In_nth _ _ (0, 0)) in Hz as (n & Hn & <-). replace n with (Z.to_nat (Z.of_nat n)) by lia. rewrite (from_vread _ _ _ (V (Z.of_nat n) ltac:(lia))). cbn [fst snd]. split; [apply FC|apply FS].
    - intros a Ha. rewrite (from_vread _ _ _ (V a Ha)). cbn [fst snd]. split; [apply (wave_err fcos cos _ _ _ FC cos_1 cos_lip (P a Ha))|apply (wave_err fsin sin _ _ _ FS sin_1 sin_lip (P a Ha))].
  Qed.
  Lemma more_phases eps eps' coef N phi : eps <= eps' -> phases_near eps coef N phi -> phases_near eps' coef N phi.
  Proof. intros H (A & B & C). split; [exact A|]. split; [exact B|]. intros a Ha. destruct (C a Ha). lra. Qed.
  Lemma int_real a N : (0 <= a < N)%Z -> 0 <= IZR a <= IZR N - 1.
  Proof. intros H. split; [apply IZR_le; lia|]. replace (IZR N - 1) with (IZR (N - 1)) by (rewrite minus_IZR; ring). apply IZR_le; lia. Qed.
  Lemma phase_1d filling a N : 0 <= filling <= 1 -> (0 <= a < N)%Z -> (N <= 2 ^ 52)%Z ->
    Rabs (f_mul ar (f_fermi_momentum garbage filling) (f_pos ar (to_double_int garbage) (f_real_chain ar (to_double_int garbage) N 1) a) - filling * PI * IZR a) <= 12 * u * (IZR N - 1).
  Proof.
    intros Hf Ha HN. unfold f_pos, f_real_chain. cbn [ch_x_min ch_dx]. rewrite pos_exact by lia. destruct (momentum_err garbage filling Hf) as (E & B). set (k := f_fermi_momentum garbage filling) in *. clearbody k.
    pose proof (int_real a N Ha) as A. pose proof u_small as U0. pose proof eta_100 as E1. destruct (double_ok garbage k (IZR a)) as (_ & M & _). unfold within in M.
    assert (K : 0 <= k * IZR a <= 4 * IZR a) by (split; [apply Rmult_le_pos; lra|apply Rmult_le_compat_r; lra]).
    assert (A2 : IZR a <= 2 ^ 52). { replace (2 ^ 52) with (IZR (2 ^ 52)) by (rewrite (pow_IZR 2 52); reflexivity). apply IZR_le; lia. }
    assert (Big : 4 * 2 ^ 52 <= 2 ^ 1023). { apply Rle_trans with (2 ^ 54); [change 54%nat with (2 + 52)%nat; rewrite pow_add; right; ring|apply Rle_pow; [lra|lia]]. }
    rewrite Rabs_pos_eq in M by apply K. specialize (M ltac:(lra)).
    assert (S : Rabs (k * IZR a - filling * PI * IZR a) <= 7 * u * IZR a). { replace (k * IZR a - filling * PI * IZR a) with ((k - filling * PI) * IZR a) by ring. rewrite Rabs_mult, (Rabs_pos_eq (IZR a)) by lra. apply Rmult_le_compat_r; lra. }
    destruct (Z.eq_dec a 0) as [->|Na].
    - replace (f_mul ar k 0) with 0. { replace (0 - filling * PI * 0) with 0 by ring. rewrite Rabs_R0. apply Rmult_le_pos; lra. }
      cbn [double_arith f_mul]. rewrite Rmult_0_r. pose proof (int_exact garbage 0 ltac:(lia)) as Z0. unfold to_double_int in Z0. symmetry. exact Z0.
    - assert (A1 : 1 <= IZR a) by (apply IZR_le; lia). pose proof (abs_add _ _ _ _ _ M S) as T. eapply Rle_trans; [exact T|].
      assert (u * (k * IZR a) <= u * (4 * IZR a)) by (apply Rmult_le_compat_l; lra). assert (u * 1 <= u * IZR a) by (apply Rmult_le_compat_l; lra). assert (u * IZR a <= u * (IZR N - 1)) by (apply Rmult_le_compat_l; lra). lra.
  Qed.
End Factors.
Lemma u16 N : 0 <= IZR N -> 1 <= IZR N -> 3 * u + 12 * u * (IZR N - 1) <= IZR N / 2 ^ 49.
Proof. intros H H1. pose proof u_small as U0. assert (E : / 2 ^ 49 = 16 * u) by (rewrite (half_pow 49 53) by lia; cbn [Nat.sub pow]; ring). unfold Rdiv. rewrite E. assert (0 <= u * (IZR N - 1)) by (apply Rmult_le_pos; lra). lra. Qed.

(** FermiJump1D: the factors of a chain of N sites are e^{i k_F r} up to N/2^49, for every schedule of the loop *)
Theorem C107_factors_1d : forall garbage fcos fsin N T s filling r, accurate_wave fcos cos -> accurate_wave fsin sin -> (1 <= N <= 2 ^ 52)%Z -> 0 <= filling <= 1 -> shares T 0 N s ->
  f_factors_1d garbage fcos fsin N s (f_fermi_momentum garbage filling) = Some r ->
  exists coef, r = Ok coef /\ phases_near (IZR N / 2 ^ 49) coef N (fun a => filling * PI * IZR a).
Proof.
  intros garbage fcos fsin N T s filling r FC FS HN Hf Hs H. unfold f_factors_1d in H.
  eapply (fill_value Rring fcos fsin N T s) in H; [|lia|exact Hs|intros i _; reflexivity]. destruct H as (coef & -> & L & V). exists coef. split; [reflexivity|].
  assert (N1 : 1 <= IZR N) by (apply IZR_le; lia). eapply more_phases; [apply u16; lra|]. eapply near_phases; [exact FC|exact FS|exact L|exact V|]. intros i Hi. apply phase_1d; [exact Hf|exact Hi|lia].
Qed.
Print Assumptions C107_factors_1d.

Section Factors2.
  Context (garbage : R -> R).
  Notation ar := (double_arith garbage).
  Lemma dot_err kx ky x y N : Rabs kx <= 2 ^ 900 -> Rabs ky <= 2 ^ 900 -> 0 <= x <= N -> 0 <= y <= N -> N <= 2 ^ 52 ->
    Rabs (f_dot garbage (kx, ky) (x, y) - (kx * x + ky * y)) <= 3 * u * (N * (Rabs kx + Rabs ky)) + 4 * eta.
  Proof.
    intros Hx Hy X Y HN. unfold f_dot. cbn [fst snd]. pose proof u_small as U0. pose proof eta_small as E0. pose proof (Rabs_pos kx) as P0. pose proof (Rabs_pos ky) as Q0.
    assert (Ax : Rabs (kx * x) <= N * Rabs kx). { rewrite Rabs_mult, (Rabs_pos_eq x) by lra. rewrite Rmult_comm. apply Rmult_le_compat_r; lra. }
    assert (Ay : Rabs (ky * y) <= N * Rabs ky). { rewrite Rabs_mult, (Rabs_pos_eq y) by lra. rewrite Rmult_comm. apply Rmult_le_compat_r; lra. }
    assert (Bx : N * Rabs kx <= 2 ^ 952). { replace (2 ^ 952) with (2 ^ 52 * 2 ^ 900) by (rewrite <- pow_add; reflexivity). apply Rmult_le_compat; lra. }
    assert (By : N * Rabs ky <= 2 ^ 952). { replace (2 ^ 952) with (2 ^ 52 * 2 ^ 900) by (rewrite <- pow_add; reflexivity). apply Rmult_le_compat; lra. }
    assert (Big : 4 * 2 ^ 952 <= 2 ^ 1023). { apply Rle_trans with (2 ^ 954); [change 954%nat with (2 + 952)%nat; rewrite pow_add; right; ring|apply Rle_pow; [lra|lia]]. }
    assert (One : 1 <= 2 ^ 952) by (apply pow_R1_Rle; lra). set (H := 2 ^ 1023) in *. set (W := 2 ^ 952) in *. clearbody W.
    destruct (double_ok garbage kx x) as (_ & Mx & _). destruct (double_ok garbage ky y) as (_ & My & _). unfold within in Mx, My. fold H in Mx, My. specialize (Mx ltac:(lra)). specialize (My ltac:(lra)).
    set (p := f_mul ar kx x) in *. set (q := f_mul ar ky y) in *. clearbody p q. set (a := N * Rabs kx) in *. set (b := N * Rabs ky) in *.
    assert (a0 : 0 <= a) by (unfold a; apply Rmult_le_pos; lra). assert (b0 : 0 <= b) by (unfold b; apply Rmult_le_pos; lra).
    assert (ux : u * Rabs (kx * x) <= u * a) by (apply Rmult_le_compat_l; lra). assert (uy : u * Rabs (ky * y) <= u * b) by (apply Rmult_le_compat_l; lra).
    assert (ua : u * a <= / 1000000 * a) by (apply Rmult_le_compat_r; lra). assert (ub : u * b <= / 1000000 * b) by (apply Rmult_le_compat_r; lra).
    pose proof (abs_from _ _ _ Mx) as Px. pose proof (abs_from _ _ _ My) as Py.
    destruct (double_ok garbage p q) as (S & _ & _). unfold within in S. fold H in S. assert (Pq : Rabs (p + q) <= (a + u * a + eta) + (b + u * b + eta)) by (eapply Rle_trans; [apply Rabs_triang|lra]).
    specialize (S ltac:(lra)). replace (f_add ar p q - (kx * x + ky * y)) with ((f_add ar p q - (p + q)) + ((p - kx * x) + (q - ky * y))) by ring.
    eapply Rle_trans; [apply Rabs_triang|]. pose proof (Rabs_triang (p - kx * x) (q - ky * y)) as T.
    assert (us : u * Rabs (p + q) <= u * ((a + u * a + eta) + (b + u * b + eta))) by (apply Rmult_le_compat_l; lra).
    assert (uua : u * (u * a) <= / 1000000 * (u * a)) by (apply Rmult_le_compat_r; [apply Rmult_le_pos; lra|lra]). assert (uub : u * (u * b) <= / 1000000 * (u * b)) by (apply Rmult_le_compat_r; [apply Rmult_le_pos; lra|lra]).
    assert (ue : u * eta <= / 1000000 * eta) by (apply Rmult_le_compat_r; lra).
    replace (N * (Rabs kx + Rabs ky)) with (a + b) by (unfold a, b; ring). replace (u * (a + u * a + eta + (b + u * b + eta))) with (u * a + u * (u * a) + u * eta + (u * b + u * (u * b) + u * eta)) in us by ring.
    replace (3 * u * (a + b)) with (3 * (u * a) + 3 * (u * b)) by ring. assert (0 <= u * a) by (apply Rmult_le_pos; lra). assert (0 <= u * b) by (apply Rmult_le_pos; lra). lra.
  Qed.
End Factors2.
(** FermiJump2D on an N x N lattice, any doubles kx, ky *)
Theorem C107_factors_2d : forall garbage fcos fsin N T s kx ky r, accurate_wave fcos cos -> accurate_wave fsin sin -> (1 <= N <= 2 ^ 31)%Z -> Rabs kx <= 2 ^ 900 -> Rabs ky <= 2 ^ 900 ->
  shares T 0 (N * N) s ->
  f_factors_2d garbage fcos fsin (basis3 (square_lattice N N)) N (N * N) s (kx, ky) = Some r ->
  exists coef, r = Ok coef /\ phases_near ((IZR N * (Rabs kx + Rabs ky) + 1) / 2 ^ 51) coef (N * N) (phase_square N kx ky).
Proof.
  intros garbage fcos fsin N T s kx ky r FC FS HN Kx Ky Hs H. unfold f_factors_2d in H.
  assert (NN : (N * N < two64)%Z). { apply Z.le_lt_trans with (2 ^ 31 * 2 ^ 31)%Z; [apply Z.mul_le_mono_nonneg; lia|reflexivity]. }
  assert (HR : regular (square_lattice N N) (N * N)) by (apply square_regular; lia).
  eapply (fill_value Rring fcos fsin (N * N) T s (fun i => f_dot garbage (kx, ky) (f_sq_pos garbage N 1 1 i))) in H; [|nia|exact Hs|].
  2: { intros i Hi. rewrite (front_read (square_lattice N N) (N * N) (F := Rring) [] HR i Hi). reflexivity. }
  destruct H as (coef & -> & L & V). exists coef. split; [reflexivity|]. pose proof u_small as U0. pose proof eta_100 as E1. pose proof (Rabs_pos kx). pose proof (Rabs_pos ky). assert (N1 : 1 <= IZR N) by (apply IZR_le; lia).
  assert (E : / 2 ^ 51 = 4 * u) by (rewrite (half_pow 51 53) by lia; cbn [Nat.sub pow]; ring).
  apply (more_phases (3 * u + (3 * u * (IZR N * (Rabs kx + Rabs ky)) + 4 * eta))).
  { unfold Rdiv. rewrite E. assert (0 <= u * (IZR N * (Rabs kx + Rabs ky))) by (apply Rmult_le_pos; [lra|apply Rmult_le_pos; lra]). lra. }
  eapply near_phases; [exact FC|exact FS|exact L|exact V|]. intros i Hi. unfold f_sq_pos, phase_square.
  assert (D : (0 <= i / N < N)%Z) by (split; [apply Z.div_pos; lia|apply Z.div_lt_upper_bound; lia]). pose proof (Z.mod_pos_bound i N ltac:(lia)) as M.
  rewrite !pos_exact by lia. assert (2 ^ 31 < 2 ^ 52) by (apply Rlt_pow; [lra|lia]). assert (IZR N <= 2 ^ 31) by (replace (2 ^ 31) with (IZR (2 ^ 31)) by (rewrite (pow_IZR 2 31); reflexivity); apply IZR_le; lia).
  apply dot_err; try assumption; try lra; (split; [apply IZR_le; lia|apply IZR_le; lia]).
Qed.
Print Assumptions C107_factors_2d.

(** the table of averages of the square lattice *)
Lemma ev2_half dx dy : (0 <= dx < 2 ^ 60)%Z -> (0 <= dy < 2 ^ 60)%Z -> Rabs (ev2_value dx dy) <= 1 / 2.
Proof.
  intros HX HY. unfold ev2_value. cbn zeta. pose proof PI_bounds as PB. assert (T : (2 ^ 61 < two64)%Z) by reflexivity.
  assert (Q : forall k, (1 <= k)%Z -> Rabs (sin (PI / 2 * IZR k) / IZR k) <= 1).
  { intros k Hk. assert (1 <= IZR k) by (apply IZR_le; lia). unfold Rdiv. rewrite Rabs_mult, Rabs_inv, (Rabs_pos_eq (IZR k)) by lra. replace 1 with (1 * / 1) by field. apply Rmult_le_compat; [apply Rabs_pos|left; apply Rinv_0_lt_compat; lra|apply sin_1|apply Rinv_le_contravar; lra]. }
  destruct (Z.eqb_spec dx dy) as [E|E].
  - destruct (Z.eqb_spec dx 0) as [E0|E0]; [rewrite Rabs_pos_eq; lra|]. rewrite u64_id by lia. unfold Rdiv at 1. rewrite Rmult_assoc. fold (sin (PI / 2 * IZR (dx + dy)) / IZR (dx + dy)). rewrite Rabs_mult.
    replace (1 / 2) with (1 / 2 * 1) by ring. apply Rmult_le_compat; [apply Rabs_pos|apply Rabs_pos| |apply Q; lia]. rewrite Rabs_pos_eq by (left; apply Rdiv_lt_0_compat; lra). apply Rmult_le_reg_r with PI; [lra|]. unfold Rdiv. rewrite Rmult_assoc, Rinv_l by lra. lra.
  - rewrite !Rabs_mult. assert (A : Rabs (2 / (PI * PI)) <= 1 / 2). { assert (4 <= PI * PI) by nra. rewrite Rabs_pos_eq by (left; apply Rdiv_lt_0_compat; lra). apply Rmult_le_reg_r with (PI * PI); [lra|]. unfold Rdiv. rewrite Rmult_assoc, Rinv_l by lra. lra. }
    replace (1 / 2) with (1 / 2 * 1 * 1) by ring. apply Rmult_le_compat; [apply Rmult_le_pos; apply Rabs_pos|apply Rabs_pos|apply Rmult_le_compat; [apply Rabs_pos|apply Rabs_pos|exact A|]|].
    + rewrite u64_id by lia. apply Q; lia.
    + destruct (Z.ltb_spec dy dx); rewrite u64_id by lia; apply Q; lia.
Qed.
Theorem C107_square_table : forall garbage fsin N, accurate_sine fsin -> (1 <= N <= 2 ^ 50)%Z ->
  table_near (/ 2 ^ 48) (f_ev2_table garbage fsin N N) (ev2_table N N).
Proof.
  intros garbage fsin N FS HN. unfold f_ev2_table, ev2_table. split; [rewrite !map_length; reflexivity|]. intros d Hd. rewrite map_length, zrange_length in Hd.
  pose proof (Z.mul_div_le N 2 ltac:(lia)) as M2. pose proof (Z.div_pos N 2 ltac:(lia) ltac:(lia)) as M0. set (m := (N / 2 + 1)%Z) in *.
  assert (At : forall f : Z -> R, nth d (map f (zrange 0 (m * m))) 0 = f (Z.of_nat d)).
  { intros f. apply nth_error_nth. rewrite nth_error_map. replace d with (Z.to_nat (Z.of_nat d - 0)) at 1 by lia. rewrite zrange_nth by lia. reflexivity. }
  rewrite !At. pose proof (Z.mod_pos_bound (Z.of_nat d) m ltac:(lia)) as M. assert (D : (Z.of_nat d / m < m)%Z) by (apply Z.div_lt_upper_bound; lia). pose proof (Z.div_pos (Z.of_nat d) m ltac:(lia) ltac:(lia)).
  pose proof (value2_err garbage fsin FS (Z.of_nat d / m) (Z.of_nat d mod m) ltac:(lia) ltac:(lia)) as V. split; [exact V|]. eapply Rle_trans; [apply (abs_from _ _ _ V)|].
  assert (Rabs (ev2_value (Z.of_nat d / m) (Z.of_nat d mod m)) <= 1 / 2) by (apply ev2_half; lia). rewrite u32. pose proof u_small. lra.
Qed.
Print Assumptions C107_square_table.
