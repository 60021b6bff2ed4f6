(** THEOREMS: C103 (the program hubbard_dispersion_1d in double precision). *)
From Coq Require Import Reals Lra Psatz List ZArith Lia Ascii String.
From Flocq Require Import Core.
From Verif Require Import Base M_Lattice Spec_Lattice P_Lattice M_LatticeReal M_Matrix M_OpenMP Pf_Matrix M_Dispersion M_Text M_Io P_Checkpoint M_DispersionProgram P_DispersionProgram Spec_MomentumProgram
  M_Rounding Spec_Rounding M_Double Pf_Double P_Rounding M_LatticeDouble P_LatticeDouble M_DoubleDispersion Spec_DoubleDispersion Pf_PiDigits P_DoubleDispersion M_DoubleDispersionProgram.
Local Open Scope R_scope.
Local Open Scope list_scope.

(** SPECIFICATION: a file of N lines, each with two numbers *)
Definition two_columns (show : R -> text) (k eps : Z -> R) (N : Z) : text :=
  flat_map (fun i => show (k i) ++ [tab] ++ show (eps i) ++ [newline]) (Zseq N).
(** columns that approximate the wave vectors and the energies *)
Definition close_columns (N : Z) (k eps : Z -> R) : Prop :=
  (forall i, (0 <= i < N)%Z -> Rabs (k i - wave N i) <= / 2 ^ 45 /\ Rabs (eps i - - 2 * cos (wave N i)) <= / 2 ^ 44 + / 2 ^ 1073) /\
  (forall i j, (0 <= i < j)%Z -> (j < N)%Z -> k i < k j).

(** SPECIFICATION: the program with N sites ends without undefined behaviour, returns 0 and writes the columns
    k and eps to dispersion.txt, whatever the file system and the way to write numbers; if the file cannot be
    opened nothing is written and the exit code is 0 all the same *)
Definition writes_columns (garbage fcos : R -> R) (N : Z) (k eps : Z -> R) : Prop :=
  forall show f, exists fuel0, forall fuel, (fuel0 <= fuel)%nat ->
  (exists f', double_dispersion_main garbage fcos show fuel N true f = Some (Ok (f', 0%Z)) /\
     f' (str "dispersion.txt") = Some (two_columns show k eps N) /\ forall p, p <> str "dispersion.txt" -> f' p = f p) /\
  double_dispersion_main garbage fcos show fuel N false f = Some (Ok (f, 0%Z)).

Lemma double_lines garbage fcos show N (k eps : Z -> R) :
  (forall i, (0 <= i < N)%Z -> double_momentum garbage N i = k i /\ vread (double_table garbage fcos N 1) i = Ok (eps i)) ->
  forall sites, (forall i, In i sites -> (0 <= i < N)%Z) ->
  double_dispersion_lines garbage show N (double_table garbage fcos N 1) sites = Ok (flat_map (fun i => show (k i) ++ [tab] ++ show (eps i) ++ [newline]) sites).
Proof.
  intros H. induction sites as [|i sites IH]; intros Hs; [reflexivity|]. cbn [double_dispersion_lines flat_map]. unfold double_dispersion_line.
  destruct (H i (Hs i (or_introl eq_refl))) as [-> ->]. rewrite IH by (intros j Hj; apply Hs; right; exact Hj). do 2 f_equal.
Qed.
Lemma momentum_err garbage N i : (0 < N <= 2 ^ 40)%Z -> (0 <= i < N)%Z -> Rabs (double_momentum garbage N i - wave N i) <= 72 * e.
Proof.
  intros HN Hi. pose proof (pos_err (double_arith garbage) (to_double_int garbage) (double_ok garbage) (int_exact garbage) _ _ N pi_err two_pi_err HN i Hi) as P. cbn beta in P.
  replace (wave N i) with (- PI + IZR i * (2 * PI / IZR N)) by (unfold wave; field; apply not_0_IZR; lia). exact P.
Qed.
Lemma momenta_increase garbage N i j : (0 < N <= 2 ^ 40)%Z -> (0 <= i < j)%Z -> (j < N)%Z -> double_momentum garbage N i < double_momentum garbage N j.
Proof.
  intros HN Hi Hj. pose proof (momentum_err garbage N i HN ltac:(lia)) as A. pose proof (momentum_err garbage N j HN ltac:(lia)) as B.
  apply abs_two in A. apply abs_two in B. assert (N0 : 1 <= IZR N) by (apply IZR_le; lia). assert (N1 : IZR N <= 2 ^ 40) by (rewrite pow_IZR; apply IZR_le; change (2 ^ Z.of_nat 40)%Z with (2 ^ 40)%Z; lia).
  assert (S : wave N i + 2 * / 2 ^ 40 <= wave N j).
  { rewrite !wave_form. assert (D : IZR i / IZR N + / IZR N <= IZR j / IZR N).
    { unfold Rdiv. assert (IZR i + 1 <= IZR j) by (rewrite <- plus_IZR; apply IZR_le; lia). assert (0 < / IZR N) by (apply Rinv_0_lt_compat; lra). nra. }
    assert (I : / 2 ^ 40 <= / IZR N) by (apply Rinv_le_contravar; lra). pose proof PI2_1. assert (0 < / 2 ^ 40) by (apply Rinv_0_lt_compat, pow_lt; lra). nra. }
  assert (E : 144 * e < 2 * / 2 ^ 40) by (unfold e; rewrite (Pf_Rounding5.half_pow 40 52) by lia; replace (2 ^ (52 - 40)) with 4096 by (cbn; lra); pose proof e_pos; unfold e in *; lra).
  lra.
Qed.

Definition energies (garbage fcos : R -> R) (N i : Z) : R := match vread (double_table garbage fcos N 1) i with Ok v => v | UB => 0 end.
Lemma energy_value garbage fcos N i : accurate_cosine fcos -> (0 < N <= 2 ^ 40)%Z -> (0 <= i < N)%Z ->
  vread (double_table garbage fcos N 1) i = Ok (energies garbage fcos N i) /\ Rabs (energies garbage fcos N i - - 2 * cos (wave N i)) <= / 2 ^ 44 + / 2 ^ 1073.
Proof.
  intros FC HN Hi. assert (A1 : Rabs 1 <= 2 ^ 1000) by (rewrite Rabs_R1; apply pow_R1_Rle; lra).
  destruct (C98_table garbage fcos N 1 FC HN A1) as [_ T]. rewrite Rabs_R1 in T. destruct (T i Hi) as (v & Ev & Bv). unfold energies. rewrite Ev. split; [reflexivity|].
  unfold band in Bv. unfold wave. unfold Rdiv in Bv at 2. rewrite Rmult_1_l in Bv. rewrite Rmult_1_r in Bv. exact Bv.
Qed.
Lemma columns_close garbage fcos N : accurate_cosine fcos -> (0 < N <= 2 ^ 40)%Z -> close_columns N (double_momentum garbage N) (energies garbage fcos N).
Proof.
  intros FC HN. split; [|intros; apply momenta_increase; assumption]. intros i Hi. split; [|apply (energy_value garbage fcos N i FC HN Hi)].
  eapply Rle_trans; [apply (momentum_err garbage N i HN Hi)|]. unfold e. rewrite (Pf_Rounding5.half_pow 45 52) by lia. replace (2 ^ (52 - 45)) with 128 by (cbn; lra). pose proof e_pos; unfold e in *; lra.
Qed.
Lemma columns_written garbage fcos N : accurate_cosine fcos -> (0 < N <= 2 ^ 40)%Z -> writes_columns garbage fcos N (double_momentum garbage N) (energies garbage fcos N).
Proof.
  intros FC HN show f. pose proof P_EigenIo.two64_eq as T64. destruct (C19_chain_iteration N ltac:(lia)) as (fuel0 & Rg). exists fuel0. intros fuel Hf. apply (range_mono fuel0 fuel _ _ _ Hf) in Rg.
  unfold double_dispersion_main. change (ch_size (double_momentum_chain garbage N)) with N. rewrite Rg.
  rewrite (double_lines garbage fcos show N (double_momentum garbage N) (energies garbage fcos N)).
  - split; [|reflexivity]. eexists. split; [reflexivity|]. unfold set_file. split.
    + destruct (path_eqb (str "dispersion.txt") (str "dispersion.txt")) eqn:E; [reflexivity|]. vm_compute in E. discriminate.
    + intros p Hp. destruct (path_eqb p (str "dispersion.txt")) eqn:E; [|reflexivity]. apply path_eqb_ok in E. contradiction.
  - intros i Hi. split; [reflexivity|]. apply (energy_value garbage fcos N i FC HN Hi).
  - intros i Hi. apply (Logic.proj1 (C19_each_site_once N)). exact Hi.
Qed.

(** N lines with two numbers each: the wave vectors to 2^-45 and in increasing order, the energies to
    2^-44 + 2^-1073 *)
Theorem C103_file : forall garbage fcos N, accurate_cosine fcos -> (0 < N <= 2 ^ 40)%Z ->
  exists k eps, close_columns N k eps /\ writes_columns garbage fcos N k eps.
Proof. intros garbage fcos N FC HN. eexists _, _. split; [apply (columns_close garbage fcos N FC HN)|apply (columns_written garbage fcos N FC HN)]. Qed.
Print Assumptions C103_file.

Lemma center_momentum garbage n : (2 <= n <= 40)%nat -> double_momentum garbage (2 ^ Z.of_nat n) (2 ^ Z.of_nat (n - 1)) = 0.
Proof.
  intros Hn. pose proof (m_range n Hn) as [M1 M2]. pose proof (pk n) as P. unfold double_momentum, f_pos.
  assert (E2 : (2 ^ Z.of_nat (n - 1) = 2 * 2 ^ Z.of_nat (n - 2))%Z) by (rewrite <- (Z.pow_add_r 2 1) by lia; f_equal; lia).
  rewrite E2. rewrite int_exact by lia. rewrite (dx_value garbage n Hn), mult_IZR, (m_real n).
  cbn [f_mul f_add double_arith ch_x_min double_momentum_chain f_momentum_chain]. rewrite round_pi.
  replace (2 * 2 ^ (n - 2) * (pi_double / (2 * 2 ^ (n - 2)))) with pi_double by (field; lra).
  rewrite (exact_float garbage n Hn pi_mantissa (- Z.of_nat 48) pi_double); [|vm_compute; reflexivity|lia|rewrite neg_pow; unfold pi_double; field; lra].
  replace (- pi_double + pi_double) with 0 by ring. apply (exact_float garbage n Hn 0 0); [vm_compute; reflexivity|lia|ring].
Qed.
(** for N a power of two: the middle line has the wave vector 0 exactly, and the energy -2 exactly if the cosine
    of 0 is 1; (defect) in lines N/4 and 3N/4 the energy is 0, but a negative number is written *)
Theorem C103_power_refuted : forall garbage fcos n, accurate_cosine fcos -> (2 <= n <= 40)%nat ->
  let N := (2 ^ Z.of_nat n)%Z in
  exists k eps, writes_columns garbage fcos N k eps /\ close_columns N k eps /\
    k (N / 2)%Z = 0 /\ (fcos 0 = 1 -> eps (N / 2)%Z = - 2) /\
    forall j, (j = 1 \/ j = 3)%Z -> - 2 * cos (wave N (j * (N / 4))) = 0 /\ eps (j * (N / 4))%Z < 0.
Proof.
  intros garbage fcos n FC Hn N. pose proof (m_range n Hn) as [M1 M2]. pose proof (N4 n Hn) as E4. fold N in E4. assert (HN : (0 < N <= 2 ^ 40)%Z) by lia.
  exists (double_momentum garbage N), (energies garbage fcos N). split; [apply columns_written; assumption|]. split; [apply columns_close; assumption|].
  set (m := (2 ^ Z.of_nat (n - 2))%Z) in *. assert (Em : (N / 4 = m)%Z) by (rewrite E4, Z.mul_comm; apply Z.div_mul; lia).
  assert (E2 : (N / 2 = 2 ^ Z.of_nat (n - 1))%Z). { replace N with (2 ^ Z.of_nat (n - 1) * 2)%Z; [apply Z.div_mul; lia|]. unfold N. replace (Z.of_nat n) with (Z.of_nat (n - 1) + 1)%Z by lia. rewrite Z.pow_add_r by lia. reflexivity. }
  pose proof (center_momentum garbage n Hn) as C0. fold N in C0. rewrite <- E2 in C0.
  assert (R2 : (0 <= N / 2 < N)%Z) by (split; [apply Z.div_pos; lia|apply Z.div_lt; lia]).
  assert (Val : forall i, (0 <= i < N)%Z -> energies garbage fcos N i = f_dispersion_value (double_arith garbage) (to_double_int garbage) fcos (double_momentum_chain garbage N) (chain_vectors (double_real_chain garbage N 1)) 1 i).
  { intros i Hi. unfold energies, double_table, f_dispersion, vread. destruct (Z.ltb_spec i 0) as [C|_]; [lia|]. change (ch_size (double_momentum_chain garbage N)) with N.
    rewrite nth_error_map. replace (Z.to_nat i) with (Z.to_nat (i - 0)) by (f_equal; lia). rewrite zrange_nth by lia. cbn [option_map]. f_equal. }
  split; [exact C0|]. split.
  - intros F0. rewrite Val by exact R2. rewrite value_eq. change (f_pos (double_arith garbage) (to_double_int garbage) (double_momentum_chain garbage N) (N / 2)) with (double_momentum garbage N (N / 2)). rewrite C0.
    cbn [f_mul f_add double_arith]. assert (Z1 : forall z x, (Z.abs z < 2 ^ 53)%Z -> x = IZR z -> to_double garbage x = x).
    { intros z x Hz Hx. apply (exact_float garbage n Hn z 0 x Hz ltac:(lia)). rewrite Hx. cbn. ring. }
    rewrite (Z1 0%Z (0 * 1)) by (try reflexivity; lra). replace (0 * 1) with 0 by ring. rewrite F0. rewrite (Z1 1%Z (0 + 1)) by (try reflexivity; lra).
    rewrite (Z1 (-2)%Z (-2 * 1)) by (try reflexivity; lra). rewrite (Z1 (-2)%Z) by (try reflexivity; lra). lra.
  - intros j Hj. rewrite Em. split.
    + destruct (C98_fermi_points m 1 ltac:(lia)) as [B1 B3]. rewrite <- E4 in B1, B3. unfold band in B1, B3. rewrite Rmult_1_r in B1, B3. destruct Hj as [-> | ->]; [rewrite Z.mul_1_l; exact B1|exact B3].
    + rewrite Val by lia. apply (fermi_negative garbage fcos n 1 FC Hn); [|exact Hj]. split; [|apply pow_R1_Rle; lra]. apply Rle_trans with (/ 1); [apply Rinv_le_contravar; [lra|apply pow_R1_Rle; lra]|lra].
Qed.
Print Assumptions C103_power_refuted.
(** the program as shipped *)
Example C103_shipped : forall garbage, exists k eps, writes_columns garbage rounded_cosine dispersion_size k eps /\ close_columns 1024 k eps /\ k 512%Z = 0 /\ eps 256%Z < 0 /\ eps 768%Z < 0.
Proof.
  intros garbage. destruct (C103_power_refuted garbage rounded_cosine 10 C98_cosine ltac:(lia)) as (k & eps & W & C & K0 & _ & F).
  exists k, eps. split; [exact W|]. split; [exact C|]. split; [exact K0|]. split; [apply (F 1%Z); auto|apply (F 3%Z); auto].
Qed.
