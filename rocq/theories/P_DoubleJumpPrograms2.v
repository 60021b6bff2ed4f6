(** THEOREMS: C96 (phase factors, example). *)
From Coq Require Import Reals Lra Psatz.
From Flocq Require Import Core.
From Verif Require Import Base M_Operator M_Lattice Spec_Lattice Pf_Lattice Spec_LatticeReal M_Basis M_Matrix Pf_Matrix Pf_Ode M_Ode M_Dispersion M_OpenMP Spec_OpenMP M_Expectation M_SiteOccupation
  M_TimeLoop Spec_TimeLoop Spec_Matrix P_Matrix Spec_Stability Spec_Programs M_Programs P_Programs Spec_JumpPrograms P_JumpPrograms
  M_Rounding M_Double Pf_Double P_Rounding M_RoundedMeasurement P_RoundedMeasurement2 Spec_RoundedJump M_DoublePrograms Spec_DoublePrograms Pf_DoublePrograms P_DoublePrograms P_DoublePrograms2
  M_DoubleJumpPrograms Spec_DoubleJump P_DoubleJumpPrograms Ex_Matrix Ex_SiteOccupation.
Local Open Scope R_scope.
Local Open Scope list_scope.

Lemma round_unit x : Rabs x <= 1 -> Rabs (round_double x - x) <= / 2 ^ 53 /\ Rabs (round_double x) <= 1.
Proof.
  intros B. assert (V : Valid_exp (FLT_exp (-1074) 53)) by (apply FLT_exp_valid; reflexivity). split.
  - unfold round_double. eapply Rle_trans; [apply (error_le_half_ulp radix2 (FLT_exp (-1074) 53))|].
    rewrite <- (bm 53). replace (bpow radix2 (- Z.of_nat 53)) with (/ 2 * bpow radix2 (-52)) by (change (/ 2) with (bpow radix2 (-1)); rewrite <- bpow_plus; reflexivity).
    apply Rmult_le_compat_l; [lra|]. eapply Rle_trans; [apply (ulp_le radix2 (FLT_exp (-1074) 53) x 1); rewrite Rabs_R1; exact B|].
    apply Req_le. change 1 with (bpow radix2 0). rewrite ulp_bpow. reflexivity.
  - unfold round_double. apply abs_round_le_generic; [apply FLT_exp_valid; reflexivity|apply valid_rnd_N| |exact B].
    change 1 with (IZR 1). apply double_int. lia.
Qed.
Definition rounded_phases (N : Z) (phi : Z -> R) : list (R * R) := map (fun a => (round_double (cos (phi a)), round_double (sin (phi a)))) (zrange 0 N).
(** phase factors rounded to the nearest double *)
Theorem C96_phases : forall N phi, (0 <= N)%Z -> phases_near (/ 2 ^ 53) (rounded_phases N phi) N phi.
Proof.
  intros N phi HN. assert (C : forall x, Rabs (cos x) <= 1) by (intros x; apply Rabs_le, COS_bound).
  assert (S : forall x, Rabs (sin x) <= 1) by (intros x; apply Rabs_le, SIN_bound). unfold rounded_phases. split; [rewrite map_length, zrange_length; lia|]. split.
  - unfold phases. rewrite Forall_map, Forall_forall. intros a _. cbn [fst snd]. split; apply round_unit; auto.
  - intros a Ha. rewrite (nth_zrange_map (fun a => (round_double (cos (phi a)), round_double (sin (phi a))))) by lia.
    cbn [fst snd]. split; apply round_unit; auto.
Qed.
(** four sites, J = U = 1, half filling, tables correctly rounded, dt = 1/64, t_end = 1/16, two threads: the
    program prints three lines, with the exact times and values within 1/1000 *)
Definition two_jump_workers (k : nat) : measurement := mkMeasurement 2 (mkSch (two_threads 0 1 4) [k]) (mkSch (two_threads 0 2 4) []) (mkSch [] []).
Example C96_example : forall garbage, exists m y o,
  init_matrix isort (real 1 : CR) (real 1) (real (1/2)) (chain_lattice 4) = Ok m /\
  the_solution 68 (entry (bm_scale imag_unit m)) y /\
  terminates_with (f_jump_1d garbage isort two_jump_workers 4 1 1 (map round_double (init_ev1 4 1 (1/2))) (rounded_phases 4 (fun a => 1/2 * PI * IZR a)) (/ 64) (1/16) 2) (Ok o) /\
  forall r, o = Some r -> exists v0 v1 v2, r = Ok [(0, v0); (1/32, v1); (1/16, v2)] /\
    let exact t := jump 4 (sea 4 (1/2)) (fun a => 1/2 * PI * IZR a) (y t) in
    Rabs (v0 - exact 0) <= 1 / 1000 /\ Rabs (v1 - exact (1/32)) <= 1 / 1000 /\ Rabs (v2 - exact (1/16)) <= 1 / 1000.
Proof.
  intros garbage.
  assert (Hsh : shared_jump 4 two_jump_workers) by (intros k; cbn [threads loop1 loop2 two_jump_workers]; split; apply two_shares; lia).
  assert (D1 : is_double 1) by (change 1 with (IZR 1); apply double_int; lia).
  assert (D2 : is_double (1 / 2)) by (apply generic_format_FLT; exists (Float radix2 1 (-1)); [unfold F2R; cbn [Fnum Fexp]; change (bpow radix2 (-1)) with (/ 2); lra|cbn; lia|cbn; lia]).
  assert (F3 : fits3 (chain_lattice 4) 4) by (unfold fits3; apply big; reflexivity).
  assert (PL : 6 * Rabs 1 + Rabs 1 <= 2 ^ 500) by (rewrite Rabs_R1; apply Rle_trans with (2 ^ 3); [lra|apply Rle_pow; [lra|lia]]).
  assert (E53 : 0 <= / 2 ^ 53) by (left; apply Rinv_0_lt_compat, pow_lt; lra).
  destruct (C96_chain isort garbage two_jump_workers 4 1 1 (1/2) (map round_double (init_ev1 4 1 (1/2))) (/ 2 ^ 53) (rounded_phases 4 (fun a => 1/2 * PI * IZR a)) (/ 2 ^ 53) (/ 64) (1/16) 2 4)
    as (m & y & o & Em & Y & Te & H);
    [exact isort_ok|lia|exact F3|exact D1|exact D2|apply example_times|exact Hsh|lra|exact E53|apply C94_table; [split; [lia|apply big; reflexivity]|lra]|exact E53|apply C96_phases; lia| |exact PL|rewrite Rabs_R1; lra|].
  { intros k. cbn [threads two_jump_workers]. replace (_ + 6)%Z with 28%Z by reflexivity. lra. }
  exists m, y, o. split; [exact Em|]. split; [exact Y|]. split; [exact Te|]. intros r Er. destruct (H r Er) as (lines & -> & F).
  change (written 2 4) with [0; 2; 4]%nat in F. inversion F as [|? [t0 v0] ? ? (E0 & _ & B0) F1]; subst; clear F. inversion F1 as [|? [t1 v1] ? ? (E1 & _ & B1) F2]; subst; clear F1. inversion F2 as [|? [t2 v2] ? ? (E2 & _ & B2) F4]; subst; clear F2. inversion F4; subst; clear F4.
  cbn [fst snd] in *. exists v0, v1, v2. rewrite E0, E1, E2, !example_time by lia. split; [cbn [INR]; do 2 f_equal; [f_equal; lra|f_equal; [f_equal; lra|f_equal; f_equal; lra]]|].
  cbv zeta. unfold printed_error in B0, B1, B2. rewrite Rabs_R1 in *. cbn [threads two_jump_workers] in *.
  replace (4 + 4 * 4 * 4)%Z with 68%Z in * by reflexivity. replace (4 * 4 + 4 + Z.of_nat 2 + 6)%Z with 28%Z in * by reflexivity.
  cbn [INR] in *. replace (0 * / 64) with 0 in B0 by ring. replace ((1 + 1) * / 64) with (1/32) in B1 by field. replace ((1 + 1 + 1 + 1) * / 64) with (1/16) in B2 by field.
  split; [|split]; (eapply Rle_trans; [eassumption|]); lra.
Qed.
Print Assumptions C96_chain.
Print Assumptions C96_square.
Print Assumptions C96_example.
