(** THEOREMS: C123, second part: the program in doubles, against the exact motion for J and U as they
    are written on the command line. *)
From Coq Require Import Reals Lra Psatz Permutation Ascii String Sorted.
From Flocq Require Import Core Relative.
From Verif Require Import Base M_Operator M_Lattice Spec_Lattice Pf_Lattice Spec_LatticeReal M_Basis Pf_Basis P_Basis M_Matrix M_Ode M_Dispersion M_OpenMP Spec_OpenMP M_Expectation P_Expectation M_SiteOccupation Pf_SiteOccupation P_SiteOccupation
  M_TimeLoop Spec_TimeLoop Pf_Matrix Spec_Matrix Pf_Matrix2 P_Matrix Spec_Stability Pf_Stability Pf_Stability2 Pf_Stability3 P_Stability Spec_Programs M_Programs Pf_Programs Pf_Programs2 P_Programs P_Parameters P_Continuity
  M_Rounding M_Double P_Rounding M_RoundedMeasurement Pf_RoundedMeasurement5 P_RoundedMeasurement P_RoundedMeasurement2 P_RoundedMeasurement4 M_DoublePrograms Pf_DoubleTime Spec_DoublePrograms Pf_DoublePrograms P_DoublePrograms.
From Verif Require Import M_Text M_Io Spec_Text Spec_Numeral M_OptionValue Ex_Matrix Ex_Io.
Import ListNotations.
Local Open Scope R_scope.
Local Open Scope list_scope.
Local Notation len u := (Z.of_nat (length u)).

(** not too small for the full precision of a double *)
Definition of_normal_size (x : R) : Prop := x = 0 \/ / 2 ^ 1022 <= Rabs x.
Lemma bpow_1022 : bpow radix2 (-1074 + 53 - 1) = / 2 ^ 1022.
Proof. rewrite <- (bm 1022). reflexivity. Qed.
Lemma round_rel x : of_normal_size x -> Rabs (round_double x - x) <= Rabs x / 2 ^ 53.
Proof.
  intros [-> | H].
  - unfold round_double. rewrite round_0 by typeclasses eauto. rewrite Rminus_0_r, Rabs_R0. lra.
  - rewrite <- bpow_1022 in H. eapply Rle_trans; [apply (relative_error_N_FLT radix2 (-1074) 53 ltac:(lia)); exact H|].
    unfold Rdiv. rewrite Rmult_comm. apply Rmult_le_compat_l; [apply Rabs_pos|]. apply Req_le. rewrite <- (bm 53). change (/ 2) with (bpow radix2 (-1)). rewrite <- bpow_plus. reflexivity.
Qed.
Lemma apart_nrm n (y z : Z -> CR) : apart n y z = nrm (idx n) (fun p => vecf y p + -1 * vecf z p).
Proof. unfold apart, nrm, n2, dot. rewrite sum_SR, SR_idx. f_equal. apply SR_ext. intros i _. unfold vecf, part. cbn [fst snd]. ring. Qed.
Lemma apart_triangle n u (y z : Z -> CR) : len u = n -> distance2 u z <= distance2 u y + apart n y z.
Proof.
  intros L. rewrite !(distance_nrm n) by exact L. rewrite apart_nrm.
  rewrite (nrm_ext (idx n) (fun p => vec u p + -1 * vecf z p) (fun p => (vec u p + -1 * vecf y p) + (vecf y p + -1 * vecf z p))) by (intros; ring). apply nrm_triangle.
Qed.
(** the difference that the conversion of the numerals makes *)
Theorem C123_written : forall (sort : list (triplet CR) -> list (triplet CR)) tJ tU J0 U0 J U lat N,
  sorts_by_column sort -> shipped3 lat N -> fits3 lat N -> numeral tJ = Some J0 -> numeral tU = Some U0 -> of_normal_size J0 -> of_normal_size U0 ->
  option_value tJ = Some J -> option_value tU = Some U -> let n := (N + N * N * N)%Z in
  exists m m', init_matrix sort (real J0 : CR) (real U0) (real (1/2)) lat = Ok m /\ init_matrix sort (real J : CR) (real U) (real (1/2)) lat = Ok m' /\
    forall y y', the_solution n (entry (bm_scale imag_unit m)) y -> the_solution n (entry (bm_scale imag_unit m')) y' ->
      forall t, 0 <= t -> apart n (y' t) (y t) <= (3 * neighbours lat * Rabs J0 + Rabs U0) / 2 ^ 53 * t.
Proof.
  intros sort tJ tU J0 U0 J U lat N Hs Hl Hf NJ NU SJ SU VJ VU n. unfold option_value in VJ, VU. rewrite NJ in VJ. rewrite NU in VU. cbn [option_map] in VJ, VU. injection VJ as <-. injection VU as <-.
  destruct (C123_solution sort J0 U0 (round_double J0) (round_double U0) lat N Hs Hl Hf) as (m & m' & Em & Em' & H). exists m, m'. split; [exact Em|]. split; [exact Em'|].
  intros y y' Hy Hy' t Ht. eapply Rle_trans; [exact (H y y' Hy Hy' t Ht)|]. apply Rmult_le_compat_r; [exact Ht|].
  pose proof (round_rel J0 SJ) as A. pose proof (round_rel U0 SU) as B.
  assert (Q : 0 <= neighbours lat) by (destruct Hl; unfold neighbours; cbn; lra).
  assert (P : 3 * neighbours lat * Rabs (round_double J0 - J0) <= 3 * neighbours lat * (Rabs J0 / 2 ^ 53)) by (apply Rmult_le_compat_l; lra).
  replace ((3 * neighbours lat * Rabs J0 + Rabs U0) / 2 ^ 53) with (3 * neighbours lat * (Rabs J0 / 2 ^ 53) + Rabs U0 / 2 ^ 53) by (unfold Rdiv; ring). apply Rplus_le_compat; assumption.
Qed.
(** hubbard_real_1d_rk4_coefficients in doubles *)
Theorem C123_coefficients : forall sort garbage tJ tU J0 U0 J U N dt t_end interval steps,
  sorts_by_column sort -> (3 <= N)%Z -> fits3 (chain_lattice N) N -> numeral tJ = Some J0 -> numeral tU = Some U0 -> of_normal_size J0 -> of_normal_size U0 ->
  option_value tJ = Some J -> option_value tU = Some U -> is_double (U / 2) -> double_times garbage dt t_end interval steps ->
  let L := 6 * Rabs J + Rabs U in L <= 2 ^ 500 -> dt ^ 2 * L ^ 2 <= 8 ->
  let n := (N + N * N * N)%Z in
  exists m y h, init_matrix sort (real J0 : CR) (real U0) (real (1/2)) (chain_lattice N) = Ok m /\
    the_solution n (entry (bm_scale imag_unit m)) y /\
    terminates_with (f_coefficients_full garbage sort N J U dt t_end interval) (Ok (map (fun k => (time_at (to_double garbage) dt k, h k)) (written interval steps))) /\
    forall k, (k <= steps)%nat -> Rabs (time_at (to_double garbage) dt k - INR k * dt) <= INR k * INR steps * dt / 2 ^ 52 /\
      len (h k) = n /\ distance2 (h k) (y (INR k * dt)) <= INR k * dt * dt ^ 4 * L ^ 5 / 120 + INR k / 2 ^ 40 + INR k * dt * (6 * Rabs J0 + Rabs U0) / 2 ^ 53.
Proof.
  intros sort garbage tJ tU J0 U0 J U N dt t_end interval steps Hs HN Hf NJ NU SJ SU VJ VU HU Ht L HL Hd n.
  assert (HJ : is_double J).
  { unfold option_value in VJ. rewrite NJ in VJ. cbn [option_map] in VJ. injection VJ as <-. unfold is_double, round_double. apply generic_format_round; [apply FLT_exp_valid; unfold Prec_gt_0; lia|apply valid_rnd_N]. }
  assert (Hl : shipped3 (chain_lattice N) N) by (constructor; unfold fits3 in Hf; cbn [lat_coordination chain_lattice] in Hf; nia).
  destruct (C94_coefficients_full sort garbage N J U dt t_end interval steps Hs HN Hf HJ HU Ht HL Hd) as (m' & y' & h & Em' & Y' & Te & _ & H). fold n in Y', H. fold L in H.
  destruct (C123_written sort tJ tU J0 U0 J U (chain_lattice N) N Hs Hl Hf NJ NU SJ SU VJ VU) as (m & m1 & Em & Em1 & W). rewrite Em' in Em1. injection Em1 as <-. fold n in W.
  destruct (the_solution_exists sort J0 U0 (chain_lattice N) N m Hs Hl Hf Em) as (y & Y). fold n in Y.
  exists m, y, h. split; [exact Em|]. split; [exact Y|]. split; [exact Te|]. intros k Hk. destruct (H k Hk) as (A & B & C). split; [exact A|]. split; [exact B|].
  assert (D0 : 0 <= INR k * dt).
  { apply Rmult_le_pos; [apply pos_INR|]. destruct Ht as ((D & _) & _). eapply Rle_trans; [|exact D]. left. apply Rinv_0_lt_compat, pow_lt. lra. }
  eapply Rle_trans; [exact (apart_triangle n (h k) (y' (INR k * dt)) (y (INR k * dt)) B)|]. apply Rplus_le_compat; [exact C|].
  eapply Rle_trans; [exact (W y y' Y Y' (INR k * dt) D0)|]. apply Req_le. unfold neighbours. cbn [lat_coordination chain_lattice]. unfold Rdiv. generalize (/ 2 ^ 53). intros r. ring.
Qed.
(** hubbard_real_1d_rk4_coefficients --J=0.1 --U=2.5 *)
Example C123_example : numeral (str "0.1") = Some (1 / 10) /\ numeral (str "2.5") = Some (5 / 2) /\ of_normal_size (1 / 10) /\ of_normal_size (5 / 2) /\
  exists J, option_value (str "0.1") = Some J /\ option_value (str "2.5") = Some (5 / 2) /\ is_double (5 / 2 / 2) /\ 6 * Rabs J + Rabs (5 / 2) <= 2 ^ 500 /\ (/ 64) ^ 2 * (6 * Rabs J + Rabs (5 / 2)) ^ 2 <= 8.
Proof.
  assert (N1 : numeral (str "0.1") = Some (1 / 10)) by (transitivity (Some (IZR 1 * powerRZ 10 (0 - 1))); [reflexivity|apply (f_equal Some); change (powerRZ 10 (0 - 1)) with (/ (10 * 1)); field]).
  assert (N2 : numeral (str "2.5") = Some (5 / 2)) by (transitivity (Some (IZR 25 * powerRZ 10 (0 - 1))); [reflexivity|apply (f_equal Some); change (powerRZ 10 (0 - 1)) with (/ (10 * 1)); field]).
  assert (T : / 2 ^ 1022 <= / 2 ^ 10) by (apply Rinv_le_contravar; [apply pow_lt; lra|apply Rle_pow; [lra|lia]]).
  assert (S1 : of_normal_size (1 / 10)) by (right; rewrite Rabs_pos_eq by lra; lra).
  split; [exact N1|]. split; [exact N2|]. split; [exact S1|]. split; [right; rewrite Rabs_pos_eq by lra; lra|].
  exists (round_double (1 / 10)). unfold option_value. rewrite N1, N2. cbn [option_map]. split; [reflexivity|]. split; [|split].
  - f_equal. apply round_generic; [apply valid_rnd_N|]. apply generic_format_FLT. exists (Float radix2 5 (-1)); [unfold F2R; cbn [Fnum Fexp]; change (bpow radix2 (-1)) with (/ 2); lra|cbn; lia|cbn; lia].
  - apply generic_format_FLT. exists (Float radix2 5 (-2)); [unfold F2R; cbn [Fnum Fexp]; change (bpow radix2 (-2)) with (/ 4); lra|cbn; lia|cbn; lia].
  - pose proof (round_rel (1 / 10) S1) as Q. rewrite (Rabs_pos_eq (1 / 10)) in Q by lra. apply Rabs_le_inv in Q.
    assert (P : 1 <= 2 ^ 53) by (apply pow_R1_Rle; lra). assert (P2 : 1 / 10 / 2 ^ 53 <= 1 / 10) by (apply Rmult_le_reg_r with (2 ^ 53); [lra|]; unfold Rdiv at 1; rewrite Rmult_assoc, Rinv_l by lra; lra).
    assert (B : Rabs (round_double (1 / 10)) <= 1) by (apply Rabs_le; lra). pose proof (Rabs_pos (round_double (1 / 10))) as B0. rewrite (Rabs_pos_eq (5 / 2)) by lra. split.
    + apply Rle_trans with (2 ^ 4); [lra|apply Rle_pow; [lra|lia]].
    + apply Rle_trans with ((/ 64) ^ 2 * 10 ^ 2); [|lra]. apply Rmult_le_compat_l; [apply pow2_ge_0|]. apply pow_incr. lra.
Qed.
