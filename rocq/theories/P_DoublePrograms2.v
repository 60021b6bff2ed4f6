(** THEOREMS: C94 (tables, completeness, example). *)
From Coq Require Import Reals Lra Psatz.
From Flocq Require Import Core.
From Verif Require Import Base M_Operator M_Lattice Spec_Lattice Pf_Lattice Spec_LatticeReal M_Basis Pf_Basis P_Basis M_Matrix M_Ode M_Dispersion M_OpenMP Spec_OpenMP M_Expectation P_Expectation M_SiteOccupation
  M_TimeLoop Spec_TimeLoop Pf_Matrix Spec_Matrix P_Matrix Spec_Stability Spec_Programs M_Programs Pf_Programs2 P_Programs
  M_Rounding M_Double Pf_Double P_Rounding M_RoundedMeasurement P_RoundedMeasurement2 M_DoublePrograms Spec_DoublePrograms Pf_DoublePrograms P_DoublePrograms Ex_Matrix Ex_SiteOccupation.
Local Open Scope R_scope.
Local Open Scope list_scope.

(** a table whose elements are the exact values rounded to double precision is within 2^-53 *)
Lemma table_le1 N filling d : (0 < N < two64)%Z -> 0 <= filling <= 1 -> (d < length (init_ev1 N 1 filling))%nat -> Rabs (nth d (init_ev1 N 1 filling) 0) <= 1.
Proof.
  intros HN Hf Hd. assert (Ld : (Z.of_nat d <= N / 2)%Z).
  { unfold init_ev1, ev1_table in Hd. rewrite map_length, zrange_length in Hd. pose proof (Z.div_pos N 2 ltac:(lia) ltac:(lia)). lia. }
  pose proof (Z.mul_div_le N 2 ltac:(lia)) as D2. assert (S0 : site N 0) by (unfold site; lia). assert (Sd : site N (Z.of_nat d)) by (unfold site; lia).
  pose proof (sea_le N filling Hf 0 (Z.of_nat d) S0 Sd) as Q. rewrite <- (table_sea N filling (Logic.proj2 HN) 0 (Z.of_nat d) S0 Sd) in Q. unfold table_value, ev1 in Q.
  rewrite chain_distance_eq in Q by (assumption || lia). replace (Z.min (Z.abs (0 - Z.of_nat d)) (N - Z.abs (0 - Z.of_nat d))) with (Z.of_nat d) in Q by lia.
  unfold vread in Q. destruct (Z.ltb_spec (Z.of_nat d) 0); [lia|]. rewrite Nat2Z.id, (nth_error_nth' _ 0 Hd) in Q. exact Q.
Qed.
Theorem C94_table : forall N filling, (0 < N < two64)%Z -> 0 <= filling <= 1 ->
  table_near (/ 2 ^ 53) (map round_double (init_ev1 N 1 filling)) (init_ev1 N 1 filling).
Proof.
  intros N filling HN Hf. split; [apply map_length|]. intros d Hd. pose proof (table_le1 N filling d HN Hf Hd) as B.
  rewrite (nth_indep _ 0 (round_double 0)) by (rewrite map_length; exact Hd). rewrite map_nth. set (x := nth d (init_ev1 N 1 filling) 0) in *.
  assert (V : Valid_exp (FLT_exp (-1074) 53)) by (apply FLT_exp_valid; reflexivity). split.
  - unfold round_double. eapply Rle_trans; [apply (error_le_half_ulp radix2 (FLT_exp (-1074) 53))|].
    rewrite <- (bm 53). replace (bpow radix2 (- Z.of_nat 53)) with (/ 2 * bpow radix2 (-52)) by (change (/ 2) with (bpow radix2 (-1)); rewrite <- bpow_plus; reflexivity).
    apply Rmult_le_compat_l; [lra|]. eapply Rle_trans; [apply (ulp_le radix2 (FLT_exp (-1074) 53) x 1); rewrite Rabs_R1; exact B|].
    apply Req_le. change 1 with (bpow radix2 0). rewrite ulp_bpow. reflexivity.
  - unfold round_double. apply abs_round_le_generic; [apply FLT_exp_valid; reflexivity|apply valid_rnd_N| |exact B].
    change 1 with (IZR 1). apply double_int. lia.
Qed.

(** for every distribution of the iterations over the threads there are interleavings with which all
    measurements finish *)
Theorem C94_completes : forall sort garbage order N J U table dt t_end interval steps T w1 w2 w3,
  sorts_by_column sort -> (3 <= N)%Z -> fits3 (chain_lattice N) N -> is_double J -> is_double (U / 2) -> double_times garbage dt t_end interval steps ->
  let L := 6 * Rabs J + Rabs U in L <= 2 ^ 500 -> dt ^ 2 * L ^ 2 <= 8 ->
  exists sched lines,
    (forall k, threads (sched k) = T /\ who (loop1 (sched k)) = w1 /\ who (loop2 (sched k)) = w2 /\ who (loop3 (sched k)) = w3) /\
    terminates_with (f_occupation_full garbage sort order sched N J U table dt t_end interval) (Ok lines) /\
    map fst lines = map (time_at (to_double garbage) dt) (written interval steps) /\ forall line, In line lines -> snd line <> None.
Proof.
  intros sort garbage order N J U table dt t_end interval steps T w1 w2 w3 Hs HN Hf HJ HU Ht L HL Hd.
  destruct (full_double_lines sort garbage N J U dt t_end interval steps Hs HN Hf HJ HU Ht HL Hd) as (Eb & m & y & h & Em & _ & Te & _).
  set (b := basis3 (chain_lattice N)) in *.
  set (obs := fun c h => f_real_result (f_site_occupation3 (double_arith garbage) (f_program_ev N table) b (basis_get_conjugate order b) h true N (threads c) (loop1 c) (loop2 c) (loop3 c))).
  set (mk := fun t : list nat * list nat * list nat => mkMeasurement T (mkSch w1 (fst (fst t))) (mkSch w2 (snd (fst t))) (mkSch w3 (snd t))).
  assert (Ch : forall k, exists t, obs (mk t) (h k) <> None).
  { intros k. destruct (C93_completes_three (double_arith garbage) (f_program_ev N table) b (basis_get_conjugate order b) (h k) true N T w1 w2 w3) as (t1 & t2 & t3 & Q).
    exists (t1, t2, t3). unfold obs, mk. cbn [threads loop1 loop2 loop3 fst snd]. intros C.
    destruct (f_site_occupation3 _ _ _ _ _ _ _ _ _ _ _) as [[z|]|]; [discriminate|discriminate|contradiction]. }
  destruct (finite_choice ([], [], []) (fun k t => obs (mk t) (h k) <> None) Ch steps) as (f & Hf').
  exists (fun k => mk (f k)). eexists. split; [intros k; repeat split; reflexivity|]. split; [unfold f_occupation_full; fold b; rewrite Eb; apply Te|]. split.
  - rewrite map_map. reflexivity.
  - intros line Hl. apply in_map_iff in Hl as (k & <- & Hk). cbn [snd f_steps_done f_coefficients]. apply (Hf' k), (written_le interval steps k Hk).
Qed.
Theorem C94_kinetic_completes : forall sort garbage order N J table dt t_end interval steps T w,
  sorts_by_column sort -> (3 <= N)%Z -> (N * 2 < two64)%Z -> is_double J -> double_times garbage dt t_end interval steps ->
  let L := 2 * Rabs J in L <= 2 ^ 500 -> dt ^ 2 * L ^ 2 <= 8 ->
  exists sched lines,
    (forall k, threads (sched k) = T /\ who (loop1 (sched k)) = w) /\
    terminates_with (f_occupation_kinetic garbage sort order sched N J table dt t_end interval) (Ok lines) /\
    map fst lines = map (time_at (to_double garbage) dt) (written interval steps) /\ forall line, In line lines -> snd line <> None.
Proof.
  intros sort garbage order N J table dt t_end interval steps T w Hs HN Hf HJ Ht L HL Hd.
  destruct (kinetic_double_lines sort garbage N J dt t_end interval steps Hs HN Hf HJ Ht HL Hd) as (Eb & m & y & h & Em & _ & Te & _).
  set (b := basis1 (chain_lattice N)) in *.
  set (obs := fun c h => f_real_result (f_site_occupation1 (double_arith garbage) (f_program_ev N table) b (basis_get_conjugate order b) h (threads c) (loop1 c))).
  set (mk := fun t : list nat => mkMeasurement T (mkSch w t) (mkSch w t) (mkSch w t)).
  assert (Ch : forall k, exists t, obs (mk t) (h k) <> None).
  { intros k. destruct (C93_completes_one (double_arith garbage) (f_program_ev N table) b (basis_get_conjugate order b) (h k) T w) as (tr & Q).
    exists tr. unfold obs, mk. cbn [threads loop1]. intros C. destruct (f_site_occupation1 _ _ _ _ _ _ _) as [[z|]|]; [discriminate|discriminate|contradiction]. }
  destruct (finite_choice [] (fun k t => obs (mk t) (h k) <> None) Ch steps) as (f & Hf').
  exists (fun k => mk (f k)). eexists. split; [intros k; repeat split; reflexivity|]. split; [unfold f_occupation_kinetic; fold b; rewrite Eb; apply Te|]. split.
  - rewrite map_map. reflexivity.
  - intros line Hl. apply in_map_iff in Hl as (k & <- & Hk). cbn [snd f_steps_done f_coefficients]. apply (Hf' k), (written_le interval steps k Hk).
Qed.

(** four sites, J = U = 1, half filling, correctly rounded table, dt = 1/64, t_end = 1/16, two threads:
    the program prints three lines, with the exact times and values within 1/1000 *)
Definition two_workers (k : nat) : measurement := mkMeasurement 2 (mkSch (two_threads 0 1 4) [k]) (mkSch (two_threads 0 2 4) []) (mkSch (two_threads 4 30 68) []).
Lemma eighth k : (k <= 8)%nat -> is_double (INR k / 64).
Proof.
  intros H. apply generic_format_FLT. exists (Float radix2 (Z.of_nat k) (-6)); [|cbn; lia|cbn; lia].
  unfold F2R. cbn [Fnum Fexp]. rewrite <- INR_IZR_INZ. change (bpow radix2 (-6)) with (/ 64). reflexivity.
Qed.
Lemma example_time garbage k : (k <= 4)%nat -> time_at (to_double garbage) (/ 64) k = INR k / 64.
Proof.
  induction k as [|k IH]; intros Hk; [change (INR 0) with 0; change (0 = 0 / 64); lra|]. rewrite P_TimeLoop.time_S, IH by lia. replace (INR k / 64 + / 64) with (INR (S k) / 64) by (rewrite S_INR; field).
  apply double_exact; [apply eighth; lia|]. apply le_INR in Hk. replace (INR 4) with 4 in Hk by (cbn; lra). pose proof (pos_INR (S k)). rewrite Rabs_pos_eq by lra.
  apply Rle_trans with (bpow radix2 0); [change (bpow radix2 0) with 1; lra|apply bpow_le; lia].
Qed.
Lemma example_times garbage : double_times garbage (/ 64) (1 / 16) 2 4.
Proof.
  split; [split|].
  - replace (/ 64) with (/ 2 ^ 6) by (f_equal; lra). apply Rinv_le_contravar; [apply pow_lt; lra|apply Rle_pow; [lra|lia]].
  - apply Rle_trans with 1; [lra|]. apply pow_R1_Rle. lra.
  - split; [cbn; lra|]. split; [lia|]. split; [rewrite example_time by lia; cbn; lra|]. intros k Hk. rewrite example_time by lia. assert (INR k <= 3) by (replace 3 with (INR 3) by (cbn; lra); apply le_INR; lia). lra.
Qed.
Example C94_example : forall garbage (order : list nat), Permutation order (seq 0 68) ->
  exists m y o, init_matrix isort (real 1 : CR) (real 1) (real (1/2)) (chain_lattice 4) = Ok m /\
    the_solution 68 (entry (bm_scale imag_unit m)) y /\
    terminates_with (f_occupation_full garbage isort order two_workers 4 1 1 (map round_double (init_ev1 4 1 (1/2))) (/ 64) (1/16) 2)
      (Ok [(0, o 0%nat); (1/32, o 2%nat); (1/16, o 4%nat)]) /\
    forall k r, (k <= 4)%nat -> o k = Some r -> exists x, r = Ok x /\ Rabs (x - occupation 4 (sea 4 (1/2)) 68 (y (INR k / 64))) <= 1 / 1000.
Proof.
  intros garbage order Ho.
  assert (Hsh : shared_full 4 two_workers) by (intros k; cbn [threads loop1 loop2 loop3 two_workers]; split; [apply two_shares; lia|]; split; apply two_shares; lia).
  assert (D1 : is_double 1) by (change 1 with (IZR 1); apply double_int; lia).
  assert (D2 : is_double (1 / 2)) by (apply generic_format_FLT; exists (Float radix2 1 (-1)); [unfold F2R; cbn [Fnum Fexp]; change (bpow radix2 (-1)) with (/ 2); lra|cbn; lia|cbn; lia]).
  assert (F3 : fits3 (chain_lattice 4) 4) by (unfold fits3; apply big; reflexivity).
  assert (PL : 6 * Rabs 1 + Rabs 1 <= 2 ^ 500) by (rewrite Rabs_R1; apply Rle_trans with (2 ^ 3); [lra|apply Rle_pow; [lra|lia]]).
  destruct (C94_full isort garbage order two_workers 4 1 1 (1/2) (/ 2 ^ 53) (map round_double (init_ev1 4 1 (1/2))) (/ 64) (1/16) 2 4) as (m & y & o & Em & Y & Te & H);
    [exact isort_ok|lia|exact F3|exact D1|exact D2|apply example_times|exact Ho|exact Hsh|lra|lra|apply C94_table; [split; [lia|apply big; reflexivity]|lra]| |exact PL|rewrite Rabs_R1; lra|].
  { intros k. cbn [threads two_workers]. replace (_ + 12)%Z with 4638%Z by reflexivity. lra. }
  exists m, y, o. split; [exact Em|]. split; [exact Y|]. split.
  - destruct Te as (f & Te). exists f. intros fuel Hf. rewrite (Te fuel Hf). change (written 2 4) with [0; 2; 4]%nat. cbn [map]. rewrite !example_time by lia.
    replace (INR 0 / 64) with 0 by (cbn; lra). replace (INR 2 / 64) with (1/32) by (cbn; lra). replace (INR 4 / 64) with (1/16) by (cbn; lra). reflexivity.
  - intros k r Hk E. destruct (H k Hk) as (_ & H'). destruct (H' r E) as (x & -> & Q). exists x. split; [reflexivity|].
    replace (INR k / 64) with (INR k * / 64) by field. eapply Rle_trans; [exact Q|]. rewrite Rabs_R1. cbn [threads two_workers].
    replace (4 + 4 * 4 * 4)%Z with 68%Z by reflexivity. replace (68 * 68 + Z.of_nat 2 + 12)%Z with 4638%Z by reflexivity.
    assert (K4 : INR k <= 4) by (replace 4 with (INR 4) by (cbn; lra); apply le_INR; exact Hk). pose proof (pos_INR k).
    assert (T : / 2 ^ 1000 <= / 2 ^ 20) by (apply Rinv_le_contravar; [apply pow_lt; lra|apply Rle_pow; [lra|lia]]). lra.
Qed.
Print Assumptions C94_coefficients_full.
Print Assumptions C94_coefficients_kinetic.
Print Assumptions C94_full.
Print Assumptions C94_kinetic.
Print Assumptions C94_table.
Print Assumptions C94_completes.
Print Assumptions C94_kinetic_completes.
