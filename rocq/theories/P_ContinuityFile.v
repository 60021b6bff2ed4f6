(** THEOREMS: C123, fifth part: from the numerals on the command line to the table in the output file. *)
From Coq Require Import Reals Lra Psatz Permutation Ascii String Sorted.
From Flocq Require Import Core Relative.
From Verif Require Import Base M_Operator M_Lattice Spec_Lattice Pf_Lattice Spec_LatticeReal M_Basis Pf_Basis P_Basis M_Matrix M_Ode M_Dispersion M_OpenMP Spec_OpenMP M_Expectation P_Expectation M_SiteOccupation Pf_SiteOccupation P_SiteOccupation
  M_TimeLoop Spec_TimeLoop Pf_Matrix Spec_Matrix Pf_Matrix2 P_Matrix Spec_Stability Pf_Stability Pf_Stability2 Pf_Stability3 P_Stability Spec_Programs M_Programs Pf_Programs Pf_Programs2 P_Programs P_Parameters P_Continuity
  M_Rounding M_Double P_Rounding M_RoundedMeasurement Pf_RoundedMeasurement5 P_RoundedMeasurement P_RoundedMeasurement2 P_RoundedMeasurement4 M_DoublePrograms Pf_DoubleTime Spec_DoublePrograms Pf_DoublePrograms P_DoublePrograms P_DoublePrograms2 P_ContinuityDouble P_ContinuityKinetic P_ContinuityTime.
From Verif Require Import M_Text M_Io Spec_Text M_Cli P_Io P_Cli M_Ostream Spec_Numeral P_Ostream M_OutputFile Spec_Table P_OutputFile P_OutputPrograms P_OutputPrograms2 M_OptionValue Ex_Matrix Ex_Io.
From Verif Require Import P_Continuity P_ContinuityDouble P_ContinuityKinetic P_ContinuityTime.
Import ListNotations.
Local Open Scope R_scope.
Local Open Scope list_scope.
Local Notation len u := (Z.of_nat (length u)).


Lemma numeral_motion sort tJ tU tdt J0 U0 dt0 J U N dt m' y' :
  sorts_by_column sort -> (3 <= N)%Z -> fits3 (chain_lattice N) N -> numeral tJ = Some J0 -> numeral tU = Some U0 -> numeral tdt = Some dt0 -> of_normal_size J0 -> of_normal_size U0 -> of_normal_size dt0 ->
  option_value tJ = Some J -> option_value tU = Some U -> option_value tdt = Some dt -> 0 <= dt -> 0 <= dt0 -> let n := (N + N * N * N)%Z in
  init_matrix sort (real J : CR) (real U) (real (1/2)) (chain_lattice N) = Ok m' -> the_solution n (entry (bm_scale imag_unit m')) y' ->
  exists m y, init_matrix sort (real J0 : CR) (real U0) (real (1/2)) (chain_lattice N) = Ok m /\ the_solution n (entry (bm_scale imag_unit m)) y /\
    forall k, Rabs (INR k * dt - INR k * dt0) <= INR k * dt0 / 2 ^ 53 /\ apart n (y' (INR k * dt)) (y (INR k * dt0)) <= INR k * (dt + dt0) * (6 * Rabs J0 + Rabs U0) / 2 ^ 53 /\
      n2 (idx n) (vecf (y' (INR k * dt))) = 1 /\ n2 (idx n) (vecf (y (INR k * dt0))) = 1.
Proof.
  intros Hs HN Hf NJ NU Nt SJ SU St VJ VU Vt D0 P0 n Em' Y'.
  assert (Hl : shipped3 (chain_lattice N) N) by (constructor; unfold fits3 in Hf; cbn [lat_coordination chain_lattice] in Hf; nia).
  destruct (C123_written sort tJ tU J0 U0 J U (chain_lattice N) N Hs Hl Hf NJ NU SJ SU VJ VU) as (m & m1 & Em & Em1 & W). rewrite Em' in Em1. injection Em1 as <-. fold n in W.
  destruct (the_solution_exists sort J0 U0 (chain_lattice N) N m Hs Hl Hf Em) as (y & Y). fold n in Y.
  destruct (C123_time sort J0 U0 (chain_lattice N) N Hs Hl Hf) as (m1 & Em1 & C). rewrite Em in Em1. injection Em1 as <-. fold n in C.
  destruct (full_facts sort J0 U0 _ N Hs Hl Hf) as (m1 & E1 & _ & A & _). rewrite Em in E1. injection E1 as <-. destruct (full_facts sort J U _ N Hs Hl Hf) as (m1 & E1 & _ & A' & _). rewrite Em' in E1. injection E1 as <-. fold n in A, A'.
  assert (Nn : (0 < n)%Z) by (unfold n; nia).
  exists m, y. split; [exact Em|]. split; [exact Y|]. intros k. pose proof (pos_INR k) as Pk.
  assert (Q : Rabs (dt - dt0) <= dt0 / 2 ^ 53).
  { unfold option_value in Vt. rewrite Nt in Vt. cbn [option_map] in Vt. injection Vt as <-. pose proof (round_rel dt0 St) as Q. rewrite (Rabs_pos_eq dt0) in Q by exact P0. exact Q. }
  assert (R : Rabs (INR k * dt - INR k * dt0) <= INR k * dt0 / 2 ^ 53).
  { replace (INR k * dt - INR k * dt0) with (INR k * (dt - dt0)) by ring. rewrite Rabs_mult, (Rabs_pos_eq (INR k)) by exact Pk. replace (INR k * dt0 / 2 ^ 53) with (INR k * (dt0 / 2 ^ 53)) by (unfold Rdiv; ring). apply Rmult_le_compat_l; assumption. }
  split; [exact R|]. split; [|split; [exact (unit_always n _ y' _ Nn A' Y')|exact (unit_always n _ y _ Nn A Y)]].
  pose proof (C y Y (INR k * dt) (INR k * dt0) ltac:(nra) ltac:(nra)) as T. pose proof (W y y' Y Y' (INR k * dt) ltac:(nra)) as V.
  assert (EL : 3 * neighbours (chain_lattice N) * Rabs J0 + Rabs U0 = 6 * Rabs J0 + Rabs U0) by (unfold neighbours; cbn [lat_coordination chain_lattice]; ring). rewrite EL in T, V.
  assert (T' : apart n (y (INR k * dt)) (y (INR k * dt0)) <= (6 * Rabs J0 + Rabs U0) * (INR k * dt0 / 2 ^ 53)).
  { eapply Rle_trans; [exact T|]. apply Rmult_le_compat_l; [pose proof (Rabs_pos J0); pose proof (Rabs_pos U0); lra|exact R]. }
  eapply Rle_trans; [exact (apart_plus n (y' (INR k * dt)) (y (INR k * dt)) (y (INR k * dt0)))|]. eapply Rle_trans; [apply Rplus_le_compat; [exact V|exact T']|].
  apply Req_le. unfold Rdiv. generalize (/ 2 ^ 53). intros r. ring.
Qed.
Definition numeral_error (J0 U0 dt0 dt : R) (k : nat) : R := INR k * (dt + dt0) * (6 * Rabs J0 + Rabs U0) / 2 ^ 53.
Definition numeral_time_error (dt0 dt : R) (steps k : nat) : R := INR k * INR steps * dt / 2 ^ 52 + INR k * dt0 / 2 ^ 53.
(** hubbard_real_1d_rk4_coefficients, from the command line to the file *)
Theorem C123_coefficients_file : forall sort garbage tJ tU tdt J0 U0 dt0 J U N dt t_end interval steps infos all,
  sorts_by_column sort -> (3 <= N)%Z -> fits3 (chain_lattice N) N -> numeral tJ = Some J0 -> numeral tU = Some U0 -> numeral tdt = Some dt0 -> of_normal_size J0 -> of_normal_size U0 -> of_normal_size dt0 ->
  option_value tJ = Some J -> option_value tU = Some U -> option_value tdt = Some dt -> is_double (U / 2) -> double_times garbage dt t_end interval steps ->
  Forall clean_text infos -> Forall (fun o => clean_text (fst o) /\ clean_text (snd o)) all ->
  let L := 6 * Rabs J + Rabs U in L <= 2 ^ 500 -> dt ^ 2 * L ^ 2 <= 8 -> 0 <= dt0 ->
  let n := (N + N * N * N)%Z in
  exists m y out t, init_matrix sort (real J0 : CR) (real U0) (real (1/2)) (chain_lattice N) = Ok m /\
    the_solution n (entry (bm_scale imag_unit m)) y /\
    terminates_with (f_coefficients_full garbage sort N J U dt t_end interval) (Ok out) /\
    table (coefficients_file infos all out) = Some t /\
    Forall2 (fun k r => solution_row n (numeral_time_error dt0 dt steps k + 5 / 1000000 * (Rabs (INR k * dt0) + numeral_time_error dt0 dt steps k))
        (INR k * dt * dt ^ 4 * L ^ 5 / 120 + INR k / 2 ^ 40 + numeral_error J0 U0 dt0 dt k + 1 / 100000) (INR k * dt0) (y (INR k * dt0)) r)
      (written interval steps) t.
Proof.
  intros sort garbage tJ tU tdt J0 U0 dt0 J U N dt t_end interval steps infos all Hs HN Hf NJ NU Nt SJ SU St VJ VU Vt HU Ht Hi Ha L HL Hd P0 n.
  assert (HJ : is_double J).
  { unfold option_value in VJ. rewrite NJ in VJ. cbn [option_map] in VJ. injection VJ as <-. unfold is_double, round_double. apply generic_format_round; [apply FLT_exp_valid; unfold Prec_gt_0; lia|apply valid_rnd_N]. }
  assert (D0 : 0 <= dt) by (destruct Ht as ((G & _) & _); eapply Rle_trans; [|exact G]; left; apply Rinv_0_lt_compat, pow_lt; lra).
  destruct (full_double_lines sort garbage N J U dt t_end interval steps Hs HN Hf HJ HU Ht HL Hd) as (Eb & m' & y' & h & Em' & Y' & Te & _ & _ & S1).
  destruct (numeral_motion sort tJ tU tdt J0 U0 dt0 J U N dt m' y' Hs HN Hf NJ NU Nt SJ SU St VJ VU Vt D0 P0 Em' Y') as (m & y & Em & Y & H). fold n in Y, H, S1.
  destruct (read_solution n h y dt0 (time_at (to_double garbage) dt) (numeral_time_error dt0 dt steps) (fun k => INR k * dt * dt ^ 4 * L ^ 5 / 120 + INR k / 2 ^ 40 + numeral_error J0 U0 dt0 dt k) infos all (written interval steps) steps Hi Ha (written_le interval steps)) as (t & E & F).
  { intros k Hk. destruct (S1 k Hk) as (A & B & C). destruct (H k) as (R & V & _). split; [exact A|]. split; [exact B|]. split.
    - eapply Rle_trans; [exact (apart_triangle n (h k) (y' (INR k * dt)) (y (INR k * dt0)) A)|]. apply Rplus_le_compat; [exact C|exact V].
    - replace (time_at (to_double garbage) dt k - INR k * dt0) with ((time_at (to_double garbage) dt k - INR k * dt) + (INR k * dt - INR k * dt0)) by ring. eapply Rle_trans; [apply Rabs_triang|].
      unfold numeral_time_error. apply Rplus_le_compat; [exact (time_close garbage dt t_end interval steps k Ht Hk)|exact R]. }
  exists m, y, (map (fun k => (time_at (to_double garbage) dt k, h k)) (written interval steps)), t. split; [exact Em|]. split; [exact Y|]. split; [|split; [exact E|exact F]].
  unfold f_coefficients_full. rewrite Eb. apply Te.
Qed.
(** hubbard_real_1d_rk4, from the command line to the file *)
Theorem C123_occupation_file : forall sort garbage order sched tJ tU tdt J0 U0 dt0 J U N filling delta tab dt t_end interval steps infos all,
  sorts_by_column sort -> (3 <= N)%Z -> fits3 (chain_lattice N) N -> numeral tJ = Some J0 -> numeral tU = Some U0 -> numeral tdt = Some dt0 -> of_normal_size J0 -> of_normal_size U0 -> of_normal_size dt0 ->
  option_value tJ = Some J -> option_value tU = Some U -> option_value tdt = Some dt -> is_double (U / 2) -> double_times garbage dt t_end interval steps ->
  Permutation order (seq 0 (length (basis3 (chain_lattice N)))) -> shared_full N sched -> 0 <= filling <= 1 ->
  0 <= delta -> table_near delta tab (init_ev1 N 1 filling) ->
  Forall clean_text infos -> Forall (fun o => clean_text (fst o) /\ clean_text (snd o)) all ->
  let n := (N + N * N * N)%Z in (forall k, IZR (n * n + Z.of_nat (threads (sched k)) + 12) <= 2 ^ 50) ->
  let L := 6 * Rabs J + Rabs U in L <= 2 ^ 500 -> dt ^ 2 * L ^ 2 <= 8 -> 0 <= dt0 ->
  exists m y lines, init_matrix sort (real J0 : CR) (real U0) (real (1/2)) (chain_lattice N) = Ok m /\
    the_solution n (entry (bm_scale imag_unit m)) y /\
    terminates_with (f_occupation_full garbage sort order sched N J U tab dt t_end interval) (Ok lines) /\
    ((forall line, In line lines -> snd line <> None) ->
     exists ms t, lines = map (fun m => (fst m, Some (Ok (snd m)))) ms /\ table (observable_file infos all ms) = Some t /\
       Forall2 (fun k r => measured_row (numeral_time_error dt0 dt steps k)
          (15 * IZR n * (INR k * dt * dt ^ 4 * L ^ 5 / 120 + INR k / 2 ^ 40) + 42 * IZR n * delta + 17 * IZR (n * n + Z.of_nat (threads (sched k)) + 12) * IZR n / 2 ^ 50 + / 2 ^ 1000
           + 10 * IZR n * numeral_error J0 U0 dt0 dt k)
          (INR k * dt0) (occupation N (sea N filling) n (y (INR k * dt0))) r) (written interval steps) t).
Proof.
  intros sort garbage order sched tJ tU tdt J0 U0 dt0 J U N filling delta tab dt t_end interval steps infos all Hs HN Hf NJ NU Nt SJ SU St VJ VU Vt HU Ht Ho Hsh Hfi Hde Hta Hi Ha n HT L HL HA P0.
  assert (HJ : is_double J).
  { unfold option_value in VJ. rewrite NJ in VJ. cbn [option_map] in VJ. injection VJ as <-. unfold is_double, round_double. apply generic_format_round; [apply FLT_exp_valid; unfold Prec_gt_0; lia|apply valid_rnd_N]. }
  assert (D0 : 0 <= dt) by (destruct Ht as ((G & _) & _); eapply Rle_trans; [|exact G]; left; apply Rinv_0_lt_compat, pow_lt; lra).
  destruct (C94_full sort garbage order sched N J U filling delta tab dt t_end interval steps Hs HN Hf HJ HU Ht Ho Hsh Hfi Hde Hta HT HL HA) as (m' & y' & o & Em' & Y' & Te & H).
  destruct (numeral_motion sort tJ tU tdt J0 U0 dt0 J U N dt m' y' Hs HN Hf NJ NU Nt SJ SU St VJ VU Vt D0 P0 Em' Y') as (m & y & Em & Y & G). fold n in Y, G, H.
  assert (Nn : (0 < n)%Z) by (unfold n; nia).
  assert (Bw : forall i j, (0 <= i < n)%Z -> (0 <= j < n)%Z -> Rabs (overlap N (sea N filling) i j) <= 5) by (intros i j Hi' Hj; apply overlap_le; try assumption; lia).
  exists m, y, (map (fun k => (time_at (to_double garbage) dt k, o k)) (written interval steps)). split; [exact Em|]. split; [exact Y|]. split; [exact Te|]. intros Hc.
  apply (read_measured (fun k => INR k * dt0) (time_at (to_double garbage) dt) (numeral_time_error dt0 dt steps) _ _ o infos all (written interval steps) Hi Ha).
  - intros k Hk. destruct (H k (written_le interval steps k Hk)) as (A & B). destruct (G k) as (R & V & U1 & U2). split.
    + replace (time_at (to_double garbage) dt k - INR k * dt0) with ((time_at (to_double garbage) dt k - INR k * dt) + (INR k * dt - INR k * dt0)) by ring. eapply Rle_trans; [apply Rabs_triang|].
      unfold numeral_time_error. apply Rplus_le_compat; [exact A|exact R].
    + intros r Er. destruct (B r Er) as (x & Ex & Q). exists x. split; [exact Ex|].
      replace (x - occupation N (sea N filling) n (y (INR k * dt0))) with ((x - occupation N (sea N filling) n (y' (INR k * dt))) + (occupation N (sea N filling) n (y' (INR k * dt)) - occupation N (sea N filling) n (y (INR k * dt0)))) by ring.
      eapply Rle_trans; [apply Rabs_triang|]. apply Rplus_le_compat; [exact Q|].
      rewrite !occupation_quad. eapply Rle_trans; [apply (quad_lip n _ 5 ltac:(lra) Bw); [lia|rewrite U1; lra|rewrite U2; lra]|].
      replace (2 * 5 * IZR n) with (10 * IZR n) by ring. apply Rmult_le_compat_l; [apply Rmult_le_pos; [lra|apply IZR_le; lia]|].
      rewrite apart_nrm in V. exact V.
  - intros k Hk. apply (Hc (time_at (to_double garbage) dt k, o k)). apply in_map_iff. exists k. split; [reflexivity|exact Hk].
Qed.
