(** PROPERTY C122, continued: the programs that print the Fermi jump, and hubbard_momentum_1d_rk4. *)
From Coq Require Import Reals Lra Psatz Permutation Ascii String Sorted.
From Flocq Require Import Core.
From Verif Require Import Base M_Operator M_Lattice Spec_Lattice Pf_Lattice Spec_LatticeReal M_Basis Pf_Basis P_Basis M_Matrix M_Ode M_Dispersion M_OpenMP Spec_OpenMP M_Expectation P_Expectation M_SiteOccupation Pf_SiteOccupation P_SiteOccupation
  M_TimeLoop Spec_TimeLoop Pf_Matrix Spec_Matrix Pf_Matrix2 P_Matrix Spec_Stability Pf_Stability Pf_Stability2 Pf_Stability3 P_Stability Spec_Programs M_Programs Pf_Programs Pf_Programs2 P_Programs
  M_Rounding M_Double P_Rounding M_RoundedMeasurement Pf_RoundedMeasurement5 P_RoundedMeasurement P_RoundedMeasurement2 P_RoundedMeasurement4 M_DoublePrograms Pf_DoubleTime Spec_DoublePrograms Pf_DoublePrograms P_DoublePrograms.
From Verif Require Import M_Text M_Io Spec_Text M_Cli P_Io P_Cli M_Ostream Spec_Numeral P_Ostream M_OutputFile Spec_Table P_OutputFile P_DoublePrograms2 P_OutputPrograms P_OutputPrograms2.
From Verif Require Import M_LatticeReal P_DispersionProgram Spec_MomentumProgram M_DispersionProgram M_DoubleDispersion Spec_DoubleDispersion M_DoubleDispersionProgram P_DoubleDispersionProgram Ex_Matrix Ex_Io.
From Verif Require Import M_JumpPrograms Spec_JumpPrograms P_JumpPrograms M_RoundedJump Spec_RoundedJump P_RoundedJump M_DoubleJumpPrograms Spec_DoubleJump Pf_DoubleJump P_DoubleJumpPrograms.
Import ListNotations.
Local Open Scope R_scope.
Local Open Scope list_scope.
Local Notation len u := (Z.of_nat (length u)).

Lemma read_lines (T tm d v E : nat -> R) infos all (ks : list nat) (lines : list (R * R)) :
  Forall clean_text infos -> Forall (fun o => clean_text (fst o) /\ clean_text (snd o)) all ->
  Forall2 (fun k line => fst line = tm k /\ Rabs (fst line - T k) <= d k /\ Rabs (snd line - v k) <= E k) ks lines ->
  exists t, table (observable_file infos all lines) = Some t /\ Forall2 (fun k r => measured_row (d k) (E k) (T k) (v k) r) ks t.
Proof.
  intros Hi Ha Fm. destruct (C122_observable_read_back infos all lines Hi Ha) as (t & Et & Ft). exists t. split; [exact Et|].
  clear -Fm Ft. revert t Ft. induction Fm as [|k m ks ms (_ & D & V) _ IH]; intros t Ft; inversion Ft as [|? r ? t1 Hr Ft1]; subst; constructor; [|apply IH; exact Ft1].
  inversion Hr as [|? a ? r1 Ca Hr1]; subst. inversion Hr1 as [|? b ? r2 Cb Hr2]; subst. inversion Hr2; subst. exists a, b. split; [reflexivity|].
  split; [exact (near6_close _ _ _ _ Ca D)|exact (near6_close _ _ _ _ Cb V)].
Qed.
(** ** hubbard_real_1d_rk4_jump and hubbard_real_2d_rk4_jump *)
Theorem C122_jump_chain : forall sort garbage sched N J U filling tab delta coef eps dt t_end interval steps infos all,
  sorts_by_column sort -> (3 <= N)%Z -> fits3 (chain_lattice N) N -> is_double J -> is_double (U / 2) -> double_times garbage dt t_end interval steps ->
  shared_jump N sched -> 0 <= filling <= 1 -> 0 <= delta -> table_near delta tab (init_ev1 N 1 filling) ->
  0 <= eps -> phases_near eps coef N (fun a => filling * PI * IZR a) ->
  (forall k, IZR (N * N + N + Z.of_nat (threads (sched k)) + 6) <= 2 ^ 50) ->
  Forall clean_text infos -> Forall (fun o => clean_text (fst o) /\ clean_text (snd o)) all ->
  let L := 6 * Rabs J + Rabs U in L <= 2 ^ 500 -> dt ^ 2 * L ^ 2 <= 8 ->
  let n := (N + N * N * N)%Z in
  exists m y o, init_matrix sort (real J : CR) (real U) (real (1/2)) (chain_lattice N) = Ok m /\
    the_solution n (entry (bm_scale imag_unit m)) y /\
    terminates_with (f_jump_1d garbage sort sched N J U tab coef dt t_end interval) (Ok o) /\
    forall r, o = Some r -> exists lines t, r = Ok lines /\ table (observable_file infos all lines) = Some t /\
      Forall2 (fun k row => measured_row (time_error dt steps k) (printed_error n L dt delta eps k (N * N + N + Z.of_nat (threads (sched k)) + 6))
        (INR k * dt) (jump N (sea N filling) (fun a => filling * PI * IZR a) (y (INR k * dt))) row) (written interval steps) t.
Proof.
  intros sort garbage sched N J U filling tab delta coef eps dt t_end interval steps infos all Hs HN Hf HJ HU Ht Hsh Hfi Hde Htab Hep Hc Hk Hi Ha L HL Hd n.
  destruct (C96_chain sort garbage sched N J U filling tab delta coef eps dt t_end interval steps Hs HN Hf HJ HU Ht Hsh Hfi Hde Htab Hep Hc Hk HL Hd) as (m & y & o & Em & Y & Te & H).
  exists m, y, o. split; [exact Em|]. split; [exact Y|]. split; [exact Te|]. intros r Er. destruct (H r Er) as (lines & -> & F).
  destruct (read_lines (fun k => INR k * dt) (time_at (to_double garbage) dt) (time_error dt steps) _ _ infos all (written interval steps) lines Hi Ha F) as (t & Et & Ft).
  exists lines, t. split; [reflexivity|]. split; [exact Et|exact Ft].
Qed.
Theorem C122_jump_square : forall sort garbage sched N J U kx ky tab delta coef eps dt t_end interval steps infos all,
  sorts_by_column sort -> (3 <= N)%Z -> fits3 (square_lattice N N) (N * N) -> is_double J -> is_double (U / 2) -> double_times garbage dt t_end interval steps ->
  shared_jump (N * N) sched -> 0 <= delta -> table_near delta tab (ev2_table N N) ->
  0 <= eps -> phases_near eps coef (N * N) (phase_square N kx ky) ->
  (forall k, IZR (N * N * (N * N) + N * N + Z.of_nat (threads (sched k)) + 6) <= 2 ^ 50) ->
  Forall clean_text infos -> Forall (fun o => clean_text (fst o) /\ clean_text (snd o)) all ->
  let L := 12 * Rabs J + Rabs U in L <= 2 ^ 500 -> dt ^ 2 * L ^ 2 <= 8 ->
  let n := (N * N + N * N * (N * N) * (N * N))%Z in
  exists m y o, init_matrix sort (real J : CR) (real U) (real (1/2)) (square_lattice N N) = Ok m /\
    the_solution n (entry (bm_scale imag_unit m)) y /\
    terminates_with (f_jump_2d garbage sort sched N N J U tab coef dt t_end interval) (Ok o) /\
    forall r, o = Some r -> exists lines t, r = Ok lines /\ table (observable_file infos all lines) = Some t /\
      Forall2 (fun k row => measured_row (time_error dt steps k) (printed_error n L dt delta eps k (N * N * (N * N) + N * N + Z.of_nat (threads (sched k)) + 6))
        (INR k * dt) (jump (N * N) (sea_square N) (phase_square N kx ky) (y (INR k * dt))) row) (written interval steps) t.
Proof.
  intros sort garbage sched N J U kx ky tab delta coef eps dt t_end interval steps infos all Hs HN Hf HJ HU Ht Hsh Hde Htab Hep Hc Hk Hi Ha L HL Hd n.
  destruct (C96_square sort garbage sched N J U kx ky tab delta coef eps dt t_end interval steps Hs HN Hf HJ HU Ht Hsh Hde Htab Hep Hc Hk HL Hd) as (m & y & o & Em & Y & Te & H).
  exists m, y, o. split; [exact Em|]. split; [exact Y|]. split; [exact Te|]. intros r Er. destruct (H r Er) as (lines & -> & F).
  destruct (read_lines (fun k => INR k * dt) (time_at (to_double garbage) dt) (time_error dt steps) _ _ infos all (written interval steps) lines Hi Ha F) as (t & Et & Ft).
  exists lines, t. split; [reflexivity|]. split; [exact Et|exact Ft].
Qed.
