(** PROPERTY C108, continued: the program in doubles, and an example. *)
From Coq Require Import Reals Lra Psatz List ZArith Lia Permutation.
From Flocq Require Import Core.
From Verif Require Import Base Instances M_Operator Spec_Lattice M_Lattice M_LatticeReal Spec_LatticeReal M_Basis Pf_Basis M_Matrix Spec_Matrix P_Matrix Ex_Matrix Pf_OpenMP Pf_Lattice Pf_Matrix M_Dispersion M_OpenMP Spec_OpenMP M_SiteOccupation M_FermiJump Pf_FermiJump P_Basis P_FermiJump M_Ode M_TimeLoop Spec_TimeLoop M_Programs P_Programs P_JumpPrograms
  M_Expectation Spec_Expectation P_Dispersion P_Lattice P_Expectation M_Rounding Spec_Rounding M_Double Pf_Double Pf_Rounding5 P_Rounding
  M_LatticeDouble P_LatticeDouble Pf_PiDigits P_DoubleDispersion M_DoubleExpectation Spec_DoubleExpectation Pf_DoubleExpectation P_DoubleExpectation P_DoubleExpectation2
  Spec_Stability Spec_Programs Spec_JumpPrograms Spec_RoundedJump M_DoublePrograms Spec_DoublePrograms P_DoublePrograms P_DoublePrograms2 M_DoubleJumpPrograms Spec_DoubleJump P_DoubleJumpPrograms P_DoubleJumpPrograms2 M_DoubleMain Spec_DoubleMain P_DoubleMain P_DoubleMain2 Ex_Programs Ex_SiteOccupation P_TimeLoop P_Occupation P_OccupationFree Pf_Programs Pf_Programs2.
Local Open Scope R_scope.
Local Open Scope list_scope.

(** hubbard_real_kinetic_1d_rk4 in doubles: every printed value is the filling up to the rounding and truncation errors of C107 *)
Theorem C108_double : forall garbage fsin sort order sched N J filling dt t_end interval steps,
  accurate_sine fsin -> sorts_by_column sort -> (3 <= N <= 2 ^ 52)%Z -> is_double J -> double_times garbage dt t_end interval steps ->
  Permutation order (seq 0 (length (basis1 (chain_lattice N)))) -> shared_kinetic N sched -> 0 <= filling <= 1 ->
  (forall k, IZR (N * N + Z.of_nat (threads (sched k)) + 6) <= 2 ^ 50) ->
  let L := 2 * Rabs J in L <= 2 ^ 500 -> dt ^ 2 * L ^ 2 <= 8 ->
  exists o, terminates_with (f_main_kinetic garbage fsin sort order sched N J filling dt t_end interval) (Ok (map (fun k => (time_at (to_double garbage) dt k, o k)) (written interval steps))) /\
    forall k, (k <= steps)%nat -> forall r, o k = Some r -> exists x, r = Ok x /\
        Rabs (x - filling) <=
          3 * IZR N * (INR k * dt * dt ^ 4 * L ^ 5 / 120 + INR k / 2 ^ 40) + 2 * IZR N * / 2 ^ 48
          + IZR (N * N + Z.of_nat (threads (sched k)) + 6) * IZR N / 2 ^ 50 + / 2 ^ 1000.
Proof.
  intros garbage fsin sort order sched N J filling dt t_end interval steps FS Hs HN HJ Ht Ho Sh Hf Hr L HL Hd. assert (two64 = 2 ^ 64)%Z by reflexivity.
  destruct (C107_kinetic garbage fsin sort order sched N J filling dt t_end interval steps FS Hs HN HJ Ht Ho Sh Hf Hr HL Hd) as (m & y & o & Em & Y & Te & V).
  destruct (C108_exact sort N J (sea N filling) Hs ltac:(lia) ltac:(lia) (sea_ring N filling)) as (m' & Em' & _ & C). rewrite Em in Em'. injection Em' as <-.
  exists o. split; [exact Te|]. intros k Hk r E. destruct (V k Hk) as [_ V']. destruct (V' r E) as (x & -> & B). exists x. split; [reflexivity|].
  rewrite (C y Y (INR k * dt)) in B. rewrite sea_diag in B by (unfold site; lia). exact B.
Qed.


(** 4 sites, J = 1, dt = 1/10, half filling, two threads: after 10 steps the printed value differs from 1/2 by less than 1/10000 *)
Example C108_example : forall st (order : list nat), Permutation order (seq 0 4) ->
  exists o, terminates_with (occupation_kinetic isort (fun x => x) st order
      (fun k => mkMeasurement 2 (mkSch (two_threads 0 1 4) [k]) (mkSch (two_threads 0 2 4) []) (mkSch (two_threads 4 30 68) []))
      4 1 (1/2) (/ 10) 1 5) (Ok [(0, o 0%nat); (1/2, o 5%nat); (1, o 10%nat)]) /\
    forall k r, (k <= 10)%nat -> o k = Some r -> exists x, r = Ok x /\ Rabs (x - 1/2) <= / 10000.
Proof.
  intros st order Ho. destruct C86_hypotheses as (H1 & _ & H2 & _ & H3 & H4).
  destruct (C108_program isort (fun x => x) 0 st order _ 4 1 (1/2) (/ 10) 1 5 10 isort_ok ltac:(lia) H2 H1 Ho (fun k => Logic.proj1 (H4 k)) ltac:(lra) H3) as (o & Te & V).
  exists o. split.
  - destruct Te as (f & Te). exists f. intros fuel Hf. rewrite (Te fuel Hf). rewrite C86_lines. cbn [map]. rewrite !exact_time.
    replace (INR 0 * / 10) with 0 by (cbn; lra). replace (INR 5 * / 10) with (1/2) by (cbn; lra). replace (INR 10 * / 10) with 1 by (cbn; lra). reflexivity.
  - intros k r Hk E. destruct (V k r E) as (x & -> & B). exists x. split; [reflexivity|]. eapply Rle_trans; [exact B|]. rewrite Rabs_R1.
    assert (INR k <= 10) by (replace 10 with (INR 10) by (cbn; lra); apply le_INR; exact Hk). pose proof (pos_INR k). lra.
Qed.
(** hubbard_real_1d_rk4 in doubles with U = 0 *)
Theorem C108_free_double : forall garbage fsin sort order sched N J filling dt t_end interval steps,
  accurate_sine fsin -> sorts_by_column sort -> (3 <= N)%Z -> fits3 (chain_lattice N) N -> is_double J -> double_times garbage dt t_end interval steps ->
  Permutation order (seq 0 (length (basis3 (chain_lattice N)))) -> shared_full N sched -> 0 <= filling <= 1 ->
  let n := (N + N * N * N)%Z in (forall k, IZR (n * n + Z.of_nat (threads (sched k)) + 12) <= 2 ^ 50) ->
  let L := 6 * Rabs J in L <= 2 ^ 500 -> dt ^ 2 * L ^ 2 <= 8 ->
  exists o, terminates_with (f_main_full garbage fsin sort order sched N J 0 filling dt t_end interval) (Ok (map (fun k => (time_at (to_double garbage) dt k, o k)) (written interval steps))) /\
    forall k, (k <= steps)%nat -> forall r, o k = Some r -> exists x, r = Ok x /\
        Rabs (x - filling) <=
          15 * IZR n * (INR k * dt * dt ^ 4 * L ^ 5 / 120 + INR k / 2 ^ 40) + 42 * IZR n * / 2 ^ 48
          + 17 * IZR (n * n + Z.of_nat (threads (sched k)) + 12) * IZR n / 2 ^ 50 + / 2 ^ 1000.
Proof.
  intros garbage fsin sort order sched N J filling dt t_end interval steps FS Hs HN Hf HJ Ht Ho Sh Hfi n Hr L HL Hd.
  assert (EL : 6 * Rabs J + Rabs 0 = L) by (rewrite Rabs_R0; unfold L; ring).
  assert (D0 : is_double (0 / 2)) by (replace (0 / 2) with (IZR 0) by (cbn; lra); apply double_int; reflexivity).
  destruct (C107_full garbage fsin sort order sched N J 0 filling dt t_end interval steps FS Hs HN Hf HJ D0 Ht Ho Sh Hfi Hr ltac:(cbv zeta; rewrite EL; exact HL) ltac:(cbv zeta; rewrite EL; exact Hd)) as (m & y & o & Em & Y & Te & V).
  destruct (C108_free sort N J (sea N filling) Hs HN Hf (sea_ring N filling)) as (m' & Em' & C). rewrite Em in Em'. injection Em' as <-. rewrite EL in V.
  exists o. split; [exact Te|]. intros k Hk r E. destruct (V k Hk) as [_ V']. destruct (V' r E) as (x & -> & B). exists x. split; [reflexivity|].
  rewrite (C y Y (INR k * dt)) in B. rewrite sea_diag in B by (unfold site; lia). exact B.
Qed.

