(** PROPERTY C107, continued: the programs. *)
From Coq Require Import Reals Lra Psatz List ZArith Lia Permutation.
From Flocq Require Import Core.
From Verif Require Import Base Instances M_Operator Spec_Lattice M_Lattice M_LatticeReal Spec_LatticeReal M_Basis Pf_Basis M_Matrix Spec_Matrix P_Matrix Ex_Matrix Pf_OpenMP Pf_Lattice Pf_Matrix M_Dispersion M_OpenMP Spec_OpenMP M_SiteOccupation M_FermiJump Pf_FermiJump P_Basis P_FermiJump M_Ode M_TimeLoop Spec_TimeLoop M_Programs P_Programs P_JumpPrograms
  M_Expectation Spec_Expectation P_Dispersion P_Lattice P_Expectation M_Rounding Spec_Rounding M_Double Pf_Double Pf_Rounding5 P_Rounding
  M_LatticeDouble P_LatticeDouble Pf_PiDigits P_DoubleDispersion M_DoubleExpectation Spec_DoubleExpectation Pf_DoubleExpectation P_DoubleExpectation P_DoubleExpectation2
  Spec_Stability Spec_Programs Spec_JumpPrograms Spec_RoundedJump M_DoublePrograms Spec_DoublePrograms P_DoublePrograms P_DoublePrograms2 M_DoubleJumpPrograms Spec_DoubleJump P_DoubleJumpPrograms P_DoubleJumpPrograms2 M_DoubleMain Spec_DoubleMain P_DoubleMain.
Local Open Scope R_scope.
Local Open Scope list_scope.

(** ** The programs *)
Lemma chain_small N : (3 <= N)%Z -> fits3 (chain_lattice N) N -> (1 <= N <= 2 ^ 52)%Z.
Proof. intros HN Hf. split; [lia|]. unfold fits3 in Hf. cbn [lat_coordination chain_lattice] in Hf. destruct (Z.le_gt_cases N (2 ^ 52)) as [L|L]; [exact L|exfalso]. assert (2 ^ 52 * 2 ^ 52 <= N * N)%Z by (apply Z.mul_le_mono_nonneg; lia). assert (two64 < 2 ^ 52 * 2 ^ 52)%Z by reflexivity. nia. Qed.
Lemma square_small N : (3 <= N)%Z -> fits3 (square_lattice N N) (N * N) -> (1 <= N <= 2 ^ 31)%Z.
Proof.
  intros HN Hf. split; [lia|]. unfold fits3 in Hf. cbn [lat_coordination square_lattice] in Hf. destruct (Z.le_gt_cases N (2 ^ 31)) as [L|L]; [exact L|exfalso]. assert (2 ^ 31 * 2 ^ 31 <= N * N)%Z by (apply Z.mul_le_mono_nonneg; lia).
  assert (2 ^ 62 * 2 ^ 62 <= N * N * (N * N))%Z by (apply Z.mul_le_mono_nonneg; lia). assert (two64 < 2 ^ 62 * 2 ^ 62)%Z by reflexivity. assert (N * N * (N * N) <= N * N * (N * N) * (N * N))%Z by nia. nia.
Qed.
Lemma small48 : 0 <= / 2 ^ 48. Proof. left. apply Rinv_0_lt_compat, pow2_pos. Qed.

(** hubbard_real_1d_kinetic_rk4 *)
Theorem C107_kinetic : forall garbage fsin sort order sched N J filling dt t_end interval steps,
  accurate_sine fsin -> sorts_by_column sort -> (3 <= N <= 2 ^ 52)%Z -> is_double J -> double_times garbage dt t_end interval steps ->
  Permutation order (seq 0 (length (basis1 (chain_lattice N)))) -> shared_kinetic N sched -> 0 <= filling <= 1 ->
  (forall k, IZR (N * N + Z.of_nat (threads (sched k)) + 6) <= 2 ^ 50) ->
  let L := 2 * Rabs J in L <= 2 ^ 500 -> dt ^ 2 * L ^ 2 <= 8 ->
  exists m y o, init_kinetic_matrix sort (real J : CR) (chain_lattice N) = Ok m /\
    the_solution N (entry (bm_scale imag_unit m)) y /\
    terminates_with (f_main_kinetic garbage fsin sort order sched N J filling dt t_end interval) (Ok (map (fun k => (time_at (to_double garbage) dt k, o k)) (written interval steps))) /\
    forall k, (k <= steps)%nat -> Rabs (time_at (to_double garbage) dt k - INR k * dt) <= INR k * INR steps * dt / 2 ^ 52 /\
      forall r, o k = Some r -> exists x, r = Ok x /\
        Rabs (x - occupation N (sea N filling) N (y (INR k * dt))) <=
          3 * IZR N * (INR k * dt * dt ^ 4 * L ^ 5 / 120 + INR k / 2 ^ 40) + 2 * IZR N * / 2 ^ 48
          + IZR (N * N + Z.of_nat (threads (sched k)) + 6) * IZR N / 2 ^ 50 + / 2 ^ 1000.
Proof.
  intros garbage fsin sort order sched N J filling dt t_end interval steps FS Hs HN HJ Ht Ho Sh Hf Hr. assert (two64 = 2 ^ 64)%Z by reflexivity.
  apply (C94_kinetic sort garbage order sched N J filling (/ 2 ^ 48) (f_init_ev1 garbage fsin N 1 filling) dt t_end interval steps); try assumption; try lia; [apply small48|apply C106_table; [exact FS|lia|exact Hf]].
Qed.
(** hubbard_real_1d_rk4 *)
Theorem C107_full : forall garbage fsin sort order sched N J U filling dt t_end interval steps,
  accurate_sine fsin -> sorts_by_column sort -> (3 <= N)%Z -> fits3 (chain_lattice N) N -> is_double J -> is_double (U / 2) -> double_times garbage dt t_end interval steps ->
  Permutation order (seq 0 (length (basis3 (chain_lattice N)))) -> shared_full N sched -> 0 <= filling <= 1 ->
  let n := (N + N * N * N)%Z in (forall k, IZR (n * n + Z.of_nat (threads (sched k)) + 12) <= 2 ^ 50) ->
  let L := 6 * Rabs J + Rabs U in L <= 2 ^ 500 -> dt ^ 2 * L ^ 2 <= 8 ->
  exists m y o, init_matrix sort (real J : CR) (real U) (real (1/2)) (chain_lattice N) = Ok m /\
    the_solution n (entry (bm_scale imag_unit m)) y /\
    terminates_with (f_main_full garbage fsin sort order sched N J U filling dt t_end interval) (Ok (map (fun k => (time_at (to_double garbage) dt k, o k)) (written interval steps))) /\
    forall k, (k <= steps)%nat -> Rabs (time_at (to_double garbage) dt k - INR k * dt) <= INR k * INR steps * dt / 2 ^ 52 /\
      forall r, o k = Some r -> exists x, r = Ok x /\
        Rabs (x - occupation N (sea N filling) n (y (INR k * dt))) <=
          15 * IZR n * (INR k * dt * dt ^ 4 * L ^ 5 / 120 + INR k / 2 ^ 40) + 42 * IZR n * / 2 ^ 48
          + 17 * IZR (n * n + Z.of_nat (threads (sched k)) + 12) * IZR n / 2 ^ 50 + / 2 ^ 1000.
Proof.
  intros garbage fsin sort order sched N J U filling dt t_end interval steps FS Hs HN Hf HJ HU Ht Ho Sh Hfi n Hr.
  apply (C94_full sort garbage order sched N J U filling (/ 2 ^ 48) (f_init_ev1 garbage fsin N 1 filling) dt t_end interval steps); try assumption; [apply small48|apply C106_table; [exact FS|apply chain_small; assumption|exact Hfi]].
Qed.

(** hubbard_real_1d_rk4_jump: either one of the parallel loops does not finish under the given schedules (None), or the lines *)
Theorem C107_jump_1d : forall garbage fcos fsin sort T s sched N J U filling dt t_end interval steps,
  accurate_wave fcos cos -> accurate_wave fsin sin ->
  sorts_by_column sort -> (3 <= N)%Z -> fits3 (chain_lattice N) N -> is_double J -> is_double (U / 2) -> double_times garbage dt t_end interval steps ->
  shares T 0 N s -> shared_jump N sched -> 0 <= filling <= 1 ->
  (forall k, IZR (N * N + N + Z.of_nat (threads (sched k)) + 6) <= 2 ^ 50) ->
  let L := 6 * Rabs J + Rabs U in L <= 2 ^ 500 -> dt ^ 2 * L ^ 2 <= 8 ->
  let n := (N + N * N * N)%Z in
  exists m y o, init_matrix sort (real J : CR) (real U) (real (1/2)) (chain_lattice N) = Ok m /\
    the_solution n (entry (bm_scale imag_unit m)) y /\
    terminates_with (f_main_jump_1d garbage fcos fsin sort s sched N J U filling dt t_end interval) (Ok o) /\
    forall r, o = Some r -> exists lines, r = Ok lines /\
      Forall2 (fun k line => fst line = time_at (to_double garbage) dt k /\ Rabs (fst line - INR k * dt) <= INR k * INR steps * dt / 2 ^ 52 /\
        Rabs (snd line - jump N (sea N filling) (fun a => filling * PI * IZR a) (y (INR k * dt))) <=
          printed_error n L dt (/ 2 ^ 48) (IZR N / 2 ^ 49) k (N * N + N + Z.of_nat (threads (sched k)) + 6))
        (written interval steps) lines.
Proof.
  intros garbage fcos fsin sort T s sched N J U filling dt t_end interval steps FC FS Hs HN Hf HJ HU Ht Sh0 Sh Hfi Hr L HL Hd n.
  pose proof (chain_small N HN Hf) as N52. pose proof (C106_table garbage fsin N filling (wave_sine _ FS) N52 Hfi) as Tab.
  assert (E0 : 0 <= IZR N / 2 ^ 49) by (apply Rmult_le_pos; [apply IZR_le; lia|left; apply Rinv_0_lt_compat, pow2_pos]).
  pose proof (fun coef (P : phases_near (IZR N / 2 ^ 49) coef N (fun a => filling * PI * IZR a)) => C96_chain sort garbage sched N J U filling _ (/ 2 ^ 48) coef _ dt t_end interval steps Hs HN Hf HJ HU Ht Sh Hfi small48 Tab E0 P Hr HL Hd) as Run. cbv zeta in Run. fold L n in Run.
  unfold f_main_jump_1d, with_factors. destruct (f_factors_1d garbage fcos fsin N s (f_fermi_momentum garbage filling)) as [r|] eqn:E.
  - destruct (C107_factors_1d garbage fcos fsin N T s filling r FC FS N52 Hfi Sh0 E) as (coef & -> & P). exact (Run coef P).
  - assert (Dn : / 2 ^ 53 <= IZR N / 2 ^ 49). { unfold Rdiv. assert (/ 2 ^ 49 = 16 * u) as -> by (rewrite (half_pow 49 53) by lia; cbn [Nat.sub pow]; ring). assert (1 <= IZR N) by (apply IZR_le; lia). pose proof u_small as U0. assert (1 * (16 * u) <= IZR N * (16 * u)) by (apply Rmult_le_compat_r; lra). lra. }
    destruct (Run _ (more_phases _ _ _ _ _ Dn (C96_phases N _ ltac:(lia)))) as (m & y & o & A & B & _).
    exists m, y, None. split; [exact A|]. split; [exact B|]. split; [exists 0%nat; intros; reflexivity|]. discriminate.
Qed.
(** hubbard_real_2d_rk4_jump on N x N sites *)
Theorem C107_jump_2d : forall garbage fcos fsin sort T s sched N J U kx ky dt t_end interval steps,
  accurate_wave fcos cos -> accurate_wave fsin sin ->
  sorts_by_column sort -> (3 <= N)%Z -> fits3 (square_lattice N N) (N * N) -> is_double J -> is_double (U / 2) -> double_times garbage dt t_end interval steps ->
  Rabs kx <= 2 ^ 900 -> Rabs ky <= 2 ^ 900 -> shares T 0 (N * N) s -> shared_jump (N * N) sched ->
  (forall k, IZR (N * N * (N * N) + N * N + Z.of_nat (threads (sched k)) + 6) <= 2 ^ 50) ->
  let L := 12 * Rabs J + Rabs U in L <= 2 ^ 500 -> dt ^ 2 * L ^ 2 <= 8 ->
  let n := (N * N + N * N * (N * N) * (N * N))%Z in
  exists m y o, init_matrix sort (real J : CR) (real U) (real (1/2)) (square_lattice N N) = Ok m /\
    the_solution n (entry (bm_scale imag_unit m)) y /\
    terminates_with (f_main_jump_2d garbage fcos fsin sort s sched N N J U kx ky dt t_end interval) (Ok o) /\
    forall r, o = Some r -> exists lines, r = Ok lines /\
      Forall2 (fun k line => fst line = time_at (to_double garbage) dt k /\ Rabs (fst line - INR k * dt) <= INR k * INR steps * dt / 2 ^ 52 /\
        Rabs (snd line - jump (N * N) (sea_square N) (phase_square N kx ky) (y (INR k * dt))) <=
          printed_error n L dt (/ 2 ^ 48) ((IZR N * (Rabs kx + Rabs ky) + 1) / 2 ^ 51) k (N * N * (N * N) + N * N + Z.of_nat (threads (sched k)) + 6))
        (written interval steps) lines.
Proof.
  intros garbage fcos fsin sort T s sched N J U kx ky dt t_end interval steps FC FS Hs HN Hf HJ HU Ht Kx Ky Sh0 Sh Hr L HL Hd n.
  pose proof (square_small N HN Hf) as N31. pose proof (C107_square_table garbage fsin N (wave_sine _ FS) ltac:(lia)) as Tab.
  set (eps := (IZR N * (Rabs kx + Rabs ky) + 1) / 2 ^ 51). assert (P0 : 0 <= IZR N * (Rabs kx + Rabs ky)) by (apply Rmult_le_pos; [apply IZR_le; lia|pose proof (Rabs_pos kx); pose proof (Rabs_pos ky); lra]).
  assert (Dn : / 2 ^ 53 <= eps). { unfold eps, Rdiv. assert (/ 2 ^ 51 = 4 * u) as -> by (rewrite (half_pow 51 53) by lia; cbn [Nat.sub pow]; ring). pose proof u_small as U0. assert (1 * (4 * u) <= (IZR N * (Rabs kx + Rabs ky) + 1) * (4 * u)) by (apply Rmult_le_compat_r; lra). lra. }
  assert (E0 : 0 <= eps) by (pose proof u_small; lra).
  pose proof (fun coef (P : phases_near eps coef (N * N) (phase_square N kx ky)) => C96_square sort garbage sched N J U kx ky _ (/ 2 ^ 48) coef _ dt t_end interval steps Hs HN Hf HJ HU Ht Sh small48 Tab E0 P Hr HL Hd) as Run. cbv zeta in Run. fold L n in Run.
  unfold f_main_jump_2d, with_factors. destruct (f_factors_2d garbage fcos fsin (basis3 (square_lattice N N)) N (N * N) s (kx, ky)) as [r|] eqn:E.
  - destruct (C107_factors_2d garbage fcos fsin N T s kx ky r FC FS N31 Kx Ky Sh0 E) as (coef & -> & P). exact (Run coef P).
  - destruct (Run _ (more_phases _ _ _ _ _ Dn (C96_phases (N * N) _ ltac:(nia)))) as (m & y & o & A & B & _).
    exists m, y, None. split; [exact A|]. split; [exact B|]. split; [exists 0%nat; intros; reflexivity|]. discriminate.
Qed.
Print Assumptions C107_jump_2d.

(** for every distribution of the iterations there are interleavings with which all loops finish *)
Theorem C107_jump_1d_completes : forall garbage fcos fsin sort N J U filling dt t_end interval steps T0 w0 T w1 w2,
  accurate_wave fcos cos -> accurate_wave fsin sin ->
  sorts_by_column sort -> (3 <= N)%Z -> fits3 (chain_lattice N) N -> is_double J -> is_double (U / 2) -> double_times garbage dt t_end interval steps ->
  0 <= filling <= 1 -> (length w0 <= T0)%nat -> Permutation (concat w0) (zrange 0 N) ->
  let L := 6 * Rabs J + Rabs U in L <= 2 ^ 500 -> dt ^ 2 * L ^ 2 <= 8 ->
  exists s sched o, who s = w0 /\
    (forall k, threads (sched k) = T /\ who (loop1 (sched k)) = w1 /\ who (loop2 (sched k)) = w2) /\
    terminates_with (f_main_jump_1d garbage fcos fsin sort s sched N J U filling dt t_end interval) (Ok o) /\ o <> None.
Proof.
  intros garbage fcos fsin sort N J U filling dt t_end interval steps T0 w0 T w1 w2 FC FS Hs HN Hf HJ HU Ht Hfi W0 W1 L HL Hd.
  unfold f_main_jump_1d, f_factors_1d, fill. match goal with |- context [par_for _ ?b ?m] => set (f1 := b); set (m0 := m) end.
  destruct (par_for_finishes (K := cplx_ring Rring) w0 f1 m0) as (t0 & P1). exists (mkSch w0 t0).
  destruct (par_for (K := cplx_ring Rring) (mkSch w0 t0) f1 m0) as [r|] eqn:E; [|congruence].
  destruct (C107_factors_1d garbage fcos fsin N T0 (mkSch w0 t0) filling r FC FS (chain_small N HN Hf) Hfi (conj W0 W1) E) as (coef & -> & _). cbn [with_factors].
  destruct (C96_chain_completes sort garbage N J U (f_init_ev1 garbage fsin N 1 filling) coef dt t_end interval steps T w1 w2 Hs HN Hf HJ HU Ht HL Hd) as (sched & o & A & B & C).
  exists sched, o. split; [reflexivity|]. split; [exact A|]. split; [exact B|exact C].
Qed.
Theorem C107_jump_2d_completes : forall garbage fcos fsin sort N J U kx ky dt t_end interval steps T0 w0 T w1 w2,
  accurate_wave fcos cos -> accurate_wave fsin sin ->
  sorts_by_column sort -> (3 <= N)%Z -> fits3 (square_lattice N N) (N * N) -> is_double J -> is_double (U / 2) -> double_times garbage dt t_end interval steps ->
  Rabs kx <= 2 ^ 900 -> Rabs ky <= 2 ^ 900 -> (length w0 <= T0)%nat -> Permutation (concat w0) (zrange 0 (N * N)) ->
  let L := 12 * Rabs J + Rabs U in L <= 2 ^ 500 -> dt ^ 2 * L ^ 2 <= 8 ->
  exists s sched o, who s = w0 /\
    (forall k, threads (sched k) = T /\ who (loop1 (sched k)) = w1 /\ who (loop2 (sched k)) = w2) /\
    terminates_with (f_main_jump_2d garbage fcos fsin sort s sched N N J U kx ky dt t_end interval) (Ok o) /\ o <> None.
Proof.
  intros garbage fcos fsin sort N J U kx ky dt t_end interval steps T0 w0 T w1 w2 FC FS Hs HN Hf HJ HU Ht Kx Ky W0 W1 L HL Hd.
  unfold f_main_jump_2d, f_factors_2d, fill. match goal with |- context [par_for _ ?b ?m] => set (f1 := b); set (m0 := m) end.
  destruct (par_for_finishes (K := cplx_ring Rring) w0 f1 m0) as (t0 & P1). exists (mkSch w0 t0).
  destruct (par_for (K := cplx_ring Rring) (mkSch w0 t0) f1 m0) as [r|] eqn:E; [|congruence].
  destruct (C107_factors_2d garbage fcos fsin N T0 (mkSch w0 t0) kx ky r FC FS (square_small N HN Hf) Kx Ky (conj W0 W1) E) as (coef & -> & _). cbn [with_factors].
  destruct (C96_square_completes sort garbage N J U (f_ev2_table garbage fsin N N) coef dt t_end interval steps T w1 w2 Hs HN Hf HJ HU Ht HL Hd) as (sched & o & A & B & C).
  exists sched, o. split; [reflexivity|]. split; [exact A|]. split; [exact B|exact C].
Qed.
Print Assumptions C107_jump_2d_completes.
(** the correctly rounded functions are accurate *)
Theorem C107_waves : accurate_wave best_cosine cos /\ accurate_wave best_sine sin.
Proof.
  assert (Q : forall v, Rabs v <= 1 -> Rabs (round_double v - v) <= / 2 ^ 52 * Rabs v + / 2 ^ 1075 /\ Rabs (round_double v) <= 1).
  { intros v Hv. assert (B : Rabs v <= 2 ^ 1023) by (eapply Rle_trans; [exact Hv|apply pow_R1_Rle; lra]). split.
    - destruct (double_ok (fun _ => 0) v 1) as (_ & M & _). unfold within in M. rewrite Rmult_1_r in M. specialize (M B). cbn [double_arith f_mul] in M. rewrite Rmult_1_r in M.
      rewrite double_round in M by (change 1023%Z with (Z.of_nat 1023); rewrite bp; exact B). eapply Rle_trans; [exact M|]. apply Rplus_le_compat_r, Rmult_le_compat_r; [apply Rabs_pos|]. apply Rinv_le_contravar; [apply pow2_pos|apply Rle_pow; [lra|lia]].
    - unfold round_double. apply abs_round_le_generic; [apply FLT_exp_valid; reflexivity|apply valid_rnd_N|apply (double_int 1); reflexivity|exact Hv]. }
  split; intros x; apply Q; [apply cos_1|apply sin_1].
Qed.
Example C107_applies : (3 <= 3)%Z /\ fits3 (chain_lattice 3) 3 /\ fits3 (square_lattice 3 3) (3 * 3) /\ sorts_by_column (K := CR) isort /\ accurate_sine best_sine /\
  Permutation (concat [[0%Z; 2%Z]; [1%Z]]) (zrange 0 3).
Proof.
  split; [lia|]. split; [vm_compute; reflexivity|]. split; [vm_compute; reflexivity|]. split; [apply isort_ok|]. split; [apply wave_sine, C107_waves|]. cbn. apply perm_skip, perm_swap.
Qed.
