(** THEOREMS: C94 (the real-space programs with every double rounded). *)
From Coq Require Import Reals Lra Psatz.
From Verif Require Import Base M_Operator M_Lattice Spec_Lattice Pf_Lattice Spec_LatticeReal M_Basis Pf_Basis P_Basis M_Matrix M_Ode M_Dispersion M_OpenMP Spec_OpenMP M_Expectation P_Expectation M_SiteOccupation Pf_SiteOccupation P_SiteOccupation
  M_TimeLoop Spec_TimeLoop Pf_Matrix Spec_Matrix Pf_Matrix2 P_Matrix Spec_Stability Pf_Stability Pf_Stability2 Pf_Stability3 P_Stability Spec_Programs M_Programs Pf_Programs Pf_Programs2 P_Programs
  M_Rounding M_Double P_Rounding M_RoundedMeasurement Pf_RoundedMeasurement5 P_RoundedMeasurement P_RoundedMeasurement2 P_RoundedMeasurement4 M_DoublePrograms Pf_DoubleTime Spec_DoublePrograms Pf_DoublePrograms.
Local Open Scope R_scope.
Local Open Scope list_scope.
Local Notation len u := (Z.of_nat (length u)).

Lemma small_step k : INR k <= 2 ^ 24 -> INR k * (1 / 2 ^ 41 + / 2 ^ 925) <= INR k / 2 ^ 40 /\ INR k * (1 / 2 ^ 41 + / 2 ^ 925) <= / 2 ^ 16.
Proof.
  intros H. assert (Q : 1 / 2 ^ 41 + / 2 ^ 925 <= / 2 ^ 40).
  { assert (/ 2 ^ 925 <= / 2 ^ 41) by (apply Rinv_le_contravar; [apply pow_lt; lra|apply Rle_pow; [lra|lia]]). lra. }
  pose proof (pos_INR k). assert (0 <= 1 / 2 ^ 41 + / 2 ^ 925).
  { assert (0 < / 2 ^ 925) by (apply Rinv_0_lt_compat, pow_lt; lra). lra. }
  split; [unfold Rdiv; apply Rmult_le_compat_l; assumption|].
  apply Rle_trans with (2 ^ 24 * / 2 ^ 40); [apply Rmult_le_compat; assumption|]. lra.
Qed.
Lemma norm_two h : length2 h <= 1 + / 2 ^ 16 -> norm2 h <= 2.
Proof.
  intros H. assert (P : 0 <= norm2 h) by apply norm2_pos. unfold length2 in H. rewrite <- (sqrt_sqrt (norm2 h) P). pose proof (sqrt_pos (norm2 h)). nra.
Qed.
(** set-up shared by the two groups of programs *)
Lemma full_double_lines sort garbage N J U dt t_end interval steps :
  sorts_by_column sort -> (3 <= N)%Z -> fits3 (chain_lattice N) N -> is_double J -> is_double (U / 2) -> double_times garbage dt t_end interval steps ->
  let L := 6 * Rabs J + Rabs U in L <= 2 ^ 500 -> dt ^ 2 * L ^ 2 <= 8 ->
  let n := (N + N * N * N)%Z in
  Z.of_nat (length (basis3 (chain_lattice N))) = n /\
  exists m y h, init_matrix sort (real J : CR) (real U) (real (1/2)) (chain_lattice N) = Ok m /\
    the_solution n (entry (bm_scale imag_unit m)) y /\
    (forall (O : Type) (obs : f_progress -> O), terminates_with (f_run_main garbage n dt t_end interval (f_compute_full garbage sort N J U) obs)
      (Ok (map (fun k => (time_at (to_double garbage) dt k, obs (mkFP k (h k)))) (written interval steps)))) /\
    (forall i, (0 <= i < n)%Z -> vget (h 0%nat) i = first_unit i) /\
    (forall t, n2 (idx n) (vecf (y t)) = 1) /\
    forall k, (k <= steps)%nat -> len (h k) = n /\ norm2 (h k) <= 2 /\
      distance2 (h k) (y (INR k * dt)) <= INR k * dt * dt ^ 4 * L ^ 5 / 120 + INR k / 2 ^ 40.
Proof.
  intros Hs HN Hf HJ HU Ht L HL Hd n.
  pose proof (double_times_ok garbage dt t_end interval steps Ht) as Tok.
  destruct (full_lines sort rel_double (/ 2 ^ 53) (mkSt (K := CR) [] [] [] []) N J U dt t_end interval steps Hs HN Hf Tok Hd) as (Eb & m & y & _ & Em & Y & _ & _ & NY & _).
  split; [exact Eb|].
  assert (Nn : (0 < n)%Z) by (unfold n; nia). destruct (init_vector_unit n Nn) as (h0 & E0 & L0 & V0). pose proof (unit_norm n h0 Nn L0 V0) as N0.
  assert (Hl : shipped3 (chain_lattice N) N) by (constructor; unfold fits3 in Hf; cbn [lat_coordination chain_lattice] in Hf; nia).
  assert (EL : 3 * neighbours (chain_lattice N) * Rabs J + Rabs U = L) by (unfold L, neighbours; cbn [lat_coordination chain_lattice]; ring).
  pose proof Ht as (Hb & Hst & _ & _). assert (D0 : 0 < / 2 ^ 1000) by (apply Rinv_0_lt_compat, pow_lt; lra). assert (Hb' : / 2 ^ 1000 <= Rabs dt <= 2 ^ 100) by (rewrite Rabs_pos_eq; lra).
  destruct (C91_full_error sort J U (chain_lattice N) N garbage dt Hs Hl Hf HJ HU) as (m' & Em' & H); [rewrite EL; exact HL|rewrite EL; exact Hd|exact Hb|]. rewrite Em in Em'. injection Em' as <-.
  destruct (C91_full sort J U (chain_lattice N) N garbage 0%Z dt Hs Hl Hf HJ HU) as (m' & Em' & H'); [rewrite EL; exact HL|rewrite EL; exact Hd|exact Hb'|]. rewrite Em in Em'. injection Em' as <-.
  exists m, y, (fun k => fprogram_run (double_arith garbage) dt m k h0). split; [exact Em|]. split; [exact Y|]. split; [|split; [exact V0|split; [exact NY|]]].
  - intros O obs. unfold f_compute_full. rewrite Em. cbn [obind]. exact (f_lines garbage dt t_end interval steps n m h0 Ht E0 O obs).
  - intros k Hk. assert (Hk' : INR k <= 2 ^ 24) by (apply Rle_trans with (INR steps); [apply le_INR; exact Hk|exact Hst]).
    assert (Hk4 : INR k <= 2 ^ 40) by (apply Rle_trans with (2 ^ 24); [exact Hk'|apply Rle_pow; [lra|lia]]).
    assert (L2 : length2 h0 = 1) by (unfold length2; rewrite N0; apply sqrt_1).
    assert (L2' : length2 h0 <= 2 ^ 200) by (rewrite L2; apply pow_R1_Rle; lra).
    destruct Y as (Y1 & Y2 & _).
    destruct (H k h0 y L0 Hk4 L2' Y1) as [Q1 Q2]; [intros i Hi; rewrite (Y2 i Hi); symmetry; apply V0; exact Hi|]. rewrite EL, L2 in Q1. rewrite L2 in Q2. destruct (small_step k Hk') as [S1 S2].
    set (sts := repeat (mkSt (K := CR) [] [] [] []) k). assert (Ek : length sts = k) by apply repeat_length. specialize (H' sts h0 L0). rewrite Ek in H'. destruct (H' Hk4 L2') as [E1 _]. rewrite L0 in E1.
    split; [exact E1|]. split; [apply norm_two; lra|]. lra.
Qed.
Lemma kinetic_double_lines sort garbage N J dt t_end interval steps :
  sorts_by_column sort -> (3 <= N)%Z -> (N * 2 < two64)%Z -> is_double J -> double_times garbage dt t_end interval steps ->
  let L := 2 * Rabs J in L <= 2 ^ 500 -> dt ^ 2 * L ^ 2 <= 8 ->
  Z.of_nat (length (basis1 (chain_lattice N))) = N /\
  exists m y h, init_kinetic_matrix sort (real J : CR) (chain_lattice N) = Ok m /\
    the_solution N (entry (bm_scale imag_unit m)) y /\
    (forall (O : Type) (obs : f_progress -> O), terminates_with (f_run_main garbage N dt t_end interval (f_compute_kinetic garbage sort N J) obs)
      (Ok (map (fun k => (time_at (to_double garbage) dt k, obs (mkFP k (h k)))) (written interval steps)))) /\
    (forall i, (0 <= i < N)%Z -> vget (h 0%nat) i = first_unit i) /\
    (forall t, n2 (idx N) (vecf (y t)) = 1) /\
    forall k, (k <= steps)%nat -> len (h k) = N /\ norm2 (h k) <= 2 /\
      distance2 (h k) (y (INR k * dt)) <= INR k * dt * dt ^ 4 * L ^ 5 / 120 + INR k / 2 ^ 40.
Proof.
  intros Hs HN Hf HJ Ht L HL Hd.
  pose proof (double_times_ok garbage dt t_end interval steps Ht) as Tok.
  destruct (kinetic_lines sort rel_double (/ 2 ^ 53) (mkSt (K := CR) [] [] [] []) N J dt t_end interval steps Hs HN Hf Tok Hd) as (Eb & m & y & _ & Em & Y & _ & _ & NY & _).
  split; [exact Eb|].
  assert (Nn : (0 < N)%Z) by lia. destruct (init_vector_unit N Nn) as (h0 & E0 & L0 & V0). pose proof (unit_norm N h0 Nn L0 V0) as N0.
  assert (Hl : shipped3 (chain_lattice N) N) by (constructor; lia).
  assert (EL : neighbours (chain_lattice N) * Rabs J = L) by reflexivity.
  pose proof Ht as (Hb & Hst & _ & _). assert (D0 : 0 < / 2 ^ 1000) by (apply Rinv_0_lt_compat, pow_lt; lra). assert (Hb' : / 2 ^ 1000 <= Rabs dt <= 2 ^ 100) by (rewrite Rabs_pos_eq; lra).
  destruct (C91_kinetic_error sort J (chain_lattice N) N garbage dt Hs Hl Hf HJ) as (m' & Em' & H); [rewrite EL; exact HL|rewrite EL; exact Hd|exact Hb|]. rewrite Em in Em'. injection Em' as <-.
  destruct (C91_kinetic sort J (chain_lattice N) N garbage 0%Z dt Hs Hl Hf HJ) as (m' & Em' & H'); [rewrite EL; exact HL|rewrite EL; exact Hd|exact Hb'|]. rewrite Em in Em'. injection Em' as <-.
  exists m, y, (fun k => fprogram_run (double_arith garbage) dt m k h0). split; [exact Em|]. split; [exact Y|]. split; [|split; [exact V0|split; [exact NY|]]].
  - intros O obs. unfold f_compute_kinetic. rewrite Em. cbn [obind]. exact (f_lines garbage dt t_end interval steps N m h0 Ht E0 O obs).
  - intros k Hk. assert (Hk' : INR k <= 2 ^ 24) by (apply Rle_trans with (INR steps); [apply le_INR; exact Hk|exact Hst]).
    assert (Hk4 : INR k <= 2 ^ 40) by (apply Rle_trans with (2 ^ 24); [exact Hk'|apply Rle_pow; [lra|lia]]).
    assert (L2 : length2 h0 = 1) by (unfold length2; rewrite N0; apply sqrt_1).
    assert (L2' : length2 h0 <= 2 ^ 200) by (rewrite L2; apply pow_R1_Rle; lra).
    destruct Y as (Y1 & Y2 & _).
    destruct (H k h0 y L0 Hk4 L2' Y1) as [Q1 Q2]; [intros i Hi; rewrite (Y2 i Hi); symmetry; apply V0; exact Hi|]. rewrite EL, L2 in Q1. rewrite L2 in Q2. destruct (small_step k Hk') as [S1 S2].
    set (sts := repeat (mkSt (K := CR) [] [] [] []) k). assert (Ek : length sts = k) by apply repeat_length. specialize (H' sts h0 L0). rewrite Ek in H'. destruct (H' Hk4 L2') as [E1 _]. rewrite L0 in E1.
    split; [exact E1|]. split; [apply norm_two; lra|]. lra.
Qed.

(** ** C94: the lines of the coefficient programs in double precision.  Times: at most 2 k steps 2^-53 relative
    to k dt; coefficients: discretisation error plus 2^-40 per step *)
Lemma time_close garbage dt t_end interval steps k : double_times garbage dt t_end interval steps -> (k <= steps)%nat ->
  Rabs (time_at (to_double garbage) dt k - INR k * dt) <= INR k * INR steps * dt / 2 ^ 52.
Proof.
  intros Ht Hk. destruct (double_times_ok garbage dt t_end interval steps Ht) as (T1 & T2 & T3 & T4 & _). destruct Ht as (Hd & Hn & _).
  rewrite (time_double garbage dt steps Hd Hn k Hk). eapply Rle_trans; [apply (P_TimeLoop.time_error rel_double (/ 2 ^ 53) dt steps T1 T2 T3 T4 k Hk)|]. apply Req_le. field.
Qed.
Theorem C94_coefficients_full : forall sort garbage N J U dt t_end interval steps,
  sorts_by_column sort -> (3 <= N)%Z -> fits3 (chain_lattice N) N -> is_double J -> is_double (U / 2) -> double_times garbage dt t_end interval steps ->
  let L := 6 * Rabs J + Rabs U in L <= 2 ^ 500 -> dt ^ 2 * L ^ 2 <= 8 ->
  let n := (N + N * N * N)%Z in
  exists m y h, init_matrix sort (real J : CR) (real U) (real (1/2)) (chain_lattice N) = Ok m /\
    the_solution n (entry (bm_scale imag_unit m)) y /\
    terminates_with (f_coefficients_full garbage sort N J U dt t_end interval) (Ok (map (fun k => (time_at (to_double garbage) dt k, h k)) (written interval steps))) /\
    (forall i, (0 <= i < n)%Z -> vget (h 0%nat) i = first_unit i) /\
    forall k, (k <= steps)%nat -> Rabs (time_at (to_double garbage) dt k - INR k * dt) <= INR k * INR steps * dt / 2 ^ 52 /\
      len (h k) = n /\ distance2 (h k) (y (INR k * dt)) <= INR k * dt * dt ^ 4 * L ^ 5 / 120 + INR k / 2 ^ 40.
Proof.
  intros sort garbage N J U dt t_end interval steps Hs HN Hf HJ HU Ht L HL Hd n.
  destruct (full_double_lines sort garbage N J U dt t_end interval steps Hs HN Hf HJ HU Ht HL Hd) as (Eb & m & y & h & Em & Y & Te & S0 & _ & S1).
  exists m, y, h. split; [exact Em|]. split; [exact Y|]. split; [|split; [exact S0|]].
  - unfold f_coefficients_full. rewrite Eb. apply Te.
  - intros k Hk. destruct (S1 k Hk) as (A & _ & B). split; [exact (time_close garbage dt t_end interval steps k Ht Hk)|]. split; assumption.
Qed.
Theorem C94_coefficients_kinetic : forall sort garbage N J dt t_end interval steps,
  sorts_by_column sort -> (3 <= N)%Z -> (N * 2 < two64)%Z -> is_double J -> double_times garbage dt t_end interval steps ->
  let L := 2 * Rabs J in L <= 2 ^ 500 -> dt ^ 2 * L ^ 2 <= 8 ->
  exists m y h, init_kinetic_matrix sort (real J : CR) (chain_lattice N) = Ok m /\
    the_solution N (entry (bm_scale imag_unit m)) y /\
    terminates_with (f_coefficients_kinetic garbage sort N J dt t_end interval) (Ok (map (fun k => (time_at (to_double garbage) dt k, h k)) (written interval steps))) /\
    (forall i, (0 <= i < N)%Z -> vget (h 0%nat) i = first_unit i) /\
    forall k, (k <= steps)%nat -> Rabs (time_at (to_double garbage) dt k - INR k * dt) <= INR k * INR steps * dt / 2 ^ 52 /\
      len (h k) = N /\ distance2 (h k) (y (INR k * dt)) <= INR k * dt * dt ^ 4 * L ^ 5 / 120 + INR k / 2 ^ 40.
Proof.
  intros sort garbage N J dt t_end interval steps Hs HN Hf HJ Ht L HL Hd.
  destruct (kinetic_double_lines sort garbage N J dt t_end interval steps Hs HN Hf HJ Ht HL Hd) as (Eb & m & y & h & Em & Y & Te & S0 & _ & S1).
  exists m, y, h. split; [exact Em|]. split; [exact Y|]. split; [|split; [exact S0|]].
  - unfold f_coefficients_kinetic. rewrite Eb. apply Te.
  - intros k Hk. destruct (S1 k Hk) as (A & _ & B). split; [exact (time_close garbage dt t_end interval steps k Ht Hk)|]. split; assumption.
Qed.

(** ** C94: the lines of the site occupation programs in double precision *)
Lemma nrm_two n h : len h = n -> norm2 h <= 2 -> nrm (idx n) (vec h) <= 2.
Proof.
  intros L H. rewrite (vec_n2 n _ L) in H. rewrite <- nrm_sq in H. pose proof (nrm_pos (idx n) (vec h)). nra.
Qed.
(** the three contributions to the error: coefficients, table, measurement *)
Lemma combine n w w' c ct D delta mu x (h : list CR) (y : Z -> CR) : (0 <= n)%Z -> 0 <= c -> 0 <= ct * delta -> len h = n -> norm2 h <= 2 -> n2 (idx n) (vecf y) = 1 ->
  (forall i j, (0 <= i < n)%Z -> (0 <= j < n)%Z -> Rabs (w i j) <= c) -> (forall i j, (0 <= i < n)%Z -> (0 <= j < n)%Z -> Rabs (w' i j - w i j) <= ct * delta) ->
  distance2 h y <= D -> Rabs (x - quad n w' (vget h)) <= mu ->
  Rabs (x - quad n w y) <= 3 * c * IZR n * D + 2 * ct * IZR n * delta + mu.
Proof.
  intros Hn Hc Hct Lh Nh Ny Hw Hw' HD Hmu. assert (PN : 0 <= IZR n) by (apply IZR_le; lia).
  pose proof (quad_near n w' w (ct * delta) (vget h) Hct Hw' Hn) as Q1. change (vecf (vget h)) with (vec h) in Q1. rewrite <- (vec_n2 n _ Lh) in Q1.
  assert (Q2 : ct * delta * IZR n * norm2 h <= ct * delta * IZR n * 2) by (apply Rmult_le_compat_l; [apply Rmult_le_pos; assumption|assumption]).
  pose proof (quad_lip2 n w c (vget h) y Hc Hw Hn) as Q3. change (vecf (vget h)) with (vec h) in Q3. rewrite <- (distance_nrm n h y Lh) in Q3.
  pose proof (nrm_two n h Lh Nh) as B1. assert (B2 : nrm (idx n) (vecf y) = 1) by (unfold nrm; rewrite Ny; apply sqrt_1). rewrite B2 in Q3.
  pose proof (nrm_pos (idx n) (vec h)) as B0. assert (D0 : 0 <= distance2 h y) by apply sqrt_pos. assert (CN : 0 <= c * IZR n) by (apply Rmult_le_pos; assumption).
  assert (Q4 : c * IZR n * (nrm (idx n) (vec h) + 1) * distance2 h y <= c * IZR n * 3 * D).
  { apply Rmult_le_compat; [apply Rmult_le_pos; [exact CN|lra]|exact D0|apply Rmult_le_compat_l; [exact CN|lra]|exact HD]. }
  apply abs_inv in Q1, Q3, Hmu. apply Rabs_le. lra.
Qed.
(** one measurement: the double against the quadratic form of the table *)
Lemma measured1 garbage N rho (v : list CR) T s r : (0 < N < two64)%Z -> len v = N -> norm2 v <= 2 -> (forall a b, Rabs (rho a b) <= 1) ->
  (forall a b, site N a -> site N b -> rho a b = rho b a) -> shares T 0 N s -> IZR (N * N + Z.of_nat T + 6) <= 2 ^ 50 ->
  let b := basis1 (chain_lattice N) in
  f_site_occupation1 (double_arith garbage) (by_site (F := Rring) rho) b (conjugate_basis b) v T s = Some r ->
  exists z, r = Ok z /\ Rabs (fst z - quad N (overlap N rho) (vget v)) <= IZR (N * N + Z.of_nat T + 6) * IZR N / 2 ^ 50 + / 2 ^ 1000.
Proof.
  intros NP Lv Nv Hrho HR Hs HT b R. pose proof (chain_regular N NP) as HL.
  assert (Ln : length b = Z.to_nat N) by (unfold b; rewrite (basis1_len _ N HL); lia).
  assert (Ex : exists tr x, site_occupation1 (F := Rring) (1 / 2) (by_site (F := Rring) rho) b (conjugate_basis b) v 1 (mkSch [zrange 0 N] tr) = Some x).
  { unfold site_occupation1.
    match goal with |- exists tr x, pbind (par_reduce _ ?a ?z) _ = _ => destruct (Pf_OpenMP.par_reduce_finishes (K := cplx_ring Rring) [zrange 0 N] a z) as (tr & Q); exists tr;
      destruct (par_reduce (K := cplx_ring Rring) (mkSch [zrange 0 N] tr) a z) as [[q|]|] end; [eexists; reflexivity|eexists; reflexivity|contradiction]. }
  destruct Ex as (tr & x & Ex). pose proof (one_total (F := Rring) (1/2) rho (chain_lattice N) N v HL Lv _ _ _ (one_share 0 N tr) Ex) as Hx. rewrite (fst_total1 _ _ _ HR) in Hx. subst x.
  assert (NN : Z.of_nat (Z.to_nat N) = N) by lia.
  assert (KE : INR (Z.to_nat N * Z.to_nat N + T + 6) = IZR (N * N + Z.of_nat T + 6)) by (rewrite INR_IZR_INZ; f_equal; lia).
  assert (N4 : norm2 v <= 4) by lra.
  destruct (C93_double_one garbage (by_site (F := Rring) rho) b (conjugate_basis b) v T s 1 (mkSch [zrange 0 N] tr) (quad N (overlap N rho) (vget v), 0) r (fun a b => Hrho _ _) N4) as (z & -> & Hz);
    [rewrite Ln, KE; exact HT|rewrite Ln, NN; exact Hs|rewrite Ln, NN; apply one_share|exact Ex|exact R|].
  exists z. split; [reflexivity|]. rewrite Ln, KE in Hz. rewrite INR_IZR_INZ, NN in Hz. destruct Hz as [Hz _]. cbn [fst] in Hz. eapply Rle_trans; [exact Hz|].
  apply Rplus_le_compat_r. assert (P1 : 0 <= IZR (N * N + Z.of_nat T + 6)) by (apply IZR_le; nia). assert (P2 : 0 <= IZR N) by (apply IZR_le; lia).
  assert (Q : 2 * IZR N * norm2 v / 2 ^ 52 <= IZR N / 2 ^ 50).
  { assert (IZR N * norm2 v <= IZR N * 2) by (apply Rmult_le_compat_l; assumption). lra. }
  unfold Rdiv in *. rewrite !Rmult_assoc. apply Rmult_le_compat_l; [exact P1|]. rewrite <- !Rmult_assoc. exact Q.
Qed.
Theorem C94_kinetic : forall sort garbage order sched N J filling delta table dt t_end interval steps,
  sorts_by_column sort -> (3 <= N)%Z -> (N * 2 < two64)%Z -> is_double J -> double_times garbage dt t_end interval steps ->
  Permutation order (seq 0 (length (basis1 (chain_lattice N)))) -> shared_kinetic N sched -> 0 <= filling <= 1 ->
  0 <= delta -> table_near delta table (init_ev1 N 1 filling) ->
  (forall k, IZR (N * N + Z.of_nat (threads (sched k)) + 6) <= 2 ^ 50) ->
  let L := 2 * Rabs J in L <= 2 ^ 500 -> dt ^ 2 * L ^ 2 <= 8 ->
  exists m y o, init_kinetic_matrix sort (real J : CR) (chain_lattice N) = Ok m /\
    the_solution N (entry (bm_scale imag_unit m)) y /\
    terminates_with (f_occupation_kinetic garbage sort order sched N J table dt t_end interval) (Ok (map (fun k => (time_at (to_double garbage) dt k, o k)) (written interval steps))) /\
    forall k, (k <= steps)%nat -> Rabs (time_at (to_double garbage) dt k - INR k * dt) <= INR k * INR steps * dt / 2 ^ 52 /\
      forall r, o k = Some r -> exists x, r = Ok x /\
        Rabs (x - occupation N (sea N filling) N (y (INR k * dt))) <=
          3 * IZR N * (INR k * dt * dt ^ 4 * L ^ 5 / 120 + INR k / 2 ^ 40) + 2 * IZR N * delta
          + IZR (N * N + Z.of_nat (threads (sched k)) + 6) * IZR N / 2 ^ 50 + / 2 ^ 1000.
Proof.
  intros sort garbage order sched N J filling delta table dt t_end interval steps Hs HN Hf HJ Ht Ho Hsh Hfi Hde Htab Hk50 L HL Hd.
  destruct (kinetic_double_lines sort garbage N J dt t_end interval steps Hs HN Hf HJ Ht HL Hd) as (Eb & m & y & h & Em & Y & Te & S0 & NY & S1).
  set (b := basis1 (chain_lattice N)) in *. assert (H64 : (N < two64)%Z) by lia. assert (NP : (0 < N < two64)%Z) by lia.
  set (obs := fun s => let c := sched (f_steps_done s) in
         f_real_result (f_site_occupation1 (double_arith garbage) (f_program_ev N table) b (basis_get_conjugate order b) (f_coefficients s) (threads c) (loop1 c))).
  exists m, y, (fun k => obs (mkFP k (h k))). split; [exact Em|]. split; [exact Y|]. split; [unfold f_occupation_kinetic; fold b; rewrite Eb; apply Te|].
  intros k Hk. split; [exact (time_close garbage dt t_end interval steps k Ht Hk)|]. intros r E. unfold obs in E. cbn [f_steps_done f_coefficients] in E. cbv zeta in E.
  destruct (S1 k Hk) as (Lk & Nk & Dk). pose proof (Hsh k) as H1. set (c := sched k) in *. rewrite near_by_site in E.
  destruct (f_site_occupation1 (double_arith garbage) _ b _ (h k) (threads c) (loop1 c)) as [q|] eqn:Q in E; [|discriminate].
  rewrite (conjugate_all order b Ho) in Q.
  destruct (measured1 garbage N (near_value N table) (h k) (threads c) (loop1 c) q NP Lk Nk (near_le1 N filling delta table Htab) (near_sym N table H64) H1 (Hk50 k) Q) as (z & -> & Hz).
  cbn [f_real_result] in E. injection E as <-. exists (fst z). split; [reflexivity|]. rewrite occupation_quad.
  assert (OE : forall rho i j, (0 <= i < N)%Z -> (0 <= j < N)%Z -> overlap N rho i j = rho i j).
  { intros rho i j Hi Hj. unfold overlap. destruct (Z.ltb_spec i N); [|lia]. destruct (Z.ltb_spec j N); [reflexivity|lia]. }
  assert (ND : 0 <= 1 * delta) by lra. assert (N0 : (0 <= N)%Z) by lia.
  eapply Rle_trans; [apply (fun A B => combine N (overlap N (sea N filling)) (overlap N (near_value N table)) 1 1 _ delta _ (fst z) (h k) (y (INR k * dt)) N0 Rle_0_1 ND Lk Nk (NY _) A B Dk Hz)|..].
  - intros i j Hi Hj. rewrite OE by assumption. apply sea_le; assumption || lia.
  - intros i j Hi Hj. rewrite !OE by assumption. rewrite Rmult_1_l. apply (near_sea N filling delta table H64 Htab); assumption.
  - apply Req_le. change (2 * Rabs J) with L. ring.
Qed.
Lemma measured3 garbage N rho (v : list CR) T s1 s2 s3 r : (0 < N < two64)%Z -> let S := (N + N * N * N)%Z in (S < two64)%Z -> len v = S -> norm2 v <= 2 -> (forall a b, Rabs (rho a b) <= 1) ->
  (forall a b, site N a -> site N b -> rho a b = rho b a) -> shares T 0 N s1 -> shares T 0 N s2 -> shares T N S s3 -> IZR (S * S + Z.of_nat T + 12) <= 2 ^ 50 ->
  let b := basis3 (chain_lattice N) in
  f_site_occupation3 (double_arith garbage) (by_site (F := Rring) rho) b (conjugate_basis b) v true N T s1 s2 s3 = Some r ->
  exists z, r = Ok z /\ Rabs (fst z - quad S (overlap N rho) (vget v)) <= 17 * IZR (S * S + Z.of_nat T + 12) * IZR S / 2 ^ 50 + / 2 ^ 1000.
Proof.
  intros NP S HS Lv Nv Hrho HR Hs1 Hs2 Hs3 HT b R. pose proof (chain_regular N NP) as HL.
  assert (SP : (0 <= N <= S)%Z) by (unfold S; nia).
  assert (Ln : length b = Z.to_nat S) by (unfold b; rewrite (basis3_len _ N HL); unfold S; nia).
  destruct (C44_site_occupation_completes Rring (1 / 2) rho b (conjugate_basis b) v true N 1 [zrange 0 N] [zrange 0 N] [zrange N S]) as (t1 & t2 & t3 & Ex).
  destruct (site_occupation3 (F := Rring) (1 / 2) (by_site (F := Rring) rho) b (conjugate_basis b) v true N 1 (mkSch [zrange 0 N] t1) (mkSch [zrange 0 N] t2) (mkSch [zrange N S] t3)) as [x|] eqn:Er; [|congruence].
  pose proof (symmetric_total (F := Rring) (1/2) rho (chain_lattice N) N v HL HS Lv _ _ _ _ _ HR (one_share 0 N t1) (one_share 0 N t2) (one_share N S t3) Er) as Hx. subst x.
  assert (NN : Z.of_nat (Z.to_nat S) = S) by lia.
  assert (KE : INR (Z.to_nat S * Z.to_nat S + T + 12) = IZR (S * S + Z.of_nat T + 12)) by (rewrite INR_IZR_INZ; f_equal; lia).
  assert (N4 : norm2 v <= 4) by lra.
  destruct (C93_double_three garbage (by_site (F := Rring) rho) b (conjugate_basis b) v true N T s1 s2 s3 1 (mkSch [zrange 0 N] t1) (mkSch [zrange 0 N] t2) (mkSch [zrange N S] t3) (Pf_SiteOccupation.total (F := Rring) (1/2) rho N v) r (fun a b => Hrho _ _) N4) as (z & -> & Hz);
    [rewrite Ln, KE; exact HT|rewrite Ln, NN; exact SP|exact Hs1|exact Hs2|rewrite Ln, NN; exact Hs3|apply one_share|apply one_share|rewrite Ln, NN; apply one_share|exact Er|exact R|].
  exists z. split; [reflexivity|]. rewrite Ln, KE in Hz. rewrite INR_IZR_INZ, NN in Hz. destruct Hz as [Hz _]. rewrite fst_total in Hz. fold S in Hz. eapply Rle_trans; [exact Hz|].
  apply Rplus_le_compat_r. assert (P1 : 0 <= IZR (S * S + Z.of_nat T + 12)) by (apply IZR_le; nia). assert (P2 : 0 <= IZR S) by (apply IZR_le; lia).
  assert (Q : 34 * IZR S * norm2 v / 2 ^ 52 <= 17 * IZR S / 2 ^ 50).
  { assert (IZR S * norm2 v <= IZR S * 2) by (apply Rmult_le_compat_l; assumption). lra. }
  apply Rle_trans with (IZR (S * S + Z.of_nat T + 12) * (17 * IZR S / 2 ^ 50)); [|apply Req_le; field].
  unfold Rdiv at 1. rewrite Rmult_assoc. apply Rmult_le_compat_l; [exact P1|exact Q].
Qed.
Theorem C94_full : forall sort garbage order sched N J U filling delta table dt t_end interval steps,
  sorts_by_column sort -> (3 <= N)%Z -> fits3 (chain_lattice N) N -> is_double J -> is_double (U / 2) -> double_times garbage dt t_end interval steps ->
  Permutation order (seq 0 (length (basis3 (chain_lattice N)))) -> shared_full N sched -> 0 <= filling <= 1 ->
  0 <= delta -> table_near delta table (init_ev1 N 1 filling) ->
  let n := (N + N * N * N)%Z in (forall k, IZR (n * n + Z.of_nat (threads (sched k)) + 12) <= 2 ^ 50) ->
  let L := 6 * Rabs J + Rabs U in L <= 2 ^ 500 -> dt ^ 2 * L ^ 2 <= 8 ->
  exists m y o, init_matrix sort (real J : CR) (real U) (real (1/2)) (chain_lattice N) = Ok m /\
    the_solution n (entry (bm_scale imag_unit m)) y /\
    terminates_with (f_occupation_full garbage sort order sched N J U table dt t_end interval) (Ok (map (fun k => (time_at (to_double garbage) dt k, o k)) (written interval steps))) /\
    forall k, (k <= steps)%nat -> Rabs (time_at (to_double garbage) dt k - INR k * dt) <= INR k * INR steps * dt / 2 ^ 52 /\
      forall r, o k = Some r -> exists x, r = Ok x /\
        Rabs (x - occupation N (sea N filling) n (y (INR k * dt))) <=
          15 * IZR n * (INR k * dt * dt ^ 4 * L ^ 5 / 120 + INR k / 2 ^ 40) + 42 * IZR n * delta
          + 17 * IZR (n * n + Z.of_nat (threads (sched k)) + 12) * IZR n / 2 ^ 50 + / 2 ^ 1000.
Proof.
  intros sort garbage order sched N J U filling delta table dt t_end interval steps Hs HN Hf HJ HU Ht Ho Hsh Hfi Hde Htab n Hk50 L HL Hd.
  destruct (full_double_lines sort garbage N J U dt t_end interval steps Hs HN Hf HJ HU Ht HL Hd) as (Eb & m & y & h & Em & Y & Te & S0 & NY & S1). fold n in Eb, NY, S1.
  assert (H64 : (N < two64)%Z) by (unfold fits3 in Hf; cbn [lat_coordination chain_lattice] in Hf; nia). assert (NP : (0 < N < two64)%Z) by lia.
  assert (Hl : shipped3 (chain_lattice N) N) by (constructor; lia).
  pose proof (fits3_S3 _ _ (shipped3_graph _ _ Hl) Hf) as HS.
  set (b := basis3 (chain_lattice N)) in *.
  set (obs := fun s => let c := sched (f_steps_done s) in
         f_real_result (f_site_occupation3 (double_arith garbage) (f_program_ev N table) b (basis_get_conjugate order b) (f_coefficients s) true N (threads c) (loop1 c) (loop2 c) (loop3 c))).
  exists m, y, (fun k => obs (mkFP k (h k))). split; [exact Em|]. split; [exact Y|]. split; [unfold f_occupation_full; fold b; rewrite Eb; apply Te|].
  intros k Hk. split; [exact (time_close garbage dt t_end interval steps k Ht Hk)|]. intros r E. unfold obs in E. cbn [f_steps_done f_coefficients] in E. cbv zeta in E.
  destruct (S1 k Hk) as (Lk & Nk & Dk). destruct (Hsh k) as (H1 & H2 & H3). pose proof (Hk50 k) as Hk50'. set (c := sched k) in *. rewrite near_by_site in E.
  destruct (f_site_occupation3 (double_arith garbage) _ b _ (h k) true N (threads c) (loop1 c) (loop2 c) (loop3 c)) as [q|] eqn:Q in E; [|discriminate].
  rewrite (conjugate_all order b Ho) in Q.
  destruct (measured3 garbage N (near_value N table) (h k) (threads c) (loop1 c) (loop2 c) (loop3 c) q NP HS Lk Nk (near_le1 N filling delta table Htab) (near_sym N table H64) H1 H2 H3 Hk50' Q) as (z & -> & Hz). fold n in Hz.
  cbn [f_real_result] in E. injection E as <-. exists (fst z). split; [reflexivity|]. rewrite occupation_quad.
  assert (ND : 0 <= 21 * delta) by lra. assert (N0 : (0 <= n)%Z) by (unfold n; nia). assert (P5 : 0 <= 5) by lra.
  eapply Rle_trans; [apply (fun A B => combine n (overlap N (sea N filling)) (overlap N (near_value N table)) 5 21 _ delta _ (fst z) (h k) (y (INR k * dt)) N0 P5 ND Lk Nk (NY _) A B Dk Hz)|..].
  - intros i j Hi Hj. apply overlap_le; assumption || lia.
  - intros i j Hi Hj. apply (overlap_near N filling delta table Hde); assumption || lia.
  - apply Req_le. change (6 * Rabs J + Rabs U) with L. ring.
Qed.
