(** PROPERTIES C108 and C109, continued: the limits U = 0 and J = 0 of the programs in doubles, and examples. *)
From Coq Require Import Reals Lra Psatz List ZArith Lia Permutation.
From Flocq Require Import Core.
From Verif Require Import Base Instances M_Operator Spec_Lattice M_Lattice M_LatticeReal Spec_LatticeReal M_Basis Pf_Basis M_Matrix Spec_Matrix P_Matrix Ex_Matrix Pf_OpenMP Pf_Lattice Pf_Matrix M_Dispersion M_OpenMP Spec_OpenMP M_SiteOccupation M_FermiJump Pf_FermiJump P_Basis P_FermiJump M_Ode M_TimeLoop Spec_TimeLoop M_Programs P_Programs P_JumpPrograms
  M_Expectation Spec_Expectation P_Dispersion P_Lattice P_Expectation M_Rounding Spec_Rounding M_Double Pf_Double Pf_Rounding5 P_Rounding
  M_LatticeDouble P_LatticeDouble Pf_PiDigits P_DoubleDispersion M_DoubleExpectation Spec_DoubleExpectation Pf_DoubleExpectation P_DoubleExpectation P_DoubleExpectation2
  Spec_Stability Spec_Programs Spec_JumpPrograms Spec_RoundedJump M_DoublePrograms Spec_DoublePrograms P_DoublePrograms P_DoublePrograms2 M_DoubleJumpPrograms Spec_DoubleJump P_DoubleJumpPrograms P_DoubleJumpPrograms2 M_DoubleMain Spec_DoubleMain P_DoubleMain P_DoubleMain2 Ex_Programs Ex_SiteOccupation P_TimeLoop P_Occupation P_OccupationFree Pf_Programs Pf_Programs2 M_JumpPrograms P_Atomic P_JumpLimits Ex_JumpPrograms.
Local Open Scope R_scope.
Local Open Scope list_scope.

Lemma lines_impl {A B : Type} (P Q : A -> B -> Prop) l l' : (forall a b, P a b -> Q a b) -> Forall2 P l l' -> Forall2 Q l l'.
Proof. intros H F. induction F; constructor; auto. Qed.
(** ** No hopping *)
Theorem C109_double : forall garbage fsin sort order sched N U filling dt t_end interval steps,
  accurate_sine fsin -> sorts_by_column sort -> (3 <= N)%Z -> fits3 (chain_lattice N) N -> is_double (U / 2) -> double_times garbage dt t_end interval steps ->
  Permutation order (seq 0 (length (basis3 (chain_lattice N)))) -> shared_full N sched -> 0 <= filling <= 1 ->
  let n := (N + N * N * N)%Z in (forall k, IZR (n * n + Z.of_nat (threads (sched k)) + 12) <= 2 ^ 50) ->
  Rabs U <= 2 ^ 500 -> dt ^ 2 * Rabs U ^ 2 <= 8 ->
  exists o, terminates_with (f_main_full garbage fsin sort order sched N 0 U filling dt t_end interval) (Ok (map (fun k => (time_at (to_double garbage) dt k, o k)) (written interval steps))) /\
    forall k, (k <= steps)%nat -> forall r, o k = Some r -> exists x, r = Ok x /\
        Rabs (x - filling) <=
          15 * IZR n * (INR k * dt * dt ^ 4 * Rabs U ^ 5 / 120 + INR k / 2 ^ 40) + 42 * IZR n * / 2 ^ 48
          + 17 * IZR (n * n + Z.of_nat (threads (sched k)) + 12) * IZR n / 2 ^ 50 + / 2 ^ 1000.
Proof.
  intros garbage fsin sort order sched N U filling dt t_end interval steps FS Hs HN Hf HU Ht Ho Sh Hfi n Hr HL Hd.
  assert (EL : 6 * Rabs 0 + Rabs U = Rabs U) by (rewrite Rabs_R0; ring). assert (D0 : is_double 0) by (apply (double_int 0); reflexivity).
  assert (Hf' := Hf). unfold fits3 in Hf'. cbn [lat_coordination chain_lattice] in Hf'.
  destruct (C107_full garbage fsin sort order sched N 0 U filling dt t_end interval steps FS Hs HN Hf D0 HU Ht Ho Sh Hfi Hr ltac:(cbv zeta; rewrite EL; exact HL) ltac:(cbv zeta; rewrite EL; exact Hd)) as (m & y & o & Em & Y & Te & V).
  destruct (C109_occupation sort U (chain_lattice N) N (sea N filling) Hs ltac:(constructor; nia) Hf) as (m' & Em' & C). rewrite Em in Em'. injection Em' as <-. rewrite EL in V.
  exists o. split; [exact Te|]. intros k Hk r E. destruct (V k Hk) as [_ V']. destruct (V' r E) as (x & -> & B). exists x. split; [reflexivity|].
  rewrite (C y Y (INR k * dt)) in B. rewrite sea_diag in B by (unfold site; nia). exact B.
Qed.
Theorem C109_jump_1d_double : forall garbage fcos fsin sort T s sched N U filling dt t_end interval steps,
  accurate_wave fcos cos -> accurate_wave fsin sin ->
  sorts_by_column sort -> (3 <= N)%Z -> fits3 (chain_lattice N) N -> is_double (U / 2) -> double_times garbage dt t_end interval steps ->
  shares T 0 N s -> shared_jump N sched -> 0 <= filling <= 1 ->
  (forall k, IZR (N * N + N + Z.of_nat (threads (sched k)) + 6) <= 2 ^ 50) ->
  Rabs U <= 2 ^ 500 -> dt ^ 2 * Rabs U ^ 2 <= 8 ->
  let n := (N + N * N * N)%Z in
  exists o, terminates_with (f_main_jump_1d garbage fcos fsin sort s sched N 0 U filling dt t_end interval) (Ok o) /\
    forall r, o = Some r -> exists lines, r = Ok lines /\
      Forall2 (fun k line => fst line = time_at (to_double garbage) dt k /\ Rabs (fst line - INR k * dt) <= INR k * INR steps * dt / 2 ^ 52 /\
        Rabs (snd line - (1 - 2 * filling * (1 - filling) * (1 - cos (U * (INR k * dt))))) <=
          printed_error n (Rabs U) dt (/ 2 ^ 48) (IZR N / 2 ^ 49) k (N * N + N + Z.of_nat (threads (sched k)) + 6))
        (written interval steps) lines.
Proof.
  intros garbage fcos fsin sort T s sched N U filling dt t_end interval steps FC FS Hs HN Hf HU Ht Sh0 Sh Hfi Hr HL Hd n.
  assert (EL : 6 * Rabs 0 + Rabs U = Rabs U) by (rewrite Rabs_R0; ring). assert (D0 : is_double 0) by (apply (double_int 0); reflexivity).
  assert (Hf' := Hf). unfold fits3 in Hf'. cbn [lat_coordination chain_lattice] in Hf'.
  destruct (C107_jump_1d garbage fcos fsin sort T s sched N 0 U filling dt t_end interval steps FC FS Hs HN Hf D0 HU Ht Sh0 Sh Hfi Hr ltac:(cbv zeta; rewrite EL; exact HL) ltac:(cbv zeta; rewrite EL; exact Hd)) as (m & y & o & Em & Y & Te & V).
  destruct (C109_jump sort U (chain_lattice N) N (sea N filling) (fun a => filling * PI * IZR a) Hs ltac:(constructor; nia) Hf) as (m' & Em' & C). rewrite Em in Em'. injection Em' as <-. rewrite EL in V.
  exists o. split; [exact Te|]. intros r E. destruct (V r E) as (lines & -> & F). exists lines. split; [reflexivity|].
  eapply lines_impl; [|exact F]. intros k line (A & B & D). split; [exact A|]. split; [exact B|].
  rewrite (C y Y (INR k * dt)) in D. rewrite sea_diag in D by (unfold site; nia). exact D.
Qed.
Theorem C109_jump_2d_double : forall garbage fcos fsin sort T s sched N U kx ky dt t_end interval steps,
  accurate_wave fcos cos -> accurate_wave fsin sin ->
  sorts_by_column sort -> (3 <= N)%Z -> fits3 (square_lattice N N) (N * N) -> is_double (U / 2) -> double_times garbage dt t_end interval steps ->
  Rabs kx <= 2 ^ 900 -> Rabs ky <= 2 ^ 900 -> shares T 0 (N * N) s -> shared_jump (N * N) sched ->
  (forall k, IZR (N * N * (N * N) + N * N + Z.of_nat (threads (sched k)) + 6) <= 2 ^ 50) ->
  Rabs U <= 2 ^ 500 -> dt ^ 2 * Rabs U ^ 2 <= 8 ->
  let n := (N * N + N * N * (N * N) * (N * N))%Z in
  exists o, terminates_with (f_main_jump_2d garbage fcos fsin sort s sched N N 0 U kx ky dt t_end interval) (Ok o) /\
    forall r, o = Some r -> exists lines, r = Ok lines /\
      Forall2 (fun k line => fst line = time_at (to_double garbage) dt k /\ Rabs (fst line - INR k * dt) <= INR k * INR steps * dt / 2 ^ 52 /\
        Rabs (snd line - (1 + cos (U * (INR k * dt))) / 2) <=
          printed_error n (Rabs U) dt (/ 2 ^ 48) ((IZR N * (Rabs kx + Rabs ky) + 1) / 2 ^ 51) k (N * N * (N * N) + N * N + Z.of_nat (threads (sched k)) + 6))
        (written interval steps) lines.
Proof.
  intros garbage fcos fsin sort T s sched N U kx ky dt t_end interval steps FC FS Hs HN Hf HU Ht Kx Ky Sh0 Sh Hr HL Hd n.
  assert (EL : 12 * Rabs 0 + Rabs U = Rabs U) by (rewrite Rabs_R0; ring). assert (D0 : is_double 0) by (apply (double_int 0); reflexivity).
  assert (Hf' := Hf). unfold fits3 in Hf'. cbn [lat_coordination square_lattice] in Hf'.
  destruct (C107_jump_2d garbage fcos fsin sort T s sched N 0 U kx ky dt t_end interval steps FC FS Hs HN Hf D0 HU Ht Kx Ky Sh0 Sh Hr ltac:(cbv zeta; rewrite EL; exact HL) ltac:(cbv zeta; rewrite EL; exact Hd)) as (m & y & o & Em & Y & Te & V).
  destruct (C109_jump sort U (square_lattice N N) (N * N) (sea_square N) (phase_square N kx ky) Hs ltac:(constructor; nia) Hf) as (m' & Em' & C). rewrite Em in Em'. injection Em' as <-. rewrite EL in V.
  exists o. split; [exact Te|]. intros r E. destruct (V r E) as (lines & -> & F). exists lines. split; [reflexivity|].
  eapply lines_impl; [|exact F]. intros k line (A & B & D). split; [exact A|]. split; [exact B|]. fold n in D.
  rewrite (C y Y (INR k * dt)) in D. unfold sea_square in D. rewrite Zdiv_0_l, Zmod_0_l in D. change (ring_distance N 0 0) with (Z.min 0 (N - 0)) in D. replace (Z.min 0 (N - 0)) with 0%Z in D by lia. rewrite sea_2d_00 in D.
  replace ((1 + cos (U * (INR k * dt))) / 2) with (1 - 2 * (1 / 2) * (1 - 1 / 2) * (1 - cos (U * (INR k * dt)))) by field. exact D.
Qed.
(** ** No interaction *)
Theorem C108_jump_1d_double : forall garbage fcos fsin sort T s sched N J filling q dt t_end interval steps,
  accurate_wave fcos cos -> accurate_wave fsin sin ->
  sorts_by_column sort -> (3 <= N)%Z -> fits3 (chain_lattice N) N -> is_double J -> double_times garbage dt t_end interval steps ->
  shares T 0 N s -> shared_jump N sched -> 0 <= filling <= 1 -> filling * IZR N = IZR (2 * q) ->
  (forall k, IZR (N * N + N + Z.of_nat (threads (sched k)) + 6) <= 2 ^ 50) ->
  let L := 6 * Rabs J in L <= 2 ^ 500 -> dt ^ 2 * L ^ 2 <= 8 ->
  let n := (N + N * N * N)%Z in
  exists o, terminates_with (f_main_jump_1d garbage fcos fsin sort s sched N J 0 filling dt t_end interval) (Ok o) /\
    forall r, o = Some r -> exists lines, r = Ok lines /\
      Forall2 (fun k line => fst line = time_at (to_double garbage) dt k /\ Rabs (fst line - INR k * dt) <= INR k * INR steps * dt / 2 ^ 52 /\
        Rabs (snd line - 1) <= printed_error n L dt (/ 2 ^ 48) (IZR N / 2 ^ 49) k (N * N + N + Z.of_nat (threads (sched k)) + 6))
        (written interval steps) lines.
Proof.
  intros garbage fcos fsin sort T s sched N J filling q dt t_end interval steps FC FS Hs HN Hf HJ Ht Sh0 Sh Hfi Hq Hr L HL Hd n.
  assert (EL : 6 * Rabs J + Rabs 0 = L) by (rewrite Rabs_R0; unfold L; ring). assert (D0 : is_double (0 / 2)) by (replace (0 / 2) with (IZR 0) by (cbn; lra); apply double_int; reflexivity).
  assert (Hf' := Hf). unfold fits3 in Hf'. cbn [lat_coordination chain_lattice] in Hf'.
  destruct (C107_jump_1d garbage fcos fsin sort T s sched N J 0 filling dt t_end interval steps FC FS Hs HN Hf HJ D0 Ht Sh0 Sh Hfi Hr ltac:(cbv zeta; rewrite EL; exact HL) ltac:(cbv zeta; rewrite EL; exact Hd)) as (m & y & o & Em & Y & Te & V).
  assert (W : plane_wave (chain_lattice N) N (fun a => filling * PI * IZR a)) by (apply (chain_wave N (filling * PI) q HN ltac:(nia)); rewrite mult_IZR in Hq; nra).
  destruct (C108_jump sort J (chain_lattice N) N (sea N filling) _ Hs ltac:(constructor; nia) Hf W) as (m' & Em' & C). rewrite Em in Em'. injection Em' as <-. rewrite EL in V.
  exists o. split; [exact Te|]. intros r E. destruct (V r E) as (lines & -> & F). exists lines. split; [reflexivity|].
  eapply lines_impl; [|exact F]. intros k line (A & B & D). split; [exact A|]. split; [exact B|]. rewrite (C y Y (INR k * dt)) in D. exact D.
Qed.
Lemma moved_phases eps coef N kx ky kx' ky' : (1 <= N)%Z -> phases_near eps coef (N * N) (phase_square N kx ky) ->
  phases_near (eps + IZR N * (Rabs (kx - kx') + Rabs (ky - ky'))) coef (N * N) (phase_square N kx' ky').
Proof.
  intros HN (L & P & H). split; [exact L|]. split; [exact P|]. intros a Ha. destruct (H a Ha) as [A B].
  assert (D : Rabs (phase_square N kx ky a - phase_square N kx' ky' a) <= IZR N * (Rabs (kx - kx') + Rabs (ky - ky'))).
  { unfold phase_square. replace (kx * IZR (a / N) + ky * IZR (a mod N) - (kx' * IZR (a / N) + ky' * IZR (a mod N))) with ((kx - kx') * IZR (a / N) + (ky - ky') * IZR (a mod N)) by ring.
    assert (Y : (0 <= a mod N < N)%Z) by (apply Z.mod_pos_bound; lia). assert (X : (0 <= a / N < N)%Z) by (split; [apply Z.div_pos; lia|apply Z.div_lt_upper_bound; lia]).
    eapply Rle_trans; [apply Rabs_triang|]. rewrite !Rabs_mult, (Rabs_pos_eq (IZR (a / N))), (Rabs_pos_eq (IZR (a mod N))) by (apply IZR_le; lia).
    assert (IZR (a / N) <= IZR N) by (apply IZR_le; lia). assert (IZR (a mod N) <= IZR N) by (apply IZR_le; lia). pose proof (Rabs_pos (kx - kx')). pose proof (Rabs_pos (ky - ky')). nra. }
  pose proof (cos_lip (phase_square N kx ky a) (phase_square N kx' ky' a)) as C. pose proof (sin_lip (phase_square N kx ky a) (phase_square N kx' ky' a)) as S.
  split.
  - replace (fst (nth (Z.to_nat a) coef (0, 0)) - cos (phase_square N kx' ky' a)) with ((fst (nth (Z.to_nat a) coef (0, 0)) - cos (phase_square N kx ky a)) + (cos (phase_square N kx ky a) - cos (phase_square N kx' ky' a))) by ring.
    eapply Rle_trans; [apply Rabs_triang|]. lra.
  - replace (snd (nth (Z.to_nat a) coef (0, 0)) - sin (phase_square N kx' ky' a)) with ((snd (nth (Z.to_nat a) coef (0, 0)) - sin (phase_square N kx ky a)) + (sin (phase_square N kx ky a) - sin (phase_square N kx' ky' a))) by ring.
    eapply Rle_trans; [apply Rabs_triang|]. lra.
Qed.
(** the doubles kx and ky are only near a momentum (2 pi qx / N, 2 pi qy / N) of the torus: the distance is part of the error *)
Theorem C108_jump_2d_double : forall garbage fcos fsin sort T s sched N J kx ky qx qy dt t_end interval steps,
  accurate_wave fcos cos -> accurate_wave fsin sin ->
  sorts_by_column sort -> (3 <= N)%Z -> fits3 (square_lattice N N) (N * N) -> is_double J -> double_times garbage dt t_end interval steps ->
  Rabs kx <= 2 ^ 900 -> Rabs ky <= 2 ^ 900 -> shares T 0 (N * N) s -> shared_jump (N * N) sched ->
  (forall k, IZR (N * N * (N * N) + N * N + Z.of_nat (threads (sched k)) + 6) <= 2 ^ 50) ->
  let L := 12 * Rabs J in L <= 2 ^ 500 -> dt ^ 2 * L ^ 2 <= 8 ->
  let n := (N * N + N * N * (N * N) * (N * N))%Z in
  let off := IZR N * (Rabs (kx - 2 * PI * IZR qx / IZR N) + Rabs (ky - 2 * PI * IZR qy / IZR N)) in
  exists o, terminates_with (f_main_jump_2d garbage fcos fsin sort s sched N N J 0 kx ky dt t_end interval) (Ok o) /\
    forall r, o = Some r -> exists lines, r = Ok lines /\
      Forall2 (fun k line => fst line = time_at (to_double garbage) dt k /\ Rabs (fst line - INR k * dt) <= INR k * INR steps * dt / 2 ^ 52 /\
        Rabs (snd line - 1) <= printed_error n L dt (/ 2 ^ 48) ((IZR N * (Rabs kx + Rabs ky) + 1) / 2 ^ 51 + off) k (N * N * (N * N) + N * N + Z.of_nat (threads (sched k)) + 6))
        (written interval steps) lines.
Proof.
  intros garbage fcos fsin sort T s sched N J kx ky qx qy dt t_end interval steps FC FS Hs HN Hf HJ Ht Kx Ky Sh0 Sh Hr L HL Hd n off.
  assert (EL : 12 * Rabs J + Rabs 0 = L) by (rewrite Rabs_R0; unfold L; ring). assert (D0 : is_double (0 / 2)) by (replace (0 / 2) with (IZR 0) by (cbn; lra); apply double_int; reflexivity).
  assert (Hf' := Hf). unfold fits3 in Hf'. cbn [lat_coordination square_lattice] in Hf'.
  pose proof (square_small N HN Hf) as N31. pose proof (C107_square_table garbage fsin N (wave_sine _ FS) ltac:(lia)) as Tab.
  set (eps := (IZR N * (Rabs kx + Rabs ky) + 1) / 2 ^ 51) in *.
  assert (HNR : 3 <= IZR N) by (apply (IZR_le 3); lia).
  assert (O0 : 0 <= off) by (unfold off; apply Rmult_le_pos; [lra|]; pose proof (Rabs_pos (kx - 2 * PI * IZR qx / IZR N)); pose proof (Rabs_pos (ky - 2 * PI * IZR qy / IZR N)); lra).
  assert (P0 : 0 <= IZR N * (Rabs kx + Rabs ky)) by (apply Rmult_le_pos; [lra|pose proof (Rabs_pos kx); pose proof (Rabs_pos ky); lra]).
  assert (Dn : / 2 ^ 53 <= eps + off). { unfold eps, Rdiv. assert (/ 2 ^ 51 = 4 * u) as -> by (rewrite (half_pow 51 53) by lia; cbn [Nat.sub pow]; ring). pose proof u_small as U0. assert (1 * (4 * u) <= (IZR N * (Rabs kx + Rabs ky) + 1) * (4 * u)) by (apply Rmult_le_compat_r; lra). lra. }
  assert (E0 : 0 <= eps + off) by (pose proof u_small; lra).
  set (px := 2 * PI * IZR qx / IZR N) in *. set (py := 2 * PI * IZR qy / IZR N) in *.
  pose proof (fun coef (P : phases_near (eps + off) coef (N * N) (phase_square N px py)) => C96_square sort garbage sched N J 0 px py _ (/ 2 ^ 48) coef _ dt t_end interval steps Hs HN Hf HJ D0 Ht Sh small48 Tab E0 P Hr ltac:(rewrite EL; exact HL) ltac:(rewrite EL; exact Hd)) as Run. cbv zeta in Run. rewrite EL in Run. fold n in Run.
  assert (W : plane_wave (square_lattice N N) (N * N) (phase_square N px py)) by (apply (square_wave N px py qx qy HN ltac:(nia)); unfold px, py; field; lra).
  destruct (C108_jump sort J (square_lattice N N) (N * N) (sea_square N) _ Hs ltac:(constructor; nia) Hf W) as (m' & Em' & C).
  unfold f_main_jump_2d, with_factors. destruct (f_factors_2d garbage fcos fsin (basis3 (square_lattice N N)) N (N * N) s (kx, ky)) as [r|] eqn:E.
  - destruct (C107_factors_2d garbage fcos fsin N T s kx ky r FC FS N31 Kx Ky Sh0 E) as (coef & -> & P). 
    destruct (Run coef (moved_phases eps coef N kx ky px py ltac:(lia) P)) as (m & y & o & A & B & Te & V). rewrite A in Em'. injection Em' as <-.
    exists o. split; [exact Te|]. intros r E1. destruct (V r E1) as (lines & -> & F). exists lines. split; [reflexivity|].
    eapply lines_impl; [|exact F]. intros k line (A1 & B1 & D). split; [exact A1|]. split; [exact B1|]. rewrite (C y B (INR k * dt)) in D. exact D.
  - exists None. split; [exists 0%nat; intros; reflexivity|]. discriminate.
Qed.

(** EXAMPLES: the chain with 4 sites at half filling, dt = 1/10, t_end = 1, a line every 5 steps.
    Without hopping and with U = 1 the lines are (1 + cos t) / 2 within 10^-4; without interaction and
    with J = 1/10 they are 1 within 10^-4. *)
Example C109_example : forall st,
  exists o, terminates_with (jump_1d isort (fun x => x) st (mkSch (two_threads 0 1 4) [1]%nat)
      (fun k => mkMeasurement 2 (mkSch (two_threads 0 3 4) [k]) (mkSch (two_threads 0 2 4) []) (mkSch (two_threads 0 4 4) []))
      4 0 1 (1/2) (/ 10) 1 5) (Ok o) /\
    forall r, o = Some r -> exists x0 x5 x10, r = Ok [(0, x0); (1/2, x5); (1, x10)] /\
      x0 = 1 /\ Rabs (x5 - (1 + cos (1/2)) / 2) <= / 10000 /\ Rabs (x10 - (1 + cos 1) / 2) <= / 5000.
Proof.
  intros st. destruct C86_hypotheses as (H1 & H2 & _).
  assert (S0 : shares 2 0 4 (mkSch (two_threads 0 1 4) [1]%nat)) by (apply two_shares; lia).
  assert (S1 : shared_jump 4 (fun k => mkMeasurement 2 (mkSch (two_threads 0 3 4) [k]) (mkSch (two_threads 0 2 4) []) (mkSch (two_threads 0 4 4) []))) by (intros k; cbn [threads loop1 loop2]; split; apply two_shares; lia).
  destruct (C109_jump_1d isort (fun x => x) 0 st 2 _ _ 4 1 (1/2) (/ 10) 1 5 10 isort_ok ltac:(lia) H2 H1 S0 S1 ltac:(lra) ltac:(rewrite Rabs_R1; lra)) as (o & Te & V).
  exists o. split; [exact Te|]. intros r E. destruct (V r E) as (x & -> & B). exists (x 0%nat), (x 5%nat), (x 10%nat). split.
  - rewrite C86_lines. cbn [map]. rewrite !exact_time.
    replace (INR 0 * / 10) with 0 by (cbn; lra). replace (INR 5 * / 10) with (1/2) by (cbn; lra). replace (INR 10 * / 10) with 1 by (cbn; lra). reflexivity.
  - pose proof (B 0%nat) as B0. pose proof (B 5%nat) as B5. pose proof (B 10%nat) as B10. change (4 + 4 * 4 * 4)%Z with 68%Z in *. rewrite Rabs_R1 in *.
    replace (INR 0) with 0 in B0 by reflexivity. replace (INR 5) with 5 in B5 by (cbn; lra). replace (INR 10) with 10 in B10 by (cbn; lra).
    replace (1 * (0 * / 10)) with 0 in B0 by ring. rewrite cos_0 in B0. replace (1 * (5 * / 10)) with (1/2) in B5 by field. replace (1 * (10 * / 10)) with 1 in B10 by field.
    split; [apply Rminus_diag_uniq; destruct (Req_dec (x 0%nat - 1) 0) as [Q|Q]; [exact Q|]; apply Rabs_pos_lt in Q; exfalso; replace (x 0%nat - (1 - 2 * (1 / 2) * (1 - 1 / 2) * (1 - 1))) with (x 0%nat - 1) in B0 by ring; lra|].
    split; [replace ((1 + cos (1/2)) / 2) with (1 - 2 * (1 / 2) * (1 - 1 / 2) * (1 - cos (1/2))) by field|replace ((1 + cos 1) / 2) with (1 - 2 * (1 / 2) * (1 - 1 / 2) * (1 - cos 1)) by field]; (eapply Rle_trans; [eassumption|lra]).
Qed.
Example C108_jump_example : forall st,
  exists o, terminates_with (jump_1d isort (fun x => x) st (mkSch (two_threads 0 1 4) [1]%nat)
      (fun k => mkMeasurement 2 (mkSch (two_threads 0 3 4) [k]) (mkSch (two_threads 0 2 4) []) (mkSch (two_threads 0 4 4) []))
      4 (/ 10) 0 (1/2) (/ 10) 1 5) (Ok o) /\
    forall r, o = Some r -> exists x0 x5 x10, r = Ok [(0, x0); (1/2, x5); (1, x10)] /\ Rabs (x5 - 1) <= / 10000 /\ Rabs (x10 - 1) <= / 10000.
Proof.
  intros st. destruct C86_hypotheses as (H1 & H2 & _). assert (J0 : Rabs (/ 10) = / 10) by (apply Rabs_pos_eq; lra).
  assert (S0 : shares 2 0 4 (mkSch (two_threads 0 1 4) [1]%nat)) by (apply two_shares; lia).
  assert (S1 : shared_jump 4 (fun k => mkMeasurement 2 (mkSch (two_threads 0 3 4) [k]) (mkSch (two_threads 0 2 4) []) (mkSch (two_threads 0 4 4) []))) by (intros k; cbn [threads loop1 loop2]; split; apply two_shares; lia).
  destruct (C108_jump_1d isort (fun x => x) 0 st 2 _ _ 4 (/ 10) (1/2) 1 (/ 10) 1 5 10 isort_ok ltac:(lia) H2 H1 S0 S1 ltac:(lra) ltac:(cbn; lra) ltac:(cbv zeta; rewrite J0; lra)) as (o & Te & V).
  exists o. split; [exact Te|]. intros r E. destruct (V r E) as (x & -> & B). exists (x 0%nat), (x 5%nat), (x 10%nat). split.
  - rewrite C86_lines. cbn [map]. rewrite !exact_time.
    replace (INR 0 * / 10) with 0 by (cbn; lra). replace (INR 5 * / 10) with (1/2) by (cbn; lra). replace (INR 10 * / 10) with 1 by (cbn; lra). reflexivity.
  - pose proof (B 5%nat) as B5. pose proof (B 10%nat) as B10. change (4 + 4 * 4 * 4)%Z with 68%Z in *. rewrite J0 in *. replace (INR 5) with 5 in B5 by (cbn; lra). replace (INR 10) with 10 in B10 by (cbn; lra). split; lra.
Qed.
