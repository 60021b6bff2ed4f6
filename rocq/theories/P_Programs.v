(** THEOREMS: C86 (the programs that print the coefficients), C87 (the programs that print the site
    occupation). *)
From Coq Require Import Reals Lra Psatz.
From Verif Require Import Base M_Operator M_Lattice Spec_Lattice Pf_Lattice M_LatticeReal Spec_LatticeReal M_Basis Pf_Basis P_Basis M_Matrix M_Ode M_Dispersion M_OpenMP Spec_OpenMP M_Expectation Spec_Expectation P_Expectation M_SiteOccupation Pf_SiteOccupation P_SiteOccupation M_TimeLoop Spec_TimeLoop Spec_Ode
  Pf_Matrix Spec_Matrix Pf_Matrix2 P_Matrix Spec_Stability Pf_Stability Pf_Stability2 Pf_Stability3 P_Stability Spec_Programs M_Programs Pf_Programs Pf_Programs2.
Local Open Scope R_scope.
Local Open Scope list_scope.
Local Notation len u := (Z.of_nat (length u)).

(** set-up shared by the two groups of programs *)
Lemma full_lines sort rnd u st N J U dt t_end interval steps :
  sorts_by_column sort -> (3 <= N)%Z -> fits3 (chain_lattice N) N -> times_ok rnd u dt t_end interval steps ->
  let L := 6 * Rabs J + Rabs U in dt ^ 2 * L ^ 2 <= 8 ->
  let n := (N + N * N * N)%Z in
  Z.of_nat (length (basis3 (chain_lattice N))) = n /\
  exists m y s, init_matrix sort (real J : CR) (real U) (real (1/2)) (chain_lattice N) = Ok m /\
    the_solution n (entry (bm_scale imag_unit m)) y /\
    (forall (O : Type) (obs : progress -> O), terminates_with (run_main rnd st n dt t_end interval (compute_full sort N J U) obs)
      (Ok (map (fun k => (time_at rnd dt k, obs (s k))) (written interval steps)))) /\
    (forall i, (0 <= i < n)%Z -> vget (coefficients (s 0%nat)) i = first_unit i) /\
    (forall t, n2 (idx n) (vecf (y t)) = 1) /\
    forall k, steps_done (s k) = k /\ len (coefficients (s k)) = n /\ norm2 (coefficients (s k)) <= 1 /\
      distance2 (coefficients (s k)) (y (INR k * dt)) <= INR k * dt * dt ^ 4 * L ^ 5 / 120.
Proof.
  intros Hs HN Hf (T1 & T2 & T3 & T4 & T5 & T6 & T7) L Hd n.
  assert (H64 : (N < two64)%Z) by (unfold fits3 in Hf; cbn [lat_coordination chain_lattice] in Hf; nia).
  assert (Hl : shipped3 (chain_lattice N) N) by (constructor; lia).
  split; [pose proof (basis3_len (chain_lattice N) N (chain_regular N ltac:(lia))); unfold n; nia|].
  destruct (full_facts sort J U (chain_lattice N) N Hs Hl Hf) as (m & Em & A & B & C & D).
  replace (3 * neighbours (chain_lattice N) * Rabs J + Rabs U) with L in C, D by (unfold L, neighbours; cbn [lat_coordination chain_lattice]; ring).
  destruct (main_lines rnd u st n dt t_end interval steps m (compute_full sort N J U) L) as (y & s & Y1 & Y2 & Y3 & Te & S0 & NY & S1); try assumption.
  - unfold compute_full. rewrite Em. reflexivity.
  - exact (row_op _ _ _ B C D).
  - unfold n; nia.
  - exists m, y, s. split; [exact Em|]. split; [split; [exact Y1|split; assumption]|]. split; [exact Te|]. split; [exact S0|]. split; assumption.
Qed.
Lemma kinetic_lines sort rnd u st N J dt t_end interval steps :
  sorts_by_column sort -> (3 <= N)%Z -> (N * 2 < two64)%Z -> times_ok rnd u dt t_end interval steps ->
  let L := 2 * Rabs J in dt ^ 2 * L ^ 2 <= 8 ->
  Z.of_nat (length (basis1 (chain_lattice N))) = N /\
  exists m y s, init_kinetic_matrix sort (real J : CR) (chain_lattice N) = Ok m /\
    the_solution N (entry (bm_scale imag_unit m)) y /\
    (forall (O : Type) (obs : progress -> O), terminates_with (run_main rnd st N dt t_end interval (compute_kinetic sort N J) obs)
      (Ok (map (fun k => (time_at rnd dt k, obs (s k))) (written interval steps)))) /\
    (forall i, (0 <= i < N)%Z -> vget (coefficients (s 0%nat)) i = first_unit i) /\
    (forall t, n2 (idx N) (vecf (y t)) = 1) /\
    forall k, steps_done (s k) = k /\ len (coefficients (s k)) = N /\ norm2 (coefficients (s k)) <= 1 /\
      distance2 (coefficients (s k)) (y (INR k * dt)) <= INR k * dt * dt ^ 4 * L ^ 5 / 120.
Proof.
  intros Hs HN Hf (T1 & T2 & T3 & T4 & T5 & T6 & T7) L Hd.
  assert (Hl : shipped3 (chain_lattice N) N) by (constructor; lia).
  split; [pose proof (basis1_len (chain_lattice N) N (chain_regular N ltac:(lia))); lia|].
  destruct (kinetic_facts sort J (chain_lattice N) N Hs Hl Hf) as (m & Em & A & B & C & D).
  change (neighbours (chain_lattice N) * Rabs J) with L in C, D.
  destruct (main_lines rnd u st N dt t_end interval steps m (compute_kinetic sort N J) L) as (y & s & Y1 & Y2 & Y3 & Te & S0 & NY & S1); try assumption.
  - unfold compute_kinetic. rewrite Em. reflexivity.
  - exact (row_op _ _ _ B C D).
  - lia.
  - exists m, y, s. split; [exact Em|]. split; [split; [exact Y1|split; assumption]|]. split; [exact Te|]. split; [exact S0|]. split; assumption.
Qed.

(** ** C86: what the coefficient programs print *)
Theorem C86_full : forall sort rnd u st N J U dt t_end interval steps,
  sorts_by_column sort -> (3 <= N)%Z -> fits3 (chain_lattice N) N -> times_ok rnd u dt t_end interval steps ->
  let L := 6 * Rabs J + Rabs U in dt ^ 2 * L ^ 2 <= 8 ->
  let n := (N + N * N * N)%Z in
  exists m y h, init_matrix sort (real J : CR) (real U) (real (1/2)) (chain_lattice N) = Ok m /\
    the_solution n (entry (bm_scale imag_unit m)) y /\
    terminates_with (coefficients_full sort rnd st N J U dt t_end interval)
      (Ok (map (fun k => (time_at rnd dt k, h k)) (written interval steps))) /\
    (forall i, (0 <= i < n)%Z -> vget (h 0%nat) i = first_unit i) /\
    forall k, len (h k) = n /\ norm2 (h k) <= 1 /\ distance2 (h k) (y (INR k * dt)) <= INR k * dt * dt ^ 4 * L ^ 5 / 120.
Proof.
  intros sort rnd u st N J U dt t_end interval steps Hs HN Hf Ht L Hd n.
  destruct (full_lines sort rnd u st N J U dt t_end interval steps Hs HN Hf Ht Hd) as (Eb & m & y & s & Em & Y & Te & S0 & _ & S1).
  exists m, y, (fun k => coefficients (s k)). split; [exact Em|]. split; [exact Y|]. split; [|split; [exact S0|intros k; apply (S1 k)]].
  unfold coefficients_full. rewrite Eb. apply Te.
Qed.
Theorem C86_kinetic : forall sort rnd u st N J dt t_end interval steps,
  sorts_by_column sort -> (3 <= N)%Z -> (N * 2 < two64)%Z -> times_ok rnd u dt t_end interval steps ->
  let L := 2 * Rabs J in dt ^ 2 * L ^ 2 <= 8 ->
  exists m y h, init_kinetic_matrix sort (real J : CR) (chain_lattice N) = Ok m /\
    the_solution N (entry (bm_scale imag_unit m)) y /\
    terminates_with (coefficients_kinetic sort rnd st N J dt t_end interval)
      (Ok (map (fun k => (time_at rnd dt k, h k)) (written interval steps))) /\
    (forall i, (0 <= i < N)%Z -> vget (h 0%nat) i = first_unit i) /\
    forall k, len (h k) = N /\ norm2 (h k) <= 1 /\ distance2 (h k) (y (INR k * dt)) <= INR k * dt * dt ^ 4 * L ^ 5 / 120.
Proof.
  intros sort rnd u st N J dt t_end interval steps Hs HN Hf Ht L Hd.
  destruct (kinetic_lines sort rnd u st N J dt t_end interval steps Hs HN Hf Ht Hd) as (Eb & m & y & s & Em & Y & Te & S0 & _ & S1).
  exists m, y, (fun k => coefficients (s k)). split; [exact Em|]. split; [exact Y|]. split; [|split; [exact S0|intros k; apply (S1 k)]].
  unfold coefficients_kinetic. rewrite Eb. apply Te.
Qed.

(** ** C87: what the site occupation programs print *)
Lemma quad_first n w v : (0 < n)%Z -> (forall i, (0 <= i < n)%Z -> v i = first_unit i) -> quad n w v = w 0%Z 0%Z.
Proof.
  intros Hn Hv. unfold quad. rewrite (SR_ext _ (fun i => if Z.eqb 0 i then w 0%Z 0%Z else 0)).
  - apply SR_pick_eq; [apply zrange_NoDup|apply zrange_in; lia].
  - intros i Hi. apply zrange_in in Hi. rewrite (Hv i Hi). rewrite (SR_ext _ (fun j => if Z.eqb 0 j then (if Z.eqb 0 i then w 0%Z 0%Z else 0) else 0)).
    + apply SR_pick_eq; [apply zrange_NoDup|apply zrange_in; lia].
    + intros j Hj. apply zrange_in in Hj. rewrite (Hv j Hj). unfold first_unit. rewrite (Z.eqb_sym 0 i), (Z.eqb_sym 0 j).
      destruct (Z.eqb_spec i 0) as [->|_], (Z.eqb_spec j 0) as [->|_]; cbn; ring.
Qed.
(** every interleaving of the parallel loops distributed by [sched] *)
Definition shared_full (N : Z) (sched : nat -> measurement) : Prop := forall k,
  shares (threads (sched k)) 0 N (loop1 (sched k)) /\ shares (threads (sched k)) 0 N (loop2 (sched k)) /\
  shares (threads (sched k)) N (N + N * N * N) (loop3 (sched k)).
Definition shared_kinetic (N : Z) (sched : nat -> measurement) : Prop := forall k, shares (threads (sched k)) 0 N (loop1 (sched k)).

Theorem C87_full : forall sort rnd u st order sched N J U filling dt t_end interval steps,
  sorts_by_column sort -> (3 <= N)%Z -> fits3 (chain_lattice N) N -> times_ok rnd u dt t_end interval steps ->
  Permutation order (seq 0 (length (basis3 (chain_lattice N)))) -> shared_full N sched -> 0 <= filling <= 1 ->
  let L := 6 * Rabs J + Rabs U in dt ^ 2 * L ^ 2 <= 8 ->
  let n := (N + N * N * N)%Z in
  exists m y o, init_matrix sort (real J : CR) (real U) (real (1/2)) (chain_lattice N) = Ok m /\
    the_solution n (entry (bm_scale imag_unit m)) y /\
    terminates_with (occupation_full sort rnd st order sched N J U filling dt t_end interval)
      (Ok (map (fun k => (time_at rnd dt k, o k)) (written interval steps))) /\
    (forall r, o 0%nat = Some r -> r = Ok filling) /\
    forall k r, o k = Some r -> exists x, r = Ok x /\ Rabs x <= 5 * IZR n /\
      Rabs (x - occupation N (sea N filling) n (y (INR k * dt))) <= 10 * IZR n * (INR k * dt * dt ^ 4 * L ^ 5 / 120).
Proof.
  intros sort rnd u st order sched N J U filling dt t_end interval steps Hs HN Hf Ht Ho Hsh Hfi L Hd n.
  set (b := basis3 (chain_lattice N)) in *.
  set (obs := fun s => let c := sched (steps_done s) in
       real_result (site_occupation3 (F := Rring) (1/2) (program_ev N filling) b (basis_get_conjugate order b) (coefficients s)
         true N (threads c) (loop1 c) (loop2 c) (loop3 c))).
  destruct (full_lines sort rnd u st N J U dt t_end interval steps Hs HN Hf Ht Hd) as (Eb & m & y & s & Em & Y & Te & S0 & NY & S1). fold b n in Eb.
  assert (H64 : (N < two64)%Z) by (unfold fits3 in Hf; cbn [lat_coordination chain_lattice] in Hf; nia).
  assert (Hl : shipped3 (chain_lattice N) N) by (constructor; lia).
  pose proof (fits3_S3 _ _ (shipped3_graph _ _ Hl) Hf) as HS.
  assert (HR : forall a b, site N a -> site N b -> table_value N filling a b = table_value N filling b a) by (intros; rewrite !table_sea by assumption; apply sea_sym).
  assert (Nn : (0 < n)%Z) by (unfold n; nia).
  assert (Val : forall k r, obs (s k) = Some r -> r = Ok (quad n (overlap N (sea N filling)) (vget (coefficients (s k))))).
  { intros k r E. unfold obs in E. destruct (S1 k) as (_ & Lk & _). cbv zeta in E. set (c := sched (steps_done (s k))) in *. destruct (Hsh (steps_done (s k))) as (H1 & H2 & H3). fold c in H1, H2, H3.
    rewrite program_by_site in E. rewrite (conjugate_all order b Ho) in E.
    destruct (site_occupation3 (F := Rring) (1/2) (by_site (F := Rring) (table_value N filling)) b (conjugate_basis b) (coefficients (s k)) true N (threads c) (loop1 c) (loop2 c) (loop3 c)) as [q|] eqn:Q; [|discriminate].
    apply (symmetric_total (F := Rring) (1/2) (table_value N filling) (chain_lattice N) N (coefficients (s k)) (chain_regular N ltac:(lia)) HS Lk _ _ _ _ _ HR H1 H2 H3) in Q.
    subst q. cbn [real_result] in E. injection E as <-.
    assert (Hh : @radd Rring (1/2) (1/2) = r1) by (cbn; field).
    pose proof (total_real (F := Rring) (1/2) Hh (table_value N filling) (chain_lattice N) N (coefficients (s k)) (chain_regular N ltac:(lia)) HS HR) as Im. change (r0 (s := Rring)) with 0 in Im.
    destruct (Req_EM_T _ 0) as [_|C]; [|contradiction]. f_equal. rewrite fst_total. apply quad_ext; [|reflexivity].
    intros i j Hi Hj. apply overlap_ext; try assumption; [lia|]. intros a b' Ha Hb. apply table_sea; assumption. }
  exists m, y, (fun k => obs (s k)). split; [exact Em|]. split; [exact Y|]. split; [unfold occupation_full; fold b; rewrite Eb; apply Te|]. split.
  - intros r E. rewrite (Val _ _ E). f_equal. rewrite (quad_first n _ _ Nn S0). unfold overlap. destruct (Z.ltb_spec 0 N); [|lia]. apply sea_diag. unfold site; lia.
  - intros k r E. eexists. split; [exact (Val k r E)|]. destruct (S1 k) as (_ & Lk & Nk & Dk).
    assert (Bw : forall i j, (0 <= i < n)%Z -> (0 <= j < n)%Z -> Rabs (overlap N (sea N filling) i j) <= 5) by (intros i j Hi Hj; apply overlap_le; try assumption; lia).
    rewrite (vec_n2 n _ Lk) in Nk. split.
    + apply quad_le; [lra|exact Bw|lia|exact Nk].
    + rewrite occupation_quad. eapply Rle_trans; [apply (quad_lip n _ 5 ltac:(lra) Bw); [lia|exact Nk|rewrite NY; lra]|].
      change (vecf (vget (coefficients (s k)))) with (vec (coefficients (s k))). rewrite <- (distance_nrm n _ (y (INR k * dt)) Lk).
      assert (0 <= IZR n) by (apply IZR_le; lia). replace (2 * 5 * IZR n) with (10 * IZR n) by ring. apply Rmult_le_compat_l; [lra|exact Dk].
Qed.
Theorem C87_kinetic : forall sort rnd u st order sched N J filling dt t_end interval steps,
  sorts_by_column sort -> (3 <= N)%Z -> (N * 2 < two64)%Z -> times_ok rnd u dt t_end interval steps ->
  Permutation order (seq 0 (length (basis1 (chain_lattice N)))) -> shared_kinetic N sched -> 0 <= filling <= 1 ->
  let L := 2 * Rabs J in dt ^ 2 * L ^ 2 <= 8 ->
  exists m y o, init_kinetic_matrix sort (real J : CR) (chain_lattice N) = Ok m /\
    the_solution N (entry (bm_scale imag_unit m)) y /\
    terminates_with (occupation_kinetic sort rnd st order sched N J filling dt t_end interval)
      (Ok (map (fun k => (time_at rnd dt k, o k)) (written interval steps))) /\
    (forall r, o 0%nat = Some r -> r = Ok filling) /\
    forall k r, o k = Some r -> exists x, r = Ok x /\ Rabs x <= IZR N /\
      Rabs (x - occupation N (sea N filling) N (y (INR k * dt))) <= 2 * IZR N * (INR k * dt * dt ^ 4 * L ^ 5 / 120).
Proof.
  intros sort rnd u st order sched N J filling dt t_end interval steps Hs HN Hf Ht Ho Hsh Hfi L Hd.
  set (b := basis1 (chain_lattice N)) in *.
  set (obs := fun s => let c := sched (steps_done s) in
       real_result (site_occupation1 (F := Rring) (1/2) (program_ev N filling) b (basis_get_conjugate order b) (coefficients s)
         (threads c) (loop1 c))).
  destruct (kinetic_lines sort rnd u st N J dt t_end interval steps Hs HN Hf Ht Hd) as (Eb & m & y & s & Em & Y & Te & S0 & NY & S1). fold b in Eb.
  assert (HR : forall a b, site N a -> site N b -> table_value N filling a b = table_value N filling b a) by (intros; rewrite !table_sea by (assumption || lia); apply sea_sym).
  assert (OE : forall rho i j, (0 <= i < N)%Z -> (0 <= j < N)%Z -> overlap N rho i j = rho i j).
  { intros rho i j Hi Hj. unfold overlap. destruct (Z.ltb_spec i N); [|lia]. destruct (Z.ltb_spec j N); [reflexivity|lia]. }
  assert (Val : forall k r, obs (s k) = Some r -> r = Ok (quad N (overlap N (sea N filling)) (vget (coefficients (s k))))).
  { intros k r E. unfold obs in E. destruct (S1 k) as (_ & Lk & _). cbv zeta in E. set (c := sched (steps_done (s k))) in *. pose proof (Hsh (steps_done (s k))) as H1. fold c in H1.
    rewrite program_by_site in E. rewrite (conjugate_all order b Ho) in E.
    destruct (site_occupation1 (F := Rring) (1/2) (by_site (F := Rring) (table_value N filling)) b (conjugate_basis b) (coefficients (s k)) (threads c) (loop1 c)) as [q|] eqn:Q; [|discriminate].
    apply (one_total (F := Rring) (1/2) (table_value N filling) (chain_lattice N) N (coefficients (s k)) (chain_regular N ltac:(lia)) Lk _ _ _ H1) in Q.
    rewrite (fst_total1 _ _ _ HR) in Q. subst q. cbn [real_result fst snd] in E. injection E as <-.
    destruct (Req_EM_T 0 0) as [_|C]; [|contradiction]. f_equal. apply quad_ext; [|reflexivity].
    intros i j Hi Hj. rewrite !OE by assumption. apply table_sea; assumption || lia. }
  exists m, y, (fun k => obs (s k)). split; [exact Em|]. split; [exact Y|]. split; [unfold occupation_kinetic; fold b; rewrite Eb; apply Te|]. split.
  - intros r E. rewrite (Val _ _ E). f_equal. rewrite (quad_first N _ _ ltac:(lia) S0), OE by lia. apply sea_diag. unfold site; lia.
  - intros k r E. eexists. split; [exact (Val k r E)|]. destruct (S1 k) as (_ & Lk & Nk & Dk).
    assert (Bw : forall i j, (0 <= i < N)%Z -> (0 <= j < N)%Z -> Rabs (overlap N (sea N filling) i j) <= 1).
    { intros i j Hi Hj. rewrite OE by assumption. apply sea_le; assumption || lia. }
    rewrite (vec_n2 N _ Lk) in Nk. split.
    + rewrite <- (Rmult_1_l (IZR N)). apply quad_le; [lra|exact Bw|lia|exact Nk].
    + rewrite occupation_quad. eapply Rle_trans; [apply (quad_lip N _ 1 ltac:(lra) Bw); [lia|exact Nk|rewrite NY; lra]|].
      change (vecf (vget (coefficients (s k)))) with (vec (coefficients (s k))). rewrite <- (distance_nrm N _ (y (INR k * dt)) Lk).
      assert (0 <= IZR N) by (apply IZR_le; lia). replace (2 * 1 * IZR N) with (2 * IZR N) by ring. apply Rmult_le_compat_l; [lra|exact Dk].
Qed.
(** for every distribution of the iterations over the threads there are interleavings with which all
    measurements finish *)
Lemma finite_choice {A} (d : A) (P : nat -> A -> Prop) : (forall k, exists a, P k a) -> forall n, exists f, forall k, (k <= n)%nat -> P k (f k).
Proof.
  intros H. induction n as [|n (f & Hf)].
  - destruct (H 0%nat) as (a & Ha). exists (fun _ => a). intros k Hk. replace k with 0%nat by lia. exact Ha.
  - destruct (H (S n)) as (a & Ha). exists (fun k => if Nat.eqb k (S n) then a else f k). intros k Hk. destruct (Nat.eqb_spec k (S n)) as [->|E]; [exact Ha|apply Hf; lia].
Qed.
Lemma written_le interval steps k : In k (written interval steps) -> (k <= steps)%nat.
Proof.
  intros H. unfold written, Spec_TimeLoop.schedule in H. apply in_map_iff in H as (q & <- & Hq). apply in_seq in Hq.
  set (m := Z.to_nat (Z.max 1 interval)) in *. assert (1 <= m)%nat by (unfold m; lia). pose proof (Nat.mul_div_le steps m ltac:(lia)). nia.
Qed.
Theorem C87_completes : forall sort rnd u st order N J U filling dt t_end interval steps T w1 w2 w3,
  sorts_by_column sort -> (3 <= N)%Z -> fits3 (chain_lattice N) N -> times_ok rnd u dt t_end interval steps ->
  dt ^ 2 * (6 * Rabs J + Rabs U) ^ 2 <= 8 ->
  exists sched lines,
    (forall k, threads (sched k) = T /\ who (loop1 (sched k)) = w1 /\ who (loop2 (sched k)) = w2 /\ who (loop3 (sched k)) = w3) /\
    terminates_with (occupation_full sort rnd st order sched N J U filling dt t_end interval) (Ok lines) /\
    map fst lines = map (time_at rnd dt) (written interval steps) /\ forall line, In line lines -> snd line <> None.
Proof.
  intros sort rnd u st order N J U filling dt t_end interval steps T w1 w2 w3 Hs HN Hf Ht Hd.
  destruct (full_lines sort rnd u st N J U dt t_end interval steps Hs HN Hf Ht Hd) as (Eb & m & y & s & Em & _ & Te & _ & _ & S1).
  set (b := basis3 (chain_lattice N)) in *.
  set (obs := fun c s => real_result (site_occupation3 (F := Rring) (1/2) (program_ev N filling) b (basis_get_conjugate order b) (coefficients s)
         true N (threads c) (loop1 c) (loop2 c) (loop3 c))).
  set (mk := fun t : list nat * list nat * list nat => mkMeasurement T (mkSch w1 (fst (fst t))) (mkSch w2 (snd (fst t))) (mkSch w3 (snd t))).
  assert (Ch : forall k, exists t, obs (mk t) (s k) <> None).
  { intros k. destruct (C44_site_occupation_completes Rring (1/2) (table_value N filling) b (basis_get_conjugate order b) (coefficients (s k)) true N T w1 w2 w3) as (t1 & t2 & t3 & Q).
    exists (t1, t2, t3). unfold obs, mk. cbn [threads loop1 loop2 loop3 fst snd]. rewrite program_by_site. intros C.
    destruct (site_occupation3 (F := Rring) _ _ _ _ _ _ _ _ _ _ _) as [[z|]|]; [discriminate|discriminate|contradiction]. }
  destruct (finite_choice ([], [], []) (fun k t => obs (mk t) (s k) <> None) Ch steps) as (f & Hf').
  exists (fun k => mk (f k)). eexists. split; [intros k; repeat split; reflexivity|]. split; [unfold occupation_full; fold b; rewrite Eb; apply Te|]. split.
  - rewrite map_map. reflexivity.
  - intros line Hl. apply in_map_iff in Hl as (k & <- & Hk). cbn [snd]. destruct (S1 k) as (Ek & _). rewrite Ek. apply (Hf' k), (written_le interval steps k Hk).
Qed.
Theorem C87_kinetic_completes : forall sort rnd u st order N J filling dt t_end interval steps T w,
  sorts_by_column sort -> (3 <= N)%Z -> (N * 2 < two64)%Z -> times_ok rnd u dt t_end interval steps ->
  dt ^ 2 * (2 * Rabs J) ^ 2 <= 8 ->
  exists sched lines,
    (forall k, threads (sched k) = T /\ who (loop1 (sched k)) = w) /\
    terminates_with (occupation_kinetic sort rnd st order sched N J filling dt t_end interval) (Ok lines) /\
    map fst lines = map (time_at rnd dt) (written interval steps) /\ forall line, In line lines -> snd line <> None.
Proof.
  intros sort rnd u st order N J filling dt t_end interval steps T w Hs HN Hf Ht Hd.
  destruct (kinetic_lines sort rnd u st N J dt t_end interval steps Hs HN Hf Ht Hd) as (Eb & m & y & s & Em & _ & Te & _ & _ & S1).
  set (b := basis1 (chain_lattice N)) in *.
  set (obs := fun c s => real_result (site_occupation1 (F := Rring) (1/2) (program_ev N filling) b (basis_get_conjugate order b) (coefficients s) (threads c) (loop1 c))).
  set (mk := fun t : list nat => mkMeasurement T (mkSch w t) (mkSch w t) (mkSch w t)).
  assert (Ch : forall k, exists t, obs (mk t) (s k) <> None).
  { intros k. unfold obs, mk. cbn [threads loop1]. unfold site_occupation1.
    match goal with |- exists t, real_result (pbind (par_reduce _ ?a ?z) _) <> None => destruct (Pf_OpenMP.par_reduce_finishes (K := cplx_ring Rring) w a z) as (t & Q) end.
    exists t. destruct (par_reduce (K := cplx_ring Rring) (mkSch w t) _ _) as [[z|]|]; [discriminate|discriminate|contradiction]. }
  destruct (finite_choice [] (fun k t => obs (mk t) (s k) <> None) Ch steps) as (f & Hf').
  exists (fun k => mk (f k)). eexists. split; [intros k; repeat split; reflexivity|]. split; [unfold occupation_kinetic; fold b; rewrite Eb; apply Te|]. split.
  - rewrite map_map. reflexivity.
  - intros line Hl. apply in_map_iff in Hl as (k & <- & Hk). cbn [snd]. destruct (S1 k) as (Ek & _). rewrite Ek. apply (Hf' k), (written_le interval steps k Hk).
Qed.
Print Assumptions C86_full.
Print Assumptions C86_kinetic.
Print Assumptions C87_full.
Print Assumptions C87_kinetic.
Print Assumptions C87_completes.
Print Assumptions C87_kinetic_completes.
