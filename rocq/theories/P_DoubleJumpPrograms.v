(** THEOREMS: C96 (the programs that print the Fermi jump, with every double rounded). *)
From Coq Require Import Reals Lra Psatz.
From Verif Require Import Base M_Operator M_Lattice Spec_Lattice Pf_Lattice P_Lattice M_LatticeReal Spec_LatticeReal M_Basis Pf_Basis P_Basis M_Matrix M_Ode M_Dispersion M_OpenMP Spec_OpenMP M_Expectation Spec_Expectation P_Expectation M_SiteOccupation Pf_SiteOccupation P_SiteOccupation M_FermiJump Pf_FermiJump
  M_TimeLoop Spec_TimeLoop Pf_Matrix Spec_Matrix Pf_Matrix2 P_Matrix Spec_Stability Pf_Stability Pf_Stability2 Pf_Stability3 P_Stability Spec_Programs M_Programs Pf_Programs Pf_Programs2 P_Programs M_JumpPrograms Spec_JumpPrograms Pf_JumpPrograms P_JumpPrograms
  M_Rounding M_Double P_Rounding M_RoundedMeasurement P_RoundedMeasurement2 M_RoundedJump Pf_JumpError Spec_RoundedJump P_RoundedJump
  M_DoublePrograms Pf_DoubleTime Spec_DoublePrograms Pf_DoublePrograms P_DoublePrograms M_DoubleJumpPrograms Spec_DoubleJump Pf_DoubleJump.
Local Open Scope R_scope.
Local Open Scope list_scope.
Local Notation len u := (Z.of_nat (length u)).

Lemma lattice_double_lines sort garbage lat N J U dt t_end interval steps :
  sorts_by_column sort -> shipped3 lat N -> fits3 lat N -> is_double J -> is_double (U / 2) -> double_times garbage dt t_end interval steps ->
  let L := 3 * neighbours lat * Rabs J + Rabs U in L <= 2 ^ 500 -> dt ^ 2 * L ^ 2 <= 8 ->
  let n := (N + N * N * N)%Z in
  Z.of_nat (length (basis3 lat)) = n /\
  exists m y h, init_matrix sort (real J : CR) (real U) (real (1/2)) lat = Ok m /\
    the_solution n (entry (bm_scale imag_unit m)) y /\
    (forall (O : Type) (obs : f_progress -> O), terminates_with (f_run_main garbage n dt t_end interval (f_compute_lattice garbage sort lat J U) obs)
      (Ok (map (fun k => (time_at (to_double garbage) dt k, obs (mkFP k (h k)))) (written interval steps)))) /\
    (forall t, n2 (idx n) (vecf (y t)) = 1) /\
    forall k, (k <= steps)%nat -> len (h k) = n /\ norm2 (h k) <= 2 /\
      distance2 (h k) (y (INR k * dt)) <= INR k * dt * dt ^ 4 * L ^ 5 / 120 + INR k / 2 ^ 40.
Proof.
  intros Hs Hl Hf HJ HU Ht L HL Hd n.
  pose proof (double_times_ok garbage dt t_end interval steps Ht) as Tok.
  destruct (lattice_lines sort rel_double (/ 2 ^ 53) (mkSt (K := CR) [] [] [] []) lat N J U dt t_end interval steps Hs Hl Hf Tok Hd) as (Eb & m & y & _ & Em & Y & _ & _ & NY & _).
  split; [exact Eb|].
  assert (Hr : regular lat N) by (destruct Hl; [apply chain_regular|apply square_regular]; lia || nia). pose proof (N_pos lat N Hr) as NP.
  assert (Nn : (0 < n)%Z) by (unfold n; nia). destruct (init_vector_unit n Nn) as (h0 & E0 & L0 & V0). pose proof (unit_norm n h0 Nn L0 V0) as N0.
  pose proof Ht as (Hb & Hst & _ & _). assert (D0 : 0 < / 2 ^ 1000) by (apply Rinv_0_lt_compat, pow_lt; lra). assert (Hb' : / 2 ^ 1000 <= Rabs dt <= 2 ^ 100) by (rewrite Rabs_pos_eq; lra).
  destruct (C91_full_error sort J U lat N garbage dt Hs Hl Hf HJ HU HL Hd Hb) as (m' & Em' & H). rewrite Em in Em'. injection Em' as <-.
  destruct (C91_full sort J U lat N garbage 0%Z dt Hs Hl Hf HJ HU HL Hd Hb') as (m' & Em' & H'). rewrite Em in Em'. injection Em' as <-.
  exists m, y, (fun k => fprogram_run (double_arith garbage) dt m k h0). split; [exact Em|]. split; [exact Y|]. split; [|split; [exact NY|]].
  - intros O obs. unfold f_compute_lattice. rewrite Em. cbn [obind]. exact (f_lines garbage dt t_end interval steps n m h0 Ht E0 O obs).
  - intros k Hk. assert (Hk' : INR k <= 2 ^ 24) by (apply Rle_trans with (INR steps); [apply le_INR; exact Hk|exact Hst]).
    assert (Hk4 : INR k <= 2 ^ 40) by (apply Rle_trans with (2 ^ 24); [exact Hk'|apply Rle_pow; [lra|lia]]).
    assert (L2 : length2 h0 = 1) by (unfold length2; rewrite N0; apply sqrt_1).
    assert (L2' : length2 h0 <= 2 ^ 200) by (rewrite L2; apply pow_R1_Rle; lra).
    destruct Y as (Y1 & Y2 & _).
    destruct (H k h0 y L0 Hk4 L2' Y1) as [Q1 Q2]; [intros i Hi; rewrite (Y2 i Hi); symmetry; apply V0; exact Hi|]. rewrite L2 in Q1, Q2. destruct (small_step k Hk') as [S1 S2].
    set (sts := repeat (mkSt (K := CR) [] [] [] []) k). assert (Ek : length sts = k) by apply repeat_length. specialize (H' sts h0 L0). rewrite Ek in H'. destruct (H' Hk4 L2') as [E1 _]. rewrite L0 in E1.
    fold L in Q1. split; [exact E1|]. split; [apply norm_two; lra|]. lra.
Qed.

(** one measurement *)
Section Run.
  Context (garbage : R -> R) (lat : lattice) (N : Z) (table rho : Z -> Z -> R) (phi : Z -> R) (delta eps : R) (coef : list (R * R)) (sched : nat -> measurement).
  Let n := (N + N * N * N)%Z.
  Hypothesis Hl : shipped lat N.
  Hypothesis HS : (n < two64)%Z.
  Hypothesis d0 : 0 <= delta.
  Hypothesis e0 : 0 <= eps.
  Hypothesis Ht : forall a b, site N a -> site N b -> Rabs (table a b - rho a b) <= delta /\ Rabs (table a b) <= 1.
  Hypothesis Hp : forall a b, site N a -> site N b -> Rabs (pair_average rho a b) <= 1.
  Hypothesis Hsh : shared_jump N sched.
  Hypothesis Hc : phases_near eps coef N phi.
  Hypothesis Hk : forall k, IZR (N * N + N + Z.of_nat (threads (sched k)) + 6) <= 2 ^ 50.
  Lemma rho_le a b : site N a -> site N b -> Rabs (rho a b) <= 1.
  Proof. intros Ha Hb. pose proof (Hp a b Ha Hb) as Q. unfold pair_average, kron in Q. apply abs_inv in Q. apply Rabs_le. destruct (a =? b)%Z; lra. Qed.
  Lemma f_measured k (h : list CR) (yk : Z -> CR) D st r : len h = n -> norm2 h <= 2 -> n2 (idx n) (vecf yk) = 1 -> distance2 h yk <= D -> room N st ->
    let c := f_measure (by_site (F := Rring) table) (basis3 lat) N sched coef (mkFP k h) in
    f_fermi_jump3 (double_arith garbage) (c_ev c) (c_basis c) (c_N c) (c_coefficients c) (c_h c) (c_threads c) (c_s1 c) (c_s2 c) st = Some r ->
    exists x l, r = Ok (x, l) /\ room N (Some l) /\
      Rabs (x - jump N rho phi yk) <= 3 * IZR n * D + 144 * IZR n * (delta + eps) + IZR (N * N + N + Z.of_nat (threads (sched k)) + 6) * IZR n / 2 ^ 43.
  Proof.
    intros Lh Nh Ny HD Rm c R. cbn [c c_ev c_basis c_N c_coefficients c_h c_threads c_s1 c_s2 f_measure f_steps_done f_coefficients] in R. cbv zeta in R.
    destruct (Hsh k) as [S1 S2]. set (T := threads (sched k)) in *. destruct Hc as (Lc & Pc & Nc). pose proof (shipped_regular _ _ Hl) as HR. pose proof (N_pos lat N HR) as NP.
    assert (Tb : forall a b, (0 <= a < N)%Z -> (0 <= b < N)%Z -> Rabs (table a b) <= 1) by (intros a b Ha Hb; apply (Ht a b Ha Hb)).
    pose proof (magnitudes_pos h) as M0.
    assert (n0 : 1 <= IZR n) by (apply IZR_le; unfold n; nia).
    assert (En : INR (length h) = IZR n) by (rewrite INR_IZR_INZ, Lh; reflexivity).
    assert (M2 : magnitudes h ^ 2 <= 2 * IZR n * norm2 h) by (rewrite <- En; exact (magnitudes_norm h)).
    assert (M4 : magnitudes h ^ 2 <= 4 * IZR n) by nra.
    assert (n64 : IZR n <= 2 ^ 64) by (rewrite pow_IZR; apply IZR_le; pose proof P_EigenIo.two64_eq; change (2 ^ Z.of_nat 64)%Z with (2 ^ 64)%Z; lia).
    assert (MB : magnitudes h <= 2 ^ 400).
    { apply Rle_trans with (2 ^ 33); [|apply Rle_pow; [lra|lia]]. apply Rsqr_incr_0_var; [|lra]. unfold Rsqr. assert (2 ^ 33 * 2 ^ 33 = 4 * 2 ^ 64) by ring. lra. }
    set (kk := (Z.to_nat (N * N) + Z.to_nat N + T + 6)%nat).
    assert (Ek : INR kk = IZR (N * N + N + Z.of_nat T + 6)) by (rewrite INR_IZR_INZ; f_equal; unfold kk; nia).
    assert (Hkk : INR kk <= 2 ^ 50) by (rewrite Ek; apply Hk).
    apply (f_jump_value (double_arith garbage) table lat N h coef HR HS Lh Lc T _ _ st r S1 S2 Rm) in R.
    destruct R as (Ls & l & P & LT & Ll & _ & ->). do 2 eexists. split; [reflexivity|]. split.
    { cbn. rewrite Ll. destruct st; [exact Rm|lia]. }
    pose proof (jump_close garbage lat N table coef h T Hl HS Lh Lc Tb Pc MB Hkk Ls P LT) as Q1. fold kk in Q1.
    set (x := f_norm _ _) in *. change (Rabs (x - jump_value (F := Rring) table N h coef) <= jump_error kk (magnitudes h)) in Q1.
    set (exact_coef := map (fun i => ((cos (phi i), sin (phi i)) : CR)) (zrange 0 N)).
    assert (Nth : forall i, (0 <= i < N)%Z -> nth (Z.to_nat i) exact_coef ((0, 0) : CR) = ((cos (phi i), sin (phi i)) : CR)).
    { intros i Hi. assert (E : nth_error (zrange 0 N) (Z.to_nat i) = Some i).
      { unfold zrange. erewrite map_nth_error; [|rewrite (nth_error_nth' _ 0%nat) by (rewrite seq_length; lia); reflexivity]. rewrite seq_nth by lia. f_equal. lia. }
      apply nth_error_nth. unfold exact_coef. erewrite map_nth_error; [|exact E]. reflexivity. }
    assert (Q2 : Rabs (jump_value (F := Rring) table N h coef - jump_value (F := Rring) rho N h exact_coef) <= 36 * (delta + eps) * magnitudes h ^ 2).
    { apply (tables_near rho table lat N h exact_coef coef delta eps HR HS d0); try assumption.
      - intros j q Hj Hq. destruct (Ht j q Hj Hq) as [A B]. split; [exact A|]. split; [exact B|]. apply rho_le; assumption.
      - intros i Hi. rewrite (Nth i Hi). apply (Nc i Hi).
      - intros i Hi. rewrite (Nth i Hi). cbn [fst snd]. split; apply Rabs_le; [apply COS_bound|apply SIN_bound].
      - intros i Hi. apply (Forall_nth _ coef) with (d := (0, 0)) (i := Z.to_nat i) in Pc; [exact Pc|lia]. }
    unfold exact_coef in Q2. rewrite (jump_exact lat N rho phi h Hl HS) in Q2.
    pose proof (jump_lip3 N rho phi (vget h) yk (Logic.proj1 NP) Hp) as Q3. cbv zeta in Q3. fold n in Q3. change (vecf (vget h)) with (vec h) in Q3. rewrite <- (distance_nrm n h yk Lh) in Q3.
    specialize (Q3 (nrm_two n h Lh Nh)). assert (B2 : nrm (idx n) (vecf yk) = 1) by (unfold nrm; rewrite Ny; apply sqrt_1). rewrite B2 in Q3. specialize (Q3 (Rle_refl 1)).
    assert (Q4 : 3 * IZR n * distance2 h yk <= 3 * IZR n * D) by (apply Rmult_le_compat_l; [lra|exact HD]).
    assert (Q5 : 36 * (delta + eps) * magnitudes h ^ 2 <= 144 * IZR n * (delta + eps)).
    { apply Rle_trans with (36 * (delta + eps) * (4 * IZR n)); [apply Rmult_le_compat_l; [lra|exact M4]|]. apply Req_le. ring. }
    assert (Q6 : jump_error kk (magnitudes h) <= IZR (N * N + N + Z.of_nat T + 6) * IZR n / 2 ^ 43).
    { unfold jump_error. rewrite Ek. assert (K0 : 0 <= IZR (N * N + N + Z.of_nat T + 6)) by (apply IZR_le; nia).
      assert (W : (3 * magnitudes h + / 2 ^ 400) ^ 2 <= 64 * IZR n).
      { assert (I1 : 0 < / 2 ^ 400) by (apply Rinv_0_lt_compat, p2). assert (I2 : / 2 ^ 400 <= 1) by (pose proof (inv_p2 0 400 ltac:(lia)) as Q; cbn [pow] in Q; lra).
        set (e := / 2 ^ 400) in *. set (q := magnitudes h) in *. clearbody e q. clear - M4 M0 n0 I1 I2. nra. }
      apply Rle_trans with (IZR (N * N + N + Z.of_nat T + 6) * (64 * IZR n) / 2 ^ 49).
      - unfold Rdiv. apply Rmult_le_compat_r; [apply Rlt_le, Rinv_0_lt_compat, p2|]. apply Rmult_le_compat_l; assumption.
      - apply Req_le. change 49%nat with (6 + 43)%nat. rewrite pow_add. cbn [pow]. field; try apply Rgt_not_eq, p2. }
    apply abs_inv in Q1, Q2, Q3. fold n in Q3. apply Rabs_le. cbn in *. lra.
  Qed.
  Lemma f_all_measured (h : nat -> list CR) (y : R -> Z -> CR) (D : nat -> R) (time : nat -> R) ks : forall st r, room N st ->
    (forall k, In k ks -> len (h k) = n /\ norm2 (h k) <= 2 /\ n2 (idx n) (vecf (y (time k))) = 1 /\ distance2 (h k) (y (time k)) <= D k) ->
    f_evaluations garbage (map (fun k => f_measure (by_site (F := Rring) table) (basis3 lat) N sched coef (mkFP k (h k))) ks) st = Some r ->
    exists xs, r = Ok xs /\ Forall2 (fun k x => Rabs (x - jump N rho phi (y (time k))) <=
      3 * IZR n * D k + 144 * IZR n * (delta + eps) + IZR (N * N + N + Z.of_nat (threads (sched k)) + 6) * IZR n / 2 ^ 43) ks xs.
  Proof.
    induction ks as [|k ks IH]; intros st r Rm H E; [injection E as <-; exists []; split; [reflexivity|constructor]|].
    cbn [map f_evaluations] in E. destruct (H k (or_introl eq_refl)) as (H1 & H2 & H3 & H4).
    destruct (f_fermi_jump3 _ _ _ _ _ _ _ _ _ st) as [q|] eqn:Q; [|discriminate].
    destruct (f_measured k (h k) (y (time k)) (D k) st q H1 H2 H3 H4 Rm Q) as (x & l & -> & Rl & Hx). cbn [pbind fst snd] in E.
    destruct (f_evaluations _ _ (Some l)) as [q|] eqn:Q'; [|discriminate].
    destruct (IH (Some l) q Rl (fun k' I' => H k' (or_intror I')) Q') as (xs & -> & F). cbn [pbind] in E. injection E as <-. exists (x :: xs). split; [reflexivity|]. constructor; assumption.
  Qed.
End Run.

(** both programs *)
Lemma double_jump_lines sort garbage lat N table rho phi delta eps coef sched J U dt t_end interval steps :
  sorts_by_column sort -> shipped3 lat N -> fits3 lat N -> is_double J -> is_double (U / 2) -> double_times garbage dt t_end interval steps ->
  0 <= delta -> 0 <= eps ->
  (forall a b, site N a -> site N b -> Rabs (table a b - rho a b) <= delta /\ Rabs (table a b) <= 1) ->
  (forall a b, site N a -> site N b -> Rabs (pair_average rho a b) <= 1) -> shared_jump N sched -> phases_near eps coef N phi ->
  (forall k, IZR (N * N + N + Z.of_nat (threads (sched k)) + 6) <= 2 ^ 50) ->
  let L := 3 * neighbours lat * Rabs J + Rabs U in L <= 2 ^ 500 -> dt ^ 2 * L ^ 2 <= 8 ->
  let n := (N + N * N * N)%Z in
  exists m y o, init_matrix sort (real J : CR) (real U) (real (1/2)) lat = Ok m /\
    the_solution n (entry (bm_scale imag_unit m)) y /\
    terminates_with (f_jump_main garbage dt t_end interval (by_site (F := Rring) table) (basis3 lat) N sched coef (f_compute_lattice garbage sort lat J U)) (Ok o) /\
    forall r, o = Some r -> exists lines, r = Ok lines /\
      Forall2 (fun k line => fst line = time_at (to_double garbage) dt k /\ Rabs (fst line - INR k * dt) <= INR k * INR steps * dt / 2 ^ 52 /\
        Rabs (snd line - jump N rho phi (y (INR k * dt))) <= printed_error n L dt delta eps k (N * N + N + Z.of_nat (threads (sched k)) + 6))
        (written interval steps) lines.
Proof.
  intros Hs Hl Hf HJ HU Ht Hde Hep Htab Hp Hsh Hc Hk L HL Hd n.
  destruct (lattice_double_lines sort garbage lat N J U dt t_end interval steps Hs Hl Hf HJ HU Ht HL Hd) as (Eb & m & y & h & Em & Y & Te & NY & S1). fold n L in Eb, Y, Te, NY, S1.
  assert (Hs1 : shipped lat N) by (destruct Hl; constructor; lia || nia).
  pose proof (fits3_S3 _ _ (shipped3_graph _ _ Hl) Hf) as HS.
  set (lines := map (fun k => (time_at (to_double garbage) dt k, mkFP k (h k))) (written interval steps)).
  exists m, y, (pbind (f_evaluations garbage (map (fun l => f_measure (by_site (F := Rring) table) (basis3 lat) N sched coef (snd l)) lines) None) (fun values =>
         Some (Ok (List.combine (map fst lines) values)))).
  split; [exact Em|]. split; [exact Y|]. split.
  { destruct (Te f_progress (fun s => s)) as (f0 & F). exists f0. intros fuel Hfu. unfold f_jump_main. rewrite Eb, (F fuel Hfu). reflexivity. }
  intros r Er. unfold lines in Er. rewrite map_map in Er. cbn [snd] in Er.
  assert (Hw : forall k, In k (written interval steps) -> (k <= steps)%nat).
  { intros k Hi. exact (written_le interval steps k Hi). }
  destruct (f_evaluations _ _ None) as [q|] eqn:Q; [|discriminate].
  apply (f_all_measured garbage lat N table rho phi delta eps coef sched Hs1 HS Hde Hep Htab Hp Hsh Hc Hk h y (fun k => INR k * dt * dt ^ 4 * L ^ 5 / 120 + INR k / 2 ^ 40) (fun k => INR k * dt)) in Q;
    [|exact I|intros k Hi; destruct (S1 k (Hw k Hi)) as (A & B & C); auto].
  destruct Q as (xs & -> & F). cbn [pbind] in Er. injection Er as <-. eexists. split; [reflexivity|].
  rewrite map_map. cbn [fst]. clear lines Te. revert F Hw. generalize (written interval steps). intros ks F.
  induction F as [|k x ks xs Hx F IH]; intros Hw; [constructor|]. cbn [map List.combine]. constructor; [|apply IH; intros k' Hi; apply Hw; right; exact Hi]. cbn [fst snd].
  split; [reflexivity|]. split; [exact (time_close garbage dt t_end interval steps k Ht (Hw k (or_introl eq_refl)))|exact Hx].
Qed.

(** ** C96 *)
Theorem C96_chain : forall sort garbage sched N J U filling table delta coef eps dt t_end interval steps,
  sorts_by_column sort -> (3 <= N)%Z -> fits3 (chain_lattice N) N -> is_double J -> is_double (U / 2) -> double_times garbage dt t_end interval steps ->
  shared_jump N sched -> 0 <= filling <= 1 -> 0 <= delta -> table_near delta table (init_ev1 N 1 filling) ->
  0 <= eps -> phases_near eps coef N (fun a => filling * PI * IZR a) ->
  (forall k, IZR (N * N + N + Z.of_nat (threads (sched k)) + 6) <= 2 ^ 50) ->
  let L := 6 * Rabs J + Rabs U in L <= 2 ^ 500 -> dt ^ 2 * L ^ 2 <= 8 ->
  let n := (N + N * N * N)%Z in
  exists m y o, init_matrix sort (real J : CR) (real U) (real (1/2)) (chain_lattice N) = Ok m /\
    the_solution n (entry (bm_scale imag_unit m)) y /\
    terminates_with (f_jump_1d garbage sort sched N J U table coef dt t_end interval) (Ok o) /\
    forall r, o = Some r -> exists lines, r = Ok lines /\
      Forall2 (fun k line => fst line = time_at (to_double garbage) dt k /\ Rabs (fst line - INR k * dt) <= INR k * INR steps * dt / 2 ^ 52 /\
        Rabs (snd line - jump N (sea N filling) (fun a => filling * PI * IZR a) (y (INR k * dt))) <=
          printed_error n L dt delta eps k (N * N + N + Z.of_nat (threads (sched k)) + 6))
        (written interval steps) lines.
Proof.
  intros sort garbage sched N J U filling table delta coef eps dt t_end interval steps Hs HN Hf HJ HU Ht Hsh Hfi Hde Htab Hep Hc Hk L HL Hd n.
  assert (H64 : (N < two64)%Z) by (unfold fits3 in Hf; cbn [lat_coordination chain_lattice] in Hf; nia).
  assert (Hl : shipped3 (chain_lattice N) N) by (constructor; lia).
  replace L with (3 * neighbours (chain_lattice N) * Rabs J + Rabs U) in * by (unfold L, neighbours; cbn [lat_coordination chain_lattice]; ring).
  apply (double_jump_lines sort garbage (chain_lattice N) N (near_value N table) (sea N filling) _ delta eps coef sched); try assumption.
  - intros a b Ha Hb. split; [apply (near_sea N filling delta table H64 Htab a b Ha Hb)|apply (near_le1 N filling delta table Htab)].
  - intros a b. apply pair_le; assumption.
Qed.
Section Square.
  Context (N : Z) (delta : R) (table : list R).
  Hypothesis HN : (1 <= N)%Z.
  Hypothesis HF : (N * N < two64)%Z.
  Hypothesis Ht : table_near delta table (ev2_table N N).
  Definition near_square (a b : Z) : R := match ev2 N N table a b with Ok x => x | UB => 0 end.
  Lemma near_square_sea a b : site (N * N) a -> site (N * N) b -> Rabs (near_square a b - sea_square N a b) <= delta /\ Rabs (near_square a b) <= 1.
  Proof.
    intros Ha Hb. rewrite <- (table_square_sea N HN HF a b Ha Hb). unfold table_square, near_square.
    destruct (C41_square N a b HN HF Ha Hb) as (E & _). rewrite E. unfold ev2 in *. pose proof (vread_some _ _ _ E) as (L & X). rewrite X. destruct Ht as (Le & H).
    unfold vread in *. set (i := u64 _) in *. destruct (Z.ltb_spec i 0); [discriminate|].
    rewrite (nth_error_nth' table 0) by lia. exact (H _ L).
  Qed.
End Square.
Theorem C96_square : forall sort garbage sched N J U kx ky table delta coef eps dt t_end interval steps,
  sorts_by_column sort -> (3 <= N)%Z -> fits3 (square_lattice N N) (N * N) -> is_double J -> is_double (U / 2) -> double_times garbage dt t_end interval steps ->
  shared_jump (N * N) sched -> 0 <= delta -> table_near delta table (ev2_table N N) ->
  0 <= eps -> phases_near eps coef (N * N) (phase_square N kx ky) ->
  (forall k, IZR (N * N * (N * N) + N * N + Z.of_nat (threads (sched k)) + 6) <= 2 ^ 50) ->
  let L := 12 * Rabs J + Rabs U in L <= 2 ^ 500 -> dt ^ 2 * L ^ 2 <= 8 ->
  let n := (N * N + N * N * (N * N) * (N * N))%Z in
  exists m y o, init_matrix sort (real J : CR) (real U) (real (1/2)) (square_lattice N N) = Ok m /\
    the_solution n (entry (bm_scale imag_unit m)) y /\
    terminates_with (f_jump_2d garbage sort sched N N J U table coef dt t_end interval) (Ok o) /\
    forall r, o = Some r -> exists lines, r = Ok lines /\
      Forall2 (fun k line => fst line = time_at (to_double garbage) dt k /\ Rabs (fst line - INR k * dt) <= INR k * INR steps * dt / 2 ^ 52 /\
        Rabs (snd line - jump (N * N) (sea_square N) (phase_square N kx ky) (y (INR k * dt))) <=
          printed_error n L dt delta eps k (N * N * (N * N) + N * N + Z.of_nat (threads (sched k)) + 6))
        (written interval steps) lines.
Proof.
  intros sort garbage sched N J U kx ky table delta coef eps dt t_end interval steps Hs HN Hf HJ HU Ht Hsh Hde Htab Hep Hc Hk L HL Hd n.
  assert (H64 : (N * N < two64)%Z) by (unfold fits3 in Hf; cbn [lat_coordination square_lattice] in Hf; nia).
  assert (Hl : shipped3 (square_lattice N N) (N * N)) by (constructor; lia).
  replace L with (3 * neighbours (square_lattice N N) * Rabs J + Rabs U) in * by (unfold L, neighbours; cbn [lat_coordination square_lattice]; ring).
  apply (double_jump_lines sort garbage (square_lattice N N) (N * N) (near_square N table) (sea_square N) _ delta eps coef sched); try assumption.
  - intros a b. apply near_square_sea; lia || assumption.
  - intros a b. apply square_pair; lia.
Qed.
(** for every distribution of the iterations over the threads there are interleavings with which all parallel
    loops of the program finish *)
Lemma f_evaluations_complete garbage (call_of : nat -> list nat * list nat -> call Rring) ks :
  (forall k st, exists t, let c := call_of k t in
     f_fermi_jump3 (double_arith garbage) (c_ev c) (c_basis c) (c_N c) (c_coefficients c) (c_h c) (c_threads c) (c_s1 c) (c_s2 c) st <> None) -> NoDup ks ->
  forall st, exists f, f_evaluations garbage (map (fun k => call_of k (f k)) ks) st <> None.
Proof.
  intros H ND. induction ND as [|k ks Hk ND IH]; intros st; [exists (fun _ => ([], [])); discriminate|].
  destruct (H k st) as (t & Ht). cbv zeta in Ht.
  destruct (f_fermi_jump3 _ _ _ _ _ _ _ _ _ st) as [[[v l]|]|] eqn:E; [|exists (fun _ => t); cbn [map f_evaluations]; rewrite E; discriminate|congruence].
  destruct (IH (Some l)) as (f & Hf). exists (fun j => if Nat.eqb j k then t else f j). cbn [map f_evaluations]. rewrite Nat.eqb_refl, E. cbn [pbind snd].
  rewrite (map_ext_in _ (fun k => call_of k (f k))); [destruct (f_evaluations _ _ _) as [[vs|]|]; [discriminate|discriminate|contradiction]|].
  intros j Hj. destruct (Nat.eqb_spec j k) as [->|_]; [contradiction|reflexivity].
Qed.
Lemma double_jump_completes sort garbage lat N ev coef J U dt t_end interval steps T w1 w2 :
  sorts_by_column sort -> shipped3 lat N -> fits3 lat N -> is_double J -> is_double (U / 2) -> double_times garbage dt t_end interval steps ->
  let L := 3 * neighbours lat * Rabs J + Rabs U in L <= 2 ^ 500 -> dt ^ 2 * L ^ 2 <= 8 ->
  exists sched o,
    (forall k, threads (sched k) = T /\ who (loop1 (sched k)) = w1 /\ who (loop2 (sched k)) = w2) /\
    terminates_with (f_jump_main garbage dt t_end interval ev (basis3 lat) N sched coef (f_compute_lattice garbage sort lat J U)) (Ok o) /\ o <> None.
Proof.
  intros Hs Hl Hf HJ HU Ht L HL Hd.
  destruct (lattice_double_lines sort garbage lat N J U dt t_end interval steps Hs Hl Hf HJ HU Ht HL Hd) as (Eb & m & y & h & Em & Y & Te & NY & S1).
  set (mk := fun t : list nat * list nat => mkMeasurement T (mkSch w1 (fst t)) (mkSch w2 (snd t)) (mkSch w1 [])).
  set (lines := map (fun k => (time_at (to_double garbage) dt k, mkFP k (h k))) (written interval steps)).
  assert (Fin : forall sched, terminates_with (f_jump_main garbage dt t_end interval ev (basis3 lat) N sched coef (f_compute_lattice garbage sort lat J U))
    (Ok (pbind (f_evaluations garbage (map (fun l => f_measure ev (basis3 lat) N sched coef (snd l)) lines) None) (fun values =>
         Some (Ok (List.combine (map fst lines) values)))))).
  { intros sched. destruct (Te f_progress (fun s => s)) as (f0 & F). exists f0. intros fuel Hfu. unfold f_jump_main. rewrite Eb, (F fuel Hfu). reflexivity. }
  destruct (f_evaluations_complete garbage (fun k t => f_measure ev (basis3 lat) N (fun _ => mk t) coef (mkFP k (h k))) (written interval steps)) with (st := @None (list CR)) as (f & Hf').
  - intros k st'. destruct (C95_completes (double_arith garbage) ev (basis3 lat) N coef (h k) T w1 w2 st') as (t1 & t2 & Q). exists (t1, t2). exact Q.
  - apply written_nodup.
  - exists (fun k => mk (f k)). eexists. split; [intros k; repeat split|]. split; [apply Fin|]. unfold lines. rewrite map_map. cbn [snd].
    rewrite (map_ext _ (fun k => f_measure ev (basis3 lat) N (fun _ => mk (f k)) coef (mkFP k (h k)))) by reflexivity.
    destruct (f_evaluations _ _ None) as [[vs|]|]; [discriminate|discriminate|contradiction].
Qed.
Theorem C96_chain_completes : forall sort garbage N J U table coef dt t_end interval steps T w1 w2,
  sorts_by_column sort -> (3 <= N)%Z -> fits3 (chain_lattice N) N -> is_double J -> is_double (U / 2) -> double_times garbage dt t_end interval steps ->
  let L := 6 * Rabs J + Rabs U in L <= 2 ^ 500 -> dt ^ 2 * L ^ 2 <= 8 ->
  exists sched o,
    (forall k, threads (sched k) = T /\ who (loop1 (sched k)) = w1 /\ who (loop2 (sched k)) = w2) /\
    terminates_with (f_jump_1d garbage sort sched N J U table coef dt t_end interval) (Ok o) /\ o <> None.
Proof.
  intros sort garbage N J U table coef dt t_end interval steps T w1 w2 Hs HN Hf HJ HU Ht L HL Hd.
  assert (Hl : shipped3 (chain_lattice N) N) by (constructor; unfold fits3 in Hf; cbn [lat_coordination chain_lattice] in Hf; nia).
  assert (EL : 3 * neighbours (chain_lattice N) * Rabs J + Rabs U = L) by (unfold L, neighbours; cbn [lat_coordination chain_lattice]; ring).
  apply (double_jump_completes sort garbage (chain_lattice N) N _ coef J U dt t_end interval steps T w1 w2 Hs Hl Hf HJ HU Ht); rewrite EL; assumption.
Qed.
Theorem C96_square_completes : forall sort garbage N J U table coef dt t_end interval steps T w1 w2,
  sorts_by_column sort -> (3 <= N)%Z -> fits3 (square_lattice N N) (N * N) -> is_double J -> is_double (U / 2) -> double_times garbage dt t_end interval steps ->
  let L := 12 * Rabs J + Rabs U in L <= 2 ^ 500 -> dt ^ 2 * L ^ 2 <= 8 ->
  exists sched o,
    (forall k, threads (sched k) = T /\ who (loop1 (sched k)) = w1 /\ who (loop2 (sched k)) = w2) /\
    terminates_with (f_jump_2d garbage sort sched N N J U table coef dt t_end interval) (Ok o) /\ o <> None.
Proof.
  intros sort garbage N J U table coef dt t_end interval steps T w1 w2 Hs HN Hf HJ HU Ht L HL Hd.
  assert (Hl : shipped3 (square_lattice N N) (N * N)) by (constructor; unfold fits3 in Hf; cbn [lat_coordination square_lattice] in Hf; nia).
  assert (EL : 3 * neighbours (square_lattice N N) * Rabs J + Rabs U = L) by (unfold L, neighbours; cbn [lat_coordination square_lattice]; ring).
  apply (double_jump_completes sort garbage (square_lattice N N) (N * N) _ coef J U dt t_end interval steps T w1 w2 Hs Hl Hf HJ HU Ht); rewrite EL; assumption.
Qed.
