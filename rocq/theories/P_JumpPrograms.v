(** THEOREMS: C88 (the programs that print the Fermi jump). *)
From Coq Require Import Reals Lra Psatz.
From Verif Require Import Base M_Operator M_Lattice Spec_Lattice Pf_Lattice P_Lattice M_LatticeReal Spec_LatticeReal M_Basis Pf_Basis P_Basis M_Matrix M_Ode M_Dispersion M_OpenMP Spec_OpenMP M_Expectation Spec_Expectation P_Expectation M_SiteOccupation Pf_SiteOccupation P_SiteOccupation M_FermiJump Pf_FermiJump P_FermiJump M_TimeLoop Spec_TimeLoop Spec_Ode
  Pf_Matrix Spec_Matrix Pf_Matrix2 P_Matrix Spec_Stability Pf_Stability Pf_Stability2 Pf_Stability3 P_Stability Spec_Programs M_Programs Pf_Programs Pf_Programs2 P_Programs M_JumpPrograms Spec_JumpPrograms Pf_JumpPrograms.
Local Open Scope R_scope.
Local Open Scope list_scope.
Local Notation len u := (Z.of_nat (length u)).

(** the coefficients, for both lattices *)
Lemma lattice_lines sort rnd u st lat N J U dt t_end interval steps :
  sorts_by_column sort -> shipped3 lat N -> fits3 lat N -> times_ok rnd u dt t_end interval steps ->
  let L := 3 * neighbours lat * Rabs J + Rabs U in dt ^ 2 * L ^ 2 <= 8 ->
  let n := (N + N * N * N)%Z in
  Z.of_nat (length (basis3 lat)) = n /\
  exists m y s, init_matrix sort (real J : CR) (real U) (real (1/2)) lat = Ok m /\
    the_solution n (entry (bm_scale imag_unit m)) y /\
    (forall (O : Type) (obs : progress -> O), terminates_with (run_main rnd st n dt t_end interval (compute_lattice sort lat J U) obs)
      (Ok (map (fun k => (time_at rnd dt k, obs (s k))) (written interval steps)))) /\
    (forall i, (0 <= i < n)%Z -> vget (coefficients (s 0%nat)) i = first_unit i) /\
    (forall t, n2 (idx n) (vecf (y t)) = 1) /\
    forall k, steps_done (s k) = k /\ len (coefficients (s k)) = n /\ norm2 (coefficients (s k)) <= 1 /\
      distance2 (coefficients (s k)) (y (INR k * dt)) <= INR k * dt * dt ^ 4 * L ^ 5 / 120.
Proof.
  intros Hs Hl Hf (T1 & T2 & T3 & T4 & T5 & T6 & T7) L Hd n.
  assert (Hr : regular lat N) by (destruct Hl; [apply chain_regular|apply square_regular]; lia || nia).
  pose proof (N_pos lat N Hr) as NP.
  split; [pose proof (basis3_len lat N Hr); unfold n; nia|].
  destruct (full_facts sort J U lat N Hs Hl Hf) as (m & Em & A & B & C & D).
  destruct (main_lines rnd u st n dt t_end interval steps m (compute_lattice sort lat J U) L) as (y & s & Y1 & Y2 & Y3 & Te & S0 & NY & S1); try assumption.
  - unfold compute_lattice. rewrite Em. reflexivity.
  - exact (row_op _ _ _ B C D).
  - unfold n; nia.
  - exists m, y, s. split; [exact Em|]. split; [split; [exact Y1|split; assumption]|]. split; [exact Te|]. split; [exact S0|]. split; assumption.
Qed.

(** every interleaving of the parallel loops of the measurements *)
Definition shared_jump (N : Z) (sched : nat -> measurement) : Prop := forall k,
  shares (threads (sched k)) 0 N (loop1 (sched k)) /\ shares (threads (sched k)) 0 N (loop2 (sched k)).

Lemma formula_jump N rho rho' phi coef (h : list CR) basis T s1 s2 :
  (forall a b, site N a -> site N b -> rho a b = rho' a b) ->
  (forall i, (0 <= i < N)%Z -> vread coef i = Ok (cos (phi i), sin (phi i))) ->
  formula Rring (mkCall (F := Rring) (by_site (F := Rring) rho) basis N coef h T s1 s2) = jump N rho' phi (vget h).
Proof.
  intros Hr Hc. unfold formula, jump. cbn [c_ev c_N c_coefficients c_h]. cbv zeta.
  match goal with |- norm ?z = _ => assert (E : z = jump_amplitude N rho' phi (vget h)) end.
  2:{ rewrite E. destruct (jump_amplitude N rho' phi (vget h)) as [x y]. reflexivity. }
  unfold jump_amplitude. apply sum_over_ext. intros i Hi. apply zrange_in in Hi. apply (f_equal2 rmul).
  - specialize (Hc i Hi). unfold vread in Hc. unfold vget. destruct (Z.ltb i 0); [discriminate|].
    destruct (nth_error coef (Z.to_nat i)) as [x|] eqn:En; [|discriminate]. injection Hc as ->. apply (nth_error_nth coef (Z.to_nat i) _ En).
  - apply (f_equal2 radd); [reflexivity|]. apply sum_over_ext. intros j Hj. apply zrange_in in Hj. apply sum_over_ext. intros k Hk. apply zrange_in in Hk.
    apply (f_equal2 rmul); [|reflexivity]. unfold real, pair_average, by_site, delta, kron, hop, index1. cbn [indices fst]. rewrite Hr by assumption.
    destruct (j =? k)%Z; apply (injective_projections (A := R) (B := R)); cbn; ring.
Qed.

(** the measurements of one run *)
Section Run.
  Context (lat : lattice) (N : Z) (table : Z -> Z -> R) (rho : Z -> Z -> R) (phi : Z -> R) (sched : nat -> measurement).
  Hypothesis Hl : shipped lat N.
  Hypothesis HS : (N + N * N * N < two64)%Z.
  Hypothesis Hr : forall a b, site N a -> site N b -> table a b = rho a b.
  Hypothesis Hsh : shared_jump N sched.
  Context (coef : list (R * R)).
  Hypothesis Lc : len coef = N.
  Hypothesis Hc : forall i, (0 <= i < N)%Z -> vread coef i = Ok (cos (phi i), sin (phi i)).
  Lemma measured (ss : list progress) r : (forall s, In s ss -> len (coefficients s) = (N + N * N * N)%Z) ->
    evaluations (map (measure (by_site (F := Rring) table) (basis3 lat) N sched coef) ss) None = Some r ->
    r = Ok (map (fun s => jump N rho phi (vget (coefficients s))) ss).
  Proof.
    intros Hh H. destruct ss as [|s ss]; [injection H as <-; reflexivity|].
    assert (Lg : forall s', In s' (s :: ss) -> legal Rring (measure (by_site (F := Rring) table) (basis3 lat) N sched coef s')).
    { intros s' Hs'. unfold measure. destruct (Hsh (steps_done s')) as [H1 H2]. apply legal_call; try assumption. apply Hh; exact Hs'. }
    cbn [map] in H. apply (C45_history Rring) in H.
    - rewrite H. f_equal. change (measure (by_site (F := Rring) table) (basis3 lat) N sched coef s :: map (measure (by_site (F := Rring) table) (basis3 lat) N sched coef) ss) with (map (measure (by_site (F := Rring) table) (basis3 lat) N sched coef) (s :: ss)).
      rewrite map_map. apply map_ext. intros s'. apply formula_jump; assumption.
    - constructor; [apply Lg; left; reflexivity|]. apply Forall_forall. intros c Hc'. apply in_map_iff in Hc' as (s' & <- & Hs'). apply Lg. right; exact Hs'.
    - apply Forall_forall. intros c Hc'. apply in_map_iff in Hc' as (s' & <- & Hs'). cbn. lia.
  Qed.
End Run.

(** both programs *)
Lemma jump_lines sort rnd u st lat N table rho phi sched ctor J U dt t_end interval steps :
  sorts_by_column sort -> shipped3 lat N -> fits3 lat N -> times_ok rnd u dt t_end interval steps ->
  (forall a b, site N a -> site N b -> table a b = rho a b) ->
  (forall a b, site N a -> site N b -> Rabs (pair_average rho a b) <= 1) -> shared_jump N sched ->
  (forall r, ctor = Some r -> exists coef, r = Ok coef /\ len coef = N /\ forall i, (0 <= i < N)%Z -> vread coef i = Ok (cos (phi i), sin (phi i))) ->
  let L := 3 * neighbours lat * Rabs J + Rabs U in dt ^ 2 * L ^ 2 <= 8 ->
  let n := (N + N * N * N)%Z in
  exists m y o, init_matrix sort (real J : CR) (real U) (real (1/2)) lat = Ok m /\
    the_solution n (entry (bm_scale imag_unit m)) y /\
    terminates_with (jump_main rnd st dt t_end interval (by_site (F := Rring) table) (basis3 lat) N sched (compute_lattice sort lat J U) ctor) (Ok o) /\
    forall r, o = Some r -> exists x, r = Ok (map (fun k => (time_at rnd dt k, x k)) (written interval steps)) /\
      x 0%nat = 1 /\
      forall k, 0 <= x k <= IZR n /\ Rabs (x k - jump N rho phi (y (INR k * dt))) <= 2 * IZR n * (INR k * dt * dt ^ 4 * L ^ 5 / 120).
Proof.
  intros Hs Hl Hf Ht Hr Hp Hsh Hct L Hd n.
  destruct (lattice_lines sort rnd u st lat N J U dt t_end interval steps Hs Hl Hf Ht Hd) as (Eb & m & y & s & Em & Y & Te & S0 & NY & S1). fold n in Eb, Y, Te, S0, NY, S1. fold L in S1.
  assert (Hs1 : shipped lat N) by (destruct Hl; constructor; lia || nia).
  assert (NP : (0 < N)%Z) by (pose proof (N_pos lat N (shipped_regular _ _ Hs1)); lia).
  pose proof (fits3_S3 _ _ (shipped3_graph _ _ Hl) Hf) as HS.
  set (lines := map (fun k => (time_at rnd dt k, s k)) (written interval steps)).
  exists m, y, (pbind ctor (fun coef => pbind (evaluations (map (fun l => measure (by_site (F := Rring) table) (basis3 lat) N sched coef (snd l)) lines) None) (fun values =>
         Some (Ok (combine (map fst lines) values))))).
  split; [exact Em|]. split; [exact Y|]. split.
  { destruct (Te progress (fun s => s)) as (f0 & F). exists f0. intros fuel Hfu. unfold jump_main. rewrite Eb, (F fuel Hfu). reflexivity. }
  intros r Er. destruct ctor as [c|] eqn:Ec; [|discriminate]. destruct (Hct c eq_refl) as (coef & -> & Lc & Vc). cbn [pbind] in Er.
  unfold lines in Er. rewrite map_map in Er. cbn [snd] in Er.
  rewrite <- (map_map s (measure (by_site (F := Rring) table) (basis3 lat) N sched coef)) in Er.
  destruct (evaluations _ None) as [q|] eqn:Q; [|discriminate].
  apply (measured lat N table rho phi sched Hs1 HS Hr Hsh coef Lc Vc) in Q.
  2:{ intros s' Hs'. apply in_map_iff in Hs' as (k & <- & _). apply (S1 k). }
  subst q. cbn [pbind] in Er. injection Er as <-. exists (fun k => jump N rho phi (vget (coefficients (s k)))). split; [|split].
  - f_equal. rewrite !map_map. cbn [fst]. clear lines Te. induction (written interval steps) as [|k ks IH]; [reflexivity|]. cbn [map combine]. f_equal. exact IH.
  - apply (jump_first N rho phi NP). exact S0.
  - intros k. destruct (S1 k) as (_ & Lk & Nk & Dk). rewrite (vec_n2 n _ Lk) in Nk. split; [apply (jump_range N rho phi NP Hp); exact Nk|].
    eapply Rle_trans; [apply (jump_lip N rho phi NP Hp); [exact Nk|rewrite NY; apply Rle_refl]|].
    change (vecf (vget (coefficients (s k)))) with (vec (coefficients (s k))). change (N + N * N * N)%Z with n. rewrite <- (distance_nrm n _ (y (INR k * dt)) Lk).
    assert (0 <= IZR n) by (apply IZR_le; unfold n; nia). apply Rmult_le_compat_l; [lra|exact Dk].
Qed.

(** ** C88 *)
Theorem C88_chain : forall sort rnd u st T0 s0 sched N J U filling dt t_end interval steps,
  sorts_by_column sort -> (3 <= N)%Z -> fits3 (chain_lattice N) N -> times_ok rnd u dt t_end interval steps ->
  shares T0 0 N s0 -> shared_jump N sched -> 0 <= filling <= 1 ->
  let L := 6 * Rabs J + Rabs U in dt ^ 2 * L ^ 2 <= 8 ->
  let n := (N + N * N * N)%Z in
  exists m y o, init_matrix sort (real J : CR) (real U) (real (1/2)) (chain_lattice N) = Ok m /\
    the_solution n (entry (bm_scale imag_unit m)) y /\
    terminates_with (jump_1d sort rnd st s0 sched N J U filling dt t_end interval) (Ok o) /\
    forall r, o = Some r -> exists x, r = Ok (map (fun k => (time_at rnd dt k, x k)) (written interval steps)) /\
      x 0%nat = 1 /\
      forall k, 0 <= x k <= IZR n /\
        Rabs (x k - jump N (sea N filling) (fun a => filling * PI * IZR a) (y (INR k * dt))) <= 2 * IZR n * (INR k * dt * dt ^ 4 * L ^ 5 / 120).
Proof.
  intros sort rnd u st T0 s0 sched N J U filling dt t_end interval steps Hs HN Hf Ht H0 Hsh Hfi L Hd n.
  assert (H64 : (N < two64)%Z) by (unfold fits3 in Hf; cbn [lat_coordination chain_lattice] in Hf; nia).
  assert (Hl : shipped3 (chain_lattice N) N) by (constructor; lia).
  replace L with (3 * neighbours (chain_lattice N) * Rabs J + Rabs U) in * by (unfold L, neighbours; cbn [lat_coordination chain_lattice]; ring).
  apply (jump_lines sort rnd u st (chain_lattice N) N (table_value N filling) (sea N filling)); try assumption.
  - intros a b. apply table_sea. exact H64.
  - intros a b. apply pair_le; assumption.
  - intros r Er. destruct (C46_table_1d Rring cos sin N T0 s0 _ _ r ltac:(lia) H0 Er) as (coef & E1 & E2 & E3). exists coef. split; [exact E1|]. split; [exact E2|].
    intros i Hi. etransitivity; [exact (E3 i Hi)|]. replace (@rmul Rring (calculate_fermi_momentum_1d filling) (ch_pos (real_chain N 1) i)) with (filling * PI * IZR i); [reflexivity|].
    unfold calculate_fermi_momentum_1d, ch_pos, real_chain. cbn. ring.
Qed.

(** <c+_a c_b> of the square lattice *)
Lemma ev2_off dx dy : (0 <= dx < two64 / 2)%Z -> (0 <= dy < two64 / 2)%Z -> ~ (dx = 0 /\ dy = 0)%Z -> Rabs (ev2_value dx dy) <= 1 / 2.
Proof.
  intros Hx Hy Hne. unfold ev2_value. assert (T : (two64 / 2 + two64 / 2 = two64)%Z) by reflexivity. rewrite (u64_id (dx + dy)) by lia.
  assert (SB : forall z, (1 <= z)%Z -> Rabs (sin (PI / 2 * IZR z) / IZR z) <= 1).
  { intros z Hz. assert (1 <= IZR z) by (apply IZR_le; exact Hz). pose proof (SIN_bound (PI / 2 * IZR z)) as [S1 S2].
    unfold Rdiv at 1. rewrite Rabs_mult, (Rabs_right (/ IZR z)) by (apply Rle_ge, Rlt_le, Rinv_0_lt_compat; lra).
    assert (Rabs (sin (PI / 2 * IZR z)) <= 1) by (apply Rabs_le; lra). assert (/ IZR z <= 1) by (rewrite <- Rinv_1; apply Rinv_le_contravar; lra).
    assert (0 < / IZR z) by (apply Rinv_0_lt_compat; lra). pose proof (Rabs_pos (sin (PI / 2 * IZR z))). nra. }
  pose proof PI2_3_2 as P3. assert (P4 : 3 <= PI) by lra.
  assert (I1 : 0 < 1 / PI <= 1 / 3) by (split; [apply Rdiv_lt_0_compat; lra|unfold Rdiv; apply Rmult_le_compat_l; [lra|apply Rinv_le_contravar; lra]]).
  assert (I2 : 0 < 2 / (PI * PI) <= 2 / 9) by (split; [apply Rdiv_lt_0_compat; nra|unfold Rdiv; apply Rmult_le_compat_l; [lra|apply Rinv_le_contravar; nra]]).
  destruct (Z.eqb_spec dx dy) as [<-|E].
  - destruct (Z.eqb_spec dx 0) as [->|E0]; [lia|]. pose proof (SB (dx + dx)%Z ltac:(lia)) as Q.
    replace (1 / PI * sin (PI / 2 * IZR (dx + dx)) / IZR (dx + dx)) with (1 / PI * (sin (PI / 2 * IZR (dx + dx)) / IZR (dx + dx))) by (unfold Rdiv; ring).
    rewrite Rabs_mult, (Rabs_right (1 / PI)) by lra. pose proof (Rabs_pos (sin (PI / 2 * IZR (dx + dx)) / IZR (dx + dx))). nra.
  - set (d := if (dy <? dx)%Z then _ else _). assert (D : (1 <= d)%Z) by (unfold d; destruct (Z.ltb_spec dy dx); rewrite u64_id by lia; lia).
    pose proof (SB (dx + dy)%Z ltac:(lia)) as Q1. pose proof (SB d D) as Q2. rewrite !Rabs_mult, (Rabs_right (2 / (PI * PI))) by lra.
    set (p := Rabs (_ / IZR (dx + dy))) in *. set (q := Rabs (_ / IZR d)) in *. assert (0 <= p) by apply Rabs_pos. assert (0 <= q) by apply Rabs_pos.
    assert (p * q <= 1) by nra. assert (0 <= p * q) by nra. rewrite Rmult_assoc. nra.
Qed.
Section Square.
  Context (N : Z).
  Hypothesis HN : (1 <= N)%Z.
  Hypothesis HF : (N * N < two64)%Z.
  Definition table_square (a b : Z) : R := match ev2 N N (ev2_table N N) a b with Ok x => x | UB => 0 end.
  Lemma square_rd a b : site (N * N) a -> site (N * N) b ->
    sq_distance_x N a b = ring_distance N (a / N) (b / N) /\ sq_distance_y N N a b = ring_distance N (a mod N) (b mod N).
  Proof. intros Ha Hb. split; [apply (sq_distance_x_rd N HN HF a b Ha Hb)|apply (sq_distance_y_rd N HN HF a b Ha Hb)]. Qed.
  Lemma table_square_sea a b : site (N * N) a -> site (N * N) b -> table_square a b = sea_square N a b.
  Proof.
    intros Ha Hb. unfold table_square. destruct (C41_square N a b HN HF Ha Hb) as (E & _). rewrite E.
    destruct (square_rd a b Ha Hb) as [-> ->]. reflexivity.
  Qed.
  Lemma square_pair a b : site (N * N) a -> site (N * N) b -> Rabs (pair_average (sea_square N) a b) <= 1.
  Proof.
    intros Ha Hb. unfold pair_average, kron. rewrite <- (table_square_sea a b Ha Hb). unfold table_square. destruct (Z.eqb_spec a b) as [->|E].
    - destruct (C41_square N b b HN HF Hb Hb) as (_ & _ & Q). rewrite Q. replace (2 * (1 / 2) - 1) with 0 by field. rewrite Rabs_R0. lra.
    - destruct (C41_square N a b HN HF Ha Hb) as (Q & _). rewrite Q. destruct (C25_metric N a b HN HF Ha Hb) as (_ & _ & X & Y & Z0).
      destruct (C25_ring_distances N a b HN HF Ha Hb) as ((_ & X0 & _) & (_ & Y0 & _) & _).
      assert (T : (two64 = 2 * (two64 / 2))%Z) by reflexivity. pose proof (Z.mul_div_le N 2 ltac:(lia)) as M2. assert (N < two64)%Z by nia.
      rewrite <- ev2_value_sea by lia. pose proof (ev2_off (sq_distance_x N a b) (sq_distance_y N N a b) ltac:(lia) ltac:(lia) ltac:(intros C; apply E, Z0, C)) as O.
      unfold Rabs in *. repeat destruct (Rcase_abs _); lra.
  Qed.
End Square.
Theorem C88_square : forall sort rnd u st T0 s0 sched N J U kx ky dt t_end interval steps,
  sorts_by_column sort -> (3 <= N)%Z -> fits3 (square_lattice N N) (N * N) -> times_ok rnd u dt t_end interval steps ->
  shares T0 0 (N * N) s0 -> shared_jump (N * N) sched ->
  let L := 12 * Rabs J + Rabs U in dt ^ 2 * L ^ 2 <= 8 ->
  let n := (N * N + N * N * (N * N) * (N * N))%Z in
  exists m y o, init_matrix sort (real J : CR) (real U) (real (1/2)) (square_lattice N N) = Ok m /\
    the_solution n (entry (bm_scale imag_unit m)) y /\
    terminates_with (jump_2d sort rnd st s0 sched N N J U (kx, ky) dt t_end interval) (Ok o) /\
    forall r, o = Some r -> exists x, r = Ok (map (fun k => (time_at rnd dt k, x k)) (written interval steps)) /\
      x 0%nat = 1 /\
      forall k, 0 <= x k <= IZR n /\
        Rabs (x k - jump (N * N) (sea_square N) (phase_square N kx ky) (y (INR k * dt))) <= 2 * IZR n * (INR k * dt * dt ^ 4 * L ^ 5 / 120).
Proof.
  intros sort rnd u st T0 s0 sched N J U kx ky dt t_end interval steps Hs HN Hf Ht H0 Hsh L Hd n.
  assert (H64 : (N * N < two64)%Z) by (unfold fits3 in Hf; cbn [lat_coordination square_lattice] in Hf; nia).
  assert (Hl : shipped3 (square_lattice N N) (N * N)) by (constructor; lia).
  replace L with (3 * neighbours (square_lattice N N) * Rabs J + Rabs U) in * by (unfold L, neighbours; cbn [lat_coordination square_lattice]; ring).
  apply (jump_lines sort rnd u st (square_lattice N N) (N * N) (table_square N) (sea_square N)); try assumption.
  - intros a b. apply table_square_sea; lia.
  - intros a b. apply square_pair; lia.
  - intros r Er. destruct (C46_table_2d Rring cos sin (square_lattice N N) (N * N) T0 s0 _ _ r ltac:(constructor; nia) H0 Er) as (coef & E1 & E2 & E3). exists coef. split; [exact E1|]. split; [exact E2|].
    intros i Hi. etransitivity; [exact (E3 i Hi)|]. unfold phase_square, s_pos, real_square. cbn. do 3 f_equal; ring.
Qed.
(** for every distribution of the iterations over the threads there are interleavings with which
    all parallel loops of the program finish *)
Lemma written_nodup interval steps : NoDup (written interval steps).
Proof.
  unfold written, Spec_TimeLoop.schedule. apply FinFun.Injective_map_NoDup; [|apply seq_NoDup]. intros x y E.
  assert (1 <= Z.to_nat (Z.max 1 interval))%nat by lia. nia.
Qed.
Lemma evaluations_complete (call_of : nat -> list nat * list nat -> call Rring) ks :
  (forall k st, exists t, evaluate (call_of k t) st <> None) -> NoDup ks ->
  forall st, exists f, evaluations (map (fun k => call_of k (f k)) ks) st <> None.
Proof.
  intros H ND. induction ND as [|k ks Hk ND IH]; intros st; [exists (fun _ => ([], [])); discriminate|].
  destruct (H k st) as (t & Ht). destruct (evaluate (call_of k t) st) as [[[v l]|]|] eqn:E; [|exists (fun _ => t); cbn [map evaluations]; rewrite E; discriminate|congruence].
  destruct (IH (Some l)) as (f & Hf). exists (fun j => if Nat.eqb j k then t else f j). cbn [map evaluations]. rewrite Nat.eqb_refl, E. cbn [pbind snd].
  rewrite (map_ext_in _ (fun k => call_of k (f k))); [destruct (evaluations _ _) as [[vs|]|]; [discriminate|discriminate|contradiction]|].
  intros j Hj. destruct (Nat.eqb_spec j k) as [->|_]; [contradiction|reflexivity].
Qed.
Lemma jump_completes sort rnd u st lat N ev ctor J U dt t_end interval steps T w1 w2 :
  sorts_by_column sort -> shipped3 lat N -> fits3 lat N -> times_ok rnd u dt t_end interval steps ->
  dt ^ 2 * (3 * neighbours lat * Rabs J + Rabs U) ^ 2 <= 8 -> ctor <> None ->
  exists sched o,
    (forall k, threads (sched k) = T /\ who (loop1 (sched k)) = w1 /\ who (loop2 (sched k)) = w2) /\
    terminates_with (jump_main rnd st dt t_end interval ev (basis3 lat) N sched (compute_lattice sort lat J U) ctor) (Ok o) /\ o <> None.
Proof.
  intros Hs Hl Hf Ht Hd Hc.
  destruct (lattice_lines sort rnd u st lat N J U dt t_end interval steps Hs Hl Hf Ht Hd) as (Eb & m & y & s & Em & Y & Te & S0 & NY & S1).
  set (mk := fun t : list nat * list nat => mkMeasurement T (mkSch w1 (fst t)) (mkSch w2 (snd t)) (mkSch w1 [])).
  set (lines := map (fun k => (time_at rnd dt k, s k)) (written interval steps)).
  assert (Fin : forall sched, terminates_with (jump_main rnd st dt t_end interval ev (basis3 lat) N sched (compute_lattice sort lat J U) ctor)
    (Ok (pbind ctor (fun coef => pbind (evaluations (map (fun l => measure ev (basis3 lat) N sched coef (snd l)) lines) None) (fun values =>
         Some (Ok (combine (map fst lines) values))))))).
  { intros sched. destruct (Te progress (fun s => s)) as (f0 & F). exists f0. intros fuel Hfu. unfold jump_main. rewrite Eb, (F fuel Hfu). reflexivity. }
  destruct ctor as [[coef|]|]; [| |contradiction].
  - destruct (evaluations_complete (fun k t => measure ev (basis3 lat) N (fun _ => mk t) coef (s k)) (written interval steps)) with (st := @None (list (cplx_ring Rring))) as (f & Hf').
    + intros k st'. unfold measure, mk. cbn [threads loop1 loop2]. destruct (C45_completes Rring ev (basis3 lat) N coef (coefficients (s k)) T w1 w2 st') as (t1 & t2 & Q). exists (t1, t2). exact Q.
    + apply written_nodup.
    + exists (fun k => mk (f k)). eexists. split; [intros k; repeat split|]. split; [apply Fin|]. cbn [pbind]. unfold lines. rewrite map_map. cbn [snd].
      rewrite (map_ext _ (fun k => measure ev (basis3 lat) N (fun _ => mk (f k)) coef (s k))).
      * destruct (evaluations _ None) as [[vs|]|]; [discriminate|discriminate|contradiction].
      * intros k. unfold measure. destruct (S1 k) as (-> & _). reflexivity.
  - exists (fun k => mk ([], [])). eexists. split; [intros k; repeat split|]. split; [apply Fin|discriminate].
Qed.
Theorem C88_chain_completes : forall sort rnd u st N J U filling dt t_end interval steps T w0 w1 w2,
  sorts_by_column sort -> (3 <= N)%Z -> fits3 (chain_lattice N) N -> times_ok rnd u dt t_end interval steps ->
  dt ^ 2 * (6 * Rabs J + Rabs U) ^ 2 <= 8 ->
  exists t0 sched o,
    (forall k, threads (sched k) = T /\ who (loop1 (sched k)) = w1 /\ who (loop2 (sched k)) = w2) /\
    terminates_with (jump_1d sort rnd st (mkSch w0 t0) sched N J U filling dt t_end interval) (Ok o) /\ o <> None.
Proof.
  intros sort rnd u st N J U filling dt t_end interval steps T w0 w1 w2 Hs HN Hf Ht Hd.
  assert (H64 : (N < two64)%Z) by (unfold fits3 in Hf; cbn [lat_coordination chain_lattice] in Hf; nia).
  assert (Hl : shipped3 (chain_lattice N) N) by (constructor; lia).
  unfold jump_1d, ctor_1d, fill.
  match goal with |- exists t0 sched o, _ /\ terminates_with (jump_main _ _ _ _ _ _ _ _ _ _ (par_for _ ?b ?m)) _ /\ _ =>
    destruct (par_for_finishes (K := cplx_ring Rring) w0 b m) as (t0 & Q) end.
  exists t0. apply (jump_completes sort rnd u st (chain_lattice N) N _ _ J U dt t_end interval steps T w1 w2); try assumption.
  unfold neighbours. cbn [lat_coordination chain_lattice]. replace (3 * 2 * Rabs J + Rabs U) with (6 * Rabs J + Rabs U) by ring. exact Hd.
Qed.
Theorem C88_square_completes : forall sort rnd u st N J U k_F dt t_end interval steps T w0 w1 w2,
  sorts_by_column sort -> (3 <= N)%Z -> fits3 (square_lattice N N) (N * N) -> times_ok rnd u dt t_end interval steps ->
  dt ^ 2 * (12 * Rabs J + Rabs U) ^ 2 <= 8 ->
  exists t0 sched o,
    (forall k, threads (sched k) = T /\ who (loop1 (sched k)) = w1 /\ who (loop2 (sched k)) = w2) /\
    terminates_with (jump_2d sort rnd st (mkSch w0 t0) sched N N J U k_F dt t_end interval) (Ok o) /\ o <> None.
Proof.
  intros sort rnd u st N J U k_F dt t_end interval steps T w0 w1 w2 Hs HN Hf Ht Hd.
  assert (H64 : (N * N < two64)%Z) by (unfold fits3 in Hf; cbn [lat_coordination square_lattice] in Hf; nia).
  assert (Hl : shipped3 (square_lattice N N) (N * N)) by (constructor; lia).
  unfold jump_2d, ctor_2d, fill.
  match goal with |- exists t0 sched o, _ /\ terminates_with (jump_main _ _ _ _ _ _ _ _ _ _ (par_for _ ?b ?m)) _ /\ _ =>
    destruct (par_for_finishes (K := cplx_ring Rring) w0 b m) as (t0 & Q) end.
  exists t0. apply (jump_completes sort rnd u st (square_lattice N N) (N * N) _ _ J U dt t_end interval steps T w1 w2); try assumption.
  unfold neighbours. cbn [lat_coordination square_lattice]. replace (3 * 4 * Rabs J + Rabs U) with (12 * Rabs J + Rabs U) by ring. exact Hd.
Qed.
Print Assumptions C88_chain.
Print Assumptions C88_square.
Print Assumptions C88_chain_completes.
Print Assumptions C88_square_completes.
