(** PROPERTY C110: the time evolution and the programs respect the symmetries of the lattice. *)
From Coq Require Import Reals Lra Psatz.
From Verif Require Import Base M_Operator M_Lattice Spec_Lattice Pf_Lattice P_Lattice M_LatticeReal Spec_LatticeReal M_Basis Pf_Basis P_Basis M_Matrix M_Ode M_Dispersion M_OpenMP Spec_OpenMP M_Expectation Spec_Expectation P_Expectation M_SiteOccupation Pf_SiteOccupation P_SiteOccupation M_FermiJump Pf_FermiJump P_FermiJump M_TimeLoop Spec_TimeLoop Spec_Ode
  Pf_Matrix Spec_Matrix Pf_Matrix2 P_Matrix Spec_Stability Pf_Stability Pf_Stability2 Pf_Stability3 P_Stability Spec_Programs M_Programs Pf_Programs Pf_Programs2 P_Ode P_TimeLoop P_Programs M_JumpPrograms Spec_JumpPrograms Pf_JumpPrograms P_JumpPrograms P_Dispersion Pf_MatrixEntry Spec_Symmetry Pf_Symmetry Ex_Matrix Ex_SiteOccupation Ex_Programs Ex_JumpPrograms.
Local Open Scope R_scope.
Local Open Scope list_scope.
Local Notation len u := (Z.of_nat (length u)).

(** the matrix is unchanged by every symmetry of the lattice *)
Theorem C110_matrix : forall (sort : list (triplet CR) -> list (triplet CR)) J U lat N s,
  sorts_by_column sort -> shipped3 lat N -> fits3 lat N -> lattice_symmetry lat N s -> let n := (N + N * N * N)%Z in
  exists m, init_matrix sort (real J : CR) (real U) (real (1/2)) lat = Ok m /\
    forall i j, (0 <= i < n)%Z -> (0 <= j < n)%Z -> entry (bm_scale imag_unit m) (moved N s i) (moved N s j) = entry (bm_scale imag_unit m) i j.
Proof.
  intros sort J U lat N s Hs Hl Hf Sy n. destruct (full_facts sort J U lat N Hs Hl Hf) as (m & Em & _). exists m. split; [exact Em|]. intros i j Hi Hj.
  exact (entry_moved sort J U lat N s Hs Hl Hf Sy m Em i j Hi Hj).
Qed.
(** the exact coefficients of c+_0(t) are unchanged by the symmetries which leave site 0 in place *)
Theorem C110_solution : forall (sort : list (triplet CR) -> list (triplet CR)) J U lat N s,
  sorts_by_column sort -> shipped3 lat N -> fits3 lat N -> lattice_symmetry lat N s -> s 0%Z = 0%Z -> let n := (N + N * N * N)%Z in
  exists m, init_matrix sort (real J : CR) (real U) (real (1/2)) lat = Ok m /\
    forall y, the_solution n (entry (bm_scale imag_unit m)) y -> forall t i, (0 <= i < n)%Z -> y t (moved N s i) = y t i.
Proof.
  intros sort J U lat N s Hs Hl Hf Sy S0 n. destruct (full_facts sort J U lat N Hs Hl Hf) as (m & Em & _). exists m. split; [exact Em|]. intros y Hy.
  apply (image_solution n (moved N s)) with (E := entry (bm_scale imag_unit m)); [| | | |exact Hy].
  - intros i. apply (moved_range lat N s Hl Hf Sy).
  - intros i j. apply (moved_inj lat N s Hl Hf Sy).
  - intros i j. apply (entry_moved sort J U lat N s Hs Hl Hf Sy m Em).
  - intros i. apply (moved_0 lat N s Hl Hf Sy S0).
Qed.
(** ** the symmetries of the shipped lattices *)
Lemma mirror_site N a : (0 < N)%Z -> site N (mirror N a).
Proof. intros H. unfold site, mirror. apply Z.mod_pos_bound, H. Qed.
Lemma mirror_inj N a b : site N a -> site N b -> mirror N a = mirror N b -> a = b.
Proof.
  unfold site, mirror. intros Ha Hb E.
  assert (A : forall x, (0 <= x < N)%Z -> ((- x) mod N = if Z.eqb x 0 then 0 else N - x)%Z).
  { intros x Hx. destruct (Z.eqb_spec x 0) as [->|]; [apply Z.mod_0_l; lia|]. rewrite <- (Z.mod_add (- x) 1 N), Z.mod_small by lia. lia. }
  rewrite !A in E by assumption. destruct (Z.eqb_spec a 0), (Z.eqb_spec b 0); lia.
Qed.
Lemma mirror_mod N x : mirror N (x mod N) = ((- x) mod N)%Z.
Proof. unfold mirror. replace (- (x mod N))%Z with (0 - x mod N)%Z by lia. rewrite Zminus_mod_idemp_r. f_equal. Qed.
Lemma mirror_next N a : ((mirror N a + 1) mod N)%Z = mirror N ((a - 1) mod N).
Proof. rewrite mirror_mod. unfold mirror. rewrite Zplus_mod_idemp_l. f_equal. lia. Qed.
Lemma mirror_prev N a : ((mirror N a - 1) mod N)%Z = mirror N ((a + 1) mod N).
Proof. rewrite mirror_mod. unfold mirror. rewrite Zminus_mod_idemp_l. f_equal. lia. Qed.
Lemma rotation_inj N d a b : site N a -> site N b -> rotation N d a = rotation N d b -> a = b.
Proof.
  unfold site, rotation. intros Ha Hb E. assert (Q : forall x, (0 <= x < N)%Z -> x = (((x + d) mod N - d) mod N)%Z).
  { intros x Hx. rewrite Zminus_mod_idemp_l. replace (x + d - d)%Z with x by lia. symmetry. apply Z.mod_small. lia. }
  rewrite (Q a Ha), (Q b Hb), E. reflexivity.
Qed.
(** the ring: its reflection and its rotations *)
Theorem C110_chain : forall N d, (3 <= N < two64)%Z -> lattice_symmetry (chain_lattice N) N (mirror N) /\ lattice_symmetry (chain_lattice N) N (rotation N d) /\ mirror N 0 = 0%Z.
Proof.
  intros N d HN. assert (M : forall x, site N (x mod N)) by (intros x; unfold site; apply Z.mod_pos_bound; lia). split; [|split].
  - split; [|split]; [intros a _; apply M|intros a b; apply mirror_inj|]. intros a Ha. cbn [lat_neighbors chain_lattice]. rewrite (chain_neighbors_ring N a ltac:(lia) Ha), (chain_neighbors_ring N (mirror N a) ltac:(lia) (M _)).
    cbn [map]. rewrite mirror_next, mirror_prev. apply perm_swap.
  - split; [|split]; [intros a _; apply M|intros a b; apply rotation_inj|]. intros a Ha. cbn [lat_neighbors chain_lattice]. rewrite (chain_neighbors_ring N a ltac:(lia) Ha), (chain_neighbors_ring N (rotation N d a) ltac:(lia) (M _)).
    cbn [map]. unfold rotation. rewrite !Zplus_mod_idemp_l, Zminus_mod_idemp_l. replace (a - 1 + d)%Z with (a + d - 1)%Z by lia. replace (a + 1 + d)%Z with (a + d + 1)%Z by lia. apply Permutation_refl.
  - unfold mirror. apply Z.mod_0_l. lia.
Qed.
(** the torus: the reflections of x and of y, and their exchange *)
Section Torus.
  Context (N : Z).
  Hypothesis HN : (3 <= N)%Z.
  Hypothesis H64 : (N * N < two64)%Z.
  Lemma coords a : site (N * N) a -> site N (a / N)%Z /\ site N (a mod N)%Z /\ a = (a / N * N + a mod N)%Z.
  Proof. intros Ha. split; [exact (sq_x_range N ltac:(lia) a Ha)|]. split; [exact (sq_y_range N ltac:(lia) a Ha)|]. pose proof (Z.div_mod a N). lia. Qed.
  Lemma at_xy x y : site N x -> site N y -> site (N * N) (x * N + y)%Z /\ ((x * N + y) / N = x)%Z /\ ((x * N + y) mod N = y)%Z.
  Proof.
    unfold site. intros Hx Hy. split; [nia|]. replace (x * N + y)%Z with (y + x * N)%Z by ring. rewrite Z.div_add, Z.mod_add, Z.div_small, Z.mod_small by lia. lia.
  Qed.
  Lemma torus_neighbors x y : site N x -> site N y -> sq_neighbors N N (x * N + y) = [((x - 1) mod N * N + y)%Z; (x * N + (y - 1) mod N)%Z; ((x + 1) mod N * N + y)%Z; (x * N + (y + 1) mod N)%Z].
  Proof.
    intros Hx Hy. destruct (at_xy x y Hx Hy) as (Ha & Ex & Ey). rewrite (sq_neighbors_torus N ltac:(lia) H64 _ Ha). cbv zeta. unfold sq_x, sq_y. rewrite Ex, Ey.
    assert (M : forall x, site N (x mod N)) by (intros x'; unfold site; apply Z.mod_pos_bound; lia). rewrite !(sq_index_eq N ltac:(lia) H64) by auto. reflexivity.
  Qed.
  (** a map given by its action on the coordinates *)
  Lemma torus_map (s : Z -> Z) (fx fy : Z -> Z -> Z) :
    (forall x y, site N x -> site N y -> s (x * N + y)%Z = (fx x y * N + fy x y)%Z /\ site N (fx x y) /\ site N (fy x y)) ->
    (forall x y x' y', site N x -> site N y -> site N x' -> site N y' -> fx x y = fx x' y' -> fy x y = fy x' y' -> x = x' /\ y = y') ->
    (forall x y, site N x -> site N y -> Permutation (map s (sq_neighbors N N (x * N + y))) (sq_neighbors N N (fx x y * N + fy x y))) ->
    lattice_symmetry (square_lattice N N) (N * N) s.
  Proof.
    intros H1 H2 H3. split; [|split].
    - intros a Ha. destruct (coords a Ha) as (Hx & Hy & ->). destruct (H1 _ _ Hx Hy) as (-> & A & B). apply at_xy; assumption.
    - intros a b Ha Hb E. destruct (coords a Ha) as (Hx & Hy & Qa), (coords b Hb) as (Hx' & Hy' & Qb). rewrite Qa, Qb in E. destruct (H1 _ _ Hx Hy) as (E1 & A & B). destruct (H1 _ _ Hx' Hy') as (E2 & A' & B'). rewrite E1, E2 in E.
      destruct (at_xy _ _ A B) as (_ & P1 & P2). destruct (at_xy _ _ A' B') as (_ & P3 & P4). rewrite E in P1, P2. rewrite P3 in P1. rewrite P4 in P2.
      destruct (H2 _ _ _ _ Hx Hy Hx' Hy') as [X Y]; [congruence|congruence|]. rewrite Qa, Qb, X, Y. reflexivity.
    - intros a Ha. cbn [lat_neighbors square_lattice]. destruct (coords a Ha) as (Hx & Hy & E). rewrite E. destruct (H1 _ _ Hx Hy) as (-> & _). apply H3; assumption.
  Qed.
  Lemma torus_symmetries : lattice_symmetry (square_lattice N N) (N * N) (mirror_x N) /\ lattice_symmetry (square_lattice N N) (N * N) (mirror_y N) /\
    lattice_symmetry (square_lattice N N) (N * N) (swap_xy N) /\ mirror_x N 0 = 0%Z /\ mirror_y N 0 = 0%Z /\ swap_xy N 0 = 0%Z.
  Proof.
    assert (M : forall x, site N (x mod N)) by (intros x'; unfold site; apply Z.mod_pos_bound; lia).
    assert (X1 : forall x y, site N x -> site N y -> mirror_x N (x * N + y) = (mirror N x * N + y)%Z) by (intros x y Hx Hy; unfold mirror_x; destruct (at_xy x y Hx Hy) as (_ & -> & ->); reflexivity).
    assert (Y1 : forall x y, site N x -> site N y -> mirror_y N (x * N + y) = (x * N + mirror N y)%Z) by (intros x y Hx Hy; unfold mirror_y; destruct (at_xy x y Hx Hy) as (_ & -> & ->); reflexivity).
    assert (S1 : forall x y, site N x -> site N y -> swap_xy N (x * N + y) = (y * N + x)%Z) by (intros x y Hx Hy; unfold swap_xy; destruct (at_xy x y Hx Hy) as (_ & -> & ->); reflexivity).
    assert (MS : forall x, site N (mirror N x)) by (intros x; apply M).
    split; [|split; [|split]].
    - apply (torus_map _ (fun x y => mirror N x) (fun x y => y)).
      + intros x y Hx Hy. auto.
      + intros x y x' y' Hx Hy Hx' Hy' E ->. split; [|reflexivity]. exact (mirror_inj N x x' Hx Hx' E).
      + intros x y Hx Hy. rewrite !torus_neighbors by auto. cbn [map]. rewrite !X1 by auto. rewrite mirror_prev, mirror_next.
        eapply perm_trans; [apply perm_swap|]. eapply perm_trans; [apply perm_skip, perm_swap|]. eapply perm_trans; [apply perm_swap|]. apply perm_skip, perm_skip. apply Permutation_refl.
    - apply (torus_map _ (fun x y => x) (fun x y => mirror N y)).
      + intros x y Hx Hy. auto.
      + intros x y x' y' Hx Hy Hx' Hy' -> E. split; [reflexivity|]. exact (mirror_inj N y y' Hy Hy' E).
      + intros x y Hx Hy. rewrite !torus_neighbors by auto. cbn [map]. rewrite !Y1 by auto. rewrite mirror_prev, mirror_next. apply perm_skip.
        eapply perm_trans; [apply perm_swap|]. eapply perm_trans; [apply perm_skip, perm_swap|]. apply perm_swap.
    - apply (torus_map _ (fun x y => y) (fun x y => x)).
      + intros x y Hx Hy. auto.
      + intros x y x' y' Hx Hy Hx' Hy' -> ->. auto.
      + intros x y Hx Hy. rewrite !torus_neighbors by auto. cbn [map]. rewrite !S1 by auto. eapply perm_trans; [apply perm_swap|]. apply perm_skip, perm_skip, perm_swap.
    - unfold mirror_x, mirror_y, swap_xy, mirror. rewrite !Zdiv_0_l, !Zmod_0_l. cbn. rewrite ?Zmod_0_l. lia.
  Qed.
End Torus.
Theorem C110_square : forall N, (3 <= N)%Z -> (N * N < two64)%Z ->
  lattice_symmetry (square_lattice N N) (N * N) (mirror_x N) /\ lattice_symmetry (square_lattice N N) (N * N) (mirror_y N) /\
  lattice_symmetry (square_lattice N N) (N * N) (swap_xy N) /\ mirror_x N 0 = 0%Z /\ mirror_y N 0 = 0%Z /\ swap_xy N 0 = 0%Z.
Proof. exact torus_symmetries. Qed.

(** ** the programs *)
(** every coefficient vector of a run is unchanged by the symmetries which leave site 0 in place *)
Lemma symmetric_lines sort rnd u st lat N J U dt t_end interval steps :
  sorts_by_column sort -> shipped3 lat N -> fits3 lat N -> times_ok rnd u dt t_end interval steps ->
  let n := (N + N * N * N)%Z in Z.of_nat (length (basis3 lat)) = n /\
  exists ss, (forall (O : Type) (obs : progress -> O), terminates_with (run_main rnd st n dt t_end interval (compute_lattice sort lat J U) obs)
      (Ok (map (fun k => (time_at rnd dt k, obs (ss k))) (written interval steps)))) /\
    forall k, steps_done (ss k) = k /\ len (coefficients (ss k)) = n /\
      forall s, lattice_symmetry lat N s -> s 0%Z = 0%Z -> forall i, (0 <= i < n)%Z -> vget (coefficients (ss k)) (moved N s i) = vget (coefficients (ss k)) i.
Proof.
  intros Hs Hl Hf (T1 & T2 & T3 & T4 & T5 & T6 & T7) n. assert (Hs1 : shipped lat N) by (destruct Hl; constructor; lia || nia).
  pose proof (HNpos lat N (shipped3_graph lat N Hl)) as HN. assert (Hn : (0 < n)%Z) by (unfold n; nia).
  split; [pose proof (basis3_len lat N (shipped_regular _ _ Hs1)); unfold n; nia|].
  destruct (full_facts sort J U lat N Hs Hl Hf) as (m & Em & A & _). destruct (init_vector_unit n Hn) as (h0 & E0 & L0 & V0).
  exists (fun k => times_applied (integrate n dt (bm_scale imag_unit m)) k (mkProgress 0 st h0)). split.
  - intros O obs. destruct (C53_schedule progress O rnd u dt t_end interval steps (integrate n dt (bm_scale imag_unit m)) obs (mkProgress 0 st h0) T1 T2 T3 T4 T5 T6 T7) as (s & (f0 & T) & _ & _ & Out).
    exists f0. intros fuel Hfu. unfold run_main, compute_lattice. rewrite Em, E0. cbn [obind]. rewrite (T fuel Hfu), Out. reflexivity.
  - intros k. destruct (integrate_iter n dt (bm_scale imag_unit m) st h0 k) as (sts & Ls & Ek & Es). split; [exact Ek|]. rewrite Es. split; [exact (run_len n _ _ A n dt sts h0 L0)|].
    intros s Sy S0. apply (fixed_vget n (moved N s)). apply (fixed_run n (moved N s)) with (E := entry (bm_scale imag_unit m)); [| | |exact A|exact L0|].
    + intros i. apply (moved_range lat N s Hl Hf Sy).
    + intros i j. apply (moved_inj lat N s Hl Hf Sy).
    + intros i j. apply (entry_moved sort J U lat N s Hs Hl Hf Sy m Em).
    + intros p Hp. apply idx_in in Hp. unfold vec, vecf, mv. cbn [fst snd]. rewrite (V0 _ Hp), (V0 _ (moved_range lat N s Hl Hf Sy _ Hp)). unfold first_unit.
      destruct (moved_0 lat N s Hl Hf Sy S0 (fst p) Hp) as [Q1 Q2]. destruct (Z.eqb_spec (moved N s (fst p)) 0) as [e|e], (Z.eqb_spec (fst p) 0) as [e'|e']; try reflexivity; exfalso; [apply e', Q1, e|apply e, Q2, e'].
Qed.
(** hubbard_real_1d_rk4_coefficients: the coefficients at a, b, c and at their mirror images are equal in every line *)
Theorem C110_coefficients : forall sort rnd u st N J U dt t_end interval steps,
  sorts_by_column sort -> (3 <= N)%Z -> fits3 (chain_lattice N) N -> times_ok rnd u dt t_end interval steps ->
  exists h, terminates_with (coefficients_full sort rnd st N J U dt t_end interval)
      (Ok (map (fun k => (time_at rnd dt k, h k)) (written interval steps))) /\
    forall k a b c, site N a -> site N b -> site N c -> let a' := mirror N a in let b' := mirror N b in let c' := mirror N c in
      vget (h k) a' = vget (h k) a /\ vget (h k) (N + N * N * a' + N * b' + c')%Z = vget (h k) (N + N * N * a + N * b + c)%Z.
Proof.
  intros sort rnd u st N J U dt t_end interval steps Hs HN Hf Ht. assert (Hf' := Hf). unfold fits3 in Hf'. cbn [lat_coordination chain_lattice] in Hf'.
  assert (Hl : shipped3 (chain_lattice N) N) by (constructor; nia).
  destruct (symmetric_lines sort rnd u st (chain_lattice N) N J U dt t_end interval steps Hs Hl Hf Ht) as (Eb & ss & Te & S). set (n := (N + N * N * N)%Z) in *.
  exists (fun k => coefficients (ss k)). split; [unfold coefficients_full; rewrite Eb; apply Te|]. intros k a b c Ha Hb Hc a' b' c'.
  destruct (S k) as (_ & _ & F). destruct (C110_chain N 0 ltac:(nia)) as (Sy & _ & S0). specialize (F (mirror N) Sy S0).
  destruct (sites_of N a b c Ha Hb Hc) as (Ea & Eb' & Ec). split.
  - rewrite <- (F a) by (unfold n, site in *; nia). rewrite moved_1 by exact Ha. reflexivity.
  - rewrite <- (F (N + N * N * a + N * b + c)%Z) by (unfold n, site in *; nia). unfold moved. rewrite Ea, Eb', Ec. destruct (Z.ltb_spec (N + N * N * a + N * b + c) N); [unfold site in *; nia|reflexivity].
Qed.

(** ** the Fermi jump *)
Section JumpSymmetry.
  Context (lat : lattice) (N : Z) (s : Z -> Z) (rho : Z -> Z -> R) (v : Z -> CR).
  Hypothesis Hl : shipped3 lat N.
  Hypothesis Hf : fits3 lat N.
  Hypothesis Sy : lattice_symmetry lat N s.
  Hypothesis Hr : forall a b, site N a -> site N b -> rho (s a) (s b) = rho a b.
  Let n := (N + N * N * N)%Z.
  Hypothesis Hv : forall i, (0 <= i < n)%Z -> v (moved N s i) = v i.
  Lemma jump_moved phi phi' : (forall a, site N a -> cos (phi' a) = cos (phi (s a)) /\ sin (phi' a) = sin (phi (s a))) -> jump N rho phi' v = jump N rho phi v.
  Proof.
    intros H. destruct Sy as (Sr & Si & _). pose proof (HNpos lat N (shipped3_graph lat N Hl)) as HN.
    assert (Sp : forall g : Z -> CR, sum_over (K := CR) (fun i => g (s i)) (zrange 0 N) = sum_over (K := CR) g (zrange 0 N)) by (apply (sum_perm N s Sr Si CR)).
    unfold jump. replace (jump_amplitude N rho phi' v) with (jump_amplitude N rho phi v); [reflexivity|]. unfold jump_amplitude.
    rewrite <- Sp. apply sum_over_ext. intros a Ha. apply zrange_in in Ha. destruct (H a Ha) as [-> ->]. f_equal. apply (f_equal2 (radd (s := CR))).
    - rewrite <- (Hv a) by (unfold n; nia). unfold moved. destruct (Z.ltb_spec a N); [reflexivity|lia].
    - rewrite <- Sp. apply sum_over_ext. intros b Hb. apply zrange_in in Hb. rewrite <- Sp. apply sum_over_ext. intros c Hc. apply zrange_in in Hc. apply (f_equal2 (rmul (s := CR))).
      + unfold pair_average. rewrite Hr by assumption. unfold kron. destruct (Z.eqb_spec (s b) (s c)) as [e|e], (Z.eqb_spec b c) as [e'|e']; try reflexivity; [apply Si in e; auto; contradiction|subst; contradiction].
      + destruct (sites_of N a b c Ha Hb Hc) as (Ea & Eb & Ec). rewrite <- (Hv (N + N * N * a + N * b + c)%Z) by (unfold n; nia). unfold moved. rewrite Ea, Eb, Ec.
        destruct (Z.ltb_spec (N + N * N * a + N * b + c) N); [nia|reflexivity].
  Qed.
End JumpSymmetry.
Lemma sea_2d_swap x y : 0 <= x -> 0 <= y -> fermi_sea_2d x y = fermi_sea_2d y x.
Proof.
  intros Hx Hy. destruct (Req_dec x y) as [->|Hne]; [reflexivity|]. destruct (Req_dec x 0) as [->|Hx0], (Req_dec y 0) as [->|Hy0].
  - reflexivity.
  - rewrite (sea_2d_x0 y Hy0), (sea_2d_gen 0 y) by lra. replace (PI / 2 * (0 - y)) with (- (PI / 2 * (0 + y))) by ring. rewrite sin_neg, Rplus_0_l. field. split; [lra|apply PI_neq0].
  - rewrite (sea_2d_x0 x Hx0), (sea_2d_gen 0 x) by lra. replace (PI / 2 * (0 - x)) with (- (PI / 2 * (0 + x))) by ring. rewrite sin_neg, Rplus_0_l. field. split; [lra|apply PI_neq0].
  - rewrite !sea_2d_gen by lra. replace (PI / 2 * (y - x)) with (- (PI / 2 * (x - y))) by ring. rewrite sin_neg, (Rplus_comm y x). field. repeat split; try lra. apply PI_neq0.
Qed.
Lemma ring_mirror N a b : site N a -> site N b -> ring_distance N (mirror N a) (mirror N b) = ring_distance N a b.
Proof.
  unfold site. intros Ha Hb. assert (A : forall x, (0 <= x < N)%Z -> (mirror N x = if Z.eqb x 0 then 0 else N - x)%Z).
  { intros x Hx. unfold mirror. destruct (Z.eqb_spec x 0) as [->|]; [apply Z.mod_0_l; lia|]. rewrite <- (Z.mod_add (- x) 1 N), Z.mod_small by lia. lia. }
  rewrite !A by assumption. unfold ring_distance. destruct (Z.eqb_spec a 0), (Z.eqb_spec b 0); lia.
Qed.
Lemma ring_pos N a b : site N a -> site N b -> 0 <= IZR (ring_distance N a b).
Proof. unfold site, ring_distance. intros Ha Hb. apply IZR_le. lia. Qed.
Section SeaSquare.
  Context (N : Z).
  Hypothesis HN : (3 <= N)%Z.
  Hypothesis H64 : (N * N < two64)%Z.
  Lemma sea_swap a b : site (N * N) a -> site (N * N) b -> sea_square N (swap_xy N a) (swap_xy N b) = sea_square N a b.
  Proof.
    intros Ha Hb. destruct (coords N HN a Ha) as (Ax & Ay & _), (coords N HN b Hb) as (Bx & By & _). unfold sea_square, swap_xy.
    destruct (at_xy N HN H64 _ _ Ay Ax) as (_ & -> & ->). destruct (at_xy N HN H64 _ _ By Bx) as (_ & -> & ->). apply sea_2d_swap; apply ring_pos; assumption.
  Qed.
  Lemma sea_mirror_x a b : site (N * N) a -> site (N * N) b -> sea_square N (mirror_x N a) (mirror_x N b) = sea_square N a b.
  Proof.
    intros Ha Hb. destruct (coords N HN a Ha) as (Ax & Ay & _), (coords N HN b Hb) as (Bx & By & _). unfold sea_square, mirror_x.
    destruct (at_xy N HN H64 _ _ (mirror_site N (a / N) ltac:(lia)) Ay) as (_ & -> & ->). destruct (at_xy N HN H64 _ _ (mirror_site N (b / N) ltac:(lia)) By) as (_ & -> & ->). rewrite ring_mirror by assumption. reflexivity.
  Qed.
  Lemma phase_swap kx ky a : site (N * N) a -> phase_square N ky kx a = phase_square N kx ky (swap_xy N a).
  Proof. intros Ha. destruct (coords N HN a Ha) as (Ax & Ay & _). unfold phase_square, swap_xy. destruct (at_xy N HN H64 _ _ Ay Ax) as (_ & -> & ->). ring. Qed.
  Lemma phase_mirror kx ky q a : kx * IZR N = 2 * PI * IZR q -> site (N * N) a -> exists k, phase_square N kx ky (mirror_x N a) = phase_square N (- kx) ky a + 2 * PI * IZR k.
  Proof.
    intros E Ha. destruct (coords N HN a Ha) as (Ax & Ay & _). unfold phase_square, mirror_x. destruct (at_xy N HN H64 _ _ (mirror_site N (a / N) ltac:(lia)) Ay) as (_ & -> & ->).
    unfold mirror. exists (- (q * ((- (a / N)) / N)))%Z. rewrite (Z.mod_eq (- (a / N)) N) by lia. rewrite minus_IZR, !opp_IZR, !mult_IZR.
    replace (kx * (- IZR (a / N) - IZR N * IZR (- (a / N) / N))) with (- kx * IZR (a / N) - kx * IZR N * IZR (- (a / N) / N)) by ring. rewrite E. ring.
  Qed.
End SeaSquare.
(** The exact jump is the same at momenta which a symmetry of the square maps onto each other *)
Theorem C110_jump : forall (sort : list (triplet CR) -> list (triplet CR)) J U N kx ky,
  sorts_by_column sort -> (3 <= N)%Z -> fits3 (square_lattice N N) (N * N) -> let n := (N * N + N * N * (N * N) * (N * N))%Z in
  exists m, init_matrix sort (real J : CR) (real U) (real (1/2)) (square_lattice N N) = Ok m /\
    forall y, the_solution n (entry (bm_scale imag_unit m)) y -> forall t,
      jump (N * N) (sea_square N) (phase_square N ky kx) (y t) = jump (N * N) (sea_square N) (phase_square N kx ky) (y t) /\
      forall q, kx * IZR N = 2 * PI * IZR q -> jump (N * N) (sea_square N) (phase_square N (- kx) ky) (y t) = jump (N * N) (sea_square N) (phase_square N kx ky) (y t).
Proof.
  intros sort J U N kx ky Hs HN Hf n. assert (Hf' := Hf). unfold fits3 in Hf'. cbn [lat_coordination square_lattice] in Hf'. assert (H64 : (N * N < two64)%Z) by nia. assert (Hl : shipped3 (square_lattice N N) (N * N)) by (constructor; lia).
  destruct (C110_square N HN H64) as (Sx & _ & Sw & X0 & _ & W0).
  destruct (C110_solution sort J U _ _ _ Hs Hl Hf Sx X0) as (m & Em & Kx). destruct (C110_solution sort J U _ _ _ Hs Hl Hf Sw W0) as (m' & Em' & Kw). rewrite Em in Em'. injection Em' as <-.
  exists m. split; [exact Em|]. intros y Hy t. split.
  - apply (jump_moved _ _ (swap_xy N) _ _ Hl Sw (sea_swap N HN H64) (Kw y Hy t)). intros a Ha. rewrite (phase_swap N HN H64 kx ky a Ha). auto.
  - intros q E. apply (jump_moved _ _ (mirror_x N) _ _ Hl Sx (sea_mirror_x N HN H64) (Kx y Hy t)). intros a Ha. destruct (phase_mirror N HN H64 kx ky q a E Ha) as (k & ->). rewrite cos_add_2PI.
    split; [reflexivity|]. rewrite <- !cos_shift. replace (PI / 2 - (phase_square N (- kx) ky a + 2 * PI * IZR k)) with (PI / 2 - phase_square N (- kx) ky a + 2 * PI * IZR (- k)) by (rewrite opp_IZR; ring). rewrite cos_add_2PI. reflexivity.
Qed.
(** hubbard_real_2d_rk4_jump: the lines do not change when the momentum is replaced by its image, whatever the schedules of the two runs *)
Section JumpRun.
  Context (sort : list (triplet CR) -> list (triplet CR)) (rnd : R -> R) (u : R) (st : statics CR) (N : Z) (J U dt t_end : R) (interval : Z) (steps : nat).
  Hypothesis Hs : sorts_by_column sort.
  Hypothesis HN : (3 <= N)%Z.
  Hypothesis Hf : fits3 (square_lattice N N) (N * N).
  Hypothesis Ht : times_ok rnd u dt t_end interval steps.
  Lemma square_run : exists ss,
    (forall k s, lattice_symmetry (square_lattice N N) (N * N) s -> s 0%Z = 0%Z -> forall i, (0 <= i < N * N + N * N * (N * N) * (N * N))%Z ->
      vget (coefficients (ss k)) (moved (N * N) s i) = vget (coefficients (ss k)) i) /\
    forall T0 s0 sched kx ky, shares T0 0 (N * N) s0 -> shared_jump (N * N) sched ->
      exists o, terminates_with (jump_2d sort rnd st s0 sched N N J U (kx, ky) dt t_end interval) (Ok o) /\
        forall r, o = Some r -> r = Ok (map (fun k => (time_at rnd dt k, jump (N * N) (sea_square N) (phase_square N kx ky) (vget (coefficients (ss k))))) (written interval steps)).
  Proof.
    assert (Hf' := Hf). unfold fits3 in Hf'. cbn [lat_coordination square_lattice] in Hf'. assert (H64 : (N * N < two64)%Z) by nia. assert (Hl : shipped3 (square_lattice N N) (N * N)) by (constructor; lia).
    destruct (symmetric_lines sort rnd u st (square_lattice N N) (N * N) J U dt t_end interval steps Hs Hl Hf Ht) as (Eb & ss & Te & S). set (n := (N * N + N * N * (N * N) * (N * N))%Z) in *.
    exists ss. split; [intros k; apply (S k)|]. intros T0 s0 sched kx ky H0 Hsh. pose proof (fits3_S3 _ _ (shipped3_graph _ _ Hl) Hf) as HS.
    unfold jump_2d. set (ctor := ctor_2d _ _ _ _ _ _ _). set (lines := map (fun k => (time_at rnd dt k, ss k)) (written interval steps)).
    change (program_ev_2d N N) with (by_site (F := Rring) (table_square N)).
    exists (pbind ctor (fun coef => pbind (evaluations (map (fun l => measure (by_site (F := Rring) (table_square N)) (basis3 (square_lattice N N)) (N * N) sched coef (snd l)) lines) None) (fun values => Some (Ok (combine (map fst lines) values))))). split.
    - destruct (Te progress (fun s => s)) as (f0 & F). exists f0. intros fuel Hfu. unfold jump_main. rewrite Eb, (F fuel Hfu). reflexivity.
    - intros r Er. destruct ctor as [c|] eqn:Ec; [|discriminate].
      destruct (C46_table_2d Rring cos sin (square_lattice N N) (N * N) T0 s0 _ _ c ltac:(constructor; nia) H0 Ec) as (coef & -> & Lc & Vc). cbn [pbind] in Er.
      unfold lines in Er. rewrite map_map in Er. cbn [snd] in Er. rewrite <- (map_map ss (measure (by_site (F := Rring) (table_square N)) (basis3 (square_lattice N N)) (N * N) sched coef)) in Er.
      destruct (evaluations _ None) as [q|] eqn:Q; [|discriminate].
      apply (measured (square_lattice N N) (N * N) (table_square N) (sea_square N) (phase_square N kx ky) sched ltac:(constructor; lia) HS) in Q.
      + subst q. cbn [pbind] in Er. injection Er as <-. f_equal. rewrite !map_map. cbn [fst]. clear lines Te. induction (written interval steps) as [|k ks IH]; [reflexivity|]. cbn [map combine]. f_equal. exact IH.
      + intros a b. apply table_square_sea; lia.
      + exact Hsh.
      + exact Lc.
      + intros i Hi. etransitivity; [exact (Vc i Hi)|]. unfold phase_square, s_pos, real_square. cbn. do 3 f_equal; ring.
      + intros s' Hs'. apply in_map_iff in Hs' as (k & <- & _). apply (S k).
  Qed.
End JumpRun.
Theorem C110_jump_2d : forall sort rnd u st N J U dt t_end interval steps,
  sorts_by_column sort -> (3 <= N)%Z -> fits3 (square_lattice N N) (N * N) -> times_ok rnd u dt t_end interval steps ->
  forall kx ky kx' ky', (kx' = ky /\ ky' = kx \/ kx' = - kx /\ ky' = ky /\ exists q, kx * IZR N = 2 * PI * IZR q) ->
  forall T0 s0 sched T0' s0' sched', shares T0 0 (N * N) s0 -> shared_jump (N * N) sched -> shares T0' 0 (N * N) s0' -> shared_jump (N * N) sched' ->
  exists o o', terminates_with (jump_2d sort rnd st s0 sched N N J U (kx, ky) dt t_end interval) (Ok o) /\
    terminates_with (jump_2d sort rnd st s0' sched' N N J U (kx', ky') dt t_end interval) (Ok o') /\
    forall r r', o = Some r -> o' = Some r' -> exists lines, r = Ok lines /\ r' = Ok lines.
Proof.
  intros sort rnd u st N J U dt t_end interval steps Hs HN Hf Ht kx ky kx' ky' Hk T0 s0 sched T0' s0' sched' H0 Hsh H0' Hsh'.
  assert (Hf' := Hf). unfold fits3 in Hf'. cbn [lat_coordination square_lattice] in Hf'. assert (H64 : (N * N < two64)%Z) by nia. assert (Hl : shipped3 (square_lattice N N) (N * N)) by (constructor; lia).
  destruct (square_run sort rnd u st N J U dt t_end interval steps Hs HN Hf Ht) as (ss & F & K).
  destruct (K T0 s0 sched kx ky H0 Hsh) as (o & Te & V). destruct (K T0' s0' sched' kx' ky' H0' Hsh') as (o' & Te' & V').
  exists o, o'. split; [exact Te|]. split; [exact Te'|]. intros r r' E E'. rewrite (V r E), (V' r' E'). eexists. split; [reflexivity|]. f_equal. apply map_ext. intros k. f_equal.
  destruct (C110_square N HN H64) as (Sx & _ & Sw & X0 & _ & W0). destruct Hk as [[-> ->]|(-> & -> & q & Eq)].
  - apply (jump_moved _ _ (swap_xy N) _ _ Hl Sw (sea_swap N HN H64) (F k _ Sw W0)). intros a Ha. rewrite (phase_swap N HN H64 kx ky a Ha). auto.
  - apply (jump_moved _ _ (mirror_x N) _ _ Hl Sx (sea_mirror_x N HN H64) (F k _ Sx X0)). intros a Ha. destruct (phase_mirror N HN H64 kx ky q a Eq Ha) as (j & ->). rewrite cos_add_2PI.
    split; [reflexivity|]. rewrite <- !cos_shift. replace (PI / 2 - (phase_square N (- kx) ky a + 2 * PI * IZR j)) with (PI / 2 - phase_square N (- kx) ky a + 2 * PI * IZR (- j)) by (rewrite opp_IZR; ring). rewrite cos_add_2PI. reflexivity.
Qed.

(** EXAMPLE: 3 x 3 sites, J = U = 1, dt = 1/10: the momenta (2 pi/3, 1) and (-2 pi/3, 1), and (1, 2 pi/3), with different schedules *)
Example C110_example : forall st,
  let sched := fun k : nat => mkMeasurement 2 (mkSch (two_threads 0 4 9) [k]) (mkSch (two_threads 0 2 9) []) (mkSch (two_threads 0 4 9) []) in
  let sched' := fun k : nat => mkMeasurement 2 (mkSch (two_threads 0 7 9) []) (mkSch (two_threads 0 1 9) [k; 1%nat]) (mkSch (two_threads 0 4 9) []) in
  let s0 := mkSch (two_threads 0 5 9) [1]%nat in
  exists o o1 o2, terminates_with (jump_2d isort (fun x => x) st s0 sched 3 3 1 1 (2 * PI / 3, 1) (/ 10) 1 5) (Ok o) /\
    terminates_with (jump_2d isort (fun x => x) st s0 sched' 3 3 1 1 (- (2 * PI / 3), 1) (/ 10) 1 5) (Ok o1) /\
    terminates_with (jump_2d isort (fun x => x) st s0 sched' 3 3 1 1 (1, 2 * PI / 3) (/ 10) 1 5) (Ok o2) /\
    (forall r r1, o = Some r -> o1 = Some r1 -> r = r1) /\ (forall r r2, o = Some r -> o2 = Some r2 -> r = r2).
Proof.
  intros st sched sched' s0. destruct C86_hypotheses as (H1 & _). destruct C88_hypotheses as (H2 & _ & H4 & H5).
  assert (H6 : shared_jump 9 sched') by (intros k; cbn [threads loop1 loop2 sched']; split; apply two_shares; lia).
  destruct (C110_jump_2d isort (fun x => x) 0 st 3 1 1 (/ 10) 1 5 10 isort_ok ltac:(lia) H2 H1 (2 * PI / 3) 1 (- (2 * PI / 3)) 1 ltac:(right; repeat split; exists 1%Z; field) 2 s0 sched 2 s0 sched' H4 H5 H4 H6) as (o & o1 & T & T1 & V1).
  destruct (C110_jump_2d isort (fun x => x) 0 st 3 1 1 (/ 10) 1 5 10 isort_ok ltac:(lia) H2 H1 (2 * PI / 3) 1 1 (2 * PI / 3) ltac:(left; auto) 2 s0 sched 2 s0 sched' H4 H5 H4 H6) as (o' & o2 & T' & T2 & V2).
  assert (o' = o) as ->. { destruct T as (f & T), T' as (f' & T'). specialize (T (Nat.max f f') (Nat.le_max_l _ _)). specialize (T' (Nat.max f f') (Nat.le_max_r _ _)). congruence. }
  exists o, o1, o2. split; [exact T|]. split; [exact T1|]. split; [exact T2|]. split.
  - intros r r1 E E1. destruct (V1 r r1 E E1) as (l & -> & ->). reflexivity.
  - intros r r2 E E2. destruct (V2 r r2 E E2) as (l & -> & ->). reflexivity.
Qed.
