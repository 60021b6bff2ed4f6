(** PROPERTIES C108 and C109, continued: the Fermi jump without interaction and without hopping. *)
From Coq Require Import Reals Lra Psatz.
From Verif Require Import Base M_Operator M_Lattice Spec_Lattice Pf_Lattice P_Lattice M_LatticeReal Spec_LatticeReal M_Basis Pf_Basis P_Basis M_Matrix M_Ode M_Dispersion M_OpenMP Spec_OpenMP M_Expectation Spec_Expectation P_Expectation M_SiteOccupation Pf_SiteOccupation P_SiteOccupation M_FermiJump Pf_FermiJump P_FermiJump M_TimeLoop Spec_TimeLoop Spec_Ode
  Pf_Matrix Spec_Matrix Pf_Matrix2 P_Matrix Spec_Stability Pf_Stability Pf_Stability2 Pf_Stability3 P_Stability Spec_Programs M_Programs Pf_Programs Pf_Programs2 P_Programs M_JumpPrograms Spec_JumpPrograms Pf_JumpPrograms P_JumpPrograms P_Dispersion Pf_MatrixEntry Pf_Theory2 P_OccupationFree P_Atomic.
Local Open Scope R_scope.
Local Open Scope list_scope.

(** ** Without hopping: collapse and revival *)
Lemma cplx_zero (z : CR) : rmul z (real 0) = real 0.
Proof. destruct z as [a b]. cbn. unfold real. f_equal; ring. Qed.
Lemma sum_first (f : Z -> CR) N : (0 < N)%Z -> (forall i, (0 < i < N)%Z -> f i = real 0) -> sum_over f (zrange 0 N) = f 0%Z.
Proof.
  intros H Hf. rewrite (zrange_cons 0 N) by lia. rewrite sum_over_cons. rewrite (sum_over_zero CR f) by (intros i Hi; apply zrange_in in Hi; apply Hf; lia).
  destruct (f 0%Z) as [a b]. cbn. f_equal; ring.
Qed.
Theorem C109_jump : forall (sort : list (triplet CR) -> list (triplet CR)) U lat N rho phi,
  sorts_by_column sort -> shipped3 lat N -> fits3 lat N -> let n := (N + N * N * N)%Z in
  exists m, init_matrix sort (real 0 : CR) (real U) (real (1/2)) lat = Ok m /\
    forall y, the_solution n (entry (bm_scale imag_unit m)) y -> forall t,
      jump N rho phi (y t) = 1 - 2 * rho 0%Z 0%Z * (1 - rho 0%Z 0%Z) * (1 - cos (U * t)).
Proof.
  intros sort U lat N rho phi Hs Hl Hf n. pose proof (Logic.proj1 (HNpos lat N (shipped3_graph lat N Hl))) as HN0.
  destruct (C109_solution sort U lat N Hs Hl Hf) as (m & Em & H). exists m. split; [exact Em|]. intros y Hy t. destruct (H y Hy t) as (H0 & H1 & H2). fold n in H2.
  assert (Z3 : forall a b c, site N a -> site N b -> site N c -> (a <> 0 \/ b <> 0 \/ c <> 0)%Z -> y t (N + N * N * a + N * b + c)%Z = real 0).
  { intros a b c Ha Hb Hc Hne. unfold site in *. apply H2; [unfold n| |]; nia. }
  assert (R : forall z : CR, radd (real 0) z = z) by (intros [p q]; cbn; f_equal; ring).
  assert (Am : jump_amplitude N rho phi (y t) = rmul ((cos (phi 0%Z), sin (phi 0%Z)) : CR) (radd (atom_one U t) (rmul (real (pair_average rho 0 0)) (atom_three U t)))).
  { unfold jump_amplitude. rewrite (sum_first _ N HN0).
    - f_equal. rewrite H0. f_equal. rewrite (sum_first _ N HN0).
      + rewrite (sum_first _ N HN0); [replace (N + N * N * 0 + N * 0 + 0)%Z with N by ring; rewrite H1; reflexivity|].
        intros c Hc. rewrite (Z3 0%Z 0%Z c) by (unfold site; lia). apply cplx_zero.
      + intros b Hb. apply (sum_over_zero CR). intros c Hc. apply zrange_in in Hc. rewrite (Z3 0%Z b c) by (unfold site; lia). apply cplx_zero.
    - intros a Ha. rewrite (H2 a) by (unfold n; nia). rewrite R.
      rewrite (sum_over_zero CR) ; [apply cplx_zero|]. intros b Hb. apply zrange_in in Hb. apply (sum_over_zero CR). intros c Hc. apply zrange_in in Hc. rewrite (Z3 a b c) by (unfold site; lia). apply cplx_zero. }
  unfold jump. rewrite Am. unfold pair_average, kron, atom_one, atom_three. rewrite Z.eqb_refl. cbn.
  pose proof (sin2_cos2 (phi 0%Z)) as S1. pose proof (sin2_cos2 (U * t)) as S2. unfold Rsqr in S1, S2.
  set (a := cos (phi 0%Z)) in *. set (b := sin (phi 0%Z)) in *. set (c := cos (U * t)) in *. set (s := sin (U * t)) in *. set (r := rho 0%Z 0%Z).
  transitivity ((b * b + a * a) * ((1 - r) * (1 - r) + r * r * (s * s + c * c) + 2 * r * (1 - r) * c)); [field|rewrite S1, S2; ring].
Qed.
(** hubbard_real_1d_rk4_jump with J = 0 *)
Theorem C109_jump_1d : forall sort rnd u st T0 s0 sched N U filling dt t_end interval steps,
  sorts_by_column sort -> (3 <= N)%Z -> fits3 (chain_lattice N) N -> times_ok rnd u dt t_end interval steps ->
  shares T0 0 N s0 -> shared_jump N sched -> 0 <= filling <= 1 -> dt ^ 2 * Rabs U ^ 2 <= 8 ->
  exists o, terminates_with (jump_1d sort rnd st s0 sched N 0 U filling dt t_end interval) (Ok o) /\
    forall r, o = Some r -> exists x, r = Ok (map (fun k => (time_at rnd dt k, x k)) (written interval steps)) /\
      forall k, Rabs (x k - (1 - 2 * filling * (1 - filling) * (1 - cos (U * (INR k * dt))))) <= 2 * IZR (N + N * N * N) * (INR k * dt * dt ^ 4 * Rabs U ^ 5 / 120).
Proof.
  intros sort rnd u st T0 s0 sched N U filling dt t_end interval steps Hs HN Hf Ht H0 Hsh Hfi Hd.
  assert (EL : 6 * Rabs 0 + Rabs U = Rabs U) by (rewrite Rabs_R0; ring). assert (Hf' := Hf). unfold fits3 in Hf'. cbn [lat_coordination chain_lattice] in Hf'.
  destruct (C88_chain sort rnd u st T0 s0 sched N 0 U filling dt t_end interval steps Hs HN Hf Ht H0 Hsh Hfi ltac:(cbv zeta; rewrite EL; exact Hd)) as (m & y & o & Em & Hy & Te & V). rewrite EL in V.
  exists o. split; [exact Te|]. intros r E. destruct (V r E) as (x & -> & _ & B). exists x. split; [reflexivity|]. intros k. destruct (B k) as [_ Bk].
  destruct (C109_jump sort U (chain_lattice N) N (sea N filling) (fun a => filling * PI * IZR a) Hs ltac:(constructor; nia) Hf) as (m' & Em' & K). rewrite Em in Em'. injection Em' as <-.
  rewrite (K y Hy) in Bk. rewrite sea_diag in Bk by (unfold site; lia). exact Bk.
Qed.
(** hubbard_real_2d_rk4_jump with J = 0 *)
Theorem C109_jump_2d : forall sort rnd u st T0 s0 sched N U kx ky dt t_end interval steps,
  sorts_by_column sort -> (3 <= N)%Z -> fits3 (square_lattice N N) (N * N) -> times_ok rnd u dt t_end interval steps ->
  shares T0 0 (N * N) s0 -> shared_jump (N * N) sched -> dt ^ 2 * Rabs U ^ 2 <= 8 ->
  let n := (N * N + N * N * (N * N) * (N * N))%Z in
  exists o, terminates_with (jump_2d sort rnd st s0 sched N N 0 U (kx, ky) dt t_end interval) (Ok o) /\
    forall r, o = Some r -> exists x, r = Ok (map (fun k => (time_at rnd dt k, x k)) (written interval steps)) /\
      forall k, Rabs (x k - (1 + cos (U * (INR k * dt))) / 2) <= 2 * IZR n * (INR k * dt * dt ^ 4 * Rabs U ^ 5 / 120).
Proof.
  intros sort rnd u st T0 s0 sched N U kx ky dt t_end interval steps Hs HN Hf Ht H0 Hsh Hd n.
  assert (EL : 12 * Rabs 0 + Rabs U = Rabs U) by (rewrite Rabs_R0; ring). assert (Hf' := Hf). unfold fits3 in Hf'. cbn [lat_coordination square_lattice] in Hf'.
  destruct (C88_square sort rnd u st T0 s0 sched N 0 U kx ky dt t_end interval steps Hs HN Hf Ht H0 Hsh ltac:(cbv zeta; rewrite EL; exact Hd)) as (m & y & o & Em & Hy & Te & V). rewrite EL in V.
  exists o. split; [exact Te|]. intros r E. destruct (V r E) as (x & -> & _ & B). exists x. split; [reflexivity|]. intros k. destruct (B k) as [_ Bk]. fold n in Bk.
  destruct (C109_jump sort U (square_lattice N N) (N * N) (sea_square N) (phase_square N kx ky) Hs ltac:(constructor; nia) Hf) as (m' & Em' & K). rewrite Em in Em'. injection Em' as <-.
  rewrite (K y Hy) in Bk. unfold sea_square in Bk. rewrite Zdiv_0_l, Zmod_0_l in Bk. change (ring_distance N 0 0) with (Z.min 0 (N - 0)) in Bk. replace (Z.min 0 (N - 0)) with 0%Z in Bk by lia. rewrite sea_2d_00 in Bk.
  replace ((1 + cos (U * (INR k * dt))) / 2) with (1 - 2 * (1 / 2) * (1 - 1 / 2) * (1 - cos (U * (INR k * dt)))) by field. exact Bk.
Qed.

(** ** Without interaction *)
Definition phase (phi : Z -> R) (a : Z) : CR := (cos (phi a), sin (phi a)).
(** the wave e^{i phi} is an eigenvector of the hopping on the lattice *)
Definition plane_wave (lat : lattice) (N : Z) (phi : Z -> R) : Prop :=
  exists lam : R, forall a, site N a -> sum_over (K := CR) (phase phi) (lat_neighbors lat a) = rmul (real lam : CR) (phase phi a).
Section Wave.
  Context (sort : list (triplet CR) -> list (triplet CR)) (J : R) (lat : lattice) (N : Z) (phi : Z -> R) (lam : R).
  Hypothesis Hs : sorts_by_column sort.
  Hypothesis Hl : shipped3 lat N.
  Hypothesis Hf : (N * lat_coordination lat < two64)%Z.
  Context (m : bmat CR).
  Hypothesis Em : init_kinetic_matrix sort (real J : CR) lat = Ok m.
  Let HG := shipped3_graph lat N Hl.
  Let E := entry (bm_scale imag_unit m).
  Let amp (v : Z -> CR) : CR := sum_over (K := CR) (fun a => rmul (phase phi a) (v a)) (zrange 0 N).
  Lemma sum_adj0 b : site N b -> sum_over (K := CR) (fun a => rmul (phase phi a) (adjc lat b a)) (zrange 0 N) = sum_over (K := CR) (phase phi) (lat_neighbors lat b).
  Proof.
    intros Hb. unfold adjc.
    transitivity (sum_over (K := CR) (fun a => sum_over (K := CR) (fun x => rmul (phase phi a) (delta x a)) (lat_neighbors lat b)) (zrange 0 N)).
    { apply sum_over_ext. intros a _. rewrite sum_over_mul_l. reflexivity. }
    rewrite sum_over_swap. apply sum_over_ext. intros x Hx. pose proof (g_range _ _ HG b x Hb Hx) as Sx.
    transitivity (sum_over (K := CR) (fun a => if Z.eqb x a then phase phi x else r0) (zrange 0 N)).
    - apply sum_over_ext. intros a _. unfold delta. destruct (Z.eqb_spec x a) as [->|]; [destruct (phase phi a) as [p q]|destruct (phase phi a) as [p q]]; cbn; f_equal; ring.
    - rewrite (zrange_app 0 x N) by (unfold site in Sx; lia). rewrite (zrange_cons x N) by (unfold site in Sx; lia). rewrite sum_over_app, sum_over_cons, Z.eqb_refl.
      rewrite !(sum_over_zero CR (fun a => if Z.eqb x a then phase phi x else r0)) by (intros a Ha; apply zrange_in in Ha; destruct (Z.eqb_spec x a); [lia|reflexivity]).
      destruct (phase phi x) as [p q]. cbn. f_equal; ring.
  Qed.
  Lemma amp_first (v : Z -> CR) : (forall a, site N a -> v a = first_unit a) ->
    amp (fun a => sum_over (K := CR) (fun b => rmul (E a b) (v b)) (zrange 0 N)) = rmul ((0, - J) : CR) (sum_over (K := CR) (phase phi) (lat_neighbors lat 0%Z)).
  Proof.
    intros Hv. pose proof (Logic.proj1 (HNpos lat N HG)) as HN0. assert (S0 : site N 0%Z) by (unfold site; lia). rewrite <- (sum_adj0 0%Z S0). unfold amp. rewrite <- sum_over_mul_l. apply sum_over_ext. intros a Ha. apply zrange_in in Ha.
    rewrite (sum_first _ N HN0).
    - rewrite (Hv 0%Z S0). unfold E. rewrite (kinetic_entry sort J lat N Hs Hl Hf m Em a 0%Z Ha), (adjc_sym lat N HG a 0%Z Ha S0). unfold first_unit. cbn [Z.eqb].
      destruct (phase phi a) as [p q], (adjc (K := CR) lat 0%Z a) as [g h]. cbn. f_equal; ring.
    - intros i Hi. rewrite Hv by (unfold site; lia). unfold first_unit. destruct (Z.eqb_spec i 0); [lia|]. apply cplx_zero.
  Qed.
  Hypothesis Hw : forall a, site N a -> sum_over (K := CR) (phase phi) (lat_neighbors lat a) = rmul (real lam : CR) (phase phi a).
  Lemma sum_adj b : site N b -> sum_over (K := CR) (fun a => rmul (phase phi a) (adjc lat b a)) (zrange 0 N) = rmul (real lam) (phase phi b).
  Proof. intros Hb. rewrite <- (Hw b Hb). apply sum_adj0, Hb. Qed.
  Lemma amp_step v : amp (fun a => sum_over (K := CR) (fun b => rmul (E a b) (v b)) (zrange 0 N)) = rmul ((0, - J * lam) : CR) (amp v).
  Proof.
    unfold amp. transitivity (sum_over (K := CR) (fun a => sum_over (K := CR) (fun b => rmul (rmul (rmul imag_unit (ropp (real J))) (v b)) (rmul (phase phi a) (adjc lat b a))) (zrange 0 N)) (zrange 0 N)).
    - apply sum_over_ext. intros a Ha. apply zrange_in in Ha. rewrite <- sum_over_mul_l. apply sum_over_ext. intros b Hb. apply zrange_in in Hb.
      unfold E. rewrite (kinetic_entry sort J lat N Hs Hl Hf m Em a b Ha), (adjc_sym lat N HG a b Ha Hb).
      destruct (phase phi a) as [p q], (v b) as [e f], (adjc (K := CR) lat b a) as [g h]. cbn. f_equal; ring.
    - rewrite sum_over_swap, <- sum_over_mul_l. apply sum_over_ext. intros b Hb. apply zrange_in in Hb. rewrite sum_over_mul_l, (sum_adj b Hb).
      destruct (phase phi b) as [p q], (v b) as [e f]. cbn. f_equal; ring.
  Qed.
End Wave.
Lemma wave_deriv N phi (y : R -> Z -> CR) (dy : Z -> CR) t :
  (forall a, (0 <= a < N)%Z -> derivable_pt_lim (fun s => fst (y s a)) t (fst (dy a)) /\ derivable_pt_lim (fun s => snd (y s a)) t (snd (dy a))) ->
  let amp v := sum_over (K := CR) (fun a => rmul (phase phi a) (v a)) (zrange 0 N) in
  derivable_pt_lim (fun s => fst (amp (y s))) t (fst (amp dy)) /\ derivable_pt_lim (fun s => snd (amp (y s))) t (snd (amp dy)).
Proof.
  intros D amp. split.
  - eapply deriv_eq with (f := fun s => SR (fun a => cos (phi a) * fst (y s a) + (- sin (phi a)) * snd (y s a)) (zrange 0 N)).
    + apply deriv_SR with (g' := fun a => cos (phi a) * fst (dy a) + (- sin (phi a)) * snd (dy a)). intros a Ha. apply zrange_in in Ha. destruct (D a Ha) as [D1 D2].
      apply (derivable_pt_lim_plus (fun s => cos (phi a) * fst (y s a)) (fun s => - sin (phi a) * snd (y s a))); apply deriv_scal; assumption.
    + intros s. unfold amp. rewrite fst_sum. apply SR_ext. intros a _. destruct (y s a) as [p q]. cbn. ring.
    + unfold amp. rewrite fst_sum. apply SR_ext. intros a _. destruct (dy a) as [p q]. cbn. ring.
  - eapply deriv_eq with (f := fun s => SR (fun a => sin (phi a) * fst (y s a) + cos (phi a) * snd (y s a)) (zrange 0 N)).
    + apply deriv_SR with (g' := fun a => sin (phi a) * fst (dy a) + cos (phi a) * snd (dy a)). intros a Ha. apply zrange_in in Ha. destruct (D a Ha) as [D1 D2].
      apply (derivable_pt_lim_plus (fun s => sin (phi a) * fst (y s a)) (fun s => cos (phi a) * snd (y s a))); apply deriv_scal; assumption.
    + intros s. unfold amp. rewrite snd_sum. apply SR_ext. intros a _. destruct (y s a) as [p q]. cbn. ring.
    + unfold amp. rewrite snd_sum. apply SR_ext. intros a _. destruct (dy a) as [p q]. cbn. ring.
Qed.
(** With U = 0 the jump at every momentum of the lattice stays 1. *)
Theorem C108_jump : forall (sort : list (triplet CR) -> list (triplet CR)) J lat N rho phi,
  sorts_by_column sort -> shipped3 lat N -> fits3 lat N -> plane_wave lat N phi -> let n := (N + N * N * N)%Z in
  exists m, init_matrix sort (real J : CR) (real 0) (real (1/2)) lat = Ok m /\
    forall y, the_solution n (entry (bm_scale imag_unit m)) y -> forall t, jump N rho phi (y t) = 1.
Proof.
  intros sort J lat N rho phi Hs Hl Hf (lam & Hw) n. pose proof (shipped3_graph lat N Hl) as HG. pose proof (Logic.proj1 (HNpos lat N HG)) as HN0.
  assert (Hf1 : (N * lat_coordination lat < two64)%Z) by (unfold fits3 in Hf; pose proof (g_co _ _ HG); nia).
  destruct (C108_decouples sort J lat N Hs Hl Hf) as (m & m1 & Em & Em1 & H). exists m. split; [exact Em|]. intros y Hy t. destruct (H y Hy) as (z & Hz & Q1 & Q2).
  set (amp := fun v : Z -> CR => sum_over (K := CR) (fun a => rmul (phase phi a) (v a)) (zrange 0 N)).
  assert (EA : jump_amplitude N rho phi (y t) = amp (z t)).
  { unfold jump_amplitude, amp. apply sum_over_ext. intros a Ha. apply zrange_in in Ha. rewrite (Q1 t a Ha). f_equal.
    rewrite (sum_over_zero CR); [destruct (z t a) as [p q]; cbn; f_equal; ring|]. intros b Hb. apply zrange_in in Hb. apply (sum_over_zero CR). intros c Hc. apply zrange_in in Hc.
    rewrite Q2 by nia. apply cplx_zero. }
  unfold jump. rewrite EA. destruct Hz as (Z1 & Z2 & _).
  rewrite (deriv0_const (fun s => fst (amp (z s)) * fst (amp (z s)) + snd (amp (z s)) * snd (amp (z s)))) with (b := 0).
  - assert (A0 : amp (z 0) = phase phi 0%Z).
    { unfold amp. rewrite (sum_first _ N HN0).
      - rewrite (Z2 0%Z) by lia. unfold first_unit, phase. cbn. f_equal; ring.
      - intros i Hi. rewrite (Z2 i) by lia. unfold first_unit. destruct (Z.eqb_spec i 0); [lia|]. apply cplx_zero. }
    rewrite A0. unfold phase. cbn. pose proof (sin2_cos2 (phi 0%Z)) as S. unfold Rsqr in S. lra.
  - intros s. destruct (wave_deriv N phi z (fun a => sum_over (K := CR) (fun b => rmul (entry (bm_scale imag_unit m1) a b) (z s b)) (zrange 0 N)) s (Z1 s)) as [D1 D2]. cbv zeta in D1, D2.
    pose proof (amp_step sort J lat N phi lam Hs Hl Hf1 m1 Em1 Hw (z s)) as St. rewrite St in D1, D2.
    change (derivable_pt_lim (fun s => fst (amp (z s))) s (fst (rmul ((0, - J * lam) : CR) (amp (z s))))) in D1.
    change (derivable_pt_lim (fun s => snd (amp (z s))) s (snd (rmul ((0, - J * lam) : CR) (amp (z s))))) in D2.
    set (p := fst (amp (z s)) : R) in *. set (q := snd (amp (z s)) : R) in *.
    assert (E1 : fst (rmul ((0, - J * lam) : CR) (amp (z s))) = J * lam * q) by (unfold q; destruct (amp (z s)); cbn; ring).
    assert (E2 : snd (rmul ((0, - J * lam) : CR) (amp (z s))) = - (J * lam * p)) by (unfold p; destruct (amp (z s)); cbn; ring).
    rewrite E1 in D1. rewrite E2 in D2.
    pose proof (derivable_pt_lim_plus _ _ s _ _ (derivable_pt_lim_mult _ _ s _ _ D1 D1) (derivable_pt_lim_mult _ _ s _ _ D2 D2)) as D.
    cbv beta in D. fold p q in D. replace 0 with (J * lam * q * p + p * (J * lam * q) + (- (J * lam * p) * q + q * - (J * lam * p))) by ring. exact D.
Qed.
(** ** The momenta of the shipped lattices *)
Lemma sin_add_2PI x m : sin (x + 2 * PI * IZR m) = sin x.
Proof. rewrite <- !cos_shift. replace (PI / 2 - (x + 2 * PI * IZR m)) with (PI / 2 - x + 2 * PI * IZR (- m)) by (rewrite opp_IZR; ring). apply cos_add_2PI. Qed.
Lemma wave_mod th N q a : (0 < N)%Z -> th * IZR N = 2 * PI * IZR q -> exists k, th * IZR (a mod N) = th * IZR a + 2 * PI * IZR k.
Proof.
  intros H E. exists (- (q * (a / N)))%Z. rewrite (Z.mod_eq a N) by lia. rewrite minus_IZR, opp_IZR, !mult_IZR.
  replace (th * (IZR a - IZR N * IZR (a / N))) with (th * IZR a - (th * IZR N) * IZR (a / N)) by ring. rewrite E. ring.
Qed.
Lemma chain_wave N th q : (3 <= N)%Z -> (N < two64)%Z -> th * IZR N = 2 * PI * IZR q -> plane_wave (chain_lattice N) N (fun a => th * IZR a).
Proof.
  intros HN H64 E. exists (2 * cos th). intros a Ha. cbn [lat_neighbors chain_lattice]. rewrite (chain_neighbors_ring N a H64 Ha).
  rewrite !sum_over_cons. unfold phase. destruct (wave_mod th N q (a - 1) ltac:(lia) E) as [k1 ->]. destruct (wave_mod th N q (a + 1) ltac:(lia) E) as [k2 ->].
  rewrite !cos_add_2PI, !sin_add_2PI, minus_IZR, plus_IZR, Rmult_minus_distr_l, Rmult_plus_distr_l, Rmult_1_r. rewrite cos_minus, cos_plus, sin_minus, sin_plus. cbn. f_equal; ring.
Qed.
Lemma square_wave N kx ky qx qy : (3 <= N)%Z -> (N * N < two64)%Z -> kx * IZR N = 2 * PI * IZR qx -> ky * IZR N = 2 * PI * IZR qy ->
  plane_wave (square_lattice N N) (N * N) (phase_square N kx ky).
Proof.
  intros HN H64 Ex Ey. exists (2 * (cos kx + cos ky)). intros a Ha. cbn [lat_neighbors square_lattice].
  rewrite (sq_neighbors_torus N ltac:(lia) H64 a Ha). cbv zeta.
  pose proof (sq_x_range N ltac:(lia) a Ha) as Hx. pose proof (sq_y_range N ltac:(lia) a Ha) as Hy. set (x := sq_x N a) in *. set (y := sq_y N a) in *.
  assert (P : forall u v, site N u -> site N v -> phase_square N kx ky (sq_index N u v) = kx * IZR u + ky * IZR v).
  { intros u v Hu Hv. rewrite (sq_index_eq N ltac:(lia) H64 u v Hu Hv). unfold phase_square, site in *.
    replace (u * N + v)%Z with (v + u * N)%Z by ring. rewrite Z.div_add, Z.mod_add, Z.div_small, Z.mod_small by lia. reflexivity. }
  assert (M : forall u, site N (u mod N)) by (intros u; unfold site; apply Z.mod_pos_bound; lia).
  rewrite !sum_over_cons. unfold phase. rewrite !P by auto.
  replace (phase_square N kx ky a) with (kx * IZR x + ky * IZR y) by reflexivity.
  destruct (wave_mod kx N qx (x - 1) ltac:(lia) Ex) as [k1 ->]. destruct (wave_mod kx N qx (x + 1) ltac:(lia) Ex) as [k2 ->].
  destruct (wave_mod ky N qy (y - 1) ltac:(lia) Ey) as [k3 ->]. destruct (wave_mod ky N qy (y + 1) ltac:(lia) Ey) as [k4 ->].
  rewrite !minus_IZR, !plus_IZR.
  set (s := kx * IZR x + ky * IZR y).
  replace (kx * (IZR x - 1) + 2 * PI * IZR k1 + ky * IZR y) with (s - kx + 2 * PI * IZR k1) by (unfold s; ring).
  replace (kx * (IZR x + 1) + 2 * PI * IZR k2 + ky * IZR y) with (s + kx + 2 * PI * IZR k2) by (unfold s; ring).
  replace (kx * IZR x + (ky * (IZR y - 1) + 2 * PI * IZR k3)) with (s - ky + 2 * PI * IZR k3) by (unfold s; ring).
  replace (kx * IZR x + (ky * (IZR y + 1) + 2 * PI * IZR k4)) with (s + ky + 2 * PI * IZR k4) by (unfold s; ring).
  rewrite !cos_add_2PI, !sin_add_2PI, !cos_minus, !cos_plus, !sin_minus, !sin_plus. cbn. f_equal; ring.
Qed.
(** hubbard_real_1d_rk4_jump with U = 0, when pi * filling is one of the momenta of the ring *)
Theorem C108_jump_1d : forall sort rnd u st T0 s0 sched N J filling q dt t_end interval steps,
  sorts_by_column sort -> (3 <= N)%Z -> fits3 (chain_lattice N) N -> times_ok rnd u dt t_end interval steps ->
  shares T0 0 N s0 -> shared_jump N sched -> 0 <= filling <= 1 -> filling * IZR N = IZR (2 * q) -> let L := 6 * Rabs J in dt ^ 2 * L ^ 2 <= 8 ->
  exists o, terminates_with (jump_1d sort rnd st s0 sched N J 0 filling dt t_end interval) (Ok o) /\
    forall r, o = Some r -> exists x, r = Ok (map (fun k => (time_at rnd dt k, x k)) (written interval steps)) /\
      forall k, Rabs (x k - 1) <= 2 * IZR (N + N * N * N) * (INR k * dt * dt ^ 4 * L ^ 5 / 120).
Proof.
  intros sort rnd u st T0 s0 sched N J filling q dt t_end interval steps Hs HN Hf Ht H0 Hsh Hfi Hq L Hd.
  assert (EL : 6 * Rabs J + Rabs 0 = L) by (rewrite Rabs_R0; unfold L; ring). assert (Hf' := Hf). unfold fits3 in Hf'. cbn [lat_coordination chain_lattice] in Hf'.
  destruct (C88_chain sort rnd u st T0 s0 sched N J 0 filling dt t_end interval steps Hs HN Hf Ht H0 Hsh Hfi ltac:(cbv zeta; rewrite EL; exact Hd)) as (m & y & o & Em & Hy & Te & V). rewrite EL in V.
  exists o. split; [exact Te|]. intros r E. destruct (V r E) as (x & -> & _ & B). exists x. split; [reflexivity|]. intros k. destruct (B k) as [_ Bk].
  assert (W : plane_wave (chain_lattice N) N (fun a => filling * PI * IZR a)).
  { apply (chain_wave N (filling * PI) q HN ltac:(nia)). rewrite mult_IZR in Hq. nra. }
  destruct (C108_jump sort J (chain_lattice N) N (sea N filling) _ Hs ltac:(constructor; nia) Hf W) as (m' & Em' & K). rewrite Em in Em'. injection Em' as <-.
  rewrite (K y Hy) in Bk. exact Bk.
Qed.
(** hubbard_real_2d_rk4_jump with U = 0, when k_F is one of the momenta of the torus *)
Theorem C108_jump_2d : forall sort rnd u st T0 s0 sched N J kx ky qx qy dt t_end interval steps,
  sorts_by_column sort -> (3 <= N)%Z -> fits3 (square_lattice N N) (N * N) -> times_ok rnd u dt t_end interval steps ->
  shares T0 0 (N * N) s0 -> shared_jump (N * N) sched -> kx * IZR N = 2 * PI * IZR qx -> ky * IZR N = 2 * PI * IZR qy ->
  let L := 12 * Rabs J in dt ^ 2 * L ^ 2 <= 8 -> let n := (N * N + N * N * (N * N) * (N * N))%Z in
  exists o, terminates_with (jump_2d sort rnd st s0 sched N N J 0 (kx, ky) dt t_end interval) (Ok o) /\
    forall r, o = Some r -> exists x, r = Ok (map (fun k => (time_at rnd dt k, x k)) (written interval steps)) /\
      forall k, Rabs (x k - 1) <= 2 * IZR n * (INR k * dt * dt ^ 4 * L ^ 5 / 120).
Proof.
  intros sort rnd u st T0 s0 sched N J kx ky qx qy dt t_end interval steps Hs HN Hf Ht H0 Hsh Hx Hy L Hd n.
  assert (EL : 12 * Rabs J + Rabs 0 = L) by (rewrite Rabs_R0; unfold L; ring). assert (Hf' := Hf). unfold fits3 in Hf'. cbn [lat_coordination square_lattice] in Hf'.
  destruct (C88_square sort rnd u st T0 s0 sched N J 0 kx ky dt t_end interval steps Hs HN Hf Ht H0 Hsh ltac:(cbv zeta; rewrite EL; exact Hd)) as (m & y & o & Em & Hys & Te & V). rewrite EL in V.
  exists o. split; [exact Te|]. intros r E. destruct (V r E) as (x & -> & _ & B). exists x. split; [reflexivity|]. intros k. destruct (B k) as [_ Bk]. fold n in Bk.
  pose proof (square_wave N kx ky qx qy HN ltac:(nia) Hx Hy) as W.
  destruct (C108_jump sort J (square_lattice N N) (N * N) (sea_square N) _ Hs ltac:(constructor; nia) Hf W) as (m' & Em' & K). rewrite Em in Em'. injection Em' as <-.
  rewrite (K y Hys) in Bk. exact Bk.
Qed.
(** (defect) With N = 4k + 2 sites pi/2 is no momentum of the ring.  At half filling the exact value
    of the printed quantity then leaves 1 at once, although nothing interacts: its derivative at
    t = 0 is 4 J, and for J > 0 it exceeds 1, which no jump of a momentum distribution does. *)
Theorem C108_jump_refuted : forall (sort : list (triplet CR) -> list (triplet CR)) J k rho,
  sorts_by_column sort -> (1 <= k)%Z -> let N := (4 * k + 2)%Z in fits3 (chain_lattice N) N -> let n := (N + N * N * N)%Z in
  exists m, init_matrix sort (real J : CR) (real 0) (real (1/2)) (chain_lattice N) = Ok m /\
    forall y, the_solution n (entry (bm_scale imag_unit m)) y -> let f t := jump N rho (fun a => 1 / 2 * PI * IZR a) (y t) in
      f 0 = 1 /\ derivable_pt_lim f 0 (4 * J) /\ (0 < J -> exists t, 0 < t /\ 1 < f t).
Proof.
  intros sort J k rho Hs Hk N Hf n. assert (H64 : (N < two64)%Z) by (unfold fits3 in Hf; cbn [lat_coordination chain_lattice] in Hf; unfold N in *; nia).
  assert (Hl : shipped3 (chain_lattice N) N) by (constructor; unfold N in *; lia). pose proof (shipped3_graph _ N Hl) as HG. pose proof (Logic.proj1 (HNpos _ N HG)) as HN0.
  assert (Hf1 : (N * lat_coordination (chain_lattice N) < two64)%Z) by (unfold fits3 in Hf; pose proof (g_co _ _ HG); nia).
  set (phi := fun a => 1 / 2 * PI * IZR a).
  destruct (C108_decouples sort J _ N Hs Hl Hf) as (m & m1 & Em & Em1 & H). exists m. split; [exact Em|]. intros y Hy f. destruct (H y Hy) as (z & Hz & Q1 & Q2).
  set (amp := fun v : Z -> CR => sum_over (K := CR) (fun a => rmul (phase phi a) (v a)) (zrange 0 N)).
  assert (EA : forall t, f t = fst (amp (z t)) * fst (amp (z t)) + snd (amp (z t)) * snd (amp (z t))).
  { intros t. unfold f. fold phi. unfold jump. replace (jump_amplitude N rho phi (y t)) with (amp (z t)); [reflexivity|symmetry].
    unfold jump_amplitude, amp. apply sum_over_ext. intros a Ha. apply zrange_in in Ha. rewrite (Q1 t a Ha). f_equal.
    rewrite (sum_over_zero CR); [destruct (z t a) as [p q]; cbn; f_equal; ring|]. intros b Hb. apply zrange_in in Hb. apply (sum_over_zero CR). intros c Hc. apply zrange_in in Hc.
    rewrite Q2 by nia. apply cplx_zero. }
  destruct Hz as (Z1 & Z2 & _).
  assert (P0 : phase phi 0%Z = real 1) by (unfold phase, phi; rewrite Rmult_0_r, cos_0, sin_0; reflexivity).
  assert (A0 : amp (z 0) = real 1).
  { unfold amp. rewrite (sum_first _ N HN0).
    - rewrite (Z2 0%Z), P0 by lia. unfold first_unit. cbn. apply (f_equal2 (@pair R R)); cbn; ring.
    - intros i Hi. rewrite (Z2 i) by lia. unfold first_unit. destruct (Z.eqb_spec i 0); [lia|]. apply cplx_zero. }
  assert (F0 : f 0 = 1) by (rewrite EA, A0; cbn; ring).
  assert (DF : derivable_pt_lim f 0 (4 * J)).
  { destruct (wave_deriv N phi z (fun a => sum_over (K := CR) (fun b => rmul (entry (bm_scale imag_unit m1) a b) (z 0 b)) (zrange 0 N)) 0 (Z1 0)) as [D1 D2]. cbv zeta in D1, D2.
    rewrite (amp_first sort J (chain_lattice N) N phi Hs Hl Hf1 m1 Em1 (z 0) (fun a Ha => Z2 a Ha)) in D1, D2.
    cbn [lat_neighbors chain_lattice] in D1, D2. rewrite (chain_neighbors_ring N 0 H64) in D1, D2 by (unfold site; lia).
    replace ((0 - 1) mod N)%Z with (4 * k + 1)%Z in D1, D2 by (rewrite <- (Z.mod_add (0 - 1) 1 N), Z.mod_small by (unfold N; lia); unfold N; lia).
    replace ((0 + 1) mod N)%Z with 1%Z in D1, D2 by (rewrite Z.mod_small by (unfold N; lia); reflexivity).
    assert (P1 : phase phi 1%Z = (0, 1)) by (unfold phase, phi; replace (1 / 2 * PI * 1) with (PI / 2) by field; rewrite cos_PI2, sin_PI2; reflexivity).
    assert (P2 : phase phi (4 * k + 1)%Z = (0, 1)).
    { unfold phase, phi. rewrite plus_IZR, mult_IZR. replace (1 / 2 * PI * (4 * IZR k + 1)) with (PI / 2 + 2 * PI * IZR k) by field. rewrite cos_add_2PI, sin_add_2PI, cos_PI2, sin_PI2. reflexivity. }
    rewrite !sum_over_cons, P1, P2 in D1, D2. cbn in D1, D2.
    match type of D1 with derivable_pt_lim _ _ ?v => replace v with (2 * J) in D1 by (cbn; ring) end.
    match type of D2 with derivable_pt_lim _ _ ?v => replace v with 0 in D2 by ring end.
    change (derivable_pt_lim (fun s => fst (amp (z s))) 0 (2 * J)) in D1. change (derivable_pt_lim (fun s => snd (amp (z s))) 0 0) in D2.
    pose proof (derivable_pt_lim_plus _ _ 0 _ _ (derivable_pt_lim_mult _ _ 0 _ _ D1 D1) (derivable_pt_lim_mult _ _ 0 _ _ D2 D2)) as D. cbv beta in D. rewrite A0 in D. cbn in D.
    eapply deriv_eq; [exact D|intros s; rewrite EA; reflexivity|ring]. }
  split; [exact F0|]. split; [exact DF|]. intros HJ.
  destruct (DF (2 * J) ltac:(lra)) as ((d & Hd) & K). specialize (K (d / 2) ltac:(lra)). cbn in K. rewrite Rabs_right in K by lra. specialize (K ltac:(lra)). rewrite Rplus_0_l, F0 in K.
  exists (d / 2). split; [lra|]. apply Rabs_def2 in K as [_ K].
  assert (0 < (f (d / 2) - 1) / (d / 2)) by lra. assert (0 < (f (d / 2) - 1) / (d / 2) * (d / 2)) by (apply Rmult_lt_0_compat; lra).
  replace ((f (d / 2) - 1) / (d / 2) * (d / 2)) with (f (d / 2) - 1) in * by (field; lra). lra.
Qed.
