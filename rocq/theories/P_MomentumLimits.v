(** PROPERTY C113: the momentum-space program in the exactly solvable limits, and scaling of its parameters. *)
From Coq Require Import Reals Lra Psatz.
From Verif Require Import Base M_Operator M_Lattice Spec_Lattice Pf_Lattice M_LatticeReal Spec_LatticeReal M_Basis Pf_Basis M_Matrix M_Ode M_Dispersion M_OpenMP M_SiteOccupation M_FermiSea M_NonVanishing Spec_Ode
  Pf_Matrix Pf_Matrix2 Pf_MatrixEntry P_Dispersion Spec_Matrix Pf_Ode P_Ode Pf_NonVanishing P_NonVanishing P_Momentum Spec_ParticleNumber P_ParticleNumber P_Dynamics
  Spec_Stability Pf_Stability Pf_Stability2 Pf_Stability3 Pf_Solution P_Stability Pf_Arrow Spec_MomentumProgram M_MomentumProgram Pf_MomentumProgram P_MomentumProgram Pf_Theory2 P_JumpLimits Pf_Programs P_Atomic P_ParticleHole P_Parameters.
Local Open Scope R_scope.
Local Open Scope list_scope.
Local Notation len u := (Z.of_nat (length u)).

(** ** scaling *)
Lemma band_scale N J l k : band N (l * J) k = l * band N J k.
Proof. unfold band. ring. Qed.
Lemma generator_scale N J U l r c : (0 < N)%Z -> generator N (l * J) (l * U) r c = rmul (real l : CR) (generator N J U r c).
Proof.
  intros HN. unfold generator, coupling, energy, real. cbn. apply (f_equal2 (@pair R R)); cbn; [ring|]. assert (IZR N <> 0) by (apply not_0_IZR; lia).
  destruct (r =? c)%Z; [destruct (r =? 0)%Z; rewrite ?band_scale; field|destruct (_ || _)%bool; field; assumption].
Qed.
Lemma below_scale N J l k : 0 < l -> below_fermi N (l * J) k = below_fermi N J k.
Proof. intros L. unfold below_fermi. rewrite band_scale. destruct (Rlt_dec (l * band N J k) 0), (Rlt_dec (band N J k) 0); try reflexivity; exfalso; nra. Qed.
(** with J and U multiplied and dt divided by the same positive number, the program prints the same two numbers *)
Theorem C113_scaling : forall sort order st st' N J U dt l t_end t_end' interval interval',
  (forall l, Permutation (sort l) l) -> (0 < N)%Z -> (N * (1 + 3 * N) < two64)%Z -> Permutation order (seq 0 (Z.to_nat (1 + N * N))) -> 0 < l ->
  exists p0 p8, terminates_with (momentum_program sort order st N J U dt t_end interval) (Ok (p0, p8)) /\
    terminates_with (momentum_program sort order st' N (l * J) (l * U) (dt / l) t_end' interval') (Ok (p0, p8)).
Proof.
  intros sort order st st' N J U dt l t_end t_end' mi mi' Hs HN Hf Ho L. pose proof (q_site N HN) as Hq. set (n := (1 + N * N)%Z).
  destruct (program_value sort order st N J U dt t_end mi Hs HN Hf Ho) as (M & h0 & h8 & A & L0 & V0 & E8 & Ht).
  destruct (program_value sort order st' N (l * J) (l * U) (dt / l) t_end' mi' Hs HN Hf Ho) as (M' & h0' & h8' & A' & L0' & V0' & E8' & Ht').
  exists (particle_number_form (K := Rring) N (center N) (below_fermi N J) (vget h0)), (particle_number_form (K := Rring) N (center N) (below_fermi N J) (vget h8)). split; [exact Ht|].
  assert (B : forall k, site N k -> below_fermi N (l * J) k = below_fermi N J k) by (intros k _; apply below_scale, L).
  rewrite (form_ext N (center N) _ _ (vget h0') (vget h0) HN Hq B) in Ht' by (intros i Hi; rewrite (V0 i Hi); apply V0', Hi).
  rewrite (form_ext N (center N) _ _ (vget h8') (vget h8) HN Hq B) in Ht'; [exact Ht'|]. rewrite E8, E8'. fold n in A, A', L0, L0', V0, V0' |- *.
  destruct (steps_run (mkRk4 (K := CR) n (real dt)) (sp_vec M) 8 st h0) as (sts & Ls & ->). destruct (steps_run (mkRk4 (K := CR) n (real (dt / l))) (sp_vec M') 8 st' h0') as (sts' & Ls' & ->).
  intros i Hi. rewrite (related_vget n (fun _ => 1) (run_steps CR (real (1/2)) (real (1/6)) (mkRk4 (K:=CR) n (real dt)) (sp_vec M) sts h0)); [|clear i Hi|exact Hi].
  - destruct (vget _ i) as [a b]. unfold real. cbn. apply (f_equal2 (@pair R R)); cbn; ring.
  - apply (run_related n (generator N J U) (generator N (l * J) (l * U))); [|exact A|exact A'|congruence|exact L0|exact L0'|].
    + intros i j _ _. rewrite (generator_scale N J U l i j HN). destruct (generator N J U i j) as [a b]. unfold real. cbn. apply (f_equal2 (@pair R R)); cbn; field; lra.
    + intros p Hp. apply idx_in in Hp. unfold vec, vecf. rewrite (V0 _ Hp), (V0' _ Hp). ring.
Qed.

(** ** the free case *)
Definition only0 (z : CR) (i : Z) : CR := if (i =? 0)%Z then z else real 0.
(** what one step of the integration multiplies the coefficient of a state of energy x/dt with *)
Definition stepfactor (x : R) : CR := (1 - x ^ 2 / 2 + x ^ 4 / 24, x - x ^ 3 / 6).
Section Free.
  Variables (N : Z) (J : R).
  Hypothesis HN : (0 < N)%Z.
  Let n := (1 + N * N)%Z.
  Let e := band N J (center N).
  Lemma ap_only0 z p : In p (idx n) -> ap (idx n) (SM (generator N J 0)) (vecf (only0 z)) p = vecf (only0 (rmul ((0, e) : CR) z)) p.
  Proof.
    intros Hp. apply idx_in in Hp. rewrite ap_SM. unfold vecf. f_equal.
    transitivity (sum_over (K := CR) (fun k => rmul (delta 0 k) (rmul (generator N J 0 (fst p) k) z)) (zrange 0 n)).
    - apply sum_over_ext. intros k _. unfold delta, only0. rewrite (Z.eqb_sym k 0). destruct z as [a b]. destruct (0 =? k)%Z; generalize (generator N J 0 (fst p) k); intros [c d]; cbn; apply (f_equal2 (@pair R R)); cbn; ring.
    - rewrite (sum_pick_z n (fun k => rmul (generator N J 0 (fst p) k) z) 0%Z) by (unfold n; nia). unfold only0, generator, coupling, energy. rewrite Z.eqb_refl, Bool.orb_true_r. assert (IZR N <> 0) by (apply not_0_IZR; lia).
      destruct (fst p =? 0)%Z; destruct z as [a b]; fold e; unfold real; cbn; apply (f_equal2 (@pair R R)); cbn; field; assumption.
  Qed.
  Lemma P_only0 dt z p : In p (idx n) -> P (idx n) (SM (generator N J 0)) dt (vecf (only0 z)) p = vecf (only0 (rmul (stepfactor (dt * e)) z)) p.
  Proof.
    intros Hp. unfold P. cbn [apn]. set (A := ap (idx n) (SM (generator N J 0))). set (i0 := (0, e) : CR).
    assert (A1 : forall z q, In q (idx n) -> A (vecf (only0 z)) q = vecf (only0 (rmul i0 z)) q) by (intros; apply ap_only0; assumption).
    assert (A2 : forall q, In q (idx n) -> A (A (vecf (only0 z))) q = vecf (only0 (rmul i0 (rmul i0 z))) q).
    { intros q Hq. unfold A at 1. rewrite (ap_ext _ _ _ (vecf (only0 (rmul i0 z)))) by (intros; apply A1; assumption). apply A1, Hq. }
    assert (A3 : forall q, In q (idx n) -> A (A (A (vecf (only0 z)))) q = vecf (only0 (rmul i0 (rmul i0 (rmul i0 z)))) q).
    { intros q Hq. unfold A at 1. rewrite (ap_ext _ _ _ (vecf (only0 (rmul i0 (rmul i0 z))))) by (intros; apply A2; assumption). apply A1, Hq. }
    assert (A4 : forall q, In q (idx n) -> A (A (A (A (vecf (only0 z))))) q = vecf (only0 (rmul i0 (rmul i0 (rmul i0 (rmul i0 z))))) q).
    { intros q Hq. unfold A at 1. rewrite (ap_ext _ _ _ (vecf (only0 (rmul i0 (rmul i0 (rmul i0 z)))))) by (intros; apply A3; assumption). apply A1, Hq. }
    rewrite (A1 z p Hp), (A2 p Hp), (A3 p Hp), (A4 p Hp). unfold vecf, only0, stepfactor, i0. destruct p as [i c]. cbn [fst snd]. destruct z as [a b].
    destruct (i =? 0)%Z, c; cbn; field.
  Qed.
  Lemma run_only0 mul dt d : acts_as CR n (generator N J 0) mul -> forall sts u z, len u = n -> (forall p, In p (idx n) -> vec u p = vecf (only0 z) p) ->
    exists z', abs2 (K := Rring) z' = abs2 (K := Rring) z * (1 - (dt * e) ^ 6 / 72 + (dt * e) ^ 8 / 576) ^ length sts /\
      forall p, In p (idx n) -> vec (run_steps CR (real (1/2)) (real (1/6)) (mkRk4 (K:=CR) d (real dt)) mul sts u) p = vecf (only0 z') p.
  Proof.
    intros A. induction sts as [|st sts IH]; intros u z L H; cbn [run_steps length pow].
    - exists z. split; [symmetry; apply Rmult_1_r|exact H].
    - destruct (vec_step n _ mul A d dt st u L) as [L' V]. destruct (IH _ (rmul (stepfactor (dt * e)) z) L') as (z' & E & W).
      + intros p Hp. rewrite (V p Hp), (P_ext _ _ _ _ _ H p Hp). apply P_only0, Hp.
      + exists z'. split; [|exact W]. rewrite E. destruct z as [a b]. unfold abs2, stepfactor. cbn in a, b |- *. field.
  Qed.
End Free.
Lemma form_only0 N (n : Z -> bool) z : (0 < N)%Z -> particle_number_form (K := Rring) N (center N) n (only0 z) = if n (center N) then abs2 (K := Rring) z else 0.
Proof.
  intros HN. pose proof (q_site N HN) as Hq. unfold site in Hq.
  assert (O : forall k, (0 <= k)%Z -> only0 z (1 + center N * N + k)%Z = real 0) by (intros k Hk; unfold only0; destruct (Z.eqb_spec (1 + center N * N + k) 0); [nia|reflexivity]).
  assert (S0 : scattering (K := Rring) N (center N) n (only0 z) = z).
  { unfold scattering. rewrite !sum_SR. apply (injective_projections (A := R) (B := R)); cbn [fst snd radd Rring];
      (rewrite (SR_ext _ (fun _ => 0)); [rewrite SR_zero; unfold only0; cbn; ring|]); intros k Hk; apply zrange_in in Hk; rewrite O by lia; cbn; ring. }
  unfold particle_number_form. rewrite S0. rewrite (sum_over_ext Rring _ (fun _ => r0)).
  - rewrite sum_SR. match goal with |- context [SR ?f (zrange 0 N)] => change (SR f (zrange 0 N)) with (SR (fun _ : Z => 0) (zrange 0 N)) end. rewrite SR_zero. unfold occupied. destruct (n (center N)); cbn; ring.
  - intros k1 H1. apply zrange_in in H1. rewrite sum_SR. rewrite (SR_ext _ (fun _ => 0)); [apply SR_zero|]. intros k2 H2. apply zrange_in in H2.
    destruct (k1 =? center N)%Z; [reflexivity|]. unfold only0, abs2. destruct (Z.eqb_spec (1 + k1 * N + k2) 0) as [E|_]; [nia|]. cbn. ring.
Qed.
(** without interaction: the program prints 1 and a power of the damping of one step of the
    integration if the central momentum lies below the Fermi energy, and zeros otherwise *)
Theorem C113_free : forall sort order st N J dt t_end interval,
  (forall l, Permutation (sort l) l) -> (0 < N)%Z -> (N * (1 + 3 * N) < two64)%Z -> Permutation order (seq 0 (Z.to_nat (1 + N * N))) ->
  let e := - 2 * J * cos (- PI + 2 * PI * IZR (N / 2) / IZR N) in let x := dt * e in
  terminates_with (momentum_program sort order st N J 0 dt t_end interval)
    (Ok (if Rlt_dec e 0 then (1, (1 - x ^ 6 / 72 + x ^ 8 / 576) ^ 8) else (0, 0))).
Proof.
  intros sort order st N J dt t_end mi Hs HN Hf Ho e x. pose proof (q_site N HN) as Hq. set (n := (1 + N * N)%Z).
  destruct (program_value sort order st N J 0 dt t_end mi Hs HN Hf Ho) as (M & h0 & h8 & A & L0 & V0 & E8 & Ht). fold n in A, L0, V0, E8.
  destruct (steps_run (mkRk4 (K := CR) n (real dt)) (sp_vec M) 8 st h0) as (sts & Ls & Es). rewrite Es in E8.
  destruct (run_only0 N J HN (sp_vec M) dt n A sts h0 (real 1) L0) as (z & Ez & W).
  { intros p Hp. apply idx_in in Hp. unfold vec, vecf. rewrite (V0 _ Hp). reflexivity. }
  rewrite (form_ext N (center N) _ (below_fermi N J) (vget h0) (only0 (real 1)) HN Hq) in Ht by (try reflexivity; intros i Hi; rewrite (V0 i Hi); reflexivity).
  rewrite (form_ext N (center N) _ (below_fermi N J) (vget h8) (only0 z) HN Hq) in Ht; [|reflexivity|].
  - rewrite !form_only0 in Ht by exact HN. rewrite Ez, Ls in Ht. fold (band N J (center N)) in e. change (band N J (center N)) with e in Ht. fold x in Ht. unfold below_fermi in Ht. change (band N J (center N)) with e in Ht.
    unfold abs2, real in Ht. cbn [fst snd] in Ht. destruct (Rlt_dec e 0); [|exact Ht].
    match type of Ht with terminates_with _ (Ok (?a, ?b)) => replace ((1, (1 - x ^ 6 / 72 + x ^ 8 / 576) ^ 8)) with (a, b) end; [exact Ht|]. apply (f_equal2 (@pair R R)); cbn; ring.
  - fold n. intros i Hi. rewrite E8. pose proof (W (i, true) ltac:(apply idx_in; exact Hi)) as W1. pose proof (W (i, false) ltac:(apply idx_in; exact Hi)) as W2. unfold vec, vecf in W1, W2. cbn [fst snd part] in W1, W2.
    apply injective_projections; assumption.
Qed.
(** the exact particle number is constant without interaction *)
Theorem C113_free_exact : forall N J y, (0 < N)%Z -> exact_solution (1 + N * N) (generator N J 0) y -> (forall i, (0 <= i < 1 + N * N)%Z -> y 0 i = if Z.eqb i 0 then real 1 else real 0) ->
  forall t, particle_number_form (K := Rring) N (center N) (below_fermi N J) (y t) = if Rlt_dec (band N J (center N)) 0 then 1 else 0.
Proof.
  intros N J y HN Hy H0 t. pose proof (q_site N HN) as Hq. set (n := (1 + N * N)%Z) in *. set (e := band N J (center N)).
  set (w := fun s : R => only0 (cos (e * s), sin (e * s))).
  assert (Hw : exact_solution n (generator N J 0) w).
  { intros s i Hi. assert (D : sum_over (K := CR) (fun j => rmul (generator N J 0 i j) (w s j)) (zrange 0 n) = only0 (rmul ((0, e) : CR) (cos (e * s), sin (e * s))) i).
    { pose proof (ap_only0 N J HN (cos (e * s), sin (e * s)) (i, true) ltac:(apply idx_in; exact Hi)) as A1. pose proof (ap_only0 N J HN (cos (e * s), sin (e * s)) (i, false) ltac:(apply idx_in; exact Hi)) as A2.
      rewrite ap_SM in A1, A2. unfold vecf in A1, A2. cbn [fst snd part] in A1, A2. fold n e in A1, A2. apply (injective_projections (A := R) (B := R)); assumption. }
    cbv zeta. rewrite D. unfold w, only0. destruct (i =? 0)%Z; cbn; split.
    - eapply deriv_eq; [exact (cos_deriv e s)|reflexivity|cbn; ring].
    - eapply deriv_eq; [exact (sin_deriv e s)|reflexivity|cbn; ring].
    - apply derivable_pt_lim_const.
    - apply derivable_pt_lim_const. }
  pose proof (generator_anti N J 0) as An. pose proof (generator_op N J 0 HN) as Op. fold n in An, Op.
  assert (LP : 0 <= 6 * Rabs J + Rabs 0) by apply (Lc_pos J 0).
  assert (Hn : (0 < n)%Z) by (unfold n; nia). destruct (init_vector_unit n Hn) as (h0 & _ & L0 & V0).
  destruct (exists_unique n (generator N J 0) _ h0 An Op LP) as (y1 & _ & _ & Yu).
  rewrite (form_ext N (center N) _ (below_fermi N J) (y t) (w t) HN Hq); [|reflexivity|].
  - unfold w. rewrite form_only0 by exact HN. unfold below_fermi. fold e. destruct (Rlt_dec e 0); [|reflexivity]. unfold abs2. cbn. pose proof (sin2_cos2 (e * t)) as S. unfold Rsqr in S. lra.
  - fold n. intros i Hi. transitivity (y1 t i); [|symmetry]; apply Yu; try assumption.
    + intros j Hj. rewrite (H0 j Hj). symmetry. apply V0, Hj.
    + intros j Hj. unfold w. rewrite Rmult_0_r, cos_0, sin_0. symmetry. apply V0, Hj.
Qed.
(** without hopping no momentum lies below the Fermi energy: the program prints two zeros *)
Theorem C113_atomic : forall sort order st N U dt t_end interval,
  (forall l, Permutation (sort l) l) -> (0 < N)%Z -> (N * (1 + 3 * N) < two64)%Z -> Permutation order (seq 0 (Z.to_nat (1 + N * N))) ->
  terminates_with (momentum_program sort order st N 0 U dt t_end interval) (Ok (0, 0)).
Proof.
  intros sort order st N U dt t_end mi Hs HN Hf Ho. pose proof (q_site N HN) as Hq.
  destruct (program_value sort order st N 0 U dt t_end mi Hs HN Hf Ho) as (M & h0 & h8 & _ & _ & _ & _ & Ht).
  assert (B : forall k, below_fermi N 0 k = false) by (intros k; unfold below_fermi, band; destruct (Rlt_dec _ 0); [exfalso; lra|reflexivity]).
  assert (Z0 : forall h, particle_number_form (K := Rring) N (center N) (below_fermi N 0) h = 0).
  { intros h. unfold particle_number_form. rewrite (B (center N)). rewrite (sum_over_ext Rring _ (fun _ => r0)).
    - rewrite sum_SR. match goal with |- context [SR ?f (zrange 0 N)] => change (SR f (zrange 0 N)) with (SR (fun _ : Z => 0) (zrange 0 N)) end. rewrite SR_zero. cbn. ring.
    - intros k1 _. rewrite sum_SR. rewrite (SR_ext _ (fun _ => 0)); [apply SR_zero|]. intros k2 _. rewrite (B k1), (B k2). destruct (k1 =? center N)%Z; cbn; ring. }
  rewrite !Z0 in Ht. exact Ht.
Qed.
(** four momenta, J = 1, dt = 1/10, without interaction; the numbers printed for doubled parameters *)
Theorem C113_example : forall st t_end interval, let x := 1 / 5 in
  terminates_with (momentum_program (fun l => l) (seq 0 17) st 4 1 0 (1/10) t_end interval) (Ok (1, (1 - x ^ 6 / 72 + x ^ 8 / 576) ^ 8)) /\
  exists p0 p8, terminates_with (momentum_program (fun l => l) (seq 0 17) st 4 1 3 (1/10) t_end interval) (Ok (p0, p8)) /\
    terminates_with (momentum_program (fun l => l) (seq 0 17) st 4 (2 * 1) (2 * 3) (1/10/2) t_end interval) (Ok (p0, p8)).
Proof.
  intros st t_end mi x. assert (T : (4 * (1 + 3 * 4) < two64)%Z) by reflexivity. split.
  - pose proof (C113_free (fun l => l) (seq 0 17) st 4 1 (1/10) t_end mi ltac:(intros; apply Permutation_refl) ltac:(lia) T ltac:(apply Permutation_refl)) as H. cbv zeta in H.
    assert (E : - 2 * 1 * cos (- PI + 2 * PI * IZR (4 / 2) / 4) = - 2) by (pose proof (C82_center 2 1 ltac:(lia)) as C; unfold band, center in C; cbn in C |- *; rewrite C; ring).
    rewrite E in H. destruct (Rlt_dec (-2) 0) as [_|C]; [|exfalso; lra]. replace ((1 - x ^ 6 / 72 + x ^ 8 / 576) ^ 8) with ((1 - (1 / 10 * -2) ^ 6 / 72 + (1 / 10 * -2) ^ 8 / 576) ^ 8); [exact H|]. f_equal. unfold x. field.
  - apply C113_scaling; try assumption; try lia; try lra; try (intros; apply Permutation_refl).
Qed.
Print Assumptions C113_scaling.
Print Assumptions C113_free.
Print Assumptions C113_free_exact.
Print Assumptions C113_atomic.
Print Assumptions C113_example.
