(** THEOREMS: C82 (what the momentum-space program prints). *)
From Coq Require Import Reals Lra Psatz.
From Verif Require Import Base M_Operator M_Lattice Spec_Lattice Pf_Lattice M_LatticeReal Spec_LatticeReal M_Basis Pf_Basis M_Matrix M_Ode M_Dispersion M_OpenMP M_SiteOccupation M_FermiSea M_NonVanishing Spec_Ode
  Pf_Matrix Pf_Matrix2 Pf_MatrixEntry P_Dispersion Spec_Matrix Pf_Ode P_Ode Pf_NonVanishing P_NonVanishing P_Momentum Spec_ParticleNumber P_ParticleNumber P_Dynamics
  Spec_Stability Pf_Stability Pf_Stability2 Pf_Stability3 Pf_Solution P_Stability Pf_Arrow Spec_MomentumProgram M_MomentumProgram Pf_MomentumProgram.
Local Open Scope R_scope.
Local Open Scope list_scope.
Local Notation len u := (Z.of_nat (length u)).

(** the static buffers are overwritten before they are read *)
Lemma steps_run rk mul k : forall st u, exists sts, length sts = k /\ steps k rk mul st u = run_steps CR (real (1/2)) (real (1/6)) rk mul sts u.
Proof.
  induction k as [|k IH]; intros st u; [exists []; split; reflexivity|].
  cbn [steps]. destruct (rk_step (real (1/2)) (real (1/6)) rk mul st u) as [st' u'] eqn:E. destruct (IH st' u') as (sts & Ls & Es).
  exists (st :: sts). split; [cbn [length]; rewrite Ls; reflexivity|]. rewrite Es. cbn [run_steps]. rewrite E. reflexivity.
Qed.
Lemma form_ext L q n n' (h h' : Z -> R * R) : (0 < L)%Z -> site L q -> (forall k, site L k -> n k = n' k) -> (forall i, (0 <= i < 1 + L * L)%Z -> h i = h' i) ->
  particle_number_form (K := Rring) L q n h = particle_number_form (K := Rring) L q n' h'.
Proof.
  intros HL Hq Hn Hh. unfold particle_number_form, scattering. unfold site in *. rewrite (Hn q Hq), (Hh 0%Z) by nia. f_equal.
  - f_equal. f_equal. f_equal; f_equal; apply (sum_over_ext Rring); intros k Hk; apply zrange_in in Hk; rewrite (Hn k Hk), (Hh (1 + q * L + k)%Z) by nia; reflexivity.
  - apply (sum_over_ext Rring). intros k1 H1. apply zrange_in in H1. apply (sum_over_ext Rring). intros k2 H2. apply zrange_in in H2.
    rewrite (Hn k1 H1), (Hn k2 H2), (Hn ((k1 + k2 - q) mod L)%Z), (Hh (1 + k1 * L + k2)%Z) by (try nia; apply Z.mod_pos_bound; lia). reflexivity.
Qed.

Section T.
  Variables (sort : list (Z * bool) -> list (Z * bool)) (order : list nat) (st : statics CR) (N : Z) (J U dt t_end interval : R).
  Hypothesis Hs : forall l, Permutation (sort l) l.
  Hypothesis HN : (0 < N)%Z.
  Hypothesis Hf : (N * (1 + 3 * N) < two64)%Z.
  Hypothesis Ho : Permutation order (seq 0 (Z.to_nat (1 + N * N))).
  Let n := (1 + N * N)%Z.
  Let form h := particle_number_form (K := Rring) N (center N) (below_fermi N J) h : R.
  Let delta0 (i : Z) : CR := if Z.eqb i 0 then real 1 else real 0.

  Lemma program_value : exists M h0 h8, acts_as CR n (generator N J U) (sp_vec M) /\
    len h0 = n /\ (forall i, (0 <= i < n)%Z -> vget h0 i = delta0 i) /\
    h8 = steps 8 (mkRk4 (K := CR) n (real dt)) (sp_vec M) st h0 /\
    terminates_with (momentum_program sort order st N J U dt t_end interval) (Ok (form (vget h0), form (vget h8))).
  Proof.
    pose proof (q_site N HN) as Hq.
    assert (Hb : is_momentum_basis N (center N) (mom_closed N (center N))) by (apply mom_basis_value; [nia|exact Hq]).
    destruct (matrix_facts N J U HN Hf) as (M & EM & Ac & _).
    assert (Ln : len (mom_closed N (center N)) = n) by apply (len_b N (center N) HN).
    assert (Ho' : Permutation order (seq 0 (length (mom_closed N (center N))))) by (replace (length (mom_closed N (center N))) with (Z.to_nat (1 + N * N)) by (unfold n in Ln; lia); exact Ho).
    destruct (C50_closed_form Rring rlt sort (program_eps N J) 0 N (center N) (mom_closed N (center N)) order Hs HN Hf Hq Hb Ho') as (l & El & Ep).
    set (h0 := list_set (map (fun _ => @r0 CR) (zrange 0 n)) 0 (@r1 CR)).
    assert (L0 : len h0 = n).
    { unfold h0. rewrite list_set_length, map_length, zrange_length. unfold n in *. nia. }
    assert (V0 : forall i, (0 <= i < n)%Z -> vget h0 i = delta0 i).
    { intros i Hi. unfold h0, vget. rewrite zrange_cons by (unfold n; nia). cbn [map list_set]. unfold delta0. destruct (Z.eqb_spec i 0) as [->|Hne]; [reflexivity|].
      destruct (Z.to_nat i) eqn:Ez; [lia|]. cbn [nth].
      destruct (nth_in_or_default n0 (map (fun _ : Z => @r0 CR) (zrange (0 + 1) n)) (@r0 CR)) as [Hin| ->]; [|reflexivity].
      apply in_map_iff in Hin as (? & <- & _). reflexivity. }
    exists M, h0, (steps 8 (mkRk4 (K := CR) n (real dt)) (sp_vec M) st h0).
    split; [exact Ac|]. split; [exact L0|]. split; [exact V0|]. split; [reflexivity|].
    destruct Hb as (f0 & Hb). exists f0. intros fuel Hfu. unfold momentum_program. fold (center N). rewrite (Hb fuel Hfu). do 2 f_equal.
    rewrite EM, Ln. cbn [obind]. unfold init_vector. destruct (Z.leb_spec n 0) as [C|_]; [unfold n in C; nia|]. cbn [obind]. fold h0. rewrite El. cbn [obind].
    assert (Fm : forall v : list CR, len v = n -> pn_result (K := Rring) l v = Ok (form (vget v), 0)).
    { intros v Lv. etransitivity; [exact (Ep v (Nat2Z.inj _ _ (eq_trans Lv (eq_sym Ln))))|]. apply f_equal. apply (f_equal2 (@pair R R)); [|reflexivity]. unfold form. apply form_ext; [exact HN|exact Hq| |reflexivity].
      intros k Hk. unfold rlt, below_fermi. rewrite (eps_band N J HN k Hk). reflexivity. }
    rewrite (Fm h0 L0). cbn [obind].
    destruct (steps_run (mkRk4 (K := CR) n (real dt)) (sp_vec M) 8 st h0) as (sts & _ & Es). rewrite Es.
    rewrite Fm by exact (run_len n _ _ Ac n dt sts h0 L0). reflexivity.
  Qed.
End T.

(** The program completes for every parameter and prints two numbers: the particle number of the
    initial coefficients, which is one if the central momentum lies below the Fermi energy and
    zero otherwise, and a number that is not negative. *)
Theorem C82_completes : forall sort order st N J U dt t_end measurement_interval,
  (forall l, Permutation (sort l) l) -> (0 < N)%Z -> (N * (1 + 3 * N) < two64)%Z -> Permutation order (seq 0 (Z.to_nat (1 + N * N))) ->
  exists p0 p8, terminates_with (momentum_program sort order st N J U dt t_end measurement_interval) (Ok (p0, p8)) /\
    p0 = (if Rlt_dec (band N J (center N)) 0 then 1 else 0) /\ 0 <= p8.
Proof.
  intros sort order st N J U dt t_end mi Hs HN Hf Ho. pose proof (q_site N HN) as Hq.
  destruct (program_value sort order st N J U dt t_end mi Hs HN Hf Ho) as (M & h0 & h8 & _ & _ & V0 & _ & Ht).
  eexists. eexists. split; [exact Ht|]. split; [|apply form_nonneg].
  set (Q := fun (c : R) (i : Z) => (if Z.eqb i 0 then c else 0, 0) : R * R).
  etransitivity; [apply (form_ext N (center N) _ (below_fermi N J) _ (Q 1) HN Hq)|].
  - reflexivity.
  - intros i Hi. rewrite V0 by exact Hi. unfold Q. destruct (Z.eqb i 0); reflexivity.
  - assert (Z1 : forall k, Q 1 (1 + center N * N + k)%Z = (0, 0) \/ (k < 0)%Z).
    { intros k. unfold Q. destruct (Z.eqb_spec (1 + center N * N + k) 0) as [E|_]; [right; unfold site in Hq; nia|left; reflexivity]. }
    assert (S0 : scattering (K := Rring) N (center N) (below_fermi N J) (Q 1) = (1, 0)).
    { unfold scattering. rewrite !sum_SR. apply (injective_projections (A := R) (B := R)); cbn [fst snd radd Rring];
        (rewrite (SR_ext _ (fun _ => 0)); [rewrite SR_zero; unfold Q; cbn; ring|]); intros k Hk; apply zrange_in in Hk; destruct (Z1 k) as [->|C]; try lia; cbn; ring. }
    unfold particle_number_form. rewrite S0.
    rewrite (sum_over_ext Rring _ (fun _ => r0)).
    + rewrite sum_SR. match goal with |- context [SR ?f (zrange 0 N)] => change (SR f (zrange 0 N)) with (SR (fun _ : Z => 0) (zrange 0 N)) end. rewrite SR_zero. unfold below_fermi, abs2, occupied. destruct (Rlt_dec (band N J (center N)) 0); cbn; ring.
    + intros k1 H1. apply zrange_in in H1. rewrite sum_SR. rewrite (SR_ext _ (fun _ => 0)); [apply SR_zero|]. intros k2 H2. apply zrange_in in H2.
      destruct (k1 =? center N)%Z; [reflexivity|]. unfold Q, abs2. destruct (Z.eqb_spec (1 + k1 * N + k2) 0) as [E|_]; [nia|]. cbn. ring.
Qed.

(** For dt (6|J| + |U|) <= sqrt 8 the second number is the particle number of the exact solution
    at time 8 dt, up to an explicit error. *)
Theorem C82_convergence : forall sort order st N J U dt t_end measurement_interval,
  (forall l, Permutation (sort l) l) -> (0 < N)%Z -> (N * (1 + 3 * N) < two64)%Z -> Permutation order (seq 0 (Z.to_nat (1 + N * N))) ->
  let L := 6 * Rabs J + Rabs U in
  0 <= dt -> dt ^ 2 * L ^ 2 <= 8 ->
  exists y p0 p8,
    exact_solution (1 + N * N) (generator N J U) y /\
    (forall i, (0 <= i < 1 + N * N)%Z -> y 0 i = if Z.eqb i 0 then real 1 else real 0) /\
    (forall y', exact_solution (1 + N * N) (generator N J U) y' ->
       (forall i, (0 <= i < 1 + N * N)%Z -> y' 0 i = if Z.eqb i 0 then real 1 else real 0) ->
       forall t i, (0 <= i < 1 + N * N)%Z -> y' t i = y t i) /\
    terminates_with (momentum_program sort order st N J U dt t_end measurement_interval) (Ok (p0, p8)) /\
    p8 <= 1 + 9 * IZR N /\
    Rabs (p8 - particle_number_form (K := Rring) N (center N) (below_fermi N J) (y (8 * dt))) <=
      2 * (1 + 9 * IZR N) * (8 * dt * dt ^ 4 * L ^ 5 / 120).
Proof.
  intros sort order st N J U dt t_end mi Hs HN Hf Ho L Hp Hd. pose proof (q_site N HN) as Hq.
  destruct (program_value sort order st N J U dt t_end mi Hs HN Hf Ho) as (M & h0 & h8 & Ac & L0 & V0 & E8 & Ht).
  set (n := (1 + N * N)%Z) in *. pose proof (generator_anti N J U) as An. pose proof (generator_op N J U HN) as Op. fold n in An, Op. fold L in Op.
  assert (LP : 0 <= L) by apply (Lc_pos J U).
  destruct (exists_unique n (generator N J U) L h0 An Op LP) as (y & Ey & Y0 & Yu).
  destruct (steps_run (mkRk4 (K := CR) n (real dt)) (sp_vec M) 8 st h0) as (sts & Ls & Es). rewrite Es in E8.
  assert (L8 : len h8 = n) by (subst h8; exact (run_len n _ _ Ac n dt sts h0 L0)).
  assert (N0 : norm2 h0 = 1).
  { rewrite (vec_n2 n _ L0). unfold n2, dot. rewrite SR_idx. rewrite (SR_ext _ (fun i => if Z.eqb 0 i then 1 else 0)).
    - apply SR_pick_eq; [apply zrange_NoDup|]. apply zrange_in. unfold n. nia.
    - intros i Hi. apply zrange_in in Hi. unfold vec, vecf. cbn [fst snd part]. rewrite (V0 i Hi), (Z.eqb_sym 0 i). destruct (Z.eqb i 0); cbn; ring. }
  assert (N8 : norm2 h8 <= 1) by (rewrite <- N0; subst h8; exact (run_norm n _ _ L Ac An Op n dt sts Hd h0 L0)).
  exists y. eexists. eexists. split; [exact Ey|]. split; [intros i Hi; rewrite (Y0 i Hi); apply V0; exact Hi|].
  split; [intros y' Hy' Hy0; apply (Yu y' Hy'); intros i Hi; rewrite (Hy0 i Hi); symmetry; apply V0; exact Hi|].
  split; [exact Ht|]. rewrite (vec_n2 n _ L8) in N8. split.
  - eapply Rle_trans; [apply (form_le N (center N) (below_fermi N J) HN Hq)|]. fold n. change (vecf (vget h8)) with (vec h8).
    assert (1 <= IZR N) by (apply IZR_le; lia). nra.
  - assert (Lift : solution (idx n) (SM (generator N J U)) (fun t => vecf (y t))).
    { intros t [i c] Hi. rewrite ap_SM. apply idx_in in Hi. cbn [fst snd] in *. destruct (Ey t i Hi) as [D1 D2]. unfold vecf. cbn [fst snd]. destruct c; cbn [part]; [exact D1|exact D2]. }
    assert (NY : n2 (idx n) (vecf (y (8 * dt))) = 1).
    { rewrite (norm_conserved (idx n) (SM (generator N J U)) (SM_anti n _ An) _ Lift (8 * dt)). rewrite <- N0, (vec_n2 n _ L0).
      unfold n2. apply dot_ext; intros p Hp'; apply idx_in in Hp'; unfold vec, vecf; rewrite (Y0 _ Hp'); reflexivity. }
    eapply Rle_trans; [apply (form_lip N (center N) (below_fermi N J) HN Hq); fold n; [exact N8|rewrite NY; lra]|]. fold n.
    assert (1 <= IZR N) by (apply IZR_le; lia). apply Rmult_le_compat_l; [lra|].
    change (vecf (vget h8)) with (vec h8). rewrite <- (distance_nrm n h8 (y (8 * dt)) L8).
    pose proof (run_error n _ _ L Ac An LP Op n dt sts h0 y Hp Hd L0 Ey Y0) as Er. rewrite <- E8, Ls in Er. replace (INR 8) with 8 in Er by (cbn; ring).
    eapply Rle_trans; [exact Er|]. unfold length2. rewrite N0, sqrt_1. apply Req_le. field.
Qed.

(** for even N the central momentum is zero: its energy is -2J *)
Theorem C82_center : forall h J, (0 < h)%Z -> band (2 * h) J (center (2 * h)) = - 2 * J.
Proof.
  intros h J Hh. unfold band, center. replace (2 * h / 2)%Z with h by (rewrite Z.mul_comm, Z.div_mul; lia). rewrite mult_IZR.
  replace (- PI + 2 * PI * IZR h / (2 * IZR h)) with 0 by (field; apply not_0_IZR; lia). rewrite cos_0. ring.
Qed.
Print Assumptions C82_completes.
Print Assumptions C82_convergence.
Print Assumptions C82_center.
