(** THEOREMS: C99 (what the momentum-space program prints in double precision). *)
From Coq Require Import Reals Lra Psatz List ZArith Lia.
From Flocq Require Import Core.
From Verif Require Import Base M_Operator M_Lattice Spec_Lattice Pf_Lattice M_LatticeReal Spec_LatticeReal M_Basis Pf_Basis M_Matrix M_Ode M_Dispersion M_OpenMP M_SiteOccupation M_FermiSea M_NonVanishing Spec_Ode
  Pf_Matrix Pf_Matrix2 Pf_MatrixEntry P_Dispersion Spec_Matrix Pf_Ode P_Ode Pf_NonVanishing P_NonVanishing P_Momentum Spec_ParticleNumber P_ParticleNumber P_Dynamics
  Spec_Stability Pf_Stability Pf_Stability2 Pf_Stability3 Pf_Solution P_Stability Pf_Arrow Spec_MomentumProgram M_MomentumProgram Pf_MomentumProgram P_MomentumProgram
  M_Rounding M_RoundedMeasurement Spec_Rounding Pf_Rounding4 Pf_Rounding5 P_Rounding M_Double Pf_Double M_LatticeDouble P_LatticeDouble M_DoubleDispersion Spec_DoubleDispersion P_DoubleDispersion M_DoubleMomentum
  Pf_DoubleMomentum4 Pf_DoubleMomentum6 Pf_DoubleMomentum7 Pf_DoubleMomentum8.
Local Open Scope R_scope.
Local Open Scope list_scope.
Local Notation len u := (Z.of_nat (length u)).

Lemma final_num L x : 1 <= L -> L * L * L / 2 ^ 43 + (1 + 9 * L) * ((L * L / 2 ^ 35 + x) * (2 + 1)) <= 3 * (1 + 9 * L) * x + L * L * L / 2 ^ 30.
Proof.
  intros H. unfold Rdiv. rewrite (half_pow 35 43), (half_pow 30 43) by lia. replace (2 ^ (43 - 35)) with 256 by (cbn; lra). replace (2 ^ (43 - 30)) with 8192 by (cbn; lra).
  assert (P : 0 < / 2 ^ 43) by (apply Rinv_0_lt_compat, pow2_pos). set (u := / 2 ^ 43) in *. clearbody u.
  assert (L2 : 1 <= L * L) by nra. assert (L3 : L * L <= L * L * L) by (assert (L * L * 1 <= L * L * L) by (apply Rmult_le_compat_l; lra); lra).
  assert (A : L * L * u <= L * L * L * u) by (apply Rmult_le_compat_r; lra). assert (B : 0 <= L * L * L * u) by (apply Rmult_le_pos; lra).
  replace (L * L * L * u + (1 + 9 * L) * ((L * L * (256 * u) + x) * (2 + 1))) with (3 * (1 + 9 * L) * x + (L * L * L * u + 768 * (L * L * u) + 6912 * (L * L * L * u))) by ring. lra.
Qed.

(** The program completes and prints two numbers.  [occ] is the set of momenta whose energy in the
    table of the program is negative. *)
Theorem C99_program : forall garbage fcos sort order N J U dt t_end measurement_interval occ,
  accurate_cosine fcos -> (forall l, Permutation (sort l) l) -> Permutation order (seq 0 (Z.to_nat (1 + N * N))) ->
  (0 < N <= 2 ^ 12)%Z -> Rabs J <= 2 ^ 400 -> Rabs U <= 2 ^ 400 -> / 2 ^ 1000 <= dt <= 2 ^ 100 ->
  dt ^ 2 * (7 * Rabs J + (IZR N + 2) * Rabs U / 2 + / 2 ^ 1000) ^ 2 <= 8 ->
  (forall k, (0 <= k < N)%Z -> exists energy, vread (double_table garbage fcos N J) k = Ok energy /\ (occ k = true <-> energy < 0)) ->
  exists y p0 p8,
    exact_solution (1 + N * N) (generator N J U) y /\
    (forall i, (0 <= i < 1 + N * N)%Z -> y 0 i = if Z.eqb i 0 then real 1 else real 0) /\
    (forall y', exact_solution (1 + N * N) (generator N J U) y' ->
       (forall i, (0 <= i < 1 + N * N)%Z -> y' 0 i = if Z.eqb i 0 then real 1 else real 0) ->
       forall t i, (0 <= i < 1 + N * N)%Z -> y' t i = y t i) /\
    terminates_with (double_momentum_program garbage fcos sort order N J U dt t_end measurement_interval) (Ok (p0, p8)) /\
    p0 = (if occ (center N) then 1 else 0) /\
    Rabs (p8 - particle_number_form (K := Rring) N (center N) occ (y (8 * dt))) <=
      3 * (1 + 9 * IZR N) * (8 * ((dt * (6 * Rabs J + Rabs U)) ^ 5 / 120)) + IZR N * IZR N * IZR N / 2 ^ 30.
Proof.
  intros garbage fcos sort order N J U dt t_end mi occ FC Hs Ho HN HJ HU Hdt Hst Hocc. assert (HN0 : (0 < N)%Z) by lia. pose proof (q_site N HN0) as Hq.
  set (ar := double_arith garbage). set (n := (1 + N * N)%Z) in *. set (disp := table_at (double_table garbage fcos N J)).
  assert (J1 : Rabs J <= 2 ^ 1000) by (eapply Rle_trans; [exact HJ|apply Rle_pow; [lra|lia]]).
  destruct (C98_table garbage fcos N J FC ltac:(lia) J1) as [_ Tb].
  assert (Hdisp : forall k, site N k -> Rabs (disp k - band N J k) <= Rabs J / 2 ^ 44 + / 2 ^ 1073).
  { intros k Hk. destruct (Tb k Hk) as (e0 & Ee & Be). unfold disp, table_at. rewrite Ee. exact Be. }
  assert (Oc : forall k, site N k -> rlt (disp k) 0 = occ k).
  { intros k Hk. destruct (Hocc k Hk) as (e0 & Ee & Be). unfold disp, table_at, rlt. rewrite Ee. destruct (Rlt_dec e0 0) as [L|L], (occ k); try reflexivity; [symmetry; apply Be; exact L|exfalso; apply L, Be; reflexivity]. }
  assert (Ln : len (mom_closed N (center N)) = n) by apply (len_b N (center N) HN0).
  assert (Ho' : Permutation order (seq 0 (length (mom_closed N (center N))))) by (replace (length (mom_closed N (center N))) with (Z.to_nat n) by lia; exact Ho).
  destruct (C92_momentum_basis garbage N (center N) ltac:(lia) Hq) as (b & Tf & Te).
  assert (Eb : b = mom_closed N (center N)).
  { pose proof P_EigenIo.two64_eq as T64. apply mb_closed; [exact HN0|nia|exact Hq|exact Te]. }
  subst b.
  set (h0 := list_set (map (fun _ => @r0 CR) (zrange 0 n)) 0 (@r1 CR)).
  set (delta0 := fun i : Z => (if Z.eqb i 0 then real 1 else real 0) : CR).
  assert (L0 : len h0 = n) by (unfold h0; rewrite list_set_length, map_length, zrange_length; unfold n in *; nia).
  assert (V0 : forall i, (0 <= i < n)%Z -> vget h0 i = delta0 i).
  { intros i Hi. unfold h0, vget. rewrite zrange_cons by (unfold n; nia). cbn [map list_set]. unfold delta0. destruct (Z.eqb_spec i 0) as [->|Hne]; [reflexivity|].
    destruct (Z.to_nat i) eqn:Ez; [lia|]. cbn [nth].
    destruct (nth_in_or_default n0 (map (fun _ : Z => @r0 CR) (zrange (0 + 1) n)) (@r0 CR)) as [Hin| ->]; [|reflexivity].
    apply in_map_iff in Hin as (? & <- & _). reflexivity. }
  assert (N0 : nrm (idx n) (vec h0) = 1).
  { unfold nrm. etransitivity; [|exact sqrt_1]. f_equal. unfold n2, dot. rewrite SR_idx. rewrite (SR_ext _ (fun i => if Z.eqb 0 i then 1 else 0)).
    - apply SR_pick_eq; [apply zrange_NoDup|]. apply zrange_in. unfold n. nia.
    - intros i Hi. apply zrange_in in Hi. unfold vec, vecf. cbn [fst snd part]. rewrite (V0 i Hi), (Z.eqb_sym 0 i). unfold delta0. destruct (Z.eqb i 0); cbn; ring. }
  pose proof (generator_anti N J U) as An. pose proof (generator_op N J U HN0) as Op. fold n in An, Op.
  destruct (exists_unique n (generator N J U) (6 * Rabs J + Rabs U) h0 An Op (Lc_pos J U)) as (y & Ey & Y0 & Yu).
  destruct (state_error garbage N J U dt disp HN HJ HU Hdisp Hdt Hst h0 y L0 N0 Ey Y0) as (m & Em & L8 & N8 & E8). fold ar n in Em, L8, N8, E8.
  set (h8 := frun ar dt m 8 h0) in *.
  destruct (measure_start rlt disp 0 N (center N) HN garbage h0 L0 V0) as (q0 & Eq0 & Vq0). fold ar in Eq0.
  destruct (measure rlt disp 0 N (center N) HN Hq ar h8 (double_ok garbage) L8 N8) as (q8 & Eq8 & Vq8).
  exists y, (fst q0), (fst q8). split; [exact Ey|]. split; [intros i Hi; rewrite (Y0 i Hi); apply V0; exact Hi|].
  split; [intros y' Hy' Hy0; apply (Yu y' Hy'); intros i Hi; rewrite (Hy0 i Hi); symmetry; apply V0; exact Hi|].
  split; [|split].
  - destruct Tf as (f0 & Tf). exists f0. intros fuel Hfu. specialize (Tf fuel Hfu). cbn beta in Tf. fold ar in Tf. unfold double_momentum_program. fold (center N) ar. rewrite Tf. do 2 f_equal.
    fold disp. rewrite Em, Ln. cbn [obind]. unfold init_vector. destruct (Z.leb_spec n 0) as [C|_]; [unfold n in C; nia|]. cbn [obind]. fold h0.
    destruct (fermi_sea_exists rlt disp 0 N) as (s0 & Hf). pose proof (orbital_of_numbers N) as Hm.
    rewrite (conj_order N (center N) order) by exact Ho'.
    rewrite (non_vanishing_ok (K := Rring) rlt sort disp 0 Hs orbital_of N (center N) s0 Hm Hf HN0 Hq). cbn [obind].
    change (flat_map _ (all_pairs N)) with (clist rlt disp 0 N (center N)). rewrite Eq0. cbn [obind]. fold h8. rewrite Eq8. reflexivity.
  - rewrite Vq0, (Oc _ Hq). reflexivity.
  - assert (NY : nrm (idx n) (vecf (y (8 * dt))) <= 1).
    { assert (Lift : solution (idx n) (SM (generator N J U)) (fun t => vecf (y t))).
      { intros t [i c] Hi. rewrite ap_SM. apply idx_in in Hi. cbn [fst snd] in *. destruct (Ey t i Hi) as [D1 D2]. unfold vecf. cbn [fst snd]. destruct c; cbn [part]; [exact D1|exact D2]. }
      unfold nrm. rewrite (norm_conserved (idx n) (SM (generator N J U)) (SM_anti n _ An) _ Lift (8 * dt)). change (sqrt _) with (nrm (idx n) (vecf (y 0))). apply Req_le. rewrite <- N0.
      apply nrm_ext. intros p Hp. apply idx_in in Hp. unfold vec, vecf. rewrite (Y0 _ Hp). reflexivity. }
    assert (Fe : forall h, particle_number_form (K := Rring) N (center N) (fun k => rlt (disp k) 0) h = particle_number_form (K := Rring) N (center N) occ h)
      by (intros h; apply form_ext; [exact HN0|exact Hq|exact Oc|reflexivity]).
    rewrite Fe in Vq8. pose proof (form_lip2 N (center N) occ HN0 Hq (vget h8) (y (8 * dt)) 2 1 N8 NY) as Lp. fold n in Lp. change (vecf (vget h8)) with (vec h8) in Lp.
    assert (NR : 1 <= IZR N) by (apply IZR_le; lia).
    replace (fst q8 - _) with ((fst q8 - (particle_number_form (K := Rring) N (center N) occ (vget h8) : R)) + ((particle_number_form (K := Rring) N (center N) occ (vget h8) : R) - (particle_number_form (K := Rring) N (center N) occ (y (8 * dt)) : R))) by ring.
    eapply Rle_trans; [apply Rabs_triang|]. eapply Rle_trans; [apply Rplus_le_compat; [exact Vq8|eapply Rle_trans; [exact Lp|]]|exact (final_num (IZR N) _ NR)].
    apply Rmult_le_compat_l; [lra|]. apply Rmult_le_compat_r; [lra|exact E8].
Qed.

(** If no momentum has an energy within the rounding error of the Fermi energy, the momenta counted as
    occupied are those of exact arithmetic. *)
Theorem C99_regular : forall garbage fcos sort order N J U dt t_end measurement_interval,
  accurate_cosine fcos -> (forall l, Permutation (sort l) l) -> Permutation order (seq 0 (Z.to_nat (1 + N * N))) ->
  (0 < N <= 2 ^ 12)%Z -> Rabs J <= 2 ^ 400 -> Rabs U <= 2 ^ 400 -> / 2 ^ 1000 <= dt <= 2 ^ 100 ->
  dt ^ 2 * (7 * Rabs J + (IZR N + 2) * Rabs U / 2 + / 2 ^ 1000) ^ 2 <= 8 ->
  (forall k, (0 <= k < N)%Z -> Rabs J / 2 ^ 44 + / 2 ^ 1073 < Rabs (band N J k)) ->
  exists y p0 p8,
    exact_solution (1 + N * N) (generator N J U) y /\
    (forall i, (0 <= i < 1 + N * N)%Z -> y 0 i = if Z.eqb i 0 then real 1 else real 0) /\
    terminates_with (double_momentum_program garbage fcos sort order N J U dt t_end measurement_interval) (Ok (p0, p8)) /\
    p0 = (if Rlt_dec (band N J (center N)) 0 then 1 else 0) /\
    Rabs (p8 - particle_number_form (K := Rring) N (center N) (below_fermi N J) (y (8 * dt))) <=
      3 * (1 + 9 * IZR N) * (8 * ((dt * (6 * Rabs J + Rabs U)) ^ 5 / 120)) + IZR N * IZR N * IZR N / 2 ^ 30.
Proof.
  intros garbage fcos sort order N J U dt t_end mi FC Hs Ho HN HJ HU Hdt Hst Hb.
  assert (J1 : Rabs J <= 2 ^ 1000) by (eapply Rle_trans; [exact HJ|apply Rle_pow; [lra|lia]]).
  destruct (C98_table garbage fcos N J FC ltac:(lia) J1) as [_ Tb].
  destruct (C99_program garbage fcos sort order N J U dt t_end mi (below_fermi N J) FC Hs Ho HN HJ HU Hdt Hst) as (y & p0 & p8 & E1 & E2 & _ & E4 & E5 & E6).
  - intros k Hk. destruct (Tb k Hk) as (e0 & Ee & _). exists e0. split; [exact Ee|].
    rewrite (C98_occupation garbage fcos N J k e0 FC ltac:(lia) J1 Ee (Hb k Hk)). unfold below_fermi. destruct (Rlt_dec (band N J k) 0); split; intros; try discriminate; try contradiction; auto.
  - exists y, p0, p8. split; [exact E1|]. split; [exact E2|]. split; [exact E4|]. split; [|exact E6]. rewrite E5. unfold below_fermi. destruct (Rlt_dec _ 0); reflexivity.
Qed.
(** (defect) If N is a power of two (the default is 16), the two momenta at the Fermi energy are counted
    as occupied as well, and the second number is that of this larger Fermi sea. *)
Theorem C99_fermi_sea_refuted : forall garbage fcos sort order (k : nat) J U dt t_end measurement_interval,
  let N := (2 ^ Z.of_nat k)%Z in
  accurate_cosine fcos -> (forall l, Permutation (sort l) l) -> Permutation order (seq 0 (Z.to_nat (1 + N * N))) ->
  (2 <= k <= 12)%nat -> / 2 ^ 900 <= J <= 2 ^ 400 -> Rabs U <= 2 ^ 400 -> / 2 ^ 1000 <= dt <= 2 ^ 100 ->
  dt ^ 2 * (7 * Rabs J + (IZR N + 2) * Rabs U / 2 + / 2 ^ 1000) ^ 2 <= 8 ->
  exists y p8,
    exact_solution (1 + N * N) (generator N J U) y /\
    (forall i, (0 <= i < 1 + N * N)%Z -> y 0 i = if Z.eqb i 0 then real 1 else real 0) /\
    terminates_with (double_momentum_program garbage fcos sort order N J U dt t_end measurement_interval) (Ok (1, p8)) /\
    Rabs (p8 - particle_number_form (K := Rring) N (center N) (fun i => (N / 4 <=? i)%Z && (i <=? 3 * (N / 4))%Z)%bool (y (8 * dt))) <=
      3 * (1 + 9 * IZR N) * (8 * ((dt * (6 * Rabs J + Rabs U)) ^ 5 / 120)) + IZR N * IZR N * IZR N / 2 ^ 30 /\
    forall i, (0 <= i < N)%Z -> (below_fermi N J i = true <-> (N / 4 < i < 3 * (N / 4))%Z).
Proof.
  intros garbage fcos sort order k J U dt t_end mi N FC Hs Ho Hk HJ HU Hdt Hst.
  assert (NP : (2 ^ 2 <= N <= 2 ^ 12)%Z) by (unfold N; split; apply Z.pow_le_mono_r; lia).
  assert (J9 : 0 < / 2 ^ 900) by (apply Rinv_0_lt_compat, pow2_pos). assert (HA : Rabs J <= 2 ^ 400) by (rewrite Rabs_pos_eq by lra; lra).
  assert (J1 : / 2 ^ 900 <= J <= 2 ^ 1000) by (split; [apply HJ|]; eapply Rle_trans; [apply HJ|apply Rle_pow; [lra|lia]]).
  pose proof (C98_fermi_sea_refuted garbage fcos k J FC ltac:(lia) J1) as F. cbv zeta in F. fold N in F.
  set (occ := fun i => ((N / 4 <=? i)%Z && (i <=? 3 * (N / 4))%Z)%bool).
  assert (Oc : forall i, occ i = true <-> (N / 4 <= i <= 3 * (N / 4))%Z) by (intros i; unfold occ; rewrite Bool.andb_true_iff, !Z.leb_le; tauto).
  destruct (C99_program garbage fcos sort order N J U dt t_end mi occ FC Hs Ho ltac:(lia) HA HU Hdt Hst) as (y & p0 & p8 & E1 & E2 & _ & E4 & E5 & E6).
  - intros i Hi. destruct (F i Hi) as [(v & Ev & B) _]. exists v. split; [exact Ev|]. rewrite Oc, B. tauto.
  - exists y, p8. split; [exact E1|]. split; [exact E2|]. split; [|split; [exact E6|]].
    + replace 1 with p0; [exact E4|]. rewrite E5. replace (occ (center N)) with true; [reflexivity|]. symmetry. apply Oc. unfold center.
      assert (D4 : N = (4 * (N / 4))%Z).
      { apply Z.div_exact; [lia|]. unfold N. replace (Z.of_nat k) with (2 + Z.of_nat (k - 2))%Z by lia. rewrite Z.pow_add_r by lia. change (2 ^ 2)%Z with 4%Z. rewrite Z.mul_comm. apply Z.mod_mul. lia. }
      pose proof (Z.div_mod N 2 ltac:(lia)). pose proof (Z.mod_pos_bound N 2 ltac:(lia)). lia.
    + intros i Hi. destruct (F i Hi) as [_ B]. unfold below_fermi. rewrite <- B. destruct (Rlt_dec (band N J i) 0); split; intros; try discriminate; try contradiction; auto.
Qed.
(** the default parameters of the program *)
Example C99_example : forall garbage, exists y p8,
  exact_solution 257 (generator 16 1 1) y /\
  terminates_with (double_momentum_program garbage rounded_cosine (fun l => l) (seq 0 257) 16 1 1 (/ 100) 1 1) (Ok (1, p8)) /\
  Rabs (p8 - particle_number_form (K := Rring) 16 8 (fun i => (4 <=? i)%Z && (i <=? 12)%Z)%bool (y (8 * / 100))) <= / 10000.
Proof.
  intros garbage. assert (P9 : / 2 ^ 900 <= 1) by (rewrite <- Rinv_1; apply Rinv_le_contravar; [lra|apply pow_R1_Rle; lra]).
  assert (P1 : 0 < / 2 ^ 1000 <= / 2 ^ 10) by (split; [apply Rinv_0_lt_compat, pow2_pos|apply Rinv_le_contravar; [apply pow2_pos|apply Rle_pow; [lra|lia]]]). replace (2 ^ 10) with 1024 in P1 by ring.
  assert (G4 : 1 <= 2 ^ 400) by (apply pow_R1_Rle; lra). assert (G1 : 1 <= 2 ^ 100) by (apply pow_R1_Rle; lra).
  destruct (C99_fermi_sea_refuted garbage rounded_cosine (fun l => l) (seq 0 257) 4 1 1 (/ 100) 1 1 C98_cosine (fun l => Permutation_refl l) (Permutation_refl _) ltac:(lia) ltac:(lra)
    ltac:(rewrite Rabs_R1; exact G4) ltac:(lra)) as (y & p8 & E1 & _ & E3 & E4 & _).
  - change (2 ^ Z.of_nat 4)%Z with 16%Z. rewrite Rabs_R1. set (w := / 2 ^ 1000) in *. clearbody w. replace (/ 100) with (1 / 100) by field.
    assert (Hw : 0 <= 7 * 1 + (16 + 2) * 1 / 2 + w <= 17) by lra. set (z := 7 * 1 + (16 + 2) * 1 / 2 + w) in *. clearbody z. assert (z ^ 2 <= 289) by (cbn [pow]; nra). cbn [pow] in *. lra.
  - change (2 ^ Z.of_nat 4)%Z with 16%Z in *. change (16 / 4)%Z with 4%Z in E4. change (3 * 4)%Z with 12%Z in E4. change (center 16) with 8%Z in E4. rewrite Rabs_R1 in E4.
    exists y, p8. split; [exact E1|]. split; [exact E3|]. eapply Rle_trans; [exact E4|]. cbn [pow]. lra.
Qed.
(** with two momenta no energy is near the Fermi energy *)
Example C99_regular_example : forall k, (0 <= k < 2)%Z -> Rabs 1 / 2 ^ 44 + / 2 ^ 1073 < Rabs (band 2 1 k).
Proof.
  intros k Hk. assert (B : Rabs (band 2 1 k) = 2).
  { assert (k = 0 \/ k = 1)%Z as [-> | ->] by lia; unfold band.
    - replace (- PI + 2 * PI * 0 / 2) with (- PI) by field. rewrite cos_neg, cos_PI. rewrite Rabs_pos_eq; lra.
    - replace (- PI + 2 * PI * 1 / 2) with 0 by field. rewrite cos_0. rewrite Rabs_left; lra. }
  rewrite B, Rabs_R1. assert (/ 2 ^ 1073 <= / 2 ^ 44) by (apply Rinv_le_contravar; [apply pow2_pos|apply Rle_pow; [lra|lia]]).
  assert (/ 2 ^ 44 <= / 2 ^ 2) by (apply Rinv_le_contravar; [apply pow2_pos|apply Rle_pow; [lra|lia]]). replace (2 ^ 2) with 4 in H0 by ring. lra.
Qed.
Print Assumptions C99_program.
Print Assumptions C99_regular.
Print Assumptions C99_fermi_sea_refuted.
