(** PROPERTY C109: without hopping (J = 0) the programs compute the exact atomic limit. *)
From Coq Require Import Reals Lra Psatz.
From Verif Require Import Base M_Operator M_Lattice Spec_Lattice Pf_Lattice M_LatticeReal Spec_LatticeReal M_Basis Pf_Basis P_Basis M_Matrix M_Ode M_Dispersion M_OpenMP Spec_OpenMP M_Expectation Spec_Expectation P_Expectation M_SiteOccupation Pf_SiteOccupation P_SiteOccupation M_TimeLoop Spec_TimeLoop Spec_Ode
  Pf_Matrix Spec_Matrix Pf_Matrix2 P_Matrix Spec_Stability Pf_Stability Pf_Stability2 Pf_Stability3 P_Stability Spec_Programs M_Programs Pf_Programs Pf_Programs2
  M_MatrixCheck Spec_Algebra Pf_MatrixEntry P_Ode P_Dynamics P_TimeLoop P_Programs Pf_Conserved P_Occupation Pf_Projection P_OccupationFree Pf_Theory2.
Local Open Scope R_scope.
Local Open Scope list_scope.

(** (1 + e^(i U t)) / 2 and (e^(i U t) - 1) / 2 *)
Definition atom_one (U t : R) : CR := ((1 + cos (U * t)) / 2, sin (U * t) / 2).
Definition atom_three (U t : R) : CR := ((cos (U * t) - 1) / 2, sin (U * t) / 2).

Section Atom.
  Context (sort : list (triplet CR) -> list (triplet CR)) (U : R) (lat : lattice) (N : Z).
  Hypothesis Hs : sorts_by_column sort.
  Hypothesis Hl : shipped3 lat N.
  Hypothesis Hf : fits3 lat N.
  Context (m : bmat CR).
  Hypothesis Em : init_matrix sort (real 0 : CR) (real U) (real (1/2)) lat = Ok m.
  Let HG := shipped3_graph lat N Hl.
  Let HS := fits3_S3 lat N HG Hf.
  Let HN0 := HNpos lat N HG.
  Let n := (N + N * N * N)%Z.
  Let E := entry (bm_scale imag_unit m).
  Lemma index_zero : get_3op_index N 0 0 0 = N.
  Proof. rewrite (get_3op_index_eq lat N (g_reg _ _ HG) HS) by (unfold site; lia). lia. Qed.
  Lemma index_first i j k : site N i -> site N j -> site N k -> (get_3op_index N i j k = N <-> i = 0 /\ j = 0 /\ k = 0)%Z.
  Proof. intros Hi Hj Hk. rewrite (get_3op_index_eq lat N (g_reg _ _ HG) HS) by assumption. unfold site in *. split; [|intros (-> & -> & ->); lia]. intros H. assert (N * N * i + N * j + k = 0)%Z by lia. nia. Qed.
  Lemma atom_col i c : (0 <= i < n)%Z -> (c = 0 \/ c = N)%Z -> E i c = if ((i =? 0) || (i =? N))%Z then (0, U / 2) else r0.
  Proof.
    intros Hi Hc. assert (S0 : site N 0) by (unfold site; lia).
    destruct (col_cases lat N HG HS i Hi) as [Ri|(i0 & i1 & i2 & I0 & I1 & I2 & ->)].
    - replace (i =? N)%Z with false by (symmetry; apply Z.eqb_neq; unfold site in Ri; lia). rewrite orb_false_r. destruct Hc as [->| ->].
      + unfold E. rewrite (entry_11 sort 0 U lat N Hs Hl Hf m Em i 0%Z Ri S0). unfold delta. generalize (adjc (K := CR) lat i 0). intros [a b]. destruct (i =? 0)%Z; cbn; f_equal; field.
      + unfold E. replace (entry (bm_scale imag_unit m) i N) with (entry (bm_scale imag_unit m) i (get_3op_index N 0 0 0)) by (rewrite index_zero; reflexivity). rewrite (entry_13 sort 0 U lat N Hs Hl Hf m Em i 0%Z 0%Z 0%Z Ri S0 S0 S0). unfold delta. destruct (i =? 0)%Z; cbn; f_equal; field.
    - pose proof (index_first i0 i1 i2 I0 I1 I2) as F. assert (NZ : get_3op_index N i0 i1 i2 <> 0%Z) by (intros C; apply (idx_not_site lat N HG HS i0 i1 i2 0%Z I0 I1 I2 S0); exact C).
      replace (get_3op_index N i0 i1 i2 =? 0)%Z with false by (symmetry; apply Z.eqb_neq; exact NZ). cbn [orb].
      assert (X : (get_3op_index N i0 i1 i2 =? N)%Z = ((i0 =? 0) && (i1 =? 0) && (i2 =? 0))%Z%bool) by (destruct (Z.eqb_spec (get_3op_index N i0 i1 i2) N), (Z.eqb_spec i0 0), (Z.eqb_spec i1 0), (Z.eqb_spec i2 0); cbn; tauto).
      rewrite X. destruct Hc as [->| ->].
      + unfold E. rewrite (entry_31 sort 0 U lat N Hs Hl Hf m Em i0 i1 i2 0%Z S0 I0 I1 I2). unfold delta. rewrite (Z.eqb_sym 0 i0), (Z.eqb_sym 0 i1), (Z.eqb_sym 0 i2).
        destruct (i0 =? 0)%Z, (i1 =? 0)%Z, (i2 =? 0)%Z; cbn; f_equal; field.
      + unfold E. replace (entry (bm_scale imag_unit m) (get_3op_index N i0 i1 i2) N) with (entry (bm_scale imag_unit m) (get_3op_index N i0 i1 i2) (get_3op_index N 0 0 0)) by (rewrite index_zero; reflexivity). rewrite (entry_33 sort 0 U lat N Hs Hl Hf m Em i0 i1 i2 0%Z 0%Z 0%Z I0 I1 I2 S0 S0 S0), (weight_33 _ _ _ lat N HG HS) by assumption. unfold delta.
        generalize (adjc (K := CR) lat i0 0), (adjc (K := CR) lat i1 0), (adjc (K := CR) lat i2 0). intros [a1 a2] [b1 b2] [c1 c2].
        destruct (i0 =? 0)%Z, (i1 =? 0)%Z, (i2 =? 0)%Z; cbn; f_equal; field.
  Qed.
End Atom.
Lemma sum_two (f : Z -> CR) N n : (0 < N < n)%Z -> (forall i, (0 <= i < n)%Z -> i <> 0%Z -> i <> N -> f i = r0) -> sum_over f (zrange 0 n) = radd (f 0%Z) (f N).
Proof.
  intros H Hf. rewrite (zrange_cons 0 n) by lia. rewrite (zrange_app (0 + 1) N n) by lia. rewrite (zrange_cons N n) by lia. rewrite sum_over_cons, sum_over_app, sum_over_cons.
  rewrite (sum_over_zero CR f (zrange (0 + 1) N)) by (intros i Hi; apply zrange_in in Hi; apply Hf; lia).
  rewrite (sum_over_zero CR f (zrange (N + 1) n)) by (intros i Hi; apply zrange_in in Hi; apply Hf; lia).
  destruct (f 0%Z) as [a b], (f N) as [c d]. cbn. f_equal; ring.
Qed.
Lemma lin_deriv U t : derivable_pt_lim (fun s => U * s) t U.
Proof. eapply deriv_eq; [exact (derivable_pt_lim_scal (fun s => s) U t 1 (derivable_pt_lim_id t))|reflexivity|ring]. Qed.
Lemma cos_deriv U t : derivable_pt_lim (fun s => cos (U * s)) t (- U * sin (U * t)).
Proof. eapply deriv_eq; [exact (derivable_pt_lim_comp (fun s => U * s) cos t _ _ (lin_deriv U t) (derivable_pt_lim_cos _))|reflexivity|ring]. Qed.
Lemma sin_deriv U t : derivable_pt_lim (fun s => sin (U * s)) t (U * cos (U * t)).
Proof. eapply deriv_eq; [exact (derivable_pt_lim_comp (fun s => U * s) sin t _ _ (lin_deriv U t) (derivable_pt_lim_sin _))|reflexivity|ring]. Qed.
Lemma half_deriv c f t a b : derivable_pt_lim f t a -> a / 2 = b -> derivable_pt_lim (fun s => (c + f s) / 2) t b.
Proof. intros H <-. eapply deriv_eq; [exact (derivable_pt_lim_scal _ (/ 2) t _ (derivable_pt_lim_plus _ _ t _ _ (derivable_pt_lim_const c t) H))|intros s; unfold mult_real_fct, plus_fct, fct_cte; field|field]. Qed.
Lemma deriv_pair (f g : R -> CR) t (a : R) (b : R) : (forall s, fst (f s) = fst (g s)) -> (forall s, snd (f s) = snd (g s)) ->
  derivable_pt_lim (fun s => fst (f s)) t a /\ derivable_pt_lim (fun s => snd (f s)) t b ->
  derivable_pt_lim (fun s => fst (g s)) t a /\ derivable_pt_lim (fun s => snd (g s)) t b.
Proof. intros H1 H2 [D1 D2]. split; [exact (deriv_eq _ _ t _ _ D1 H1 eq_refl)|exact (deriv_eq _ _ t _ _ D2 H2 eq_refl)]. Qed.
(** On every shipped lattice: with J = 0 and the start c+_0 only c+_0 and c+_0 (2 n_0 - 1) (number N) ever get a coefficient. *)
Theorem C109_solution : forall (sort : list (triplet CR) -> list (triplet CR)) U lat N,
  sorts_by_column sort -> shipped3 lat N -> fits3 lat N -> let n := (N + N * N * N)%Z in
  exists m, init_matrix sort (real 0 : CR) (real U) (real (1/2)) lat = Ok m /\
    forall y, the_solution n (entry (bm_scale imag_unit m)) y -> forall t,
      y t 0%Z = atom_one U t /\ y t N = atom_three U t /\ forall i, (0 <= i < n)%Z -> i <> 0%Z -> i <> N -> y t i = real 0.
Proof.
  intros sort U lat N Hs Hl Hf n. pose proof (shipped3_graph lat N Hl) as HG. pose proof (HNpos lat N HG) as HN0. assert (Hn : (0 < N < n)%Z) by (unfold n; nia).
  destruct (full_facts sort 0 U lat N Hs Hl Hf) as (m & Em & _). exists m. split; [exact Em|]. intros y (Y1 & Y2 & Y3).
  set (y' := fun t i => if Z.eqb i 0 then atom_one U t else if Z.eqb i N then atom_three U t else real 0).
  assert (V0 : forall t, y' t 0%Z = atom_one U t) by reflexivity.
  assert (VN : forall t, y' t N = atom_three U t) by (intros t; unfold y'; rewrite Z.eqb_refl; destruct (Z.eqb_spec N 0); [lia|reflexivity]).
  assert (Vz : forall t i, i <> 0%Z -> i <> N -> y' t i = real 0) by (intros t i H0 H1; unfold y'; destruct (Z.eqb_spec i 0), (Z.eqb_spec i N); tauto).
  assert (Q : forall t i, (0 <= i < n)%Z -> y' t i = y t i).
  { apply Y3.
    - intros t i Hi. cbv zeta. rewrite (sum_two _ N n Hn).
      + rewrite V0, VN. rewrite (atom_col sort U lat N Hs Hl Hf m Em i 0%Z Hi (or_introl eq_refl)), (atom_col sort U lat N Hs Hl Hf m Em i N Hi (or_intror eq_refl)).
        destruct (Z.eqb_spec i 0) as [->|H0]; [|destruct (Z.eqb_spec i N) as [->|H1]]; cbn [orb].
        * unfold y', atom_one, atom_three. cbn. split.
          -- apply (half_deriv 1 _ t _ _ (cos_deriv U t)). field.
          -- apply (deriv_eq _ _ t _ _ (half_deriv 0 _ t _ _ (sin_deriv U t) eq_refl)); [intros s; field|field].
        * apply (deriv_pair (atom_three U) _ t); [intros s; rewrite VN; reflexivity|intros s; rewrite VN; reflexivity|]. unfold atom_three, atom_one. cbn. split.
          -- apply (deriv_eq _ _ t _ _ (half_deriv (-1) _ t _ _ (cos_deriv U t) eq_refl)); [intros s; field|field].
          -- apply (deriv_eq _ _ t _ _ (half_deriv 0 _ t _ _ (sin_deriv U t) eq_refl)); [intros s; field|field].
        * apply (deriv_pair (fun _ => real 0) _ t); [intros s; rewrite (Vz s i H0 H1); reflexivity|intros s; rewrite (Vz s i H0 H1); reflexivity|]. unfold atom_three, atom_one. cbn. split; eapply deriv_eq; try (apply derivable_pt_lim_const); try reflexivity; ring.
      + intros j Hj H0 H1. rewrite (Vz t j H0 H1). destruct (entry (bm_scale imag_unit m) i j) as [a b]. cbn. f_equal; ring.
    - intros i Hi. unfold y', first_unit, atom_one, atom_three. rewrite Rmult_0_r, cos_0, sin_0. unfold real. destruct (Z.eqb_spec i 0); [f_equal; field|]. destruct (Z.eqb_spec i N); [f_equal; field|reflexivity]. }
  intros t. rewrite <- (Q t 0%Z) by lia. rewrite <- (Q t N) by lia. split; [reflexivity|]. split; [apply VN|]. intros i Hi H0 H1. rewrite <- (Q t i Hi). apply Vz; assumption.
Qed.
Lemma SR_two (f : Z -> R) N n : (0 < N < n)%Z -> (forall i, (0 <= i < n)%Z -> i <> 0%Z -> i <> N -> f i = 0) -> SR f (zrange 0 n) = f 0%Z + f N.
Proof.
  intros H Hf. rewrite (zrange_cons 0 n) by lia. rewrite (zrange_app (0 + 1) N n) by lia. rewrite (zrange_cons N n) by lia. cbn [SR]. rewrite SR_app. cbn [SR].
  rewrite (SR_ext f (fun _ => 0) (zrange (0 + 1) N)) by (intros i Hi; apply zrange_in in Hi; apply Hf; lia).
  rewrite (SR_ext f (fun _ => 0) (zrange (N + 1) n)) by (intros i Hi; apply zrange_in in Hi; apply Hf; lia). rewrite !SR_zero. ring.
Qed.
(** For every table of averages the occupation of that solution is the average on site 0, at all times. *)
Theorem C109_occupation : forall (sort : list (triplet CR) -> list (triplet CR)) U lat N rho,
  sorts_by_column sort -> shipped3 lat N -> fits3 lat N -> let n := (N + N * N * N)%Z in
  exists m, init_matrix sort (real 0 : CR) (real U) (real (1/2)) lat = Ok m /\
    forall y, the_solution n (entry (bm_scale imag_unit m)) y -> forall t, occupation N rho n (y t) = rho 0%Z 0%Z.
Proof.
  intros sort U lat N rho Hs Hl Hf n. pose proof (HNpos lat N (shipped3_graph lat N Hl)) as HN0. assert (Hn : (0 < N < n)%Z) by (unfold n; nia).
  destruct (C109_solution sort U lat N Hs Hl Hf) as (m & Em & H). exists m. split; [exact Em|]. intros y Hy t. destruct (H y Hy t) as (H0 & H1 & H2).
  rewrite occupation_quad. unfold quad. rewrite (SR_two _ N n Hn).
  - rewrite !(SR_two _ N n Hn).
    + rewrite H0, H1. unfold overlap, site_a, site_b, site_c, pair_average, kron, atom_one, atom_three.
      replace (0 <? N)%Z with true by (symmetry; apply Z.ltb_lt; lia). rewrite Z.ltb_irrefl, Z.sub_diag, !Zdiv_0_l, !Zmod_0_l, Z.eqb_refl. cbn [fst snd].
      pose proof (sin2_cos2 (U * t)) as SC. unfold Rsqr in SC. set (r := rho 0%Z 0%Z). set (s := sin (U * t)) in *. set (c := cos (U * t)) in *.
      replace (s * s) with (1 - c * c) by lra.
      transitivity (r * ((s * s + c * c + 1) / 2) + (2 * r - 1) * r * ((s * s + c * c - 1) / 2)); [field|rewrite SC; field].
    + intros j Hj J0 J1. rewrite (H2 j Hj J0 J1). cbn. ring.
    + intros j Hj J0 J1. rewrite (H2 j Hj J0 J1). cbn. ring.
  - intros i Hi I0 I1. rewrite (SR_ext _ (fun _ => 0)); [apply SR_zero|]. intros j _. rewrite (H2 i Hi I0 I1). cbn. ring.
Qed.
(** hubbard_real_1d_rk4 with J = 0, in exact arithmetic *)
Theorem C109_program : forall sort rnd u st order sched N U filling dt t_end interval steps,
  sorts_by_column sort -> (3 <= N)%Z -> fits3 (chain_lattice N) N -> times_ok rnd u dt t_end interval steps ->
  Permutation order (seq 0 (length (basis3 (chain_lattice N)))) -> shared_full N sched -> 0 <= filling <= 1 ->
  dt ^ 2 * Rabs U ^ 2 <= 8 ->
  exists o, terminates_with (occupation_full sort rnd st order sched N 0 U filling dt t_end interval)
      (Ok (map (fun k => (time_at rnd dt k, o k)) (written interval steps))) /\
    forall k r, o k = Some r -> exists x, r = Ok x /\
      Rabs (x - filling) <= 10 * IZR (N + N * N * N) * (INR k * dt * dt ^ 4 * Rabs U ^ 5 / 120).
Proof.
  intros sort rnd u st order sched N U filling dt t_end interval steps Hs HN Hf Ht Ho Hsh Hfi Hd.
  assert (EL : 6 * Rabs 0 + Rabs U = Rabs U) by (rewrite Rabs_R0; ring). assert (Hf' := Hf). unfold fits3 in Hf'. cbn [lat_coordination chain_lattice] in Hf'.
  destruct (C87_full sort rnd u st order sched N 0 U filling dt t_end interval steps Hs HN Hf Ht Ho Hsh Hfi ltac:(cbv zeta; rewrite EL; exact Hd)) as (m & y & o & Em & Hy & Te & _ & V).
  rewrite EL in V. exists o. split; [exact Te|]. intros k r E. destruct (V k r E) as (x & -> & _ & B). exists x. split; [reflexivity|].
  destruct (C109_occupation sort U (chain_lattice N) N (sea N filling) Hs ltac:(constructor; nia) Hf) as (m' & Em' & K). rewrite Em in Em'. injection Em' as <-.
  rewrite (K y Hy) in B. rewrite sea_diag in B by (unfold site; lia). exact B.
Qed.

