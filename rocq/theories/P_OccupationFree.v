(** PROPERTY C108, continued: the full programs with U = 0. *)
From Coq Require Import Reals Lra Psatz.
From Verif Require Import Base M_Operator M_Lattice Spec_Lattice Pf_Lattice M_LatticeReal Spec_LatticeReal M_Basis Pf_Basis P_Basis M_Matrix M_Ode M_Dispersion M_OpenMP Spec_OpenMP M_Expectation Spec_Expectation P_Expectation M_SiteOccupation Pf_SiteOccupation P_SiteOccupation M_TimeLoop Spec_TimeLoop Spec_Ode
  Pf_Matrix Spec_Matrix Pf_Matrix2 P_Matrix Spec_Stability Pf_Stability Pf_Stability2 Pf_Stability3 P_Stability Spec_Programs M_Programs Pf_Programs Pf_Programs2
  M_MatrixCheck Spec_Algebra Pf_MatrixEntry P_Ode P_Dynamics P_TimeLoop P_Programs Pf_Conserved P_Occupation Pf_Projection.
Local Open Scope R_scope.
Local Open Scope list_scope.

Section Free.
  Context (sort : list (triplet CR) -> list (triplet CR)) (J U : R) (lat : lattice) (N : Z).
  Hypothesis Hs : sorts_by_column sort.
  Hypothesis Hl : shipped3 lat N.
  Hypothesis Hf : fits3 lat N.
  Context (m : bmat CR).
  Hypothesis Em : init_matrix sort (real J : CR) (real U) (real (1/2)) lat = Ok m.
  Let HG := shipped3_graph lat N Hl.
  Let HS := fits3_S3 lat N HG Hf.
  Let E := entry (bm_scale imag_unit m).
  (** the entries of i M: the rows of the one-operator elements, and the first N columns of the others *)
  Lemma entry_11 i j : site N i -> site N j -> E i j = rmul imag_unit (radd (rmul (ropp (real J)) (adjc lat i j)) (rmul (rmul (real U) (real (1/2))) (delta i j))).
  Proof.
    intros Hi Hj. unfold E. rewrite (init_matrix_closed sort Hs _ _ _ lat N HG HS Hf) in Em. injection Em as <-. rewrite entry_scale. f_equal.
    unfold entry, row_of. cbn [bm_done]. rewrite (nth_rows1 sort _ _ _ lat N) by assumption. etransitivity; [apply (entry_weight sort Hs)|]. apply (weight_11 _ _ _ lat N HG HS); assumption.
  Qed.
  Lemma entry_13 i j0 j1 j2 : site N i -> site N j0 -> site N j1 -> site N j2 ->
    E i (get_3op_index N j0 j1 j2) = rmul imag_unit (rmul (rmul (real U) (real (1/2))) (rmul (rmul (delta i j0) (delta i j1)) (delta i j2))).
  Proof.
    intros Hi J0 J1 J2. unfold E. rewrite (init_matrix_closed sort Hs _ _ _ lat N HG HS Hf) in Em. injection Em as <-. rewrite entry_scale. f_equal.
    unfold entry, row_of. cbn [bm_done]. rewrite (nth_rows1 sort _ _ _ lat N) by assumption. etransitivity; [apply (entry_weight sort Hs)|]. apply (weight_13 _ _ _ lat N HG HS); assumption.
  Qed.
  Lemma entry_31 i0 i1 i2 j : site N j -> site N i0 -> site N i1 -> site N i2 ->
    E (get_3op_index N i0 i1 i2) j = rmul imag_unit (rmul (rmul (real U) (real (1/2))) (rmul (rmul (delta j i0) (delta j i1)) (delta j i2))).
  Proof.
    intros Hj I0 I1 I2. unfold E. rewrite (init_matrix_closed sort Hs _ _ _ lat N HG HS Hf) in Em. injection Em as <-. rewrite entry_scale. f_equal.
    unfold entry, row_of. cbn [bm_done]. rewrite (nth_rows3 sort _ _ _ lat N HG HS) by assumption. etransitivity; [apply (entry_weight sort Hs)|]. apply (weight_31 _ _ _ lat N HG HS); assumption.
  Qed.
  Lemma entry_33 i0 i1 i2 j0 j1 j2 : site N i0 -> site N i1 -> site N i2 -> site N j0 -> site N j1 -> site N j2 ->
    E (get_3op_index N i0 i1 i2) (get_3op_index N j0 j1 j2) =
    rmul imag_unit (weight (triplets3 (real J : CR) (real U) (real (1/2)) lat (get_3op_index N i0 i1 i2) i0 i1 i2) (get_3op_index N j0 j1 j2)).
  Proof.
    intros I0 I1 I2 J0 J1 J2. unfold E. rewrite (init_matrix_closed sort Hs _ _ _ lat N HG HS Hf) in Em. injection Em as <-. rewrite entry_scale. f_equal.
    unfold entry, row_of. cbn [bm_done]. rewrite (nth_rows3 sort _ _ _ lat N HG HS) by assumption. apply (entry_weight sort Hs).
  Qed.
End Free.

(** On every shipped lattice: with U = 0 the coefficients of the three-operator elements stay zero, and the others are those of the kinetic equation of motion. *)
Theorem C108_decouples : forall (sort : list (triplet CR) -> list (triplet CR)) J lat N,
  sorts_by_column sort -> shipped3 lat N -> fits3 lat N -> let n := (N + N * N * N)%Z in
  exists m m1, init_matrix sort (real J : CR) (real 0) (real (1/2)) lat = Ok m /\ init_kinetic_matrix sort (real J : CR) lat = Ok m1 /\
    forall y, the_solution n (entry (bm_scale imag_unit m)) y -> exists y1, the_solution N (entry (bm_scale imag_unit m1)) y1 /\
      (forall t i, (0 <= i < N)%Z -> y t i = y1 t i) /\ (forall t i, (N <= i < n)%Z -> y t i = real 0).
Proof.
  intros sort J lat N Hs Hl Hf n. pose proof (shipped3_graph lat N Hl) as HG. pose proof (fits3_S3 lat N HG Hf) as HS. pose proof (HNpos lat N HG) as HN0.
  assert (Hf1 : (N * lat_coordination lat < two64)%Z) by (unfold fits3 in Hf; pose proof (g_co _ _ HG); nia).
  destruct (full_facts sort J 0 lat N Hs Hl Hf) as (m & Em & A & B & C & D).
  destruct (kinetic_facts sort J lat N Hs Hl Hf1) as (m1 & Em1 & A1 & B1 & C1 & D1).
  exists m, m1. split; [exact Em|]. split; [exact Em1|]. intros y (Y1 & Y2 & Y3).
  destruct (init_vector_unit N ltac:(lia)) as (h0 & _ & _ & V0).
  destruct (exists_unique N _ _ h0 B1 (row_op _ _ _ B1 C1 D1) D1) as (z & Z1 & Z2 & Z3).
  set (E := entry (bm_scale imag_unit m)) in *. set (E1 := entry (bm_scale imag_unit m1)) in *.
  set (y' := fun t i => if Z.ltb i N then z t i else real 0).
  assert (S0 : forall t i, (0 <= i < n)%Z -> sum_over (K := CR) (fun j => rmul (E i j) (y' t j)) (zrange 0 n) = sum_over (K := CR) (fun j => rmul (E i j) (z t j)) (zrange 0 N)).
  { intros t i Hi. rewrite (zrange_app 0 N n) by (unfold n; nia). rewrite sum_over_app.
    rewrite (sum_over_zero CR (fun j => rmul (E i j) (y' t j)) (zrange N n)).
    - rewrite (Radd_comm (rth CR)), (Radd_0_l (rth CR)). apply sum_over_ext. intros j Hj. apply zrange_in in Hj. unfold y'. destruct (Z.ltb_spec j N); [reflexivity|lia].
    - intros j Hj. apply zrange_in in Hj. unfold y'. destruct (Z.ltb_spec j N); [lia|]. destruct (E i j) as [a b]. cbn. f_equal; ring. }
  assert (Q : forall t i, (0 <= i < n)%Z -> y t i = y' t i).
  { intros t i Hi. symmetry. revert t i Hi. apply Y3.
    - intros t i Hi. cbv zeta. rewrite (S0 t i Hi). destruct (col_cases lat N HG HS i Hi) as [Ri|(i0 & i1 & i2 & I0 & I1 & I2 & ->)].
      + destruct (Z1 t i Ri) as [D1' D2']. cbv zeta in D1', D2'.
        assert (Eq : sum_over (K := CR) (fun j => rmul (E i j) (z t j)) (zrange 0 N) = sum_over (K := CR) (fun j => rmul (E1 i j) (z t j)) (zrange 0 N)).
        { apply sum_over_ext. intros j Hj. apply zrange_in in Hj. f_equal. unfold E, E1. rewrite (entry_11 sort J 0 lat N Hs Hl Hf m Em i j Ri Hj), (kinetic_entry sort J lat N Hs Hl Hf1 m1 Em1 i j Ri). f_equal.
          generalize (rmul (ropp (real J)) (adjc (K := CR) lat i j)). generalize (delta (K := CR) i j). intros [a b] [c d]. cbn. f_equal; ring. }
        rewrite Eq. unfold y'. destruct (Z.ltb_spec i N) as [_|X]; [split; assumption|unfold site in Ri; lia].
      + assert (Eq : sum_over (K := CR) (fun j => rmul (E (get_3op_index N i0 i1 i2) j) (z t j)) (zrange 0 N) = r0).
        { apply sum_over_zero. intros j Hj. apply zrange_in in Hj. unfold E. rewrite (entry_31 sort J 0 lat N Hs Hl Hf m Em i0 i1 i2 j Hj I0 I1 I2).
          generalize (rmul (rmul (delta (K := CR) j i0) (delta j i1)) (delta j i2)). intros [a b]. destruct (z t j) as [c d]. cbn. f_equal; ring. }
        rewrite Eq. unfold y'. destruct (Z.ltb_spec (get_3op_index N i0 i1 i2) N) as [X|_].
        { exfalso. apply (idx_not_site lat N HG HS i0 i1 i2 (get_3op_index N i0 i1 i2)); try assumption; [unfold site; lia|reflexivity]. }
        cbn. split; apply derivable_pt_lim_const.
    - intros i Hi. unfold y'. destruct (Z.ltb_spec i N); [rewrite Z2 by lia; apply V0; lia|]. unfold first_unit. destruct (Z.eqb_spec i 0); [lia|reflexivity]. }
  exists z. split; [|split].
  - split; [exact Z1|]. split; [intros i Hi; rewrite (Z2 i Hi); apply V0; exact Hi|]. intros y2 Hy2 H02 t i Hi. apply Z3; [exact Hy2|intros k Hk; rewrite (H02 k Hk); symmetry; apply V0; exact Hk|exact Hi].
  - intros t i Hi. rewrite Q by (unfold n; nia). unfold y'. destruct (Z.ltb_spec i N); [reflexivity|lia].
  - intros t i Hi. rewrite Q by lia. unfold y'. destruct (Z.ltb_spec i N); [lia|reflexivity].
Qed.
Lemma quad_cut n N w v : (0 <= N <= n)%Z -> (forall i, (N <= i < n)%Z -> v i = real 0) -> quad n w v = quad N w v.
Proof.
  intros H Hv. unfold quad. rewrite (zrange_app 0 N n) by lia. rewrite SR_app. rewrite (SR_ext _ (fun _ => 0) (zrange N n)).
  - rewrite SR_zero, Rplus_0_r. apply SR_ext. intros i _. rewrite SR_app. rewrite (SR_ext _ (fun _ => 0) (zrange N n)); [rewrite SR_zero; ring|].
    intros j Hj. apply zrange_in in Hj. rewrite (Hv j Hj). cbn. ring.
  - intros i Hi. apply zrange_in in Hi. rewrite (Hv i Hi). rewrite (SR_ext _ (fun _ => 0)); [apply SR_zero|]. intros j _. cbn. ring.
Qed.
(** the occupation of the exact solution of the full equation of motion with U = 0 *)
Theorem C108_free : forall (sort : list (triplet CR) -> list (triplet CR)) N J rho,
  sorts_by_column sort -> (3 <= N)%Z -> fits3 (chain_lattice N) N -> on_ring N rho -> let n := (N + N * N * N)%Z in
  exists m, init_matrix sort (real J : CR) (real 0) (real (1/2)) (chain_lattice N) = Ok m /\
    forall y, the_solution n (entry (bm_scale imag_unit m)) y -> forall t, occupation N rho n (y t) = rho 0%Z 0%Z.
Proof.
  intros sort N J rho Hs HN Hf Hw n. unfold fits3 in Hf. cbn [lat_coordination chain_lattice] in Hf.
  assert (Hl : shipped3 (chain_lattice N) N) by (constructor; nia).
  destruct (C108_decouples sort J (chain_lattice N) N Hs Hl Hf) as (m & m1 & Em & Em1 & H). exists m. split; [exact Em|]. intros y Hy t.
  destruct (H y Hy) as (y1 & Hy1 & Q1 & Q2).
  destruct (C108_exact sort N J rho Hs HN ltac:(nia) Hw) as (m' & Em' & _ & K). rewrite Em1 in Em'. injection Em' as <-.
  rewrite <- (K y1 Hy1 t), !occupation_quad. rewrite (quad_cut n N) by (unfold n; nia || apply Q2). apply quad_ext; [reflexivity|apply Q1].
Qed.
(** hubbard_real_1d_rk4 with U = 0, in exact arithmetic *)
Theorem C108_free_program : forall sort rnd u st order sched N J filling dt t_end interval steps,
  sorts_by_column sort -> (3 <= N)%Z -> fits3 (chain_lattice N) N -> times_ok rnd u dt t_end interval steps ->
  Permutation order (seq 0 (length (basis3 (chain_lattice N)))) -> shared_full N sched -> 0 <= filling <= 1 ->
  let L := 6 * Rabs J in dt ^ 2 * L ^ 2 <= 8 ->
  exists o, terminates_with (occupation_full sort rnd st order sched N J 0 filling dt t_end interval)
      (Ok (map (fun k => (time_at rnd dt k, o k)) (written interval steps))) /\
    forall k r, o k = Some r -> exists x, r = Ok x /\
      Rabs (x - filling) <= 10 * IZR (N + N * N * N) * (INR k * dt * dt ^ 4 * L ^ 5 / 120).
Proof.
  intros sort rnd u st order sched N J filling dt t_end interval steps Hs HN Hf Ht Ho Hsh Hfi L Hd.
  assert (EL : 6 * Rabs J + Rabs 0 = L) by (rewrite Rabs_R0; unfold L; ring).
  destruct (C87_full sort rnd u st order sched N J 0 filling dt t_end interval steps Hs HN Hf Ht Ho Hsh Hfi ltac:(cbv zeta; rewrite EL; exact Hd)) as (m & y & o & Em & Hy & Te & _ & V).
  rewrite EL in V. exists o. split; [exact Te|]. intros k r E. destruct (V k r E) as (x & -> & _ & B). exists x. split; [reflexivity|].
  destruct (C108_free sort N J (sea N filling) Hs HN Hf (sea_ring N filling)) as (m' & Em' & K). rewrite Em in Em'. injection Em' as <-.
  rewrite (K y Hy) in B. rewrite sea_diag in B by (unfold site; lia). exact B.
Qed.
Print Assumptions C108_free_program.
