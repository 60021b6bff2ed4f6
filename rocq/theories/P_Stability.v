(** THEOREMS: C77 (the shipped integration is stable below an explicit step size), C78 (and
    converges to the exact solution with an explicit error bound). *)
From Coq Require Import Reals Lra Psatz Sorting.Sorted.
From Verif Require Import Base M_Operator M_Lattice Spec_Lattice Pf_Lattice M_Basis Pf_Basis M_Matrix M_MatrixCheck M_Ode M_Dispersion
  Spec_Algebra Spec_Matrix Spec_Ode Pf_Matrix Pf_Matrix2 Pf_MatrixEntry Pf_Wick Pf_Liouville Pf_Projection P_Matrix Pf_Ode P_Ode Pf_Triplet P_Dynamics
  Spec_Stability Pf_Stability Pf_Stability2 Pf_Stability3 Pf_Solution.
Local Open Scope R_scope.
Local Open Scope list_scope.
Local Notation len u := (Z.of_nat (length u)).

(** The program: u is advanced by one Runge-Kutta step of size dt per element of [sts] (the
    static buffers found at each call) with the matrix i*m. *)
Definition program_run (d : Z) (dt : R) (m : bmat CR) (sts : list (statics CR)) (u : list CR) : list CR :=
  run_steps CR (real (1/2)) (real (1/6)) (mkRk4 (K := CR) d (real dt)) (sp_vec (bm_scale imag_unit m)) sts u.
(** the number of nearest neighbours *)
Definition neighbours (lat : lattice) : R := IZR (lat_coordination lat).

Lemma neighbours_pos lat N : shipped3 lat N -> 1 <= neighbours lat.
Proof. intros H. apply IZR_le. apply (g_co _ _ (shipped3_graph _ _ H)). Qed.
Lemma conj_real x : kconj (real x : CR) = real x.
Proof. cbn. rewrite Ropp_0. reflexivity. Qed.
Lemma conj_i : kconj imag_unit = ropp imag_unit.
Proof. cbn. rewrite Ropp_0. reflexivity. Qed.

Section Full.
  Context (sort : list (triplet CR) -> list (triplet CR)) (J U : R) (lat : lattice) (N : Z).
  Hypothesis Hs : sorts_by_column sort.
  Hypothesis Hl : shipped3 lat N.
  Hypothesis Hf : fits3 lat N.
  Lemma full_facts : exists m, init_matrix sort (real J : CR) (real U) (real (1/2)) lat = Ok m /\
    acts_as CR (N + N * N * N) (entry (bm_scale imag_unit m)) (sp_vec (bm_scale imag_unit m)) /\
    anti_hermitian CR (N + N * N * N) (entry (bm_scale imag_unit m)) /\
    row_bound (N + N * N * N) (entry (bm_scale imag_unit m)) (3 * neighbours lat * Rabs J + Rabs U) /\
    0 <= 3 * neighbours lat * Rabs J + Rabs U.
  Proof.
    destruct (C66_real_space CR sort (real J) (real U) (real (1/2)) imag_unit lat N chalf_ok (conj_real J) (conj_real U) conj_i Hs Hl Hf) as (m & Em & A1 & A2).
    cbv zeta in A1, A2. exists m. split; [exact Em|]. split; [exact A1|]. split; [exact A2|]. split.
    - apply (full_rows sort J U lat N Hs Hl m Hf Em).
    - pose proof (neighbours_pos lat N Hl). pose proof (Rabs_pos J). pose proof (Rabs_pos U). nra.
  Qed.
End Full.
Section Kinetic.
  Context (sort : list (triplet CR) -> list (triplet CR)) (J : R) (lat : lattice) (N : Z).
  Hypothesis Hs : sorts_by_column sort.
  Hypothesis Hl : shipped3 lat N.
  Hypothesis Hf : (N * lat_coordination lat < two64)%Z.
  Let HG := shipped3_graph lat N Hl.
  Lemma kinetic_entry m : init_kinetic_matrix sort (real J : CR) lat = Ok m ->
    forall i j, site N i -> entry (bm_scale imag_unit m) i j = rmul imag_unit (rmul (ropp (real J)) (adjc lat i j)).
  Proof.
    intros Em i j Hi. rewrite (init_kinetic_closed sort Hs _ lat N HG Hf) in Em. injection Em as <-. rewrite entry_scale. f_equal.
    unfold entry, row_of. cbn [bm_done]. rewrite nth_zrange_map by exact Hi. etransitivity; [apply (entry_weight sort Hs)|]. apply weight_kin1.
  Qed.
  Lemma adjc_real i j : kconj (adjc (K := CR) lat i j) = adjc lat i j.
  Proof. unfold adjc. rewrite conj_sum_over. apply sum_over_ext. intros x _. apply conj_delta. Qed.
  Lemma kinetic_facts : exists m, init_kinetic_matrix sort (real J : CR) lat = Ok m /\
    acts_as CR N (entry (bm_scale imag_unit m)) (sp_vec (bm_scale imag_unit m)) /\
    anti_hermitian CR N (entry (bm_scale imag_unit m)) /\
    row_bound N (entry (bm_scale imag_unit m)) (neighbours lat * Rabs J) /\
    0 <= neighbours lat * Rabs J.
  Proof.
    destruct (C32_kinetic CR sort (real J) lat N Hs Hl Hf) as (m & Em & Hw & _). exists m. split; [exact Em|].
    split; [exact (sparse_linear CR _ _ (wf_scale CR imag_unit m _ Hw))|]. split; [|split].
    - intros i j Hi Hj. rewrite (kinetic_entry m Em i j Hi), (kinetic_entry m Em j i Hj).
      rewrite !conj_mul, conj_opp, conj_real, conj_i, adjc_real. rewrite (adjc_sym lat N HG i j Hi Hj).
      generalize (adjc (K := CR) lat j i). intros a. generalize (real J : CR). intros b.
      destruct a as [a1 a2], b as [b1 b2]. cbn in a1, a2, b1, b2. cbn. f_equal; ring.
    - apply (kinetic_rows sort J lat N Hs Hl m Hf Em).
    - pose proof (neighbours_pos lat N Hl). pose proof (Rabs_pos J). nra.
  Qed.
  (** on a vector with equal elements the kinetic matrix acts as the number -i z J *)
  Lemma SR_pick_eq c k l : NoDup l -> In k l -> SR (fun j => if Z.eqb k j then c else 0) l = c.
  Proof.
    induction l as [|a l IH]; intros Hn Hi; [destruct Hi|]. inversion Hn; subst. cbn [SR]. destruct Hi as [->|Hi].
    - rewrite Z.eqb_refl. rewrite (SR_ext _ (fun _ => 0)); [rewrite SR_zero; ring|]. intros j Hj. destruct (Z.eqb_spec k j) as [->|_]; [contradiction|reflexivity].
    - destruct (Z.eqb_spec k a) as [->|_]; [contradiction|]. rewrite (IH H2 Hi). ring.
  Qed.
  Lemma adjc_sum i : site N i -> SR (fun j => fst (adjc (K := CR) lat i j)) (zrange 0 N) = neighbours lat /\ forall j, snd (adjc (K := CR) lat i j) = 0.
  Proof.
    intros Hi. split.
    - unfold adjc. rewrite (SR_ext _ (fun j => SR (fun x => if Z.eqb x j then 1 else 0) (lat_neighbors lat i))).
      + rewrite SR_swap. rewrite (SR_ext _ (fun _ => 1)).
        * rewrite SR_const, (INR_len _ _ (g_len _ _ HG i Hi)). unfold neighbours. ring.
        * intros x Hx. apply SR_pick_eq; [apply zrange_NoDup|]. apply zrange_in. apply (g_range _ _ HG i x Hi Hx).
      + intros j _. rewrite fst_sum. apply SR_ext. intros x _. unfold delta. destruct (Z.eqb x j); reflexivity.
    - intros j. unfold adjc. rewrite snd_sum. rewrite (SR_ext _ (fun _ => 0)); [apply SR_zero|]. intros x _. unfold delta. destruct (Z.eqb x j); reflexivity.
  Qed.
  Lemma kinetic_uniform m : init_kinetic_matrix sort (real J : CR) lat = Ok m -> forall i (c : CR), site N i ->
    sum_over (K := CR) (fun j => rmul (entry (bm_scale imag_unit m) i j) c) (zrange 0 N) = (neighbours lat * J * snd c, - (neighbours lat * J) * fst c).
  Proof.
    intros Em i [c1 c2] Hi. destruct (adjc_sum i Hi) as [S1 S2].
    assert (Q : forall j, rmul (entry (bm_scale imag_unit m) i j) (c1, c2) = (J * c2 * fst (adjc (K := CR) lat i j), - J * c1 * fst (adjc (K := CR) lat i j)) :> CR).
    { intros j. rewrite (kinetic_entry m Em i j Hi). pose proof (S2 j) as Z0. destruct (adjc (K := CR) lat i j) as [a1 a2]. cbn in a1, a2, c1, c2, Z0. subst a2. cbn. f_equal; ring. }
    apply (injective_projections (A := R) (B := R)).
    - etransitivity; [apply fst_sum|]. cbn [fst snd]. rewrite (SR_ext _ (fun j => J * c2 * fst (adjc (K := CR) lat i j))) by (intros j _; rewrite Q; reflexivity). rewrite SR_mul, S1. cbn in c1, c2. ring.
    - etransitivity; [apply snd_sum|]. cbn [fst snd]. rewrite (SR_ext _ (fun j => - J * c1 * fst (adjc (K := CR) lat i j))) by (intros j _; rewrite Q; reflexivity). rewrite SR_mul, S1. cbn in c1, c2. ring.
  Qed.
End Kinetic.
Lemma proj2' n i c : (0 <= i < n)%Z -> In (i, c) (idx n).
Proof. intros H. apply idx_in. exact H. Qed.

(** ** C77: the norm never grows as long as dt (3 z |J| + |U|) <= sqrt 8 *)
Theorem C77_full : forall (sort : list (triplet CR) -> list (triplet CR)) J U lat N d dt,
  sorts_by_column sort -> shipped3 lat N -> fits3 lat N ->
  dt ^ 2 * (3 * neighbours lat * Rabs J + Rabs U) ^ 2 <= 8 ->
  exists m, init_matrix sort (real J : CR) (real U) (real (1/2)) lat = Ok m /\
    forall sts u, len u = (N + N * N * N)%Z ->
      len (program_run d dt m sts u) = (N + N * N * N)%Z /\ norm2 (program_run d dt m sts u) <= norm2 u.
Proof.
  intros sort J U lat N d dt Hs Hl Hf Hd. destruct (full_facts sort J U lat N Hs Hl Hf) as (m & Em & A & B & C & D).
  exists m. split; [exact Em|]. intros sts u L. split.
  - exact (run_len _ _ _ A d dt sts u L).
  - exact (run_norm _ _ _ _ A B (row_op _ _ _ B C D) d dt sts Hd u L).
Qed.
(** for the non-interacting system the condition dt z |J| <= sqrt 8 is also necessary *)
Theorem C77_kinetic : forall (sort : list (triplet CR) -> list (triplet CR)) J lat N d dt,
  sorts_by_column sort -> shipped3 lat N -> (N * lat_coordination lat < two64)%Z ->
  exists m, init_kinetic_matrix sort (real J : CR) lat = Ok m /\
    ((forall sts u, len u = N -> norm2 (program_run d dt m sts u) <= norm2 u) <->
     dt ^ 2 * (neighbours lat * J) ^ 2 <= 8).
Proof.
  intros sort J lat N d dt Hs Hl Hf. pose proof (shipped3_graph _ _ Hl) as HG.
  destruct (kinetic_facts sort J lat N Hs Hl Hf) as (m & Em & A & B & C & D). exists m. split; [exact Em|]. split.
  - intros H. apply Rnot_lt_le. intros Hc. set (a := neighbours lat * J) in *.
    set (u := map (fun _ => real 1) (zrange 0 N)). pose proof (HNpos lat N HG) as HN.
    assert (Lu : len u = N) by (unfold u; rewrite map_length, zrange_length; lia).
    set (any := mkSt (K := CR) [] [] [] []). specialize (H [any] u Lu). unfold program_run in H. cbn [run_steps] in H.
    destruct (vec_step N _ _ A d dt any u Lu) as [L' V]. rewrite (vec_n2 N _ L'), (vec_n2 N _ Lu) in H.
    unfold n2 in H. rewrite (dot_ext (idx N) _ _ _ _ V V) in H. fold (n2 (idx N) (P (idx N) (SM (entry (bm_scale imag_unit m))) dt (vec u))) in H.
    fold (n2 (idx N) (vec u)) in H. set (E := entry (bm_scale imag_unit m)) in *.
    set (cst := fun c : CR => vecf (fun _ => c)).
    assert (Step : forall c p, In p (idx N) -> ap (idx N) (SM E) (cst c) p = cst (a * snd c, - a * fst c) p).
    { intros c p Hp. unfold cst. rewrite ap_SM. apply idx_in in Hp. unfold vecf. f_equal. apply (kinetic_uniform sort J lat N Hs Hl Hf m Em (fst p) c Hp). }
    assert (U0 : forall p, In p (idx N) -> vec u p = cst (1, 0) p).
    { intros p Hp. apply idx_in in Hp. unfold vec, cst, vecf. f_equal. unfold vget, u. exact (nth_zrange_map (fun _ => real 1) N (fst p) _ Hp). }
    assert (Sq : forall c, n2 (idx N) (cst c) = IZR N * (fst c * fst c + snd c * snd c)).
    { intros c. unfold n2, dot. rewrite SR_idx. rewrite (SR_ext _ (fun _ => fst c * fst c + snd c * snd c)) by reflexivity.
      rewrite SR_const. f_equal. apply INR_len. rewrite zrange_length. lia. }
    assert (It : forall k, exists c, (forall p, In p (idx N) -> apn (idx N) (SM E) k (vec u) p = cst c p) /\ fst c * fst c + snd c * snd c = (a ^ k) ^ 2).
    { induction k as [|k (c & IH1 & IH2)].
      - exists (1, 0). split; [exact U0|]. cbn. ring.
      - exists (a * snd c, - a * fst c). split.
        + intros p Hp. cbn [apn]. rewrite (ap_ext (idx N) (SM E) _ _ IH1). apply Step. exact Hp.
        + cbn [fst snd pow]. transitivity (a * a * (fst c * fst c + snd c * snd c)); [ring|]. rewrite IH2. ring. }
    assert (Nk : forall k, n2 (idx N) (apn (idx N) (SM E) k (vec u)) = IZR N * (a ^ k) ^ 2).
    { intros k. destruct (It k) as (c & I1 & I2). rewrite <- I2, <- Sq. unfold n2. apply dot_ext; exact I1. }
    rewrite (P_norm (idx N) (SM E) (SM_anti N E B)) in H. rewrite (Nk 3%nat), (Nk 4%nat) in H.
    assert (PN : 0 < IZR N) by (apply IZR_lt; lia).
    assert (X : IZR N * (dt ^ 2 * a ^ 2) ^ 3 * (dt ^ 2 * a ^ 2 - 8) <= 0).
    { replace (IZR N * (dt ^ 2 * a ^ 2) ^ 3 * (dt ^ 2 * a ^ 2 - 8)) with (576 * (- (dt ^ 6 / 72 * (IZR N * (a ^ 3) ^ 2)) + dt ^ 8 / 576 * (IZR N * (a ^ 4) ^ 2))) by field. lra. }
    assert (Y : 0 < IZR N * (dt ^ 2 * a ^ 2) ^ 3 * (dt ^ 2 * a ^ 2 - 8)).
    { apply Rmult_lt_0_compat; [apply Rmult_lt_0_compat; [exact PN|apply pow_lt; lra]|lra]. }
    lra.
  - intros Hd sts u L. apply (run_norm _ _ _ _ A B (row_op _ _ _ B C D) d dt sts); [|exact L].
    replace ((neighbours lat * Rabs J) ^ 2) with ((neighbours lat * J) ^ 2); [exact Hd|]. rewrite !Rpow_mult_distr, <- (pow2_abs J). reflexivity.
Qed.

(** ** C78: the integration converges to the exact solution of dh/dt = i M h *)
Lemma exists_unique n (E : Z -> Z -> CR) B u : anti_hermitian CR n E -> op_bound n E B -> 0 <= B ->
  exists y, exact_solution n E y /\ (forall i, (0 <= i < n)%Z -> y 0 i = vget u i) /\
    forall y', exact_solution n E y' -> (forall i, (0 <= i < n)%Z -> y' 0 i = vget u i) ->
      forall t i, (0 <= i < n)%Z -> y' t i = y t i.
Proof.
  intros A C D. set (fl := flow (idx n) (SM E) (vec u)).
  assert (Lift : forall y, exact_solution n E y -> solution (idx n) (SM E) (fun t => vecf (y t))).
  { intros y Hy t [i c] Hi. rewrite ap_SM. apply idx_in in Hi. cbn [fst snd] in *. destruct (Hy t i Hi) as [D1 D2]. unfold vecf. cbn [fst snd].
    destruct c; cbn [part]; [exact D1|exact D2]. }
  pose proof (flow_solution (idx n) (SM E) B C D (vec u)) as F. fold fl in F.
  set (y := fun t i => (fl t (i, true), fl t (i, false)) : CR).
  assert (Yf : forall t p, vecf (y t) p = fl t p) by (intros t [i []]; reflexivity).
  assert (Ey : exact_solution n E y).
  { intros t i Hi. cbv zeta. pose proof (F t (i, true) (proj2' n i true Hi)) as F1. pose proof (F t (i, false) (proj2' n i false Hi)) as F2.
    rewrite <- (ap_ext (idx n) (SM E) (vecf (y t)) (fl t) (fun p _ => Yf t p)), ap_SM in F1.
    rewrite <- (ap_ext (idx n) (SM E) (vecf (y t)) (fl t) (fun p _ => Yf t p)), ap_SM in F2.
    cbn [fst snd part] in F1, F2. split; [exact F1|exact F2]. }
  assert (E0 : forall i, (0 <= i < n)%Z -> y 0 i = vget u i).
  { intros i _. unfold y, fl. rewrite !flow_0. unfold vec, vecf. cbn [fst snd part]. symmetry. apply surjective_pairing. }
  exists y. split; [exact Ey|]. split; [exact E0|]. intros y' Hy' H0 t i Hi.
  assert (Q : forall c, vecf (y' t) (i, c) = vecf (y t) (i, c)).
  { intros c. apply (solution_unique (idx n) (SM E) (SM_anti n E A) (fun t => vecf (y' t)) (fun t => vecf (y t)) (Lift y' Hy') (Lift y Ey)).
    - intros p Hp. apply idx_in in Hp. unfold vecf. rewrite (H0 _ Hp), (E0 _ Hp). reflexivity.
    - apply idx_in. exact Hi. }
  pose proof (Q true) as Q1. pose proof (Q false) as Q2. unfold vecf in Q1, Q2. cbn [fst snd part] in Q1, Q2.
  apply (injective_projections (A := R) (B := R)); assumption.
Qed.
(** dh/dt = i M h has exactly one solution with h(0) = u, for every u *)
Theorem C78_solution : forall (sort : list (triplet CR) -> list (triplet CR)) J U lat N u,
  sorts_by_column sort -> shipped3 lat N -> fits3 lat N ->
  exists m, init_matrix sort (real J : CR) (real U) (real (1/2)) lat = Ok m /\
    let n := (N + N * N * N)%Z in let E := entry (bm_scale imag_unit m) in
    exists y, exact_solution n E y /\ (forall i, (0 <= i < n)%Z -> y 0 i = vget u i) /\
      forall y', exact_solution n E y' -> (forall i, (0 <= i < n)%Z -> y' 0 i = vget u i) ->
        forall t i, (0 <= i < n)%Z -> y' t i = y t i.
Proof.
  intros sort J U lat N u Hs Hl Hf. destruct (full_facts sort J U lat N Hs Hl Hf) as (m & Em & A & B & C & D).
  exists m. split; [exact Em|]. exact (exists_unique _ _ _ u B (row_op _ _ _ B C D) D).
Qed.
Theorem C78_full : forall (sort : list (triplet CR) -> list (triplet CR)) J U lat N d dt,
  sorts_by_column sort -> shipped3 lat N -> fits3 lat N ->
  let L := 3 * neighbours lat * Rabs J + Rabs U in
  0 <= dt -> dt ^ 2 * L ^ 2 <= 8 ->
  exists m, init_matrix sort (real J : CR) (real U) (real (1/2)) lat = Ok m /\
    forall sts u y, len u = (N + N * N * N)%Z ->
      exact_solution (N + N * N * N) (entry (bm_scale imag_unit m)) y ->
      (forall i, (0 <= i < N + N * N * N)%Z -> y 0 i = vget u i) ->
      let t := INR (length sts) * dt in
      distance2 (program_run d dt m sts u) (y t) <= t * dt ^ 4 * L ^ 5 / 120 * length2 u.
Proof.
  intros sort J U lat N d dt Hs Hl Hf L Hp Hd. destruct (full_facts sort J U lat N Hs Hl Hf) as (m & Em & A & B & C & D).
  exists m. split; [exact Em|]. intros sts u y Lu Hy H0 t. eapply Rle_trans; [exact (run_error _ _ _ _ A B D (row_op _ _ _ B C D) d dt sts u y Hp Hd Lu Hy H0)|].
  apply Req_le. unfold t. fold L. field.
Qed.
Theorem C78_kinetic : forall (sort : list (triplet CR) -> list (triplet CR)) J lat N d dt,
  sorts_by_column sort -> shipped3 lat N -> (N * lat_coordination lat < two64)%Z ->
  let L := neighbours lat * Rabs J in
  0 <= dt -> dt ^ 2 * L ^ 2 <= 8 ->
  exists m, init_kinetic_matrix sort (real J : CR) lat = Ok m /\
    forall sts u y, len u = N ->
      exact_solution N (entry (bm_scale imag_unit m)) y ->
      (forall i, (0 <= i < N)%Z -> y 0 i = vget u i) ->
      let t := INR (length sts) * dt in
      distance2 (program_run d dt m sts u) (y t) <= t * dt ^ 4 * L ^ 5 / 120 * length2 u.
Proof.
  intros sort J lat N d dt Hs Hl Hf L Hp Hd. destruct (kinetic_facts sort J lat N Hs Hl Hf) as (m & Em & A & B & C & D).
  exists m. split; [exact Em|]. intros sts u y Lu Hy H0 t. eapply Rle_trans; [exact (run_error _ _ _ _ A B D (row_op _ _ _ B C D) d dt sts u y Hp Hd Lu Hy H0)|].
  apply Req_le. unfold t. fold L. field.
Qed.
(** the exact solution keeps its length *)
Theorem C78_exact_norm : forall (sort : list (triplet CR) -> list (triplet CR)) J U lat N,
  sorts_by_column sort -> shipped3 lat N -> fits3 lat N ->
  exists m, init_matrix sort (real J : CR) (real U) (real (1/2)) lat = Ok m /\
    forall y, exact_solution (N + N * N * N) (entry (bm_scale imag_unit m)) y -> forall t,
      norm2 (map (y t) (zrange 0 (N + N * N * N))) = norm2 (map (y 0) (zrange 0 (N + N * N * N))).
Proof.
  intros sort J U lat N Hs Hl Hf. destruct (full_facts sort J U lat N Hs Hl Hf) as (m & Em & A & B & C & D).
  exists m. split; [exact Em|]. intros y Hy t. set (n := (N + N * N * N)%Z) in *.
  assert (Q : forall t, norm2 (map (y t) (zrange 0 n)) = n2 (idx n) (vecf (y t))).
  { intros s. unfold norm2, n2, dot. rewrite sum_SR, SR_idx, SR_map. reflexivity. }
  rewrite !Q. apply (norm_conserved (idx n) (SM (entry (bm_scale imag_unit m))) (SM_anti n _ B) (fun t => vecf (y t))).
  intros s [i c] Hi. rewrite ap_SM. apply idx_in in Hi. cbn [fst snd] in *. destruct (Hy s i Hi) as [D1 D2]. unfold vecf. cbn [fst snd].
  destruct c; cbn [part]; [exact D1|exact D2].
Qed.
Print Assumptions C77_full.
Print Assumptions C77_kinetic.
Print Assumptions C78_solution.
Print Assumptions C78_full.
Print Assumptions C78_kinetic.
Print Assumptions C78_exact_norm.
