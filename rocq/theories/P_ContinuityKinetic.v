(** THEOREMS: C123, third part: the kinetic-only motion and the occupation. *)
From Coq Require Import Reals Lra Psatz Ascii String.
From Flocq Require Import Core Relative.
From Verif Require Import Base M_Operator M_Lattice Spec_Lattice Pf_Lattice P_Lattice M_LatticeReal Spec_LatticeReal M_Basis Pf_Basis P_Basis M_Matrix M_Ode M_Dispersion M_TimeLoop Spec_TimeLoop Spec_Ode
  Pf_Matrix Spec_Matrix Pf_Matrix2 P_Matrix P_Ode Spec_Stability Pf_Stability Pf_Stability2 Pf_Stability3 P_Stability Spec_Programs M_Programs Pf_Programs Pf_Programs2 P_TimeLoop P_Programs Pf_MatrixEntry P_OccupationFree Spec_Symmetry Pf_Symmetry P_Symmetry P_ParticleHole P_Parameters Pf_Continuity P_Continuity.
Local Open Scope R_scope.
Local Open Scope list_scope.
Local Notation len u := (Z.of_nat (length u)).


Lemma unit_always n (E : Z -> Z -> CR) y t : (0 < n)%Z -> anti_hermitian CR n E -> the_solution n E y -> n2 (idx n) (vecf (y t)) = 1.
Proof.
  intros Nn A (Y1 & Y2 & _). transitivity (n2 (idx n) (vecf (y 0))).
  - assert (Lift : solution (idx n) (SM E) (fun t => vecf (y t))).
    { intros u [i c] Hi. rewrite ap_SM. apply idx_in in Hi. cbn [fst snd] in *. destruct (Y1 u i Hi) as [E1 E2]. unfold vecf. cbn [fst snd]. destruct c; cbn [part]; [exact E1|exact E2]. }
    exact (norm_conserved (idx n) (SM E) (SM_anti n E A) _ Lift t).
  - destruct (init_vector_unit n Nn) as (h0 & _ & L0 & V0). pose proof (unit_norm n h0 Nn L0 V0) as U0. rewrite (vec_n2 n h0 L0) in U0.
    rewrite <- U0. unfold n2, dot. apply SR_ext. intros [i c] Hi. apply idx_in in Hi. unfold vecf, vec. cbn [fst snd] in *. pose proof (V0 i Hi) as V. pose proof (Y2 i Hi) as Y. rewrite Y, <- V. reflexivity.
Qed.
Lemma apart_nrm n (y z : Z -> CR) : apart n y z = nrm (idx n) (fun p => vecf y p + -1 * vecf z p).
Proof. unfold apart, nrm, n2, dot. rewrite sum_SR, SR_idx. f_equal. apply SR_ext. intros i _. unfold vecf, part. cbn [fst snd]. ring. Qed.

(** the kinetic-only programs: only J *)
Theorem C123_kinetic : forall (sort : list (triplet CR) -> list (triplet CR)) J J' lat N,
  sorts_by_column sort -> shipped3 lat N -> (N * lat_coordination lat < two64)%Z ->
  exists m m', init_kinetic_matrix sort (real J : CR) lat = Ok m /\ init_kinetic_matrix sort (real J' : CR) lat = Ok m' /\
    forall y y', the_solution N (entry (bm_scale imag_unit m)) y -> the_solution N (entry (bm_scale imag_unit m')) y' ->
      forall t, 0 <= t -> apart N (y' t) (y t) <= neighbours lat * Rabs (J' - J) * t.
Proof.
  intros sort J J' lat N Hs Hl Hf.
  destruct (kinetic_facts sort J lat N Hs Hl Hf) as (m & Em & _ & A & _). destruct (kinetic_facts sort J' lat N Hs Hl Hf) as (m' & Em' & _ & A' & _).
  destruct (kinetic_facts sort (J' - J) lat N Hs Hl Hf) as (d & Ed & _ & _ & C & D).
  exists m, m'. split; [exact Em|]. split; [exact Em'|]. intros y y' Hy Hz t Ht.
  assert (Nn : (0 < N)%Z) by (destruct Hl; nia).
  pose proof (unit_always N _ y 0 Nn A Hy) as U0. destruct Hy as (Y1 & Y2 & _). destruct Hz as (Z1 & Z2 & _).
  pose proof (drift N _ _ y y' (neighbours lat * Rabs (J' - J)) t A A') as Q.
  assert (N0 : nrm (idx N) (vecf (y 0)) = 1) by (unfold nrm; rewrite U0; apply sqrt_1).
  rewrite N0 in Q. eapply Rle_trans; [|eapply Rle_trans; [apply Q|]]; try assumption.
  - unfold apart. rewrite sum_SR. apply Rle_refl.
  - intros i Hi. refine (Rle_trans _ _ _ _ (C i Hi)). apply Req_le, SR_ext. intros j Hj. apply zrange_in in Hj.
    rewrite (kinetic_entry sort J lat N Hs Hl Hf m Em i j Hi), (kinetic_entry sort J' lat N Hs Hl Hf m' Em' i j Hi), (kinetic_entry sort (J' - J) lat N Hs Hl Hf d Ed i j Hi).
    generalize (adjc (K := CR) lat i j). intros [p q]. cbn. apply (f_equal2 Rplus); f_equal; ring.
  - intros i Hi. rewrite (Y2 i Hi), (Z2 i Hi). reflexivity.
  - apply Req_le. ring.
Qed.
(** the occupation of the central site *)
Theorem C123_occupation : forall (sort : list (triplet CR) -> list (triplet CR)) J U J' U' filling N,
  sorts_by_column sort -> (3 <= N)%Z -> fits3 (chain_lattice N) N -> 0 <= filling <= 1 -> let n := (N + N * N * N)%Z in
  exists m m', init_matrix sort (real J : CR) (real U) (real (1/2)) (chain_lattice N) = Ok m /\ init_matrix sort (real J' : CR) (real U') (real (1/2)) (chain_lattice N) = Ok m' /\
    forall y y', the_solution n (entry (bm_scale imag_unit m)) y -> the_solution n (entry (bm_scale imag_unit m')) y' ->
      forall t, 0 <= t -> Rabs (occupation N (sea N filling) n (y' t) - occupation N (sea N filling) n (y t)) <= 10 * IZR n * (6 * Rabs (J' - J) + Rabs (U' - U)) * t.
Proof.
  intros sort J U J' U' filling N Hs HN Hf Hfi n.
  assert (Hl : shipped3 (chain_lattice N) N) by (constructor; unfold fits3 in Hf; cbn [lat_coordination chain_lattice] in Hf; nia).
  destruct (full_facts sort J U _ N Hs Hl Hf) as (m1 & E1 & _ & A & _). destruct (full_facts sort J' U' _ N Hs Hl Hf) as (m2 & E2 & _ & A' & _). fold n in A, A'.
  destruct (C123_solution sort J U J' U' (chain_lattice N) N Hs Hl Hf) as (m & m' & Em & Em' & H). fold n in H.
  rewrite Em in E1. injection E1 as <-. rewrite Em' in E2. injection E2 as <-.
  exists m, m'. split; [exact Em|]. split; [exact Em'|]. intros y y' Hy Hy' t Ht.
  assert (Nn : (0 < n)%Z) by (unfold n; nia).
  pose proof (H y y' Hy Hy' t Ht) as Q. rewrite apart_nrm in Q.
  assert (Bw : forall i j, (0 <= i < n)%Z -> (0 <= j < n)%Z -> Rabs (overlap N (sea N filling) i j) <= 5) by (intros i j Hi Hj; apply overlap_le; try assumption; lia).
  rewrite !occupation_quad. eapply Rle_trans; [apply (quad_lip n _ 5 ltac:(lra) Bw); [lia|rewrite (unit_always n _ y' t Nn A' Hy'); lra|rewrite (unit_always n _ y t Nn A Hy); lra]|].
  replace (2 * 5 * IZR n) with (10 * IZR n) by ring. rewrite !(Rmult_assoc (10 * IZR n)). apply Rmult_le_compat_l; [apply Rmult_le_pos; [lra|apply IZR_le; lia]|].
  eapply Rle_trans; [exact Q|]. apply Req_le. unfold neighbours. cbn [lat_coordination chain_lattice]. ring.
Qed.
