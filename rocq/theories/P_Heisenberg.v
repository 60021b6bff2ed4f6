(** THEOREMS: C78 for the kinetic programs: the exact solution exists, is unique, keeps its norm and is the Heisenberg
    time evolution of the initial operator. *)
From Coq Require Import Reals Lra.
From Verif Require Import Base Spec_Fock M_Operator M_Lattice Spec_Lattice M_Basis Pf_Basis P_Basis M_Matrix M_MatrixCheck M_Ode Spec_Ode
  Spec_Algebra Spec_Matrix Spec_Dynamics Pf_Matrix Pf_Matrix2 P_Matrix P_Ode P_Dynamics P_DynamicsKinetic M_Dispersion Spec_Stability
  Pf_Stability Pf_Stability2 Pf_Stability3 Pf_Solution P_Stability Pf_Theory2 Pf_Ode.
Local Open Scope R_scope.
Local Open Scope list_scope.

Theorem C78_solution_kinetic : forall (sort : list (triplet CR) -> list (triplet CR)) J lat N u,
  sorts_by_column sort -> shipped3 lat N -> (N * lat_coordination lat < two64)%Z ->
  exists m, init_kinetic_matrix sort (real J : CR) lat = Ok m /\
    let E := entry (bm_scale imag_unit m) in
    exists y, exact_solution N E y /\ (forall i, (0 <= i < N)%Z -> y 0 i = vget u i) /\
      (forall t, norm2 (map (y t) (zrange 0 N)) = norm2 (map (y 0) (zrange 0 N))) /\
      forall y', exact_solution N E y' -> (forall i, (0 <= i < N)%Z -> y' 0 i = vget u i) ->
        forall t i, (0 <= i < N)%Z -> y' t i = y t i.
Proof.
  intros sort J lat N u Hs Hl Hf. destruct (kinetic_facts sort J lat N Hs Hl Hf) as (m & Em & A & B & C & D).
  exists m. split; [exact Em|]. destruct (exists_unique _ _ _ u B (row_op _ _ _ B C D) D) as (y & Hy & H0 & Hu). exists y. split; [exact Hy|]. split; [exact H0|]. split; [|exact Hu].
  intros t. assert (Q : forall t, norm2 (map (y t) (zrange 0 N)) = n2 (idx N) (vecf (y t))).
  { intros s. unfold norm2, n2, dot. rewrite sum_SR, SR_idx, SR_map. reflexivity. }
  rewrite !Q. apply (norm_conserved (idx N) (SM (entry (bm_scale imag_unit m))) (SM_anti N _ B) (fun t => vecf (y t))).
  intros s [i c] Hi. rewrite ap_SM. apply idx_in in Hi. cbn [fst snd] in *. destruct (Hy s i Hi) as [D1 D2]. unfold vecf. cbn [fst snd].
  destruct c; cbn [part]; [exact D1|exact D2].
Qed.

(** Every matrix element of A(t) = sum_j y_j(t) c+_j obeys dA/dt = i [H, A] with the hopping Hamiltonian. *)
Theorem C78_heisenberg_kinetic : forall (sort : list (triplet CR) -> list (triplet CR)) J lat N mode,
  sorts_by_column sort -> shipped3 lat N -> (N * lat_coordination lat < two64)%Z -> numbers_orbitals mode N ->
  exists m, init_kinetic_matrix sort (real J : CR) lat = Ok m /\
    forall y, exact_solution N (entry (bm_scale imag_unit m)) y ->
      let A tau := vec_op (K := CR) (basis1 lat) (map (y tau) (zrange 0 N)) in
      forall tau s t, let d := rmul imag_unit (comm_elem mode (H_kin lat (real J : CR)) (A tau) s t) in
        derivable_pt_lim (fun x => fst (terms_elem mode (A x) s t)) tau (fst d) /\
        derivable_pt_lim (fun x => snd (terms_elem mode (A x) s t)) tau (snd d).
Proof.
  intros sort J lat N mode Hs Hl Hf Hm. pose proof (shipped3_graph _ _ Hl) as HG. pose proof (HNpos lat N HG) as HN.
  destruct (C32_kinetic CR sort (real J) lat N Hs Hl Hf) as (m & Em & Hw & _). exists m. split; [exact Em|]. intros y Hy A tau s t d.
  assert (L : Z.of_nat (length (basis1 lat)) = N) by (rewrite (basis1_len lat N (g_reg _ _ HG)); lia).
  assert (Lm : forall x, Z.of_nat (length (map (y x) (zrange 0 N))) = N) by (intros x; rewrite map_length, zrange_length; lia).
  pose (c := fun j => terms_elem (K := CR) mode (basis_op (nth (Z.to_nat j) (basis1 lat) [])) s t).
  assert (EA : forall x, terms_elem mode (A x) s t = sum_over (K := CR) (fun j => rmul (y x j) (c j)) (zrange 0 N)).
  { intros x. unfold A. rewrite (elem_vec_op CR mode _ _ N s t (Lm x) L). apply sum_over_ext. intros j Hj. apply zrange_in in Hj. unfold c. f_equal.
    exact (nth_zrange_map (y x) N j r0 Hj). }
  pose (dy := fun i => sum_over (K := CR) (fun j => rmul (entry (bm_scale imag_unit m) i j) (y tau j)) (zrange 0 N)).
  assert (Ed : d = sum_over (K := CR) (fun i => rmul (dy i) (c i)) (zrange 0 N)).
  { unfold d. destruct (C64_kinetic CR sort (real J) imag_unit lat N mode (map (y tau) (zrange 0 N)) Hs Hl Hf Hm (Lm tau)) as (m2 & Em2 & Q).
    assert (m2 = m) by congruence. subst m2. etransitivity; [apply Q|].
    destruct (sparse_linear CR N (bm_scale imag_unit m) (wf_scale CR imag_unit m N Hw) _ (Lm tau)) as [L' Hv].
    rewrite (elem_vec_op CR mode _ _ N s t L' L). apply sum_over_ext. intros i Hi. apply zrange_in in Hi. fold (c i). f_equal. rewrite Hv by exact Hi.
    unfold dy. apply sum_over_ext. intros j Hj. apply zrange_in in Hj. f_equal. exact (nth_zrange_map (y tau) N j r0 Hj). }
  assert (D : forall i, In i (zrange 0 N) -> derivable_pt_lim (fun x => fst (y x i)) tau (fst (dy i)) /\ derivable_pt_lim (fun x => snd (y x i)) tau (snd (dy i))).
  { intros i Hi. apply zrange_in in Hi. exact (Hy tau i Hi). }
  split.
  - eapply deriv_eq with (f := fun x => SR (fun i => fst (c i) * fst (y x i) + (- snd (c i)) * snd (y x i)) (zrange 0 N)).
    + apply deriv_SR with (g' := fun i => fst (c i) * fst (dy i) + (- snd (c i)) * snd (dy i)). intros i Hi. destruct (D i Hi) as [D1 D2].
      apply (derivable_pt_lim_plus (fun x => fst (c i) * fst (y x i)) (fun x => - snd (c i) * snd (y x i))); apply deriv_scal; assumption.
    + intros x. rewrite EA, fst_sum. apply SR_ext. intros i _. destruct (y x i) as [a b], (c i) as [p q]. cbn. ring.
    + rewrite Ed, fst_sum. apply SR_ext. intros i _. destruct (dy i) as [a b], (c i) as [p q]. cbn. ring.
  - eapply deriv_eq with (f := fun x => SR (fun i => snd (c i) * fst (y x i) + fst (c i) * snd (y x i)) (zrange 0 N)).
    + apply deriv_SR with (g' := fun i => snd (c i) * fst (dy i) + fst (c i) * snd (dy i)). intros i Hi. destruct (D i Hi) as [D1 D2].
      apply (derivable_pt_lim_plus (fun x => snd (c i) * fst (y x i)) (fun x => fst (c i) * snd (y x i))); apply deriv_scal; assumption.
    + intros x. rewrite EA, snd_sum. apply SR_ext. intros i _. destruct (y x i) as [a b], (c i) as [p q]. cbn. ring.
    + rewrite Ed, snd_sum. apply SR_ext. intros i _. destruct (dy i) as [a b], (c i) as [p q]. cbn. ring.
Qed.
