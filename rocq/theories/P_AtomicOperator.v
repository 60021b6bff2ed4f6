(** PROPERTY C109, continued: the computed operator is the exact Heisenberg operator of the atomic limit. *)
From Coq Require Import Reals Lra Psatz.
From Verif Require Import Base M_Operator M_Lattice Spec_Lattice Pf_Lattice M_LatticeReal Spec_LatticeReal M_Basis Pf_Basis P_Basis M_Matrix M_Ode M_Dispersion M_OpenMP Spec_OpenMP M_Expectation Spec_Expectation P_Expectation M_SiteOccupation Pf_SiteOccupation P_SiteOccupation M_TimeLoop Spec_TimeLoop Spec_Ode
  Pf_Matrix Spec_Matrix Pf_Matrix2 P_Matrix Spec_Stability Pf_Stability Pf_Stability2 Pf_Stability3 P_Stability Spec_Programs M_Programs Pf_Programs Pf_Programs2
  M_MatrixCheck Spec_Algebra Pf_MatrixEntry P_Ode P_Dynamics P_TimeLoop P_Programs Pf_Conserved P_Occupation Pf_Projection P_OccupationFree Pf_Theory2 P_Atomic Spec_Fock Spec_Dynamics P_DynamicsKinetic Pf_Commutator Pf_Liouville.
Local Open Scope R_scope.
Local Open Scope list_scope.

Section Operator.
  Context (lat : lattice) (N : Z).
  Hypothesis Hl : shipped3 lat N.
  Hypothesis Hf : fits3 lat N.
  Let HG := shipped3_graph lat N Hl.
  Let HS := fits3_S3 lat N HG Hf.
  Let n := (N + N * N * N)%Z.
  Context (mode : hub -> nat) (v : Z -> CR).
  Hypothesis Hv : forall i, (0 <= i < n)%Z -> i <> 0%Z -> i <> N -> v i = real 0.
  Lemma two_basis : nth (Z.to_nat 0) (basis3 lat) [] = [hop true 0 true] /\ nth (Z.to_nat N) (basis3 lat) [] = [hop true 0 true; hop true 0 false; hop false 0 false].
  Proof.
    pose proof (HNpos lat N HG) as HN0. assert (S0 : site N 0) by (unfold site; lia). split; apply nth_error_nth.
    - apply (basis3_nth1 lat N (g_reg _ _ HG) 0 S0).
    - pose proof (basis3_get lat N (g_reg _ _ HG) HS 0 0 0 S0 S0 S0) as Q. rewrite (index_zero lat N Hl Hf) in Q. exact Q.
  Qed.
  Lemma two_elem s t : terms_elem mode (vec_op (K := CR) (basis3 lat) (map v (zrange 0 n))) s t =
    radd (rmul (v 0%Z) (terms_elem mode (B1 0) s t)) (rmul (v N) (terms_elem mode (B3 0 0 0) s t)).
  Proof.
    pose proof (HNpos lat N HG) as HN0. assert (Hn : (0 < N < n)%Z) by (unfold n; nia). destruct two_basis as [E0 E1].
    assert (Lv : Z.of_nat (length (map v (zrange 0 n))) = n) by (rewrite map_length, zrange_length; lia).
    assert (Lb : Z.of_nat (length (basis3 lat)) = n) by (rewrite (basis3_len lat N (g_reg _ _ HG)); unfold n; nia).
    assert (G : forall j, (0 <= j < n)%Z -> vget (map v (zrange 0 n)) j = v j) by (intros j Hj; exact (Pf_Ode.nth_zrange_map v n j r0 Hj)).
    rewrite (elem_vec_op CR mode _ _ n s t Lv Lb). rewrite (sum_two _ N n Hn).
    - rewrite (G 0%Z), (G N), E0, E1 by lia. reflexivity.
    - intros i Hi H0 H1. rewrite (G i Hi), (Hv i Hi H0 H1). destruct (terms_elem mode _ s t) as [a b]. cbn. f_equal; ring.
  Qed.
End Operator.
Section Comm.
  Context (lat : lattice) (N : Z) (mode : hub -> nat) (v : Z -> CR) (U : R).
  Hypothesis Hl : shipped3 lat N.
  Hypothesis Hf : fits3 lat N.
  Hypothesis Hm : numbers_orbitals mode N.
  Let HG := shipped3_graph lat N Hl.
  Let n := (N + N * N * N)%Z.
  Hypothesis Hv : forall i, (0 <= i < n)%Z -> i <> 0%Z -> i <> N -> v i = real 0.
  Lemma two_comm s t : comm_elem mode (H_int lat (real U : CR)) (vec_op (K := CR) (basis3 lat) (map v (zrange 0 n))) s t =
    rmul (radd (v 0%Z) (v N)) (rmul (rmul (real U) (real (1/2))) (radd (terms_elem mode (B1 0) s t) (terms_elem mode (B3 0 0 0) s t))).
  Proof.
    pose proof (HNpos lat N HG) as HN0. assert (Hn : (0 < N < n)%Z) by (unfold n; nia). destruct (two_basis lat N Hl Hf) as [E0 E1]. assert (S0 : site N 0) by (unfold site; lia).
    assert (Lv : Z.of_nat (length (map v (zrange 0 n))) = n) by (rewrite map_length, zrange_length; lia).
    assert (Lb : Z.of_nat (length (basis3 lat)) = n) by (rewrite (basis3_len lat N (g_reg _ _ HG)); unfold n; nia).
    assert (G : forall j, (0 <= j < n)%Z -> vget (map v (zrange 0 n)) j = v j) by (intros j Hj; exact (Pf_Ode.nth_zrange_map v n j r0 Hj)).
    rewrite comm_vec_op, (combine_zrange CR _ _ n Lv Lb), sum_over_map. cbn [fst snd]. rewrite (sum_two _ N n Hn).
    - rewrite (G 0%Z), (G N), E0, E1 by lia. change (basis_op (K := CR) [hop true 0 true]) with (B1 (K := CR) 0). change (basis_op (K := CR) [hop true 0 true; hop true 0 false; hop false 0 false]) with (B3 (K := CR) 0 0 0).
      rewrite (int_B1 N mode Hm s t lat HG (real (1/2) : CR) chalf_ok (real U) 0%Z S0), (int_Biii N mode Hm s t lat HG (real (1/2) : CR) chalf_ok (real U) 0%Z S0).
      destruct (v 0%Z) as [a b], (v N) as [c d], (terms_elem mode (B1 0) s t) as [e f], (terms_elem mode (B3 0 0 0) s t) as [g h]. cbn. f_equal; ring.
    - intros i Hi H0 H1. rewrite (G i Hi), (Hv i Hi H0 H1). destruct (comm_elem mode _ _ s t) as [a b]. cbn. f_equal; ring.
  Qed.
End Comm.

(** A(t) = c+_0 + (e^(i U t) - 1) c+_0 n_0: the operator the coefficients stand for, in closed form *)
Theorem C109_operator : forall (sort : list (triplet CR) -> list (triplet CR)) U lat N mode,
  sorts_by_column sort -> shipped3 lat N -> fits3 lat N -> let n := (N + N * N * N)%Z in
  exists m, init_matrix sort (real 0 : CR) (real U) (real (1/2)) lat = Ok m /\
    forall y, the_solution n (entry (bm_scale imag_unit m)) y -> forall tau s t,
      terms_elem mode (vec_op (K := CR) (basis3 lat) (map (y tau) (zrange 0 n))) s t =
      terms_elem (K := CR) mode [mkTerm (real 1 : CR) [hop true 0 true]; mkTerm ((cos (U * tau) - 1, sin (U * tau)) : CR) [hop true 0 true; hop true 0 false; hop false 0 false]] s t.
Proof.
  intros sort U lat N mode Hs Hl Hf n. destruct (C109_solution sort U lat N Hs Hl Hf) as (m & Em & H). exists m. split; [exact Em|]. intros y Hy tau s t. destruct (H y Hy tau) as (H0 & H1 & H2).
  unfold n. rewrite (two_elem lat N Hl Hf mode (y tau) H2 s t), H0, H1. unfold B1, B3, terms_elem, term_elem. rewrite !sum_over_cons, !sum_over_nil. cbn [prefactor operators].
  generalize (elem (K := CR) mode [hop true 0 true] s t), (elem (K := CR) mode [hop true 0 true; hop true 0 false; hop false 0 false] s t). intros [a b] [c d].
  unfold atom_one, atom_three, delta. rewrite Z.eqb_refl. cbn. f_equal; field.
Qed.
(** Every matrix element of A(t) obeys dA/dt = i [H, A] with the interaction: no error from the truncated basis. *)
Theorem C109_heisenberg : forall (sort : list (triplet CR) -> list (triplet CR)) U lat N mode,
  sorts_by_column sort -> shipped3 lat N -> fits3 lat N -> numbers_orbitals mode N -> let n := (N + N * N * N)%Z in
  exists m, init_matrix sort (real 0 : CR) (real U) (real (1/2)) lat = Ok m /\
    forall y, the_solution n (entry (bm_scale imag_unit m)) y ->
      let A tau := vec_op (K := CR) (basis3 lat) (map (y tau) (zrange 0 n)) in
      forall tau s t, let d := rmul imag_unit (comm_elem mode (H_int lat (real U : CR)) (A tau) s t) in
        derivable_pt_lim (fun x => fst (terms_elem mode (A x) s t)) tau (fst d) /\
        derivable_pt_lim (fun x => snd (terms_elem mode (A x) s t)) tau (snd d).
Proof.
  intros sort U lat N mode Hs Hl Hf Hm n. destruct (C109_solution sort U lat N Hs Hl Hf) as (m & Em & H). exists m. split; [exact Em|]. intros y Hy A tau s t d.
  assert (EA : forall x, terms_elem mode (A x) s t = radd (rmul (atom_one U x) (terms_elem mode (B1 0) s t)) (rmul (atom_three U x) (terms_elem mode (B3 0 0 0) s t))).
  { intros x. destruct (H y Hy x) as (H0 & H1 & H2). unfold A, n. rewrite (two_elem lat N Hl Hf mode (y x) H2 s t), H0, H1. reflexivity. }
  destruct (H y Hy tau) as (H0 & H1 & H2). pose proof (two_comm lat N mode (y tau) U Hl Hf Hm H2 s t) as Ed. rewrite H0, H1 in Ed.
  change (comm_elem mode (H_int lat (real U)) (A tau) s t = rmul (radd (atom_one U tau) (atom_three U tau)) (rmul (rmul (real U) (real (1/2))) (radd (terms_elem mode (B1 0) s t) (terms_elem mode (B3 0 0 0) s t)))) in Ed.
  unfold d. rewrite Ed. clear d Ed. clearbody A.
  destruct (terms_elem mode (B1 0) s t) as [a b], (terms_elem mode (B3 0 0 0) s t) as [e f]. cbn in a, b, e, f.
  assert (Dc := cos_deriv U tau). assert (Ds := sin_deriv U tau).
  assert (Lin : forall c0 c1 c2, derivable_pt_lim (fun x => c0 + (c1 * cos (U * x) + c2 * sin (U * x))) tau (0 + (c1 * (- U * sin (U * tau)) + c2 * (U * cos (U * tau))))).
  { intros c0 c1 c2. exact (derivable_pt_lim_plus _ _ tau _ _ (derivable_pt_lim_const c0 tau) (derivable_pt_lim_plus _ _ tau _ _ (derivable_pt_lim_scal _ c1 tau _ Dc) (derivable_pt_lim_scal _ c2 tau _ Ds))). }
  split.
  - apply (deriv_eq _ _ tau _ _ (Lin ((a - e) / 2) ((a + e) / 2) (- (b + f) / 2))); [intros x; rewrite EA; unfold atom_one, atom_three; cbn; field|unfold atom_one, atom_three; cbn; field].
  - apply (deriv_eq _ _ tau _ _ (Lin ((b - f) / 2) ((b + f) / 2) ((a + e) / 2))); [intros x; rewrite EA; unfold atom_one, atom_three; cbn; field|unfold atom_one, atom_three; cbn; field].
Qed.

