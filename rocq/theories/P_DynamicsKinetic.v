(** THEOREMS: C64, C66, C67, C68 for the programs with the one-operator basis (kinetic part only). *)
From Coq Require Import Sorting.Sorted ZifyBool Reals Lra.
From Verif Require Import Base Spec_Fock FockFacts M_Operator M_Lattice Spec_Lattice Pf_Lattice M_Basis Pf_Basis P_Basis M_Matrix M_MatrixCheck M_Ode Spec_Ode
  Spec_Algebra Pf_Algebra Spec_Matrix Spec_Momentum Spec_Dynamics Pf_Matrix Pf_Matrix2 Pf_MatrixEntry P_Matrix Pf_Ode P_Ode P_Momentum P_Dynamics
  M_Dispersion M_OpenMP Spec_OpenMP M_SiteOccupation Spec_Slater P_SiteOccupation P_Positive Ex_Matrix Pf_Wick Spec_Stability.
Local Open Scope Z_scope.
Local Open Scope list_scope.

Section S.
Context (K : StarRing).
Add Ring KringDynKin : (rth K).
Local Open Scope ring_scope_.
Local Notation len u := (Z.of_nat (length u)).

Lemma kin_entry (sort : list (triplet K) -> list (triplet K)) (J : K) lat N m : sorts_by_column sort -> shipped3 lat N ->
  (N * lat_coordination lat < two64)%Z -> init_kinetic_matrix sort J lat = Ok m ->
  forall i j, site N i -> entry m i j = - J * adjc lat i j.
Proof.
  intros Hs Hl Hf Em i j Hi. pose proof (shipped3_graph _ _ Hl) as HG. rewrite (init_kinetic_closed sort Hs _ lat N HG Hf) in Em. injection Em as <-.
  unfold entry, row_of. cbn [bm_done]. rewrite nth_zrange_map by exact Hi. etransitivity; [apply (entry_weight sort Hs)|]. apply weight_kin1.
Qed.
Lemma elem_vec_op mode (basis : list (monomial hub)) (h : list K) n s t : len h = n -> len basis = n ->
  terms_elem mode (vec_op basis h) s t = sum_over (fun j => vget h j * terms_elem mode (basis_op (nth (Z.to_nat j) basis [])) s t) (zrange 0 n).
Proof.
  intros Lh Lb. unfold terms_elem at 1, vec_op. rewrite sum_over_flat_map, (combine_zrange K h basis n Lh Lb), sum_over_map. apply sum_over_ext. intros j _.
  cbn [fst snd]. rewrite sum_over_map. unfold terms_elem. rewrite <- sum_over_mul_l. apply sum_over_ext. intros x _. unfold term_elem. cbn [prefactor operators]. ring.
Qed.

(** C64: the one-operator basis is closed under commutation with the hopping Hamiltonian, so the integrated equation
    is the Heisenberg equation itself: [i [H, A(h)] = A(i M h)], matrix element by matrix element, without projection. *)
Theorem C64_kinetic : forall (sort : list (triplet K) -> list (triplet K)) (J ii : K) lat N mode h,
  sorts_by_column sort -> shipped3 lat N -> (N * lat_coordination lat < two64)%Z -> numbers_orbitals mode N -> len h = N ->
  exists m, init_kinetic_matrix sort J lat = Ok m /\
    forall s t, ii * comm_elem mode (H_kin lat J) (vec_op (basis1 lat) h) s t =
      terms_elem mode (vec_op (basis1 lat) (sp_vec (bm_scale ii m) h)) s t.
Proof.
  intros sort J ii lat N mode h Hs Hl Hf Hm Lh. pose proof (shipped3_graph _ _ Hl) as HG.
  destruct (C30_one_operator K sort J lat N mode Hs Hl Hf Hm) as (m & Em & Hc).
  destruct (C32_kinetic K sort J lat N Hs Hl Hf) as (m2 & Em2 & Hw & _). assert (m2 = m) by congruence. subst m2.
  exists m. split; [exact Em|]. intros s t.
  assert (L : len (basis1 lat) = N) by (rewrite (basis1_len lat N (g_reg _ _ HG)); pose proof (HNpos lat N HG); lia).
  assert (B : forall j, site N j -> nth (Z.to_nat j) (basis1 lat) [] = [hop true j true]) by (intros j Hj; apply nth_error_nth, (basis1_nth lat N (g_reg _ _ HG) j Hj)).
  destruct (sparse_linear K N (bm_scale ii m) (wf_scale K ii m N Hw) h Lh) as [L' Hv].
  rewrite (elem_vec_op mode _ _ N s t L' L), comm_vec_op, (combine_zrange K h (basis1 lat) N Lh L), sum_over_map, <- sum_over_mul_l. cbn [fst snd].
  pose (u := map (fun k => terms_elem (K := K) mode (B1 k) s t) (zrange 0 N)).
  assert (Lu : len u = N) by (unfold u; rewrite map_length, zrange_length; pose proof (HNpos lat N HG); lia).
  assert (Hu : forall k, site N k -> vget u k = terms_elem mode (B1 k) s t) by (intros k Hk; exact (nth_zrange_map (fun k => terms_elem (K := K) mode (B1 k) s t) N k 0 Hk)).
  transitivity (sum_over (fun j => ii * (vget h j * sum_over (fun k => entry m j k * terms_elem mode (B1 k) s t) (zrange 0 N))) (zrange 0 N)).
  - apply sum_over_ext. intros j Hj. apply zrange_in in Hj. f_equal. f_equal. rewrite B by exact Hj.
    destruct (Hc j s t Hj) as (b & Eb & Hb). rewrite (basis1_nth lat N (g_reg _ _ HG) j Hj) in Eb. injection Eb as <-.
    change (basis_op [hop true j true]) with (literal (K := K) [hop true j true]). rewrite Hb.
    transitivity (vget (sp_vec m u) j).
    + unfold combination. unfold vget at 1, sp_vec.
      pose proof (map_nth (fun row => sum_over (fun e => snd e * vget u (fst e)) row) (bm_done m) [] (Z.to_nat j)) as Q.
      rewrite sum_over_nil in Q. rewrite Q. fold (row_of m j). apply sum_over_ext. intros e He.
      assert (He' : site N (fst e)).
      { destruct Hw as (_ & Ln & _ & Hrows & _). rewrite Forall_forall in Hrows. unfold row_of in He.
        destruct (Hrows (nth (Z.to_nat j) (bm_done m) [])) as [_ R]; [apply nth_In; unfold site in Hj; lia|]. rewrite Forall_forall in R. apply (R e He). }
      rewrite (basis1_nth lat N (g_reg _ _ HG) _ He'), (Hu _ He'). reflexivity.
    + destruct (sparse_linear K N m Hw u Lu) as [_ Q]. rewrite Q by exact Hj. apply sum_over_ext. intros k Hk. apply zrange_in in Hk. rewrite Hu by exact Hk. reflexivity.
  - transitivity (sum_over (fun j => sum_over (fun k => ii * vget h j * (entry m j k * terms_elem mode (B1 k) s t)) (zrange 0 N)) (zrange 0 N)).
    { apply sum_over_ext. intros j _. rewrite <- sum_over_mul_l, <- sum_over_mul_l. apply sum_over_ext. intros k _. ring. }
    transitivity (sum_over (fun j => sum_over (fun i => entry (bm_scale ii m) j i * vget h i) (zrange 0 N) * terms_elem mode (B1 j) s t) (zrange 0 N)).
    2:{ apply sum_over_ext. intros j Hj. apply zrange_in in Hj. rewrite Hv by exact Hj. rewrite B by exact Hj. reflexivity. }
    rewrite sum_over_swap. apply sum_over_ext. intros k Hk. apply zrange_in in Hk. rewrite <- sum_over_mul_r. apply sum_over_ext. intros j Hj. apply zrange_in in Hj.
    rewrite entry_scale, (kin_entry sort J lat N m Hs Hl Hf Em j k Hj), (kin_entry sort J lat N m Hs Hl Hf Em k j Hk), (adjc_sym lat N HG j k Hj Hk). ring.
Qed.

(** C66 for the kinetic programs *)
Theorem C66_kinetic : forall (sort : list (triplet K) -> list (triplet K)) (J ii : K) lat N,
  kconj J = J -> kconj ii = - ii -> sorts_by_column sort -> shipped3 lat N -> (N * lat_coordination lat < two64)%Z ->
  exists m, init_kinetic_matrix sort J lat = Ok m /\
    let M' := bm_scale ii m in acts_as K N (entry M') (sp_vec M') /\ anti_hermitian K N (entry M').
Proof.
  intros sort J ii lat N HJ Hi Hs Hl Hf. pose proof (shipped3_graph _ _ Hl) as HG.
  destruct (C32_kinetic K sort J lat N Hs Hl Hf) as (m & Em & Hw & _). exists m. split; [exact Em|].
  split; [exact (sparse_linear K _ _ (wf_scale K ii m _ Hw))|].
  intros i j Ri Rj. rewrite !entry_scale, conj_mul, Hi, (kin_entry sort J lat N m Hs Hl Hf Em i j Ri), (kin_entry sort J lat N m Hs Hl Hf Em j i Rj).
  rewrite conj_mul, conj_opp, HJ. rewrite (adjc_sym lat N HG i j Ri Rj). unfold adjc. rewrite conj_sum_over.
  assert (Q : sum_over (fun x => kconj (delta (K := K) x i)) (lat_neighbors lat j) = sum_over (fun x => delta x i) (lat_neighbors lat j)) by (apply sum_over_ext; intros x _; apply conj_delta).
  rewrite Q. ring.
Qed.
Theorem C66_kinetic_step_norm : forall (sort : list (triplet K) -> list (triplet K)) (J half sixth ii : K) lat N rk st u,
  half + half = 1 -> sixth + sixth + sixth + sixth + sixth + sixth = 1 ->
  kconj J = J -> kconj ii = - ii -> kconj (rk_step_size rk) = rk_step_size rk ->
  sorts_by_column sort -> shipped3 lat N -> (N * lat_coordination lat < two64)%Z -> len u = N ->
  exists m, init_kinetic_matrix sort J lat = Ok m /\
    let mul := sp_vec (bm_scale ii m) in
    let u' := snd (rk_step half sixth rk mul st u) in let h := rk_step_size rk in
    Spec_Ode.num 24 * Spec_Ode.num 24 * inner u' u' + Spec_Ode.num 8 * hpow h 6 * inner (mpow mul 3 u) (mpow mul 3 u) =
    Spec_Ode.num 24 * Spec_Ode.num 24 * inner u u + hpow h 8 * inner (mpow mul 4 u) (mpow mul 4 u).
Proof.
  intros sort J half sixth ii lat N rk st u Hh H6 HJ Hi Hr Hs Hl Hf Lu.
  destruct (C66_kinetic sort J ii lat N HJ Hi Hs Hl Hf) as (m & Em & Ha & Hanti). cbv zeta in *.
  exists m. split; [exact Em|]. exact (C65_norm_drift K half sixth _ _ _ rk st u Hh H6 Ha Hanti Hr Lu).
Qed.

(** C67 for the one-operator basis *)
Theorem C67_initial_kinetic : forall lat N mode s t, shipped lat N ->
  exists v, init_vector (K := K) N = Ok v /\ len v = N /\
    terms_elem mode (vec_op (basis1 lat) v) s t = terms_elem mode (B1 0) s t.
Proof.
  intros lat N mode s t Hl. pose proof (shipped_regular _ _ Hl) as HR. pose proof (N_pos lat N HR) as HN.
  unfold init_vector. destruct (Z.leb_spec N 0); [lia|].
  eexists. split; [reflexivity|]. split; [rewrite list_set_length, map_length, zrange_length; lia|].
  assert (L : len (basis1 lat) = N) by (rewrite (basis1_len lat N HR); lia).
  set (v := list_set _ _ _). assert (Lv : len v = N) by (unfold v; rewrite list_set_length, map_length, zrange_length; lia).
  rewrite (elem_vec_op mode _ _ N s t Lv L). rewrite zrange_cons by lia. rewrite sum_over_cons.
  assert (V0 : vget v 0 = 1) by (unfold vget, v; change (Z.to_nat 0) with 0%nat; rewrite list_set_nth; [reflexivity|rewrite map_length, zrange_length; lia]).
  assert (B0 : nth (Z.to_nat 0) (basis1 lat) [] = [hop true 0 true]) by (apply nth_error_nth, (basis1_nth lat N HR); split; lia).
  rewrite V0, B0, sum_over_zero.
  - change (basis_op [hop true 0 true]) with (B1 (K := K) 0). ring.
  - intros j Hj. apply zrange_in in Hj.
    assert (Vj : vget v j = 0).
    { unfold vget, v. rewrite list_set_nth by (rewrite map_length, zrange_length; lia).
      destruct (Nat.eqb_spec (Z.to_nat j) 0); [lia|]. rewrite nth_zrange_map by lia. reflexivity. }
    rewrite Vj. ring.
Qed.
End S.

(** C68 for the one-operator basis *)
Theorem C68_nonnegative_kinetic : forall M mode N phis (rho : Z -> Z -> R) lat (v : list (R * R)) order T s r,
  numbers_orbitals mode N -> orbitals_below mode N M ->
  orthonormal (K := CR) N phis -> (forall i j, site N i -> site N j -> density phis i j = ((rho i j, 0%R) : CR)) ->
  shipped lat N -> Z.of_nat (length v) = N -> Permutation order (seq 0 (length (basis1 lat))) -> shares T 0 N s ->
  site_occupation1 (F := Rring) (/ 2)%R (by_site (F := Rring) rho) (basis1 lat) (basis_get_conjugate order (basis1 lat)) v T s = Some r ->
  exists x : R, r = Ok ((x, 0%R) : CR) /\ (0 <= x)%R.
Proof.
  intros M mode N phis rho lat v order T s r Hm Hl Ho Hr HL Hv Hp H1 R.
  rewrite (C43_site_occupation1 Rring (/ 2)%R ltac:(cbn; lra) M mode N Hm Hl phis rho Ho Hr lat v order T s r HL Hv Hp H1 R).
  match goal with |- context[Ok (braket M ?f ?f)] => destruct (square_pos M f) as [P Q]; exists (fst (braket M f f)); split; [|exact P]; f_equal; etransitivity; [apply surjective_pairing|]; f_equal; exact Q end.
Qed.
Example C64_kinetic_hypotheses : sorts_by_column (@isort Qcring) /\ shipped3 (square_lattice 3 3) 9 /\
  9 * lat_coordination (square_lattice 3 3) < two64 /\ numbers_orbitals orbital 9 /\
  (exists m, init_kinetic_matrix (K := Qcring) isort r1 (square_lattice 3 3) = Ok m) /\ kconj (r1 : Qcring) = r1.
Proof.
  destruct matrix_hypotheses_square as (A & B & C & _ & _ & D & _). split; [exact A|]. split; [exact B|]. split; [exact C|]. split; [exact D|].
  split; [|reflexivity].
  destruct (C32_kinetic Qcring isort r1 (square_lattice 3 3) 9 A B C) as (m & Em & _). exists m. exact Em.
Qed.
