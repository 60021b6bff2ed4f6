(** THEOREMS: C64 (the integrated equation is the projected Heisenberg equation), C66 (its
    generator is anti-hermitian), C67 (initial condition). *)
From Coq Require Import Sorting.Sorted ZifyBool.
From Verif Require Import Base Spec_Fock FockFacts M_Operator M_Lattice Spec_Lattice Pf_Lattice M_Basis Pf_Basis M_Matrix M_MatrixCheck M_Ode Spec_Ode
  Spec_Algebra Pf_Algebra Spec_Matrix Spec_Momentum Spec_Dynamics Pf_Matrix Pf_Matrix2 Pf_Trace Pf_Wick Pf_Liouville Pf_MatrixEntry Pf_Projection P_Matrix Pf_Ode P_Ode P_Momentum.
Local Open Scope Z_scope.
Local Open Scope list_scope.

Section S.
Context (K : StarRing).
Add Ring KringDyn : (rth K).
Local Open Scope ring_scope_.
Local Notation len u := (Z.of_nat (length u)).

Lemma comm_vec_op mode (H : list (term hub K)) basis h s t :
  comm_elem mode H (vec_op basis h) s t = sum_over (fun p => fst p * comm_elem mode H (basis_op (snd p)) s t) (combine h basis).
Proof.
  rewrite comm_elem_cw. unfold vec_op. rewrite sum_over_flat_map. apply sum_over_ext. intros p _.
  rewrite comm_elem_cw, sum_over_map, <- sum_over_mul_l. apply sum_over_ext. intros b _. cbn [prefactor operators]. ring.
Qed.
Lemma combine_zrange (h : list K) (basis : list (monomial hub)) n : len h = n -> len basis = n ->
  combine h basis = map (fun j => (vget h j, nth (Z.to_nat j) basis [])) (zrange 0 n).
Proof.
  intros Lh Lb. assert (Q0 : length h = length basis) by (apply Nat2Z.inj; congruence). apply (nth_ext _ _ (0, []) (0, [])).
  - rewrite combine_length, map_length, zrange_length. lia.
  - intros i Hi. rewrite combine_length in Hi. rewrite combine_nth by exact Q0.
    pose proof (nth_zrange_map (fun j => (vget h j, nth (Z.to_nat j) basis [])) n (Z.of_nat i) (0, []) ltac:(lia)) as Q. rewrite Nat2Z.id in Q.
    etransitivity; [|symmetry; exact Q]. unfold vget. rewrite Nat2Z.id. reflexivity.
Qed.
Lemma row_scale c (m : bmat K) i : row_of (bm_scale c m) i = map (fun e => (fst e, c * snd e)) (row_of m i).
Proof.
  unfold row_of, bm_scale. cbn [bm_done]. exact (map_nth (map (fun e => (fst e, c * snd e))) (bm_done m) [] (Z.to_nat i)).
Qed.
Lemma entry_scale c (m : bmat K) i j : entry (bm_scale c m) i j = c * entry m i j.
Proof.
  unfold entry. rewrite row_scale. rewrite !sum_over_filter, sum_over_map, <- sum_over_mul_l. apply sum_over_ext. intros e _. cbn [fst snd].
  destruct (fst e =? j)%Z; ring.
Qed.
Lemma wf_scale c (m : bmat K) n : well_formed m n -> well_formed (bm_scale c m) n.
Proof.
  intros (A & B & C & D & E). repeat split; cbn [bm_scale bm_size bm_cap bm_done bm_cur].
  - exact A.
  - rewrite map_length. exact B.
  - rewrite C. reflexivity.
  - rewrite Forall_forall in *. intros r Hr. apply in_map_iff in Hr as (x & <- & Hx). destruct (D x Hx) as [D1 D2].
    rewrite map_map. cbn [fst]. split; [exact D1|]. rewrite Forall_forall in *. intros e He. apply in_map_iff in He as (y & <- & Hy). apply (D2 y Hy).
  - revert E. unfold bm_nonzeros, bm_scale. cbn [bm_done bm_cur bm_cap]. rewrite map_length.
    assert (Q : forall l a, fold_right (fun r k => (length r + k)%nat) a (map (map (fun e : Z * K => (fst e, c * snd e))) l) = fold_right (fun r k => (length r + k)%nat) a l).
    { induction l as [|r l IH]; intros a; cbn [map fold_right]; [reflexivity|]. rewrite map_length, IH. reflexivity. }
    rewrite Q. auto.
Qed.

(** The general step from "entries are projections" to the equation of motion. *)
Lemma eom (m : bmat K) n basis mode H M ii h k b :
  well_formed m n -> len basis = n -> len h = n ->
  (forall i j, (0 <= i < n)%Z -> (0 <= j < n)%Z -> entry m i j = entry m j i) ->
  (forall row col x y, (0 <= row)%Z -> (0 <= col)%Z ->
     nth_error basis (Z.to_nat row) = Some x -> nth_error basis (Z.to_nat col) = Some y ->
     frobenius M (terms_elem mode (basis_op y)) (comm_elem mode H (basis_op x)) =
     entry m row col * frobenius M (terms_elem mode (basis_op y)) (terms_elem mode (basis_op y))) ->
  (0 <= k)%Z -> nth_error basis (Z.to_nat k) = Some b ->
  frobenius M (terms_elem mode (basis_op b)) (fun s t => ii * comm_elem mode H (vec_op basis h) s t) =
  vget (sp_vec (bm_scale ii m) h) k * frobenius M (terms_elem mode (basis_op b)) (terms_elem mode (basis_op b)).
Proof.
  intros Hw Lb Lh Hsym Hp Hk Eb.
  assert (Rk : (Z.to_nat k < length basis)%nat) by (apply nth_error_Some; congruence).
  rewrite frob_scale.
  rewrite (frob_ext M _ (comm_elem mode H (vec_op basis h)) (fun s t => sum_over (fun p => fst p * comm_elem mode H (basis_op (snd p)) s t) (combine h basis)))
    by (intros s t; apply comm_vec_op).
  rewrite (frob_sum M _ (fun p s t => fst p * comm_elem mode H (basis_op (snd p)) s t)).
  rewrite (combine_zrange h basis n Lh Lb), sum_over_map.
  rewrite (proj2 (sparse_linear K n (bm_scale ii m) (wf_scale ii m n Hw) h Lh)) by lia.
  rewrite <- sum_over_mul_r, <- sum_over_mul_l. apply sum_over_ext. intros j Hj. apply zrange_in in Hj. cbn [fst snd].
  rewrite frob_scale, entry_scale.
  assert (Ej : nth_error basis (Z.to_nat j) = Some (nth (Z.to_nat j) basis [])) by (apply nth_error_nth'; lia).
  assert (P : frobenius M (terms_elem mode (basis_op b)) (comm_elem mode H (basis_op (nth (Z.to_nat j) basis []))) =
    entry m j k * frobenius M (terms_elem mode (basis_op b)) (terms_elem mode (basis_op b))).
  { apply Hp; auto. lia. }
  transitivity (ii * (vget h j * (entry m j k * frobenius M (terms_elem mode (basis_op b)) (terms_elem mode (basis_op b))))).
  - rewrite <- P. reflexivity.
  - rewrite (Hsym k j) by lia. ring.
Qed.

(** C64: with M' = ii * M, (M' h)_k is the coefficient of B_k in ii [H, sum_j h_j B_j],
    projected on the basis. *)
Theorem C64_real_space : forall (sort : list (triplet K) -> list (triplet K)) (J U half ii : K) lat N mode M h,
  half + half = 1 -> sorts_by_column sort -> shipped3 lat N -> fits3 lat N ->
  numbers_orbitals mode N -> orbitals_below mode N M -> len h = (N + N * N * N)%Z ->
  exists m, init_matrix sort J U half lat = Ok m /\
    forall k b, (0 <= k)%Z -> nth_error (basis3 lat) (Z.to_nat k) = Some b ->
      frobenius M (terms_elem mode (basis_op b))
        (fun s t => ii * comm_elem mode (H_kin lat J ++ H_int lat U) (vec_op (basis3 lat) h) s t) =
      vget (sp_vec (bm_scale ii m) h) k *
        frobenius M (terms_elem mode (basis_op b)) (terms_elem mode (basis_op b)).
Proof.
  intros sort J U half ii lat N mode M h Hh Hs Hl Hf Hm Hb Lh. pose proof (shipped3_graph _ _ Hl) as HG.
  destruct (C31_projection K sort J U half lat N mode M Hh Hs Hl Hf Hm Hb) as (m & Em & Hp).
  destruct (C34_symmetric K sort J U half lat N Hs Hl Hf) as (m1 & Em1 & Hsym).
  destruct (C32_full K sort J U half lat N Hs Hl Hf) as (m2 & Em2 & Hw).
  assert (m1 = m) by congruence. assert (m2 = m) by congruence. subst m1 m2.
  exists m. split; [exact Em|]. intros k b Hk Eb.
  assert (L : len (basis3 lat) = (N + N * N * N)%Z) by (rewrite (basis3_len lat N (g_reg _ _ HG)); pose proof (HNpos lat N HG); nia).
  apply (eom m (N + N * N * N) (basis3 lat) mode _ M ii h k b); assumption.
Qed.
Theorem C64_momentum_space : forall N q (eps : Z -> K) g U half ii b mode M h,
  (0 < N)%Z -> (N * (1 + 3 * N) < two64)%Z -> site N q -> is_momentum_basis N q b ->
  half + half = 1 -> per_site N g U -> numbers_orbitals mode N -> orbitals_below mode N M -> len h = (1 + N * N)%Z ->
  exists m, mom_init_matrix b N eps (U * half) (g * half) = Ok m /\
    forall k x, (0 <= k)%Z -> nth_error b (Z.to_nat k) = Some x ->
      frobenius M (terms_elem mode (basis_op x))
        (fun s t => ii * comm_elem mode (H_disp N eps ++ H_sc N g) (vec_op b h) s t) =
      vget (sp_vec (bm_scale ii m) h) k *
        frobenius M (terms_elem mode (basis_op x)) (terms_elem mode (basis_op x)).
Proof.
  intros N q eps g U half ii b mode M h HN Hf Hq Hb Hh Hg Hm Hbel Lh.
  destruct (C35_projection K N q eps g U half b mode M HN Hf Hq Hb Hh Hg Hm Hbel) as (m & Em & Hp).
  destruct (C35_matrix K N q eps (U * half) (g * half) b HN Hf Hq Hb) as (m1 & Em1 & Hw & _ & _ & _ & _ & _ & Hsym).
  assert (m1 = m) by congruence. subst m1.
  exists m. split; [exact Em|]. intros k x Hk Ex.
  assert (L : len b = (1 + N * N)%Z) by (rewrite (mb_closed N q b HN Hf Hq Hb), mom_closed_length by exact HN; nia).
  apply (eom m (1 + N * N) b mode _ M ii h k x); assumption.
Qed.

(** ** C66: with real parameters the generator ii * M is anti-hermitian *)
Lemma half_real (half : K) : half + half = 1 -> kconj half = half.
Proof.
  intros H. transitivity (half * kconj (half + half)).
  - rewrite conj_add. replace (half * (kconj half + kconj half)) with ((half + half) * kconj half) by ring. rewrite H. ring.
  - rewrite H, conj_1. ring.
Qed.
Lemma conj_entry (sort : list (triplet K) -> list (triplet K)) (Hs : sorts_by_column sort) l j :
  (forall t, In t l -> kconj (t_val t) = t_val t) ->
  kconj (sum_over snd (filter (fun e => (fst e =? j)%Z) (pairs (sort l)))) = sum_over snd (filter (fun e => (fst e =? j)%Z) (pairs (sort l))).
Proof.
  intros H. rewrite (entry_weight sort Hs). unfold weight. rewrite conj_sum_over. apply sum_over_ext. intros t Ht.
  rewrite conj_mul, conj_delta, (H t Ht). reflexivity.
Qed.
Lemma real_entries (sort : list (triplet K) -> list (triplet K)) (J U half : K) lat N m :
  half + half = 1 -> kconj J = J -> kconj U = U -> sorts_by_column sort -> shipped3 lat N -> fits3 lat N ->
  init_matrix sort J U half lat = Ok m ->
  forall i j, (0 <= i < N + N * N * N)%Z -> kconj (entry m i j) = entry m i j.
Proof.
  intros Hh HJ HU Hs Hl Hf Em i j Hi. pose proof (shipped3_graph _ _ Hl) as HG.
  pose proof (fits3_S3 lat N HG Hf) as HS. rewrite (init_matrix_closed sort Hs J U half lat N HG HS Hf) in Em. injection Em as <-.
  unfold entry, row_of. cbn [bm_done].
  assert (HUh : kconj (U * half) = U * half) by (rewrite conj_mul, HU, (half_real half Hh); reflexivity).
  assert (HnJ : kconj (- J) = - J) by (rewrite conj_opp, HJ; reflexivity).
  destruct (col_cases lat N HG HS i Hi) as [Ri|(i0 & i1 & i2 & I0 & I1 & I2 & ->)].
  - rewrite (nth_rows1 sort J U half lat N) by assumption. apply conj_entry; [exact Hs|]. intros t Ht.
    unfold triplets1 in Ht. apply in_app_or in Ht as [Ht|Ht].
    + apply in_map_iff in Ht as (x & <- & _). cbn [t_val]. assumption.
    + cbn in Ht. intuition (subst; cbn [t_val]; assumption).
  - rewrite (nth_rows3 sort J U half lat N HG HS) by assumption. apply conj_entry; [exact Hs|]. intros t Ht.
    unfold triplets3, kinetic_triplets3 in Ht. rewrite !in_app_iff, !in_map_iff in Ht.
    destruct Ht as [[(x & <- & _)|[(x & <- & _)|(x & <- & _)]]|[Ht|Ht]]; cbn [t_val]; try assumption.
    + destruct ((i0 =? i1)%Z && (i0 =? i2)%Z)%bool; cbn in Ht; [destruct Ht as [<-|[]]; exact HUh|destruct Ht].
    + cbn in Ht. destruct Ht as [<-|[]]; exact HUh.
Qed.
Theorem C66_real_space : forall (sort : list (triplet K) -> list (triplet K)) (J U half ii : K) lat N,
  half + half = 1 -> kconj J = J -> kconj U = U -> kconj ii = - ii ->
  sorts_by_column sort -> shipped3 lat N -> fits3 lat N ->
  exists m, init_matrix sort J U half lat = Ok m /\
    let M' := bm_scale ii m in let n := (N + N * N * N)%Z in
    acts_as K n (entry M') (sp_vec M') /\ anti_hermitian K n (entry M').
Proof.
  intros sort J U half ii lat N Hh HJ HU Hi Hs Hl Hf.
  destruct (C34_symmetric K sort J U half lat N Hs Hl Hf) as (m & Em & Hsym).
  destruct (C32_full K sort J U half lat N Hs Hl Hf) as (m2 & Em2 & Hw). assert (m2 = m) by congruence. subst m2.
  exists m. split; [exact Em|]. split; [exact (sparse_linear K _ _ (wf_scale ii m _ Hw))|].
  intros i j Ri Rj. rewrite !entry_scale, conj_mul, Hi, (real_entries sort J U half lat N m Hh HJ HU Hs Hl Hf Em i j Ri).
  rewrite (Hsym i j Ri Rj). ring.
Qed.
(** Together with C65: one step of the shipped program changes the norm by exactly this. *)
Theorem C66_step_norm : forall (sort : list (triplet K) -> list (triplet K)) (J U half sixth ii : K) lat N rk st u,
  half + half = 1 -> sixth + sixth + sixth + sixth + sixth + sixth = 1 ->
  kconj J = J -> kconj U = U -> kconj ii = - ii -> kconj (rk_step_size rk) = rk_step_size rk ->
  sorts_by_column sort -> shipped3 lat N -> fits3 lat N -> len u = (N + N * N * N)%Z ->
  exists m, init_matrix sort J U half lat = Ok m /\
    let mul := sp_vec (bm_scale ii m) in
    let u' := snd (rk_step half sixth rk mul st u) in let h := rk_step_size rk in
    Spec_Ode.num 24 * Spec_Ode.num 24 * inner u' u' + Spec_Ode.num 8 * hpow h 6 * inner (mpow mul 3 u) (mpow mul 3 u) =
    Spec_Ode.num 24 * Spec_Ode.num 24 * inner u u + hpow h 8 * inner (mpow mul 4 u) (mpow mul 4 u).
Proof.
  intros sort J U half sixth ii lat N rk st u Hh H6 HJ HU Hi Hr Hs Hl Hf Lu.
  destruct (C66_real_space sort J U half ii lat N Hh HJ HU Hi Hs Hl Hf) as (m & Em & Ha & Hanti). cbv zeta in *.
  exists m. split; [exact Em|]. exact (C65_norm_drift K half sixth _ _ _ rk st u Hh H6 Ha Hanti Hr Lu).
Qed.
(** ** C67: the initial vector stands for the first basis operator *)
Theorem C67_initial : forall lat N mode s t, shipped3 lat N -> (N + N * N * N < two64)%Z ->
  exists v, init_vector (K := K) (N + N * N * N) = Ok v /\ len v = (N + N * N * N)%Z /\
    terms_elem mode (vec_op (basis3 lat) v) s t = terms_elem mode (B1 0) s t.
Proof.
  intros lat N mode s t Hl Hf. pose proof (shipped3_graph _ _ Hl) as HG. pose proof (HNpos lat N HG) as HN.
  assert (HP : (0 < N + N * N * N)%Z) by nia. unfold init_vector. destruct (Z.leb_spec (N + N * N * N) 0); [lia|].
  eexists. split; [reflexivity|]. split; [rewrite list_set_length, map_length, zrange_length; lia|].
  assert (L : len (basis3 lat) = (N + N * N * N)%Z) by (rewrite (basis3_len lat N (g_reg _ _ HG)); nia).
  set (v := list_set _ _ _). assert (Lv : len v = (N + N * N * N)%Z) by (unfold v; rewrite list_set_length, map_length, zrange_length; lia).
  unfold terms_elem at 1, vec_op. rewrite sum_over_flat_map, (combine_zrange v (basis3 lat) _ Lv L), sum_over_map.
  rewrite zrange_cons by lia. rewrite sum_over_cons.
  match goal with |- ?x + ?y = _ => assert (Y : y = 0); [|transitivity (x + 0); [exact (f_equal (radd x) Y)|]] end.
  { apply sum_over_zero. intros j Hj. apply zrange_in in Hj. cbn [fst snd]. rewrite sum_over_map. apply sum_over_zero. intros x _.
    assert (V0 : vget v j = 0).
    { unfold vget, v. rewrite list_set_nth by (rewrite map_length, zrange_length; lia).
      destruct (Nat.eqb_spec (Z.to_nat j) 0); [lia|]. rewrite nth_zrange_map by lia. reflexivity. }
    unfold term_elem. cbn [prefactor operators]. rewrite V0. ring. }
  cbn [fst snd]. assert (B0 : nth (Z.to_nat 0) (basis3 lat) [] = [hop true 0 true]).
  { apply nth_error_nth. apply (basis3_nth1 lat N (g_reg _ _ HG)). split; lia. }
  assert (V0 : vget v 0 = 1) by (unfold vget, v; change (Z.to_nat 0) with 0%nat; rewrite list_set_nth; [reflexivity|rewrite map_length, zrange_length; lia]).
  rewrite sum_over_map, V0.
  assert (Q : basis_op (K := K) (nth (Z.to_nat 0) (basis3 lat) []) = B1 0) by (etransitivity; [apply (f_equal basis_op); exact B0|reflexivity]).
  transitivity (sum_over (fun x0 : term hub K => term_elem mode {| prefactor := 1 * prefactor x0; operators := operators x0 |} s t) (B1 0) + 0).
  { f_equal. f_equal. exact Q. }
  unfold terms_elem, B1. rewrite !sum_over_cons, !sum_over_nil. unfold term_elem. cbn [prefactor operators]. ring.
Qed.
End S.
Print Assumptions C64_real_space.
Print Assumptions C64_momentum_space.
