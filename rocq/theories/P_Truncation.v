(** PROPERTY C118: the operator the program evolves is the true Heisenberg operator up to U^2 |J| t^3. *)
From Coq Require Import Reals Lra Psatz.
From Verif Require Import Base Spec_Fock FockFacts M_Operator M_Lattice Spec_Lattice Pf_Lattice M_Basis Pf_Basis M_Matrix M_MatrixCheck M_Ode M_Dispersion M_OpenMP Spec_Algebra Spec_Dynamics
  Pf_Matrix Spec_Matrix Pf_Matrix2 Pf_Trace Pf_Wick Pf_Liouville Pf_Projection Pf_MatrixEntry P_Matrix Spec_Stability Pf_Stability Pf_Stability2 Pf_Stability3 P_Stability Spec_Ode Pf_Ode P_Ode Pf_Commutator P_Dynamics P_DynamicsKinetic Spec_Programs P_OccupationFree Pf_Symmetry Pf_Theory Pf_Theory2 Pf_LightCone Spec_Truncation M_Programs Pf_Programs P_Parameters Ex_Matrix Pf_Truncation.
Local Open Scope R_scope.
Local Open Scope list_scope.
Local Notation len u := (Z.of_nat (length u)).

Section Motion.
  Context (sort : list (triplet CR) -> list (triplet CR)) (J U : R) (lat : lattice) (N : Z) (mode : hub -> nat) (M : nat).
  Hypothesis Hs : sorts_by_column sort.
  Hypothesis Hl : shipped3 lat N.
  Hypothesis Hf : fits3 lat N.
  Hypothesis Hm : numbers_orbitals mode N.
  Hypothesis Hb : orbitals_below mode N M.
  Let HG := shipped3_graph lat N Hl.
  Let n := (N + N * N * N)%Z.
  Let H := H_kin lat (real J : CR) ++ H_int lat (real U).
  Let B := basis3 lat.
  Let Hm_ := terms_elem mode H.
  Lemma H_hermitian s t : kconj (Hm_ s t) = Hm_ t s.
  Proof.
    unfold Hm_, terms_elem, H. rewrite !sum_over_app. fold (terms_elem mode (H_kin lat (real J : CR)) s t). fold (terms_elem mode (H_int lat (real U : CR)) s t). fold (terms_elem mode (H_kin lat (real J : CR)) t s). fold (terms_elem mode (H_int lat (real U : CR)) t s).
    rewrite conj_add. rewrite (kin_hermitian mode lat N HG (real J : CR) s t (conj_real J)). f_equal. rewrite !(int_diagonal mode lat N Hl).
    rewrite (N.eqb_sym s t). destruct (N.eqb_spec t s) as [->|]; apply conj_real.
  Qed.
  Lemma generator_anti : anti_hermitian CR (dim M * dim M) (super M imag_unit Hm_).
  Proof. apply super_anti; [exact H_hermitian|exact conj_i]. Qed.
  Lemma heisenberg_exact X : heisenberg M Hm_ X <-> exact_solution (dim M * dim M) (super M imag_unit Hm_) (fun t p => X t (prow M p) (pcol M p)).
  Proof.
    split.
    - intros HX t p Hp. destruct (parts_code M p Hp) as (S1 & S2 & E). destruct (HX t (prow M p) (pcol M p) S1 S2) as [D1 D2].
      pose proof (super_bracket M imag_unit Hm_ (X t) (prow M p) (pcol M p) S1 S2) as Q. rewrite E in Q. cbv zeta. rewrite Q. split; assumption.
    - intros HX t s u Ss Su. destruct (code_parts M s u Su) as [E1 E2]. destruct (HX t (code M s u) (code_range M s u Ss Su)) as [D1 D2].
      rewrite (super_bracket M imag_unit Hm_ (X t) s u Ss Su) in D1, D2. rewrite E1, E2 in D1, D2. split; assumption.
  Qed.
  Context (m : bmat CR).
  Hypothesis Em : init_matrix sort (real J : CR) (real U) (real (1/2)) lat = Ok m.
  Let E := entry (bm_scale imag_unit m).
  Variable y : R -> Z -> CR.
  Hypothesis Hy : the_solution n E y.
  Variable X : R -> BinNums.N -> BinNums.N -> CR.
  Hypothesis HX : heisenberg M Hm_ X.
  Hypothesis X0 : forall s u, In s (fock M) -> In u (fock M) -> X 0 s u = terms_elem mode (B1 0) s u.
  Let A t := Am (K := CR) mode B n (y t).
  Lemma A_0 s u : A 0 s u = terms_elem mode (B1 0) s u.
  Proof.
    pose proof (HNpos lat N HG) as HN. destruct Hy as (_ & Y0 & _). unfold A, Am. rewrite (sum_over_ext CR _ (fun j => if (0 =? j)%Z then Bm mode B 0 s u else r0)).
    - rewrite (sum_at n (fun _ => Bm mode B 0 s u) 0) by (unfold n; nia). unfold Bm, B. rewrite (Bop_1 lat N Hl) by (unfold site; lia). reflexivity.
    - intros j Hj. apply zrange_in in Hj. rewrite (Y0 j Hj). unfold first_unit. rewrite (Z.eqb_sym 0 j). destruct (Z.eqb_spec j 0) as [->|]; [generalize (Bm (K := CR) mode B 0 s u)|generalize (Bm (K := CR) mode B j s u)]; intros [a b]; unfold real; cbn; apply (f_equal2 (@pair R R)); cbn; ring.
  Qed.
  Lemma entry_scaled i j : E i j = rmul imag_unit (entry m i j).
  Proof. apply entry_scale. Qed.
  Lemma A_motion s a b : In a (fock M) -> let dA := rmul imag_unit (radd (bracket M Hm_ (A s) a b) (missed mode B n H (entry m) (y s) a b)) in
    derivable_pt_lim (fun x => fst (A x a b)) s (fst dA) /\ derivable_pt_lim (fun x => snd (A x a b)) s (snd dA).
  Proof.
    intros Ha dA. destruct Hy as (Ht & _).
    pose proof (deriv_lin (fun j => Bm mode B j a b) n y (fun i => sum_over (K := CR) (fun j => rmul (E i j) (y s j)) (zrange 0 n)) s (fun j Hj => Ht s j Hj)) as D. cbv zeta in D.
    assert (Q : sum_over (K := CR) (fun i => rmul (sum_over (K := CR) (fun j => rmul (E i j) (y s j)) (zrange 0 n)) (Bm mode B i a b)) (zrange 0 n) = dA).
    { unfold dA. rewrite <- (missed_eq mode M B n H (entry m) (e_sym sort J U lat N Hs Hl Hf m Em) (y s) a b (on_H J U lat N mode M Hl Hb) (fun j Hj => on_Bop lat N mode M Hl Hf Hb j Hj) Ha).
      change (bracket M (terms_elem mode H) (Am mode B n (y s)) a b) with (bracket M Hm_ (A s) a b).
      transitivity (rmul imag_unit (Am mode B n (fun k => sum_over (K := CR) (fun j => rmul (entry m k j) (y s j)) (zrange 0 n)) a b)).
      - unfold Am. rewrite <- (sum_over_mul_l CR imag_unit). apply sum_over_ext. intros i _.
        assert (Q1 : sum_over (K := CR) (fun j => rmul (E i j) (y s j)) (zrange 0 n) = rmul imag_unit (sum_over (K := CR) (fun j => rmul (entry m i j) (y s j)) (zrange 0 n))).
        { rewrite <- (sum_over_mul_l CR imag_unit). apply sum_over_ext. intros j _. rewrite entry_scaled. generalize (entry m i j) (y s j). intros [a1 a2] [b1 b2]. cbn. apply (f_equal2 (@pair R R)); cbn; ring. }
        rewrite Q1. generalize (sum_over (K := CR) (fun j => rmul (entry m i j) (y s j)) (zrange 0 n)) (Bm (K := CR) mode B i a b). intros [a1 a2] [b1 b2]. cbn. apply (f_equal2 (@pair R R)); cbn; ring.
      - generalize (Am (K := CR) mode B n (fun k => sum_over (K := CR) (fun j => rmul (entry m k j) (y s j)) (zrange 0 n)) a b) (bracket M Hm_ (A s) a b). intros [a1 a2] [b1 b2]. cbn. apply (f_equal2 (@pair R R)); cbn; ring. }
    destruct D as [D1 D2]. rewrite Q in D1, D2. split; assumption.
  Qed.
  Lemma hs2_code F : SR (fun p => fst (F (prow M p) (pcol M p)) ^ 2 + snd (F (prow M p) (pcol M p)) ^ 2) (zrange 0 (dim M * dim M)) = hs2 M F.
  Proof.
    rewrite <- sum_SR. rewrite (sum_code M (K := Rring)). rewrite sum_SR. unfold hs2. apply SR_ext. intros s _. rewrite sum_SR. apply SR_ext. intros u Hu. destruct (code_parts M s u Hu) as [-> ->]. reflexivity.
  Qed.
  Lemma motion_bound t : 0 <= t -> hilbert_schmidt M (fun s u => rsub (A t s u) (X t s u)) <= 3 / 4 * neighbours lat * U ^ 2 * Rabs J * t ^ 3 * sqrt (c2r M).
  Proof.
    intros Ht.
    destruct (full_facts sort J 0 lat N Hs Hl Hf) as (m0 & Em0 & _). destruct (full_facts sort 0 U lat N Hs Hl Hf) as (mU & EmU & _).
    set (c := neighbours lat * U ^ 2 * Rabs J * sqrt (c2r M)).
    pose proof (near_solution (dim M * dim M) (super M imag_unit Hm_) (fun t p => X t (prow M p) (pcol M p)) (fun t p => A t (prow M p) (pcol M p))
      (fun s p => rmul imag_unit (missed mode B n H (entry m) (y s) (prow M p) (pcol M p))) (fun t => 3 / 4 * c * t ^ 3) (fun t => 9 / 4 * c * t ^ 2) t
      generator_anti (Logic.proj1 (heisenberg_exact X) HX) Ht) as Q.
    refine (Rle_trans _ _ _ (Rle_trans _ _ _ _ (Q _ _ _ _ _)) _).
    - rewrite hs_eq. rewrite <- hs2_code. apply Req_le. f_equal. apply SR_ext. intros p _. generalize (A t (prow M p) (pcol M p)) (X t (prow M p) (pcol M p)). intros [a1 a2] [b1 b2]. cbn. ring.
    - intros s p Hp. destruct (parts_code M p Hp) as (S1 & S2 & Ep).
      pose proof (super_bracket M imag_unit Hm_ (A s) (prow M p) (pcol M p) S1 S2) as Q1. rewrite Ep in Q1. cbv zeta. rewrite Q1.
      pose proof (A_motion s (prow M p) (pcol M p) S1) as D. cbv zeta in D. revert D. generalize (bracket M Hm_ (A s) (prow M p) (pcol M p)) (missed (K := CR) mode B n H (entry m) (y s) (prow M p) (pcol M p)). intros [a1 a2] [b1 b2] [D1 D2].
      split; [eapply deriv_eq; [exact D1|reflexivity|cbn; ring]|eapply deriv_eq; [exact D2|reflexivity|cbn; ring]].
    - intros p Hp. destruct (parts_code M p Hp) as (S1 & S2 & _). rewrite A_0. symmetry. apply X0; assumption.
    - ring.
    - intros s. eapply deriv_eq; [exact (derivable_pt_lim_scal _ (3 / 4 * c) s _ (derivable_pt_lim_pow s 3))|intros x; reflexivity|]. cbn [INR pred pow]. field.
    - intros s [Hs0 _].
      rewrite (SR_ext _ (fun p => fst (missed mode B n H (entry m) (y s) (prow M p) (pcol M p)) ^ 2 + snd (missed mode B n H (entry m) (y s) (prow M p) (pcol M p)) ^ 2)).
      2:{ intros p _. generalize (missed (K := CR) mode B n H (entry m) (y s) (prow M p) (pcol M p)). intros [a1 a2]. cbn. ring. }
      rewrite hs2_code. eapply Rle_trans; [apply sqrt_le_1_alt; apply (missed_bound sort J U lat N mode M Hs Hl Hf Hm Hb m m0 Em Em0 (y s))|].
      rewrite sqrt_mult_alt by apply pow2_ge_0. rewrite sqrt_mult_alt by (apply Rlt_le, c2r_pos). rewrite <- Rsqr_pow2, sqrt_Rsqr_abs.
      change (sqrt (n2 (idx (N + N * N * N)) (out (level N) 2 (vecf (y s))))) with (nrm (idx n) (out (level N) 2 (vecf (y s)))).
      pose proof (deep_amplitude sort J U lat N Hs Hl Hf m m0 mU Em Em0 EmU y Hy s Hs0) as DA.
      assert (P : 0 <= Rabs (3 / 2 * U) * sqrt (c2r M)) by (apply Rmult_le_pos; [apply Rabs_pos|apply sqrt_pos]).
      rewrite <- Rmult_assoc. eapply Rle_trans; [apply Rmult_le_compat_l; [exact P|exact DA]|]. apply Req_le. rewrite Rabs_mult, (Rabs_pos_eq (3 / 2)) by lra. unfold c.
      replace (U ^ 2) with (Rabs U * Rabs U) by (rewrite <- Rabs_mult, Rabs_pos_eq by nra; ring). field.
    - apply Req_le. unfold c. ring.
  Qed.
End Motion.

(** the length of the initial operator *)
Lemma start_length lat N mode M : shipped3 lat N -> fits3 lat N -> numbers_orbitals mode N -> orbitals_below mode N M ->
  hilbert_schmidt M (terms_elem mode (B1 (K := CR) 0)) = sqrt (c2r M).
Proof.
  intros Hl Hf Hm Hb. pose proof (HNpos lat N (shipped3_graph lat N Hl)) as HN. rewrite hs_eq, hs2_frob. f_equal.
  pose proof (gram_shipped lat N mode M Hl Hf Hm Hb 0 0 ltac:(nia) ltac:(nia)) as G. cbn [Z.eqb] in G. unfold Bm in G. rewrite (Bop_1 lat N Hl) in G by (unfold site; lia).
  rewrite c2_real in G. exact (f_equal fst G).
Qed.

(** for every shipped lattice, number of orbitals and ordering of them, all J, U and t >= 0: the operator with the exact coefficients and the solution of Heisenberg's
    equation with the same initial operator differ by at most (3 z / 4) U^2 |J| t^3 times the length of the initial operator *)
Theorem C118_truncation : forall (sort : list (triplet CR) -> list (triplet CR)) J U lat N mode M m y X,
  sorts_by_column sort -> shipped3 lat N -> fits3 lat N -> numbers_orbitals mode N -> orbitals_below mode N M ->
  init_matrix sort (real J : CR) (real U) (real (1/2)) lat = Ok m -> the_solution (N + N * N * N) (entry (bm_scale imag_unit m)) y ->
  heisenberg M (terms_elem mode (H_kin lat (real J) ++ H_int lat (real U))) X ->
  (forall s u, In s (fock M) -> In u (fock M) -> X 0 s u = terms_elem mode (B1 0) s u) ->
  forall t, 0 <= t ->
    hilbert_schmidt M (fun s u => rsub (terms_elem mode (vec_op (basis3 lat) (map (y t) (zrange 0 (N + N * N * N)))) s u) (X t s u))
    <= 3 / 4 * neighbours lat * U ^ 2 * Rabs J * t ^ 3 * hilbert_schmidt M (terms_elem mode (B1 0)).
Proof.
  intros sort J U lat N mode M m y X Hs Hl Hf Hm Hb Em Hy HX X0 t Ht. rewrite (start_length lat N mode M Hl Hf Hm Hb).
  refine (Rle_trans _ _ _ _ (motion_bound sort J U lat N mode M Hs Hl Hf Hm Hb m Em y Hy X HX X0 t Ht)).
  rewrite !hs_eq. apply Req_le. f_equal. apply hs2_ext. intros s u _ _. f_equal.
  pose proof (HNpos lat N (shipped3_graph lat N Hl)) as HN.
  assert (Ln : len (map (y t) (zrange 0 (N + N * N * N))) = (N + N * N * N)%Z) by (rewrite map_length, zrange_length; lia).
  rewrite (elem_vec_op CR mode (basis3 lat) _ (N + N * N * N) s u Ln (size_basis lat N Hl)). unfold Am. apply sum_over_ext. intros j Hj. apply zrange_in in Hj.
  unfold vget. rewrite nth_zrange_map by exact Hj. reflexivity.
Qed.

(** such a solution exists, and only one *)
Theorem C118_motion : forall J U lat N mode M X0, shipped3 lat N -> orbitals_below mode N M ->
  exists X, heisenberg M (terms_elem mode (H_kin lat (real J : CR) ++ H_int lat (real U))) X /\
    (forall s u, In s (fock M) -> In u (fock M) -> X 0 s u = X0 s u) /\
    forall X', heisenberg M (terms_elem mode (H_kin lat (real J : CR) ++ H_int lat (real U))) X' ->
      (forall s u, In s (fock M) -> In u (fock M) -> X' 0 s u = X0 s u) ->
      forall t s u, In s (fock M) -> In u (fock M) -> X' t s u = X t s u.
Proof.
  intros J U lat N mode M X0 Hl Hb. set (H := terms_elem mode (H_kin lat (real J : CR) ++ H_int lat (real U))). set (n := (dim M * dim M)%Z).
  assert (Hn : (0 <= n)%Z) by (unfold n; pose proof (dim_pos M); nia).
  pose proof (generator_anti J U lat N mode M Hl) as An. fold H n in An.
  set (E := super M imag_unit H) in *. set (row := fun i => SR (fun j => Rabs (fst (E i j)) + Rabs (snd (E i j))) (zrange 0 n)).
  assert (Rp : forall i, 0 <= row i) by (intros i; apply SR_nonneg; intros j _; pose proof (Rabs_pos (fst (E i j))); pose proof (Rabs_pos (snd (E i j))); lra).
  assert (Bd : row_bound n E (SR row (zrange 0 n))).
  { intros i Hi. fold (row i). apply zrange_in in Hi. revert Hi. generalize (zrange 0 n). induction l as [|a l IH]; intros Hi; [destruct Hi|]. cbn [SR].
    destruct Hi as [->|Hi]; [pose proof (SR_nonneg row l (fun i _ => Rp i)); lra|pose proof (IH Hi); pose proof (Rp a); lra]. }
  assert (Bp : 0 <= SR row (zrange 0 n)) by (apply SR_nonneg; intros; apply Rp).
  set (v := map (fun p => X0 (prow M p) (pcol M p)) (zrange 0 n)).
  assert (V : forall p, (0 <= p < n)%Z -> vget v p = X0 (prow M p) (pcol M p)) by (intros p Hp; unfold vget, v; apply (nth_zrange_map (fun p => X0 (prow M p) (pcol M p)) n p _ Hp)).
  destruct (exists_unique n E _ v An (row_op n E _ An Bd Bp) Bp) as (z & Hz & Z0 & Zu).
  assert (Rd : forall s u, In s (fock M) -> In u (fock M) -> (0 <= code M s u < n)%Z) by (intros; apply code_range; assumption).
  exists (fun t s u => z t (code M s u)). split; [|split].
  - apply (Logic.proj2 (heisenberg_exact J U lat mode M (fun t s u => z t (code M s u)))). fold H E n.
    intros t p Hp. destruct (parts_code M p Hp) as (_ & _ & Ep). rewrite Ep. cbv zeta.
    rewrite (sum_over_ext CR _ (fun j => rmul (E p j) (z t j))); [exact (Hz t p Hp)|]. intros j Hj. apply zrange_in in Hj. destruct (parts_code M j Hj) as (_ & _ & Ej). rewrite Ej. reflexivity.
  - intros s u Ss Su. rewrite (Z0 _ (Rd s u Ss Su)), (V _ (Rd s u Ss Su)). destruct (code_parts M s u Su) as [-> ->]. reflexivity.
  - intros X' H' I' t s u Ss Su. apply (Logic.proj1 (heisenberg_exact J U lat mode M X')) in H'. fold H E n in H'.
    pose proof (Zu _ H') as Q. destruct (code_parts M s u Su) as [E1 E2]. rewrite <- (Q (fun p Hp => eq_trans (I' (prow M p) (pcol M p) (Logic.proj1 (parts_code M p Hp)) (Logic.proj1 (Logic.proj2 (parts_code M p Hp)))) (eq_sym (V p Hp))) t (code M s u) (Rd s u Ss Su)).
    cbv beta. rewrite E1, E2. reflexivity.
Qed.

Local Lemma same_pair : forall a1 b1 a2 b2 : R, (a1 + - b1) * (a1 + - b1) + (a2 + - b2) * (a2 + - b2) <= 0 -> a1 = b1 /\ a2 = b2.
Proof.
  intros a b c d H. assert (H' : Rsqr (a + - b) + Rsqr (c + - d) = 0).
  { apply Rle_antisym; [exact H|apply Rplus_le_le_0_compat; apply Rle_0_sqr]. }
  destruct (Rplus_sqr_eq_0 _ _ H') as [E F]. split; lra.
Qed.

(** without interaction, or without hopping, nothing is lost *)
Theorem C118_closed : forall (sort : list (triplet CR) -> list (triplet CR)) J U lat N mode M m y X,
  sorts_by_column sort -> shipped3 lat N -> fits3 lat N -> numbers_orbitals mode N -> orbitals_below mode N M ->
  init_matrix sort (real J : CR) (real U) (real (1/2)) lat = Ok m -> the_solution (N + N * N * N) (entry (bm_scale imag_unit m)) y ->
  heisenberg M (terms_elem mode (H_kin lat (real J) ++ H_int lat (real U))) X ->
  (forall s u, In s (fock M) -> In u (fock M) -> X 0 s u = terms_elem mode (B1 0) s u) ->
  J = 0 \/ U = 0 -> forall t s u, 0 <= t -> In s (fock M) -> In u (fock M) ->
    terms_elem mode (vec_op (basis3 lat) (map (y t) (zrange 0 (N + N * N * N)))) s u = X t s u.
Proof.
  intros sort J U lat N mode M m y X Hs Hl Hf Hm Hb Em Hy HX X0 Z t s u Ht Ss Su.
  pose proof (C118_truncation sort J U lat N mode M m y X Hs Hl Hf Hm Hb Em Hy HX X0 t Ht) as Q.
  assert (R0 : 3 / 4 * neighbours lat * U ^ 2 * Rabs J * t ^ 3 * hilbert_schmidt M (terms_elem mode (B1 (K := CR) 0)) = 0) by (destruct Z as [-> | ->]; [rewrite Rabs_R0|]; ring).
  rewrite R0, hs_eq in Q. clear R0.
  match type of Q with sqrt (hs2 M ?F) <= 0 => assert (P : fst (F s u) ^ 2 + snd (F s u) ^ 2 <= hs2 M F); [|assert (S : hs2 M F <= 0)] end.
  - rewrite <- hs2_code. match goal with |- _ <= SR ?f _ => assert (G : forall l p, In p l -> (forall q, 0 <= f q) -> f p <= SR f l) end.
    { induction l as [|a l IH]; intros p Hp P; [destruct Hp|]. cbn [SR]. destruct Hp as [->|Hp]; [pose proof (SR_nonneg _ l (fun i _ => P i)); lra|pose proof (IH p Hp P); pose proof (P a); lra]. }
    destruct (code_parts M s u Su) as [E1 E2].
    eapply Rle_trans; [|apply (G (zrange 0 (dim M * dim M)) (code M s u)); [apply zrange_in, code_range; assumption|intros q; cbv beta; apply Rplus_le_le_0_compat; apply pow2_ge_0]]. cbv beta. rewrite E1, E2. apply Rle_refl.
  - match goal with |- ?h <= 0 => destruct (Rle_lt_dec h 0) as [L|L]; [exact L|exfalso; exact (Rlt_not_le _ _ (sqrt_lt_R0 h L) Q)] end.
  - cbv beta in P. revert P S. match goal with |- fst (rsub ?a ?b) ^ 2 + _ <= ?h -> _ => generalize h; generalize a b end. intros [a1 a2] [b1 b2] h P S. cbn in P.
    assert (D : (a1 + - b1) * (a1 + - b1) + (a2 + - b2) * (a2 + - b2) <= 0) by lra.
    destruct (same_pair _ _ _ _ D) as [-> ->]. reflexivity.
Qed.
(** ** what the program computes, against the true motion *)
Local Lemma SR_parts : forall (f : Z -> CR) l, SR (fun p => fst (f p) ^ 2 + snd (f p) ^ 2) l = SR (fun j => vecf f (j, true) * vecf f (j, true) + vecf f (j, false) * vecf f (j, false)) l.
Proof. intros f l. apply SR_ext. intros j _. unfold vecf, part. cbn [fst snd]. destruct (f j) as [a b]. cbn. ring. Qed.
Lemma hs_nrm M F : hilbert_schmidt M F = nrm (idx (dim M * dim M)) (vecf (fun p => F (prow M p) (pcol M p))).
Proof.
  rewrite hs_eq. unfold nrm. f_equal. rewrite <- hs2_code. unfold n2, dot. rewrite SR_idx. exact (SR_parts (fun p => F (prow M p) (pcol M p)) _).
Qed.
Lemma hs_triangle M F G X : hilbert_schmidt M (fun s u => @rsub CR (F s u) (X s u)) <= hilbert_schmidt M (fun s u => rsub (F s u) (G s u)) + hilbert_schmidt M (fun s u => rsub (G s u) (X s u)).
Proof.
  rewrite !hs_nrm. refine (Rle_trans _ _ _ _ (nrm_triangle _ _ _)). apply Req_le. apply nrm_ext. intros [p c] _. unfold vecf. cbn [fst snd].
  destruct (F (prow M p) (pcol M p)) as [f1 f2], (G (prow M p) (pcol M p)) as [g1 g2], (X (prow M p) (pcol M p)) as [x1 x2]. destruct c; cbn; ring.
Qed.
Section Steps.
  Context (lat : lattice) (N : Z) (mode : hub -> nat) (M : nat).
  Hypothesis Hl : shipped3 lat N.
  Hypothesis Hf : fits3 lat N.
  Hypothesis Hm : numbers_orbitals mode N.
  Hypothesis Hb : orbitals_below mode N M.
  (** the length of the operator with coefficients g *)
  Lemma hs_of_coefficients (u : list CR) (v : Z -> CR) : len u = (N + N * N * N)%Z ->
    hilbert_schmidt M (fun s t => @rsub CR (terms_elem mode (vec_op (basis3 lat) u) s t) (Am (K := CR) mode (basis3 lat) (N + N * N * N) v s t)) = sqrt (c2r M) * distance2 u v.
  Proof.
    intros L. rewrite (distance_nrm _ _ _ L). unfold nrm.
    rewrite <- sqrt_mult_alt by (apply Rlt_le, c2r_pos).
    rewrite hs_eq. f_equal.
    transitivity (hs2 M (Am (K := CR) mode (basis3 lat) (N + N * N * N) (fun j => rsub (vget u j) (v j)))).
    - apply hs2_ext. intros s t _ _. rewrite (elem_vec_op CR mode (basis3 lat) _ (N + N * N * N) s t L (size_basis lat N Hl)). unfold Am.
      rewrite <- sum_over_sub. apply sum_over_ext. intros j Hj. unfold Bm, Bop. generalize (terms_elem (K := CR) mode (basis_op (nth (Z.to_nat j) (basis3 lat) [])) s t). generalize (vget u j) (v j).
      intros [a1 a2] [b1 b2] [c1 c2]. apply (f_equal2 (@pair R R)); cbn; ring.
    - rewrite (hs2_Am lat N mode M Hl Hf Hm Hb). f_equal. unfold n2, dot. apply SR_ext. intros [j c] _. unfold vec, vecf. cbn [fst snd]. destruct (vget u j) as [a1 a2], (v j) as [b1 b2]. destruct c; cbn; ring.
  Qed.
End Steps.

(** the operator with the coefficients the program has after k steps is at most (3 z / 4) U^2 |J| t^3 + t dt^4 L^5 / 120 (times the initial length) away from the true one, t = k dt *)
Theorem C118_steps : forall (sort : list (triplet CR) -> list (triplet CR)) J U lat N mode M d dt X,
  sorts_by_column sort -> shipped3 lat N -> fits3 lat N -> numbers_orbitals mode N -> orbitals_below mode N M ->
  let L := 3 * neighbours lat * Rabs J + Rabs U in
  0 <= dt -> dt ^ 2 * L ^ 2 <= 8 ->
  heisenberg M (terms_elem mode (H_kin lat (real J : CR) ++ H_int lat (real U))) X ->
  (forall s u, In s (fock M) -> In u (fock M) -> X 0 s u = terms_elem mode (B1 0) s u) ->
  exists m u, init_matrix sort (real J : CR) (real U) (real (1/2)) lat = Ok m /\ init_vector (K := CR) (N + N * N * N) = Ok u /\
    forall sts, let t := INR (length sts) * dt in
      hilbert_schmidt M (fun s s' => @rsub CR (terms_elem mode (vec_op (basis3 lat) (program_run d dt m sts u)) s s') (X t s s'))
      <= (3 / 4 * neighbours lat * U ^ 2 * Rabs J * t ^ 3 + t * dt ^ 4 * L ^ 5 / 120) * hilbert_schmidt M (terms_elem mode (B1 0)).
Proof.
  intros sort J U lat N mode M d dt X Hs Hl Hf Hm Hb L Hdt Hst HX X0.
  destruct (C78_full sort J U lat N d dt Hs Hl Hf Hdt Hst) as (m & Em & Q).
  set (n := (N + N * N * N)%Z). assert (Hn : (0 < n)%Z) by (pose proof (HNpos lat N (shipped3_graph lat N Hl)); unfold n; nia).
  destruct (init_vector_unit n Hn) as (u & Eu & Lu & Vu). exists m, u. split; [exact Em|]. split; [exact Eu|]. intros sts. cbv zeta.
  destruct (the_solution_exists sort J U lat N m Hs Hl Hf Em) as (y & Hy). pose proof Hy as (Y1 & Y2 & _).
  specialize (Q sts u y Lu Y1 (fun i Hi => eq_trans (Y2 i Hi) (eq_sym (Vu i Hi)))). cbv zeta in Q.
  set (t := INR (length sts) * dt) in *. assert (Ht : 0 <= t) by (apply Rmult_le_pos; [apply pos_INR|exact Hdt]).
  eapply Rle_trans; [apply (hs_triangle M _ (Am (K := CR) mode (basis3 lat) n (y t)))|].
  assert (Lr : len (program_run d dt m sts u) = n).
  { destruct (full_facts sort J U lat N Hs Hl Hf) as (m1 & Em1 & A & _). rewrite Em in Em1. injection Em1 as <-. apply (run_len n _ _ A); exact Lu. }
  pose proof (hs_of_coefficients lat N mode M Hl Hf Hm Hb _ (y t) Lr) as HC. fold n in HC. rewrite HC, (start_length lat N mode M Hl Hf Hm Hb).
  pose proof (motion_bound sort J U lat N mode M Hs Hl Hf Hm Hb m Em y Hy X HX X0 t Ht) as MB. fold n in MB.
  assert (U1 : length2 u = 1).
  { unfold length2. rewrite (unit_norm n u Hn Lu Vu). apply sqrt_1. }
  rewrite U1, Rmult_1_r in Q. pose proof (Rmult_le_compat_l _ _ _ (sqrt_pos (c2r M)) Q) as Q'. fold L in Q'.
  match type of MB with ?a <= _ => match goal with |- _ + ?b <= _ => change b with a end end. lra.
Qed.

(** the chain of four sites with J = U = 1: after ten steps of 1/100 the program's operator is within 0.002 of the true one, relative to the initial length *)
Example C118_example : exists X m u,
  heisenberg 8 (terms_elem orbital (H_kin (chain_lattice 4) (real 1 : CR) ++ H_int (chain_lattice 4) (real 1))) X /\
  init_matrix isort (real 1 : CR) (real 1) (real (1/2)) (chain_lattice 4) = Ok m /\ init_vector (K := CR) 68 = Ok u /\
  forall sts, length sts = 10%nat ->
    hilbert_schmidt 8 (fun s s' => @rsub CR (terms_elem orbital (vec_op (basis3 (chain_lattice 4)) (program_run 68 (/ 100) m sts u)) s s') (X (/ 10) s s'))
    <= 2 / 1000 * hilbert_schmidt 8 (terms_elem orbital (B1 0)).
Proof.
  assert (T : (4 < two64)%Z) by reflexivity. assert (Hl : shipped3 (chain_lattice 4) 4) by (constructor; lia). assert (Hf : fits3 (chain_lattice 4) 4) by (unfold fits3; apply big; reflexivity).
  destruct (C118_motion 1 1 _ 4 orbital 8 (terms_elem orbital (B1 0)) Hl (orbital_below 4)) as (X & HX & X0 & _).
  destruct (C118_steps isort 1 1 _ 4 orbital 8 68 (/ 100) X isort_ok Hl Hf (orbital_numbers 4) (orbital_below 4)) as (m & u & Em & Eu & Q).
  - lra.
  - unfold neighbours. cbn [lat_coordination chain_lattice]. rewrite Rabs_R1. cbn. lra.
  - exact HX.
  - exact X0.
  - exists X, m, u. split; [exact HX|]. split; [exact Em|]. split; [exact Eu|]. intros sts Ls. specialize (Q sts). cbv zeta in Q. rewrite Ls in Q.
    assert (E : INR 10 * / 100 = / 10) by (cbn; lra). rewrite E in Q. eapply Rle_trans; [exact Q|]. apply Rmult_le_compat_r; [apply sqrt_pos|].
    unfold neighbours. cbn [lat_coordination chain_lattice]. rewrite Rabs_R1. cbn. lra.
Qed.
