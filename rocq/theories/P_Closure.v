(** PROPERTY C120: what the operator basis misses of the commutator with the Hamiltonian. *)
From Coq Require Import Reals Lra Psatz.
From Verif Require Import Base Spec_Fock FockFacts M_Operator M_Lattice Spec_Lattice Pf_Lattice M_Basis Pf_Basis M_Matrix M_MatrixCheck M_Ode M_Dispersion M_OpenMP Spec_Algebra Spec_Dynamics
  Pf_Matrix Spec_Matrix Pf_Matrix2 Pf_Trace Pf_Wick Pf_Liouville Pf_Projection Pf_MatrixEntry P_Matrix Spec_Stability Pf_Stability Pf_Stability2 Pf_Stability3 P_Stability Spec_Ode Pf_Ode P_Ode Pf_Commutator P_Dynamics P_DynamicsKinetic Spec_Programs P_OccupationFree Pf_Symmetry Pf_Theory Pf_Theory2 Pf_LightCone Spec_Truncation M_Programs Pf_Programs P_Parameters Ex_Matrix Pf_Truncation P_Truncation Spec_Closure.
Local Open Scope R_scope.
Local Open Scope list_scope.
Local Notation len u := (Z.of_nat (length u)).

Lemma hs2_ge M c X Y : (forall s t, In s (fock M) -> In t (fock M) -> c * (fst (Y s t) ^ 2 + snd (Y s t) ^ 2) <= fst (X s t) ^ 2 + snd (X s t) ^ 2) -> c * hs2 M Y <= hs2 M X.
Proof.
  intros H. unfold hs2. rewrite <- SR_mul. apply SR_le. intros s Hs. rewrite <- SR_mul. apply SR_le. intros t Ht. apply H; assumption.
Qed.
Lemma hs2_zero M X s t : hs2 M X <= 0 -> In s (fock M) -> In t (fock M) -> X s t = r0.
Proof.
  intros S Ss St.
  assert (G : forall (f : BinNums.N -> R) l p, In p l -> (forall q, 0 <= f q) -> f p <= SR f l).
  { intros f. induction l as [|a l IH]; intros p Hp P; [destruct Hp|]. cbn [SR]. destruct Hp as [->|Hp]; [pose proof (SR_nonneg _ l (fun i _ => P i)); lra|pose proof (IH p Hp P); pose proof (P a); lra]. }
  assert (P : forall a b, 0 <= fst (X a b) ^ 2 + snd (X a b) ^ 2) by (intros; apply Rplus_le_le_0_compat; apply pow2_ge_0).
  pose proof (G (fun b => fst (X s b) ^ 2 + snd (X s b) ^ 2) (fock M) t St (fun b => P s b)) as Q1.
  pose proof (G (fun a => SR (fun b => fst (X a b) ^ 2 + snd (X a b) ^ 2) (fock M)) (fock M) s Ss (fun a => SR_nonneg _ _ (fun b _ => P a b))) as Q2.
  unfold hs2 in S. cbv beta in Q1, Q2. revert Q1 Q2 S. generalize (SR (fun b => fst (X s b) ^ 2 + snd (X s b) ^ 2) (fock M)). intros r Q1 Q2 S.
  assert (Z0 : fst (X s t) ^ 2 + snd (X s t) ^ 2 <= 0) by lra. revert Z0. generalize (X s t). intros [a b]. cbn. intros Z0.
  destruct (Rplus_sqr_eq_0 a b) as [-> ->]; [unfold Rsqr; apply Rle_antisym; [lra|apply Rplus_le_le_0_compat; apply Rle_0_sqr]|reflexivity].
Qed.
(** a number of doublons is a whole number *)
Lemma doublons_whole mode N s : exists k, doublons mode N s = IZR k.
Proof.
  unfold doublons. generalize (Zseq N). induction l as [|i l (k & Hk)]; [exists 0%Z; reflexivity|]. cbn [SR]. rewrite Hk. unfold doubled.
  destruct (_ && _)%bool; [exists (1 + k)%Z|exists (0 + k)%Z]; rewrite plus_IZR; reflexivity.
Qed.
Lemma half_away k : 1 / 4 <= (IZR k - 1 / 2) ^ 2.
Proof.
  destruct (Z.le_gt_cases k 0) as [L|L].
  - assert (IZR k <= 0) by (apply IZR_le; exact L). nra.
  - assert (1 <= IZR k) by (apply IZR_le; lia). nra.
Qed.

Section Closure.
  Context (sort : list (triplet CR) -> list (triplet CR)) (J U : R) (lat : lattice) (N : Z) (mode : hub -> nat) (M : nat).
  Hypothesis Hs : sorts_by_column sort.
  Hypothesis Hl : shipped3 lat N.
  Hypothesis Hf : fits3 lat N.
  Hypothesis Hm : numbers_orbitals mode N.
  Hypothesis Hb : orbitals_below mode N M.
  Let HG := shipped3_graph lat N Hl.
  Let HS := fits3_S3 lat N HG Hf.
  Let n := (N + N * N * N)%Z.
  Context (m m0 : bmat CR).
  Hypothesis Em : init_matrix sort (real J : CR) (real U) (real (1/2)) lat = Ok m.
  Hypothesis Em0 : init_matrix sort (real J : CR) (real 0) (real (1/2)) lat = Ok m0.
  Let H := H_kin lat (real J : CR) ++ H_int lat (real U).
  Let B := basis3 lat.
  Local Lemma cancel_i (x y z : CR) : rsub (rmul imag_unit x) (rmul imag_unit y) = rmul imag_unit z -> rsub x y = z.
  Proof.
    destruct x as [a b], y as [c d], z as [e f]. cbn. intros E. injection E as E1 E2. apply (f_equal2 (@pair R R)); cbn; lra.
  Qed.
  (** below the on-site elements the interaction only enters the diagonal *)
  Lemma deep_diff j k : (0 <= j < n)%Z -> (0 <= k < n)%Z -> level N j = 2%Z -> rsub (entry m j k) (entry m0 j k) = if (j =? k)%Z then real (U / 2) else r0.
  Proof.
    intros Hj Hk Lj. apply cancel_i. rewrite <- !(entry_scale CR imag_unit).
    destruct (cases lat N Hl Hf j Hj) as [Qj|(a & b & c & Ha & Hb' & Hc & ->)]; [rewrite (level_1 N j Qj) in Lj; discriminate|].
    rewrite (level_3 lat N Hl Hf) in Lj by assumption.
    destruct (cases lat N Hl Hf k Hk) as [Qk|(a' & b' & c' & Ha' & Hb'' & Hc' & ->)].
    - rewrite (entry_31 sort J U lat N Hs Hl Hf m Em), (entry_31 sort J 0 lat N Hs Hl Hf m0 Em0) by assumption.
      destruct (Z.eqb_spec (get_3op_index N a b c) k) as [e|_].
      { exfalso. apply (idx_not_site lat N HG HS a b c k); assumption. }
      assert (Z3 : rmul (rmul (delta (K := CR) k a) (delta k b)) (delta k c) = r0).
      { destruct (Z.eqb_spec a b) as [e1|e1]; [destruct (Z.eqb_spec b c) as [e2|e2]; [discriminate Lj|]|].
        - subst b. unfold delta. destruct (Z.eqb_spec k a), (Z.eqb_spec k c); try lia; cbn; apply (f_equal2 (@pair R R)); cbn; ring.
        - unfold delta. destruct (Z.eqb_spec k a), (Z.eqb_spec k b); try lia; destruct (Z.eqb_spec k c); cbn; apply (f_equal2 (@pair R R)); cbn; ring. }
      rewrite Z3. cbn. apply (f_equal2 (@pair R R)); cbn; ring.
    - rewrite (entry_33 sort J U lat N Hs Hl Hf m Em), (entry_33 sort J 0 lat N Hs Hl Hf m0 Em0) by assumption. rewrite !(weight_33 _ _ _ lat N HG HS) by assumption.
      assert (D : (if (get_3op_index N a b c =? get_3op_index N a' b' c')%Z then real (U / 2) else r0) = rmul (real (U / 2)) (rmul (rmul (delta (K := CR) a a') (delta b b')) (delta c c'))).
      { rewrite <- (delta_idx lat N HG HS) by assumption. unfold delta. destruct (get_3op_index N a b c =? get_3op_index N a' b' c')%Z; cbn; apply (f_equal2 (@pair R R)); cbn; ring. }
      rewrite D. generalize (adjc (K := CR) lat a a') (adjc (K := CR) lat b b') (adjc (K := CR) lat c c') (delta (K := CR) a a') (delta (K := CR) b b') (delta (K := CR) c c').
      intros [x1 x2] [x3 x4] [x5 x6] [y1 y2] [y3 y4] [y5 y6]; unfold real, imag_unit; cbn; apply (f_equal2 (@pair R R)); cbn; field.
  Qed.
  (** what is missed, matrix element by matrix element *)
  Lemma missed_exactly h s t : In s (fock M) -> In t (fock M) ->
    missed mode B n H (entry m) h s t = rmul (real (- U * (doublons mode N t - doublons mode N s - 1 / 2))) (Am mode B n (far_part N h) s t).
  Proof.
    intros Ss St.
    assert (MF : missed mode B n H (entry m) h s t = missed mode B n H (entry m) (far_part N h) s t) by exact (missed_far sort J U lat N mode Hs Hl Hf Hm m Em h s t).
    rewrite MF. set (h2 := far_part N h) in *. set (u := real (U / 2) : CR).
    set (D := doublons mode N t - doublons mode N s).
    pose proof (missed_split mode B n (H_kin lat (real J)) (H_int lat (real U)) (entry m) (entry m0) u h2 s t (real (U * D))
      (fun j Hj => kin_closed sort J lat N mode Hs Hl Hf Hm m0 Em0 j s t Hj) (fun j Hj => int_comm U lat N mode M Hl Hf Hb j s t Hj Ss St)) as Q. fold H in Q.
    assert (Z0 : Am mode B n (fun k => rsub (sum_over (fun j => rmul (h2 j) (rsub (entry m j k) (entry m0 j k))) (zrange 0 n)) (rmul u (h2 k))) s t = r0).
    { unfold Am. apply sum_over_zero. intros k Hk. apply zrange_in in Hk.
      assert (E : sum_over (K := CR) (fun j => rmul (h2 j) (rsub (entry m j k) (entry m0 j k))) (zrange 0 n) = rmul u (h2 k)).
      { rewrite (sum_over_ext CR _ (fun j => if (k =? j)%Z then rmul u (h2 j) else r0)).
        - apply (sum_at n (fun j => rmul u (h2 j)) k Hk).
        - intros j Hj. apply zrange_in in Hj. rewrite (Z.eqb_sym k j). unfold h2, far_part. destruct (Z.leb_spec 2 (level N j)) as [L|L].
          + rewrite deep_diff; [|assumption|assumption|unfold level in *; destruct (_ <? _)%Z; [lia|]; destruct (_ && _)%bool; lia].
            destruct (j =? k)%Z; [|destruct (h j) as [x y]; cbn; apply (f_equal2 (@pair R R)); cbn; ring]. unfold u. destruct (h j) as [x y]. cbn. apply (f_equal2 (@pair R R)); cbn; ring.
          + destruct (rsub (entry m j k) (entry m0 j k)) as [x y]. destruct (j =? k)%Z; unfold u; cbn; apply (f_equal2 (@pair R R)); cbn; ring. }
      rewrite E. generalize (rmul u (h2 k)) (Bm (K := CR) mode B k s t). intros [a b] [c d]. cbn. apply (f_equal2 (@pair R R)); cbn; ring. }
    rewrite Z0 in Q. revert Q. generalize (missed (K := CR) mode B n H (entry m) h2 s t) (Am (K := CR) mode B n h2 s t). intros [a b] [c d]. unfold u. cbn. intros Q. injection Q as Q1 Q2.
    apply (f_equal2 (@pair R R)); cbn; lra.
  Qed.
  Lemma missed_sizes h : (U / 2) ^ 2 * hs2 M (Am mode B n (far_part N h)) <= hs2 M (missed mode B n H (entry m) h) <= (3 / 2 * U) ^ 2 * hs2 M (Am mode B n (far_part N h)).
  Proof.
    split; [apply hs2_ge|apply hs2_le]; intros s t Ss St; rewrite missed_exactly by assumption.
    - destruct (doublons_whole mode N s) as [ks ->], (doublons_whole mode N t) as [kt ->].
      rewrite <- minus_IZR. pose proof (half_away (kt - ks)) as A. generalize (Am (K := CR) mode B n (far_part N h) s t). intros [x y]. unfold real. cbn.
      assert (P2 : 0 <= x ^ 2 + y ^ 2) by nra. assert (P : 0 <= U ^ 2 * (x ^ 2 + y ^ 2)) by (apply Rmult_le_pos; [apply pow2_ge_0|exact P2]).
      pose proof (Rmult_le_compat_r _ _ _ P A) as Q. refine (Rle_trans _ _ _ (Req_le _ _ _) (Rle_trans _ _ _ Q (Req_le _ _ _))); field.
    - set (D := doublons mode N t - doublons mode N s).
      assert (Z0 : hs2 0 (fun _ _ => r0) = 0) by (unfold hs2; cbn; ring).
      destruct (Rlt_le_dec D (-1)) as [F|F]; [unfold B, n; rewrite (Am_far lat N mode Hl Hf Hm (far_part N h) s t) by (left; exact F); unfold real; cbn; lra|].
      destruct (Rlt_le_dec 2 D) as [F'|F']; [unfold B, n; rewrite (Am_far lat N mode Hl Hf Hm (far_part N h) s t) by (right; exact F'); unfold real; cbn; lra|].
      generalize (Am (K := CR) mode B n (far_part N h) s t). intros [x y]. unfold real. cbn.
      assert (P2 : 0 <= x ^ 2 + y ^ 2) by nra. assert (P : 0 <= U ^ 2 * (x ^ 2 + y ^ 2)) by (apply Rmult_le_pos; [apply pow2_ge_0|exact P2]).
      assert (A : (D - 1 / 2) ^ 2 <= 9 / 4) by nra. pose proof (Rmult_le_compat_r _ _ _ P A) as Q. refine (Rle_trans _ _ _ (Req_le _ _ _) (Rle_trans _ _ _ Q (Req_le _ _ _))); field.
  Qed.
End Closure.
Section Operators.
  Context (sort : list (triplet CR) -> list (triplet CR)) (J U : R) (lat : lattice) (N : Z) (mode : hub -> nat) (M : nat).
  Hypothesis Hs : sorts_by_column sort.
  Hypothesis Hl : shipped3 lat N.
  Hypothesis Hf : fits3 lat N.
  Hypothesis Hm : numbers_orbitals mode N.
  Hypothesis Hb : orbitals_below mode N M.
  Let HG := shipped3_graph lat N Hl.
  Let n := (N + N * N * N)%Z.
  Context (m m0 : bmat CR).
  Hypothesis Em : init_matrix sort (real J : CR) (real U) (real (1/2)) lat = Ok m.
  Hypothesis Em0 : init_matrix sort (real J : CR) (real 0) (real (1/2)) lat = Ok m0.
  Let H := H_kin lat (real J : CR) ++ H_int lat (real U).
  Let B := basis3 lat.
  Context (h : list CR).
  Hypothesis Lh : len h = n.
  Lemma vec_Am (g : list CR) s t : len g = n -> terms_elem mode (vec_op B g) s t = Am mode B n (vget g) s t.
  Proof. intros Lg. rewrite (elem_vec_op CR mode B g n s t Lg (size_basis lat N Hl)). reflexivity. Qed.
  Lemma on_vec (g : list CR) : len g = n -> on_modes mode M (vec_op B g).
  Proof.
    intros Lg. unfold on_modes. rewrite Forall_forall. intros x Hx. unfold vec_op in Hx. apply in_flat_map in Hx as ([c b] & Hp & Hx).
    apply in_map_iff in Hx as (t & <- & Ht). cbn [fst snd operators] in *. apply in_combine_r in Hp.
    apply (In_nth _ _ []) in Hp as (k & Hk & Ek). pose proof (size_basis lat N Hl) as SB. fold B in SB.
    pose proof (on_Bop lat N mode M Hl Hf Hb (Z.of_nat k)) as OB. unfold on_modes in OB. rewrite Forall_forall in OB.
    assert (Hk2 : (0 <= Z.of_nat k < N + N * N * N)%Z) by (clear - Hk SB; split; [lia|rewrite <- SB; apply inj_lt; exact Hk]).
    apply (OB Hk2 t). unfold Bop. rewrite Nat2Z.id. exact (eq_ind_r (fun q => In t (basis_op (K := CR) q)) Ht Ek).
  Qed.
  Lemma comm_vec s t : In s (fock M) -> comm_elem mode H (vec_op B h) s t = bracket M (terms_elem mode H) (Am mode B n (vget h)) s t.
  Proof.
    intros Ss. rewrite (comm_bracket mode M H (vec_op B h) s t (on_H J U lat N mode M Hl Hb) (on_vec h Lh) Ss).
    unfold bracket. apply sum_over_ext. intros u _. rewrite !(vec_Am h) by exact Lh. reflexivity.
  Qed.
  Lemma product_vec : len (sp_vec m h) = n /\ forall k, (0 <= k < n)%Z -> vget (sp_vec m h) k = sum_over (fun j => rmul (entry m k j) (vget h j)) (zrange 0 n).
  Proof. apply (sparse_linear CR n m (wf_m sort J U lat N Hs Hl Hf m Em) h Lh). Qed.
  Lemma product_misses s t : In s (fock M) -> rsub (terms_elem mode (vec_op B (sp_vec m h)) s t) (comm_elem mode H (vec_op B h) s t) = missed mode B n H (entry m) (vget h) s t.
  Proof.
    intros Ss. destruct product_vec as [Lp Vp]. rewrite (vec_Am _ s t Lp), comm_vec by exact Ss.
    rewrite <- (missed_eq mode M B n H (entry m) (e_sym sort J U lat N Hs Hl Hf m Em) (vget h) s t (on_H J U lat N mode M Hl Hb) (fun j Hj => on_Bop lat N mode M Hl Hf Hb j Hj) Ss).
    apply (f_equal (fun x => rsub x (bracket M (terms_elem mode H) (Am mode B n (vget h)) s t))). unfold Am. apply sum_over_ext. intros k Hk. apply zrange_in in Hk. rewrite (Vp k Hk). reflexivity.
  Qed.
  Lemma nearest (g : list CR) : len g = n ->
    hs2 M (missed mode B n H (entry m) (vget h)) <= hs2 M (fun s t => rsub (terms_elem mode (vec_op B g) s t) (comm_elem mode H (vec_op B h) s t)).
  Proof.
    intros Lg. destruct product_vec as [Lp Vp].
    eapply Rle_trans; [apply (hs2_closest M _ (Am mode B n (fun k => rsub (vget (sp_vec m h) k) (vget g k))));
      apply (missed_orthogonal mode M B n H (entry m) (c2 M) (gram_shipped lat N mode M Hl Hf Hm Hb) (proj_shipped sort J U lat N mode M Hs Hl Hf Hm Hb m Em))|].
    apply Req_le. apply hs2_ext. intros s t Ss _. rewrite <- product_misses by exact Ss. rewrite (vec_Am _ s t Lp), (vec_Am g s t Lg).
    assert (E : Am (K := CR) mode B n (fun k => rsub (vget (sp_vec m h) k) (vget g k)) s t = rsub (Am mode B n (vget (sp_vec m h)) s t) (Am mode B n (vget g) s t)).
    { unfold Am. rewrite <- sum_over_sub. apply sum_over_ext. intros j _. generalize (vget (sp_vec m h) j) (vget g j) (Bm (K := CR) mode B j s t). intros [a1 a2] [b1 b2] [d1 d2]. apply (f_equal2 (@pair R R)); cbn; ring. }
    rewrite E. generalize (Am (K := CR) mode B n (vget (sp_vec m h)) s t) (Am (K := CR) mode B n (vget g) s t) (comm_elem (K := CR) mode H (vec_op B h) s t).
    intros [a1 a2] [b1 b2] [d1 d2]. apply (f_equal2 (@pair R R)); cbn; ring.
  Qed.
  Lemma several_level j : (0 <= j < n)%Z -> several_sites (nth (Z.to_nat j) B []) = (2 <=? level N j)%Z.
  Proof.
    intros Hj. pose proof (fits3_S3 lat N HG Hf) as HS. destruct (cases lat N Hl Hf j Hj) as [Qj|(a & b & c & Ha & Hb' & Hc & ->)].
    - rewrite (level_1 N j Qj). unfold B. rewrite (nth_error_nth _ _ _ (basis3_nth1 lat N (g_reg _ _ HG) j Qj)). unfold several_sites, index1. cbn. rewrite Z.eqb_refl. reflexivity.
    - rewrite (level_3 lat N Hl Hf) by assumption. unfold B. rewrite (nth_error_nth _ _ _ (basis3_get lat N (g_reg _ _ HG) HS a b c Ha Hb' Hc)). unfold several_sites, index1. cbn.
      rewrite !Z.eqb_refl, (Z.eqb_sym b a), (Z.eqb_sym c a), (Z.eqb_sym c b). destruct (Z.eqb_spec a b), (Z.eqb_spec b c), (Z.eqb_spec a c); subst; cbn; try reflexivity; lia.
  Qed.
  Lemma several_len : len (several_part lat h) = n.
  Proof. unfold several_part. rewrite map_length, combine_length. pose proof (size_basis lat N Hl) as SB. fold n in SB. rewrite Nat.min_l; [exact Lh|]. apply Nat.eq_le_incl, Nat2Z.inj. exact (eq_trans Lh (eq_sym SB)). Qed.
  Lemma several_vget j : (0 <= j < n)%Z -> vget (several_part lat h) j = far_part N (vget h) j.
  Proof.
    intros Hj. pose proof (size_basis lat N Hl) as SB. fold n in SB.
    unfold several_part, far_part, vget. rewrite <- (several_level j Hj).
    assert (SB2 : length h = length (basis3 lat)) by (apply Nat2Z.inj; exact (eq_trans Lh (eq_sym SB))).
    pose (f := fun p : CR * monomial hub => if several_sites (snd p) then fst p else r0).
    refine (eq_trans (nth_indep _ _ (f (r0, [])) _) (eq_trans (map_nth f (combine h B) (r0, []) (Z.to_nat j)) _)).
    - rewrite map_length. assert (LC : length (combine h (basis3 lat)) = length h) by (rewrite combine_length; apply Nat.min_l, Nat.eq_le_incl; exact SB2).
      refine (eq_ind_r (fun q => (_ < q)%nat) _ LC). clear - Hj Lh. lia.
    - rewrite combine_nth by exact SB2. reflexivity.
  Qed.
  Lemma several_Am s t : terms_elem mode (vec_op B (several_part lat h)) s t = Am mode B n (far_part N (vget h)) s t.
  Proof. rewrite (vec_Am _ s t several_len). unfold Am. apply sum_over_ext. intros j Hj. apply zrange_in in Hj. rewrite several_vget by exact Hj. reflexivity. Qed.
End Operators.

(** how far the operator with coefficients g is from the commutator of the Hamiltonian with the operator with coefficients h *)
Definition off_commutator (mode : hub -> nat) (M : nat) (lat : lattice) (J U : R) (h g : list CR) : R :=
  hilbert_schmidt M (fun s t => @rsub CR (terms_elem mode (vec_op (basis3 lat) g) s t)
    (comm_elem mode (H_kin lat (real J) ++ H_int lat (real U)) (vec_op (basis3 lat) h) s t)).

(** the product of the program's matrix with the coefficients of an operator gives the operator of the basis nearest to its commutator with the Hamiltonian *)
Theorem C120_nearest : forall (sort : list (triplet CR) -> list (triplet CR)) J U lat N mode M,
  sorts_by_column sort -> shipped3 lat N -> fits3 lat N -> numbers_orbitals mode N -> orbitals_below mode N M ->
  exists m, init_matrix sort (real J : CR) (real U) (real (1/2)) lat = Ok m /\
    forall h g, len h = (N + N * N * N)%Z -> len g = (N + N * N * N)%Z ->
      off_commutator mode M lat J U h (sp_vec m h) <= off_commutator mode M lat J U h g.
Proof.
  intros sort J U lat N mode M Hs Hl Hf Hm Hb.
  destruct (full_facts sort J U lat N Hs Hl Hf) as (m & Em & _). exists m. split; [exact Em|]. intros h g Lh Lg. unfold off_commutator. rewrite !hs_eq. apply sqrt_le_1_alt.
  rewrite (hs2_ext M _ _ (fun s t Ss _ => product_misses sort J U lat N mode M Hs Hl Hf Hb m Em h Lh s t Ss)).
  apply (nearest sort J U lat N mode M Hs Hl Hf Hm Hb m Em h Lh g Lg).
Qed.

(** and is off by between |U|/2 and 3|U|/2 times the length of the part that acts on several sites *)
Theorem C120_distance : forall (sort : list (triplet CR) -> list (triplet CR)) J U lat N mode M,
  sorts_by_column sort -> shipped3 lat N -> fits3 lat N -> numbers_orbitals mode N -> orbitals_below mode N M ->
  exists m, init_matrix sort (real J : CR) (real U) (real (1/2)) lat = Ok m /\
    forall h, len h = (N + N * N * N)%Z ->
      let deep := hilbert_schmidt M (terms_elem mode (vec_op (basis3 lat) (several_part lat h))) in
      Rabs U / 2 * deep <= off_commutator mode M lat J U h (sp_vec m h) <= 3 * Rabs U / 2 * deep.
Proof.
  intros sort J U lat N mode M Hs Hl Hf Hm Hb.
  destruct (full_facts sort J U lat N Hs Hl Hf) as (m & Em & _), (full_facts sort J 0 lat N Hs Hl Hf) as (m0 & Em0 & _). exists m. split; [exact Em|]. intros h Lh deep. unfold off_commutator, deep. rewrite !hs_eq.
  rewrite (hs2_ext M _ _ (fun s t Ss _ => product_misses sort J U lat N mode M Hs Hl Hf Hb m Em h Lh s t Ss)).
  rewrite (hs2_ext M _ _ (fun s t _ _ => several_Am lat N mode Hl Hf h Lh s t)).
  pose proof (missed_sizes sort J U lat N mode M Hs Hl Hf Hm Hb m m0 Em Em0 (vget h)) as [Q1 Q2].
  assert (E : forall c x, sqrt ((c * U) ^ 2 * x) = Rabs c * Rabs U * sqrt x).
  { intros c x. rewrite sqrt_mult_alt by apply pow2_ge_0. rewrite <- Rsqr_pow2, sqrt_Rsqr_abs, Rabs_mult. reflexivity. }
  split.
  - refine (Rle_trans _ _ _ _ (sqrt_le_1_alt _ _ Q1)). replace (U / 2) with (1 / 2 * U) by field. rewrite E. rewrite (Rabs_pos_eq (1 / 2)) by lra. apply Req_le. field.
  - refine (Rle_trans _ _ _ (sqrt_le_1_alt _ _ Q2) _). rewrite E. rewrite (Rabs_pos_eq (3 / 2)) by lra. apply Req_le. field.
Qed.

(** the commutator is an operator of the basis exactly when U = 0 or no coefficient of a product acting on several sites is different from zero *)
Theorem C120_closed : forall J U lat N mode M h,
  shipped3 lat N -> fits3 lat N -> numbers_orbitals mode N -> orbitals_below mode N M -> len h = (N + N * N * N)%Z ->
  (exists g, len g = (N + N * N * N)%Z /\ forall s t, In s (fock M) -> In t (fock M) ->
     comm_elem mode (H_kin lat (real J : CR) ++ H_int lat (real U)) (vec_op (basis3 lat) h) s t = terms_elem mode (vec_op (basis3 lat) g) s t) <->
  (U = 0 \/ forall j, (0 <= j < N + N * N * N)%Z -> several_sites (nth (Z.to_nat j) (basis3 lat) []) = true -> vget h j = r0).
Proof.
  intros J U lat N mode M h Hl Hf Hm Hb Lh.
  assert (Hs : sorts_by_column (K := CR) isort) by exact isort_ok.
  destruct (full_facts isort J U lat N Hs Hl Hf) as (m & Em & _), (full_facts isort J 0 lat N Hs Hl Hf) as (m0 & Em0 & _).
  pose proof (missed_sizes isort J U lat N mode M Hs Hl Hf Hm Hb m m0 Em Em0 (vget h)) as [Q1 Q2].
  set (n := (N + N * N * N)%Z) in *. set (H := H_kin lat (real J : CR) ++ H_int lat (real U)) in *.
  assert (HA : hs2 M (Am mode (basis3 lat) n (far_part N (vget h))) = c2r M * SR (fun j => fst (far_part N (vget h) j) ^ 2 + snd (far_part N (vget h) j) ^ 2) (zrange 0 n)).
  { unfold n. rewrite (hs2_Am lat N mode M Hl Hf Hm Hb). f_equal. unfold n2, dot. rewrite SR_idx. apply SR_ext. intros j _. unfold vecf. cbn [fst snd part]. generalize (far_part N (vget h) j). intros [x y]. cbn. ring. }
  split.
  - intros (g & Lg & Hg).
    assert (Z0 : hs2 M (missed mode (basis3 lat) n H (entry m) (vget h)) <= 0).
    { refine (Rle_trans _ _ _ (nearest isort J U lat N mode M Hs Hl Hf Hm Hb m Em h Lh g Lg) _). apply Req_le. fold H.
      rewrite (hs2_ext M _ (fun _ _ => r0)).
      - unfold hs2. rewrite (SR_ext _ (fun _ => 0)); [apply SR_zero|]. intros s _. rewrite (SR_ext _ (fun _ => 0)); [apply SR_zero|]. intros t _. cbn. ring.
      - intros s t Ss St. rewrite (Hg s t Ss St). generalize (terms_elem (K := CR) mode (vec_op (basis3 lat) g) s t). intros [a b]. apply (f_equal2 (@pair R R)); cbn; ring. }
    destruct (Req_dec U 0) as [e|Un]; [left; exact e|right]. intros j Hj Sj. rewrite HA in Q1.
    assert (P : forall k, 0 <= fst (far_part N (vget h) k) ^ 2 + snd (far_part N (vget h) k) ^ 2) by (intros; apply Rplus_le_le_0_compat; apply pow2_ge_0).
    pose proof (c2r_pos M) as Cp. set (T := SR (fun k => fst (far_part N (vget h) k) ^ 2 + snd (far_part N (vget h) k) ^ 2) (zrange 0 n)) in *.
    assert (Up : 0 < (U / 2) ^ 2 * c2r M) by (apply Rmult_lt_0_compat; [rewrite <- Rsqr_pow2; apply Rsqr_pos_lt; lra|exact Cp]).
    assert (T0 : T <= 0).
    { apply (Rmult_le_reg_l _ _ _ Up). rewrite Rmult_0_r. refine (Rle_trans _ _ _ (Req_le _ _ _) (Rle_trans _ _ _ Q1 Z0)). ring. }
    assert (G : forall (f : Z -> R) l p, In p l -> (forall q, 0 <= f q) -> f p <= SR f l).
    { intros f. induction l as [|a l IH]; intros p Hp Pf; [destruct Hp|]. cbn [SR]. destruct Hp as [->|Hp]; [pose proof (SR_nonneg _ l (fun i _ => Pf i)); lra|pose proof (IH p Hp Pf); pose proof (Pf a); lra]. }
    pose proof (G _ (zrange 0 n) j (Logic.proj2 (zrange_in 0 n j) Hj) P) as Q. cbv beta in Q. fold T in Q.
    assert (E : far_part N (vget h) j = vget h j) by (unfold far_part; rewrite <- (several_level lat N Hl Hf h j Hj), Sj; reflexivity).
    rewrite E in Q. revert Q. generalize (vget h j). intros [a b]. cbn. intros Q.
    destruct (Rplus_sqr_eq_0 a b) as [-> ->]; [unfold Rsqr; apply Rle_antisym; [lra|apply Rplus_le_le_0_compat; apply Rle_0_sqr]|reflexivity].
  - intros C. exists (sp_vec m h). split; [apply (product_vec isort J U lat N Hs Hl Hf m Em h Lh)|]. intros s t Ss St.
    pose proof (product_misses isort J U lat N mode M Hs Hl Hf Hb m Em h Lh s t Ss) as PM. fold n H in PM.
    assert (Z0 : hs2 M (missed mode (basis3 lat) n H (entry m) (vget h)) <= 0).
    { refine (Rle_trans _ _ _ Q2 _). rewrite HA. apply Req_le. destruct C as [-> | C]; [ring|].
      rewrite (SR_ext _ (fun _ => 0)); [rewrite SR_zero; ring|]. intros j Hj. apply zrange_in in Hj. unfold far_part.
      rewrite <- (several_level lat N Hl Hf h j Hj). destruct (several_sites (nth (Z.to_nat j) (basis3 lat) [])) eqn:Sj; [rewrite (C j Hj Sj)|]; cbn; ring. }
    rewrite (hs2_zero M _ s t Z0 Ss St) in PM. revert PM. generalize (terms_elem (K := CR) mode (vec_op (basis3 lat) (sp_vec m h)) s t) (comm_elem (K := CR) mode H (vec_op (basis3 lat) h) s t).
    intros [a b] [c d] PM. cbn in PM. injection PM as P1 P2. apply (f_equal2 (@pair R R)); lra.
Qed.

(** the chain of four sites with J = U = 1: the commutator with c+_{0 up} is an operator of the basis, that with element 10, c+_{0 up} c+_{1 down} c_{2 down}, is not *)
Example C120_example : let unit k := map (fun j => if (j =? k)%Z then real 1 else real 0 : CR) (zrange 0 68) in
  let closed h := exists g, len g = 68%Z /\ forall s t, In s (fock 8) -> In t (fock 8) ->
    comm_elem orbital (H_kin (chain_lattice 4) (real 1 : CR) ++ H_int (chain_lattice 4) (real 1)) (vec_op (basis3 (chain_lattice 4)) h) s t = terms_elem orbital (vec_op (basis3 (chain_lattice 4)) g) s t in
  nth 10 (basis3 (chain_lattice 4)) [] = [hop true 0 true; hop true 1 false; hop false 2 false] /\ closed (unit 0%Z) /\ ~ closed (unit 10%Z).
Proof.
  intros unit closed.
  assert (T : (4 < two64)%Z) by reflexivity. assert (Hl : shipped3 (chain_lattice 4) 4) by (constructor; lia). assert (Hf : fits3 (chain_lattice 4) 4) by (unfold fits3; apply big; reflexivity).
  assert (Lu : forall k, len (unit k) = 68%Z) by (intros k; unfold unit; rewrite map_length, zrange_length; reflexivity).
  assert (Vu : forall k j, (0 <= j < 68)%Z -> vget (unit k) j = (if (j =? k)%Z then real 1 else real 0)) by (intros k j Hj; exact (nth_zrange_map (fun j => if (j =? k)%Z then real 1 else real 0 : CR) 68 j _ Hj)).
  split; [vm_compute; reflexivity|]. split.
  - apply (C120_closed 1 1 (chain_lattice 4) 4 orbital 8 (unit 0%Z) Hl Hf (orbital_numbers 4) (orbital_below 4) (Lu 0%Z)). right. intros j Hj Sj. rewrite (Vu 0%Z j Hj).
    destruct (Z.eqb_spec j 0) as [->|]; [vm_compute in Sj; discriminate|reflexivity].
  - intros C. apply (C120_closed 1 1 (chain_lattice 4) 4 orbital 8 (unit 10%Z) Hl Hf (orbital_numbers 4) (orbital_below 4) (Lu 10%Z)) in C. destruct C as [C|C]; [lra|].
    specialize (C 10%Z ltac:(lia) ltac:(vm_compute; reflexivity)). rewrite (Vu 10%Z 10%Z) in C by lia. unfold real in C. cbn in C. injection C as C. lra.
Qed.
