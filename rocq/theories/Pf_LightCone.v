(** PROOFS for C115: a matrix that reaches one level further each time it is applied. *)
From Coq Require Import Reals Lra Psatz.
From Verif Require Import Base M_Operator M_Lattice Spec_Lattice Pf_Lattice M_Basis Pf_Basis M_Matrix M_Ode M_Dispersion M_OpenMP
  Pf_Matrix Spec_Matrix Pf_Matrix2 P_Matrix Spec_Stability Pf_Stability Pf_Stability2 Pf_Stability3 P_Stability Spec_Ode P_Ode Spec_Programs Pf_MatrixEntry P_OccupationFree Pf_Symmetry Pf_Theory Pf_Theory2 Spec_LightCone.
Local Open Scope R_scope.
Local Open Scope list_scope.
Local Notation len u := (Z.of_nat (length u)).

Section Cone.
  Variables (n : Z) (E : Z -> Z -> CR) (lv : Z -> Z).
  Hypothesis local : forall i j, (0 <= i < n)%Z -> (0 <= j < n)%Z -> (lv j + 1 < lv i)%Z -> E i j = real 0.
  Definition inside (d : Z) (x : Z * bool -> R) : Prop := forall p, In p (idx n) -> (d < lv (fst p))%Z -> x p = 0.
  Lemma inside_more d d' x : (d <= d')%Z -> inside d x -> inside d' x.
  Proof. intros H I p Hp L. apply I; [exact Hp|lia]. Qed.
  Lemma inside_ap d x : inside d x -> inside (d + 1) (ap (idx n) (SM E) x).
  Proof.
    intros I p Hp L. unfold ap. rewrite (SR_ext _ (fun _ => 0)); [apply SR_zero|]. intros q Hq.
    destruct (Z_lt_le_dec d (lv (fst q))) as [G|G]; [rewrite (I q Hq G); ring|].
    apply idx_in in Hp, Hq. unfold SM. rewrite (local (fst p) (fst q) Hp Hq ltac:(lia)). destruct (snd p), (snd q); cbn; ring.
  Qed.
  Lemma inside_apn k d x : inside d x -> inside (d + Z.of_nat k) (apn (idx n) (SM E) k x).
  Proof.
    intros I. induction k as [|k IH]; [apply (inside_more d); [lia|exact I]|]. cbn [apn]. apply (inside_more (d + Z.of_nat k + 1)); [lia|]. apply inside_ap, IH.
  Qed.
  Lemma inside_P h d x : inside d x -> inside (d + 4) (P (idx n) (SM E) h x).
  Proof.
    intros I p Hp L. unfold P. rewrite (I p Hp ltac:(lia)), (inside_ap d x I p Hp ltac:(lia)), (inside_apn 2 d x I p Hp ltac:(lia)), (inside_apn 3 d x I p Hp ltac:(lia)), (inside_apn 4 d x I p Hp ltac:(lia)). ring.
  Qed.
  Variable mul : list CR -> list CR.
  Hypothesis acts : acts_as CR n E mul.
  Lemma inside_run d dt sts : forall D u, len u = n -> inside D (vec u) -> inside (D + 4 * Z.of_nat (length sts)) (vec (run_steps CR (real (1/2)) (real (1/6)) (mkRk4 (K:=CR) d (real dt)) mul sts u)).
  Proof.
    induction sts as [|st sts IH]; intros D u L I; cbn [run_steps length]; [apply (inside_more D); [lia|exact I]|].
    destruct (vec_step n E mul acts d dt st u L) as [L' V]. apply (inside_more (D + 4 + 4 * Z.of_nat (length sts))); [lia|]. apply IH; [exact L'|].
    intros p Hp G. rewrite (V p Hp). apply (inside_P dt D (vec u) I p Hp G).
  Qed.
  Lemma inside_vget d u : inside d (vec u) -> forall i, (0 <= i < n)%Z -> (d < lv i)%Z -> vget u i = real 0.
  Proof.
    intros I i Hi L. pose proof (I (i, true) ltac:(apply idx_in; exact Hi) L) as A. pose proof (I (i, false) ltac:(apply idx_in; exact Hi) L) as B. unfold vec, vecf in A, B. cbn [fst snd part] in A, B.
    apply (injective_projections (A := R) (B := R)); assumption.
  Qed.
End Cone.

(** the matrix of the programs is local *)
Section Matrix.
  Context (sort : list (triplet CR) -> list (triplet CR)) (J U : R) (lat : lattice) (N : Z) (far : Z -> Z).
  Hypothesis Hs : sorts_by_column sort.
  Hypothesis Hl : shipped3 lat N.
  Hypothesis Hd : distance_from_0 lat N far.
  Let HG := shipped3_graph lat N Hl.
  Let n := (N + N * N * N)%Z.
  Hypothesis Hf : fits3 lat N.
  Let HS := fits3_S3 lat N HG Hf.
  Lemma reach_1 i : site N i -> reach N far i = far i.
  Proof. intros Hi. unfold reach. destruct (Z.ltb_spec i N); [reflexivity|unfold site in Hi; lia]. Qed.
  Lemma reach_3 a b c : site N a -> site N b -> site N c -> reach N far (get_3op_index N a b c) = Z.max (far a) (Z.max (far b) (far c)).
  Proof.
    intros Ha Hb Hc. rewrite (get_3op_index_eq lat N (g_reg _ _ HG) HS) by assumption. unfold reach. destruct (sites_of N a b c Ha Hb Hc) as (-> & -> & ->). unfold site in *.
    destruct (Z.ltb_spec (N + N * N * a + N * b + c) N); [nia|reflexivity].
  Qed.
  Lemma adjc_far i j : site N i -> site N j -> (far i + 1 < far j)%Z -> adjc (K := CR) lat i j = real 0.
  Proof.
    intros Hi Hj L. unfold adjc. apply (sum_over_zero CR). intros x Hx. destruct Hd as (_ & _ & D). pose proof (D i x Hi Hx). unfold delta. destruct (Z.eqb_spec x j) as [->|]; [lia|reflexivity].
  Qed.
  Lemma adjc_far' i j : site N i -> site N j -> (far j + 1 < far i)%Z -> adjc (K := CR) lat i j = real 0.
  Proof. intros Hi Hj L. rewrite (adjc_sym lat N HG) by assumption. apply adjc_far; assumption. Qed.
  Lemma delta_far i j : far i <> far j -> delta (K := CR) i j = real 0.
  Proof. intros L. unfold delta. destruct (Z.eqb_spec i j) as [->|]; [contradiction|reflexivity]. Qed.
  Context (m : bmat CR).
  Hypothesis Em : init_matrix sort (real J : CR) (real U) (real (1/2)) lat = Ok m.
  Let E := entry (bm_scale imag_unit m).
  Lemma full_local i j : (0 <= i < n)%Z -> (0 <= j < n)%Z -> (reach N far j + 1 < reach N far i)%Z -> E i j = real 0.
  Proof.
    intros Hi Hj L. unfold E. destruct (cases lat N Hl Hf i Hi) as [Qi|(a & b & c & Ha & Hb & Hc & ->)], (cases lat N Hl Hf j Hj) as [Qj|(a' & b' & c' & Ha' & Hb' & Hc' & ->)].
    - rewrite !reach_1 in L by assumption. rewrite (entry_11 sort J U lat N Hs Hl Hf m Em) by assumption. rewrite adjc_far', delta_far by (assumption || lia). unfold real, imag_unit. cbn. apply (f_equal2 (@pair R R)); cbn; ring.
    - rewrite (reach_1 i Qi), (reach_3 a' b' c' Ha' Hb' Hc') in L. rewrite (entry_13 sort J U lat N Hs Hl Hf m Em) by assumption. rewrite (delta_far i a') by lia. destruct (delta i b') as [x1 x2], (delta i c') as [x3 x4]. unfold real, imag_unit. cbn. apply (f_equal2 (@pair R R)); cbn; ring.
    - rewrite (reach_1 j Qj), (reach_3 a b c Ha Hb Hc) in L. rewrite (entry_31 sort J U lat N Hs Hl Hf m Em) by assumption.
      destruct (Z.eq_dec (far j) (far a)) as [e1|e1]; [destruct (Z.eq_dec (far j) (far b)) as [e2|e2]; [rewrite (delta_far j c) by lia|rewrite (delta_far j b) by lia]|rewrite (delta_far j a) by lia];
        generalize (delta (K := CR) j a) (delta (K := CR) j b) (delta (K := CR) j c); intros [x1 x2] [x3 x4] [x5 x6]; unfold real, imag_unit; cbn; apply (f_equal2 (@pair R R)); cbn; ring.
    - rewrite !reach_3 in L by assumption. rewrite (entry_33 sort J U lat N Hs Hl Hf m Em) by assumption. rewrite (weight_33 _ _ _ lat N HG HS) by assumption.
      assert (C : (far a' + 1 < far a \/ far b' + 1 < far b \/ far c' + 1 < far c)%Z) by lia.
      destruct C as [C|[C|C]]; [rewrite (adjc_far' a a'), (delta_far a a') by (assumption || lia)|rewrite (adjc_far' b b'), (delta_far b b') by (assumption || lia)|rewrite (adjc_far' c c'), (delta_far c c') by (assumption || lia)];
        generalize (adjc (K := CR) lat a a') (adjc (K := CR) lat b b') (adjc (K := CR) lat c c') (delta (K := CR) a a') (delta (K := CR) b b') (delta (K := CR) c c');
        intros [x1 x2] [x3 x4] [x5 x6] [y1 y2] [y3 y4] [y5 y6]; unfold real, imag_unit; cbn; apply (f_equal2 (@pair R R)); cbn; ring.
  Qed.
  (** elements of different reach are not coupled by U *)
  Context (m0 : bmat CR).
  Hypothesis Em0 : init_matrix sort (real J : CR) (real 0) (real (1/2)) lat = Ok m0.
  Lemma full_same i j : (0 <= i < n)%Z -> (0 <= j < n)%Z -> reach N far i <> reach N far j -> E i j = entry (bm_scale imag_unit m0) i j.
  Proof.
    intros Hi Hj L. unfold E. destruct (cases lat N Hl Hf i Hi) as [Qi|(a & b & c & Ha & Hb & Hc & ->)], (cases lat N Hl Hf j Hj) as [Qj|(a' & b' & c' & Ha' & Hb' & Hc' & ->)].
    - rewrite !reach_1 in L by assumption. rewrite (entry_11 sort J U lat N Hs Hl Hf m Em), (entry_11 sort J 0 lat N Hs Hl Hf m0 Em0) by assumption. rewrite delta_far by lia.
      generalize (adjc (K := CR) lat i j). intros [x1 x2]. unfold real, imag_unit. cbn. apply (f_equal2 (@pair R R)); cbn; ring.
    - rewrite (reach_1 i Qi), (reach_3 a' b' c' Ha' Hb' Hc') in L. rewrite (entry_13 sort J U lat N Hs Hl Hf m Em), (entry_13 sort J 0 lat N Hs Hl Hf m0 Em0) by assumption.
      destruct (Z.eq_dec (far i) (far a')) as [e1|e1]; [destruct (Z.eq_dec (far i) (far b')) as [e2|e2]; [rewrite (delta_far i c') by lia|rewrite (delta_far i b') by lia]|rewrite (delta_far i a') by lia];
        generalize (delta (K := CR) i a') (delta (K := CR) i b') (delta (K := CR) i c'); intros [x1 x2] [x3 x4] [x5 x6]; unfold real, imag_unit; cbn; apply (f_equal2 (@pair R R)); cbn; ring.
    - rewrite (reach_1 j Qj), (reach_3 a b c Ha Hb Hc) in L. rewrite (entry_31 sort J U lat N Hs Hl Hf m Em), (entry_31 sort J 0 lat N Hs Hl Hf m0 Em0) by assumption.
      destruct (Z.eq_dec (far j) (far a)) as [e1|e1]; [destruct (Z.eq_dec (far j) (far b)) as [e2|e2]; [rewrite (delta_far j c) by lia|rewrite (delta_far j b) by lia]|rewrite (delta_far j a) by lia];
        generalize (delta (K := CR) j a) (delta (K := CR) j b) (delta (K := CR) j c); intros [x1 x2] [x3 x4] [x5 x6]; unfold real, imag_unit; cbn; apply (f_equal2 (@pair R R)); cbn; ring.
    - rewrite !reach_3 in L by assumption. rewrite (entry_33 sort J U lat N Hs Hl Hf m Em), (entry_33 sort J 0 lat N Hs Hl Hf m0 Em0) by assumption. rewrite !(weight_33 _ _ _ lat N HG HS) by assumption.
      assert (C : (far a <> far a' \/ far b <> far b' \/ far c <> far c')%Z) by lia.
      destruct C as [C|[C|C]]; [rewrite (delta_far a a') by assumption|rewrite (delta_far b b') by assumption|rewrite (delta_far c c') by assumption];
        generalize (adjc (K := CR) lat a a') (adjc (K := CR) lat b b') (adjc (K := CR) lat c c') (delta (K := CR) a a') (delta (K := CR) b b') (delta (K := CR) c c');
        intros [x1 x2] [x3 x4] [x5 x6] [y1 y2] [y3 y4] [y5 y6]; unfold real, imag_unit; cbn; apply (f_equal2 (@pair R R)); cbn; ring.
  Qed.
End Matrix.

(** the exact solution: the part beyond level d is at most (B t)^d / d! *)
Section Robinson.
  Variables (n : Z) (E E0 : Z -> Z -> CR) (lv : Z -> Z) (B : R).
  Hypothesis anti : anti_hermitian CR n E.
  Hypothesis op0 : op_bound n E0 B.
  Hypothesis Bpos : 0 <= B.
  Hypothesis local : forall i j, (0 <= i < n)%Z -> (0 <= j < n)%Z -> (lv j + 1 < lv i)%Z -> E i j = real 0.
  Hypothesis same : forall i j, (0 <= i < n)%Z -> (0 <= j < n)%Z -> lv i <> lv j -> E i j = E0 i j.
  Let I := idx n.
  Definition out (d : Z) (x : Z * bool -> R) : Z * bool -> R := fun p => if (d <=? lv (fst p))%Z then x p else 0.
  Definition at_level (d : Z) (x : Z * bool -> R) : Z * bool -> R := fun p => if (lv (fst p) =? d)%Z then x p else 0.
  Definition So (d : Z) (p q : Z * bool) : R := if ((d <=? lv (fst p)) && (d <=? lv (fst q)))%Z%bool then SM E p q else 0.
  Lemma nrm_le_part x y : (forall p, In p I -> y p = x p \/ y p = 0) -> nrm I y <= nrm I x.
  Proof.
    intros H. unfold nrm. apply sqrt_le_1_alt. unfold n2, dot. apply SR_le. intros p Hp. destruct (H p Hp) as [->| ->]; [lra|]. pose proof (Rle_0_sqr (x p)) as S. unfold Rsqr in S. lra.
  Qed.
  Lemma op_nrm x : nrm I (ap I (SM E0) x) <= B * nrm I x.
  Proof.
    unfold nrm. rewrite <- (sqrt_pow2 B) at 1 by exact Bpos. rewrite <- sqrt_mult_alt by apply pow2_ge_0. apply sqrt_le_1_alt, op0.
  Qed.
  Lemma So_anti d p q : In p I -> In q I -> So d p q = - So d q p.
  Proof.
    intros Hp Hq. unfold So. rewrite (Bool.andb_comm (d <=? lv (fst q))%Z). destruct (_ && _)%bool; [|ring]. apply (SM_anti n E anti); assumption.
  Qed.
  Lemma split_out d x p : In p I -> (if (d <=? lv (fst p))%Z then ap I (SM E) x p else 0) =
    ap I (So d) (out d x) p + (if (d <=? lv (fst p))%Z then ap I (SM E0) (at_level (d - 1) x) p else 0).
  Proof.
    intros Hp. unfold ap. destruct (Z.leb_spec d (lv (fst p))) as [L|L].
    - rewrite <- SR_add. apply SR_ext. intros q Hq. apply idx_in in Hp, Hq. unfold So, out, at_level. destruct (Z.leb_spec d (lv (fst p))); [|lia]. cbn [andb].
      destruct (Z.leb_spec d (lv (fst q))) as [G|G]; destruct (Z.eqb_spec (lv (fst q)) (d - 1)) as [e|e]; try lia; try ring.
      + unfold SM. rewrite (same (fst p) (fst q) Hp Hq) by lia. ring.
      + unfold SM. rewrite (local (fst p) (fst q) Hp Hq) by lia. destruct (snd p), (snd q); cbn; ring.
    - rewrite (SR_ext _ (fun _ => 0)); [rewrite SR_zero; ring|]. intros q _. unfold So. destruct (Z.leb_spec d (lv (fst p))); [lia|]. cbn [andb]. ring.
  Qed.
  Hypothesis lv_pos : forall i, (0 <= i < n)%Z -> (0 <= lv i)%Z.
  Variable y : R -> Z -> CR.
  Hypothesis Hy : exact_solution n E y.
  Hypothesis Y0 : forall i, (0 <= i < n)%Z -> (0 < lv i)%Z -> y 0 i = real 0.
  Hypothesis Y1 : nrm I (vecf (y 0)) = 1.
  Lemma tail_bound d t : 0 <= t -> nrm I (out (Z.of_nat d) (vecf (y t))) <= (B * t) ^ d / INR (fact d).
  Proof.
    assert (Lift : solution I (SM E) (fun t => vecf (y t))).
    { intros s [i c] Hi. unfold I. rewrite ap_SM. apply idx_in in Hi. cbn [fst snd] in *. destruct (Hy s i Hi) as [D1 D2]. unfold vecf. cbn [fst snd]. destruct c; cbn [part]; [exact D1|exact D2]. }
    revert t. induction d as [|d IH]; intros t Ht.
    - cbn [pow fact]. replace (1 / INR 1) with 1 by (cbn; field). rewrite (nrm_ext I _ (vecf (y t))).
      + apply Req_le. rewrite <- Y1. unfold nrm. f_equal. apply (norm_conserved I (SM E) (SM_anti n E anti) _ Lift).
      + intros p Hp. apply idx_in in Hp. unfold out. destruct (Z.leb_spec (Z.of_nat 0) (lv (fst p))); [reflexivity|]. pose proof (lv_pos (fst p) Hp). lia.
    - set (D := Z.of_nat (S d)). set (r := fun s p => if (D <=? lv (fst p))%Z then ap I (SM E0) (at_level (D - 1) (vecf (y s))) p else 0).
      apply (duhamel I (So D) (So_anti D) (fun s => out D (vecf (y s))) r (fun s => (B * s) ^ S d / INR (fact (S d))) (fun s => B * ((B * s) ^ d / INR (fact d))) t Ht).
      + intros s p Hp. unfold r. rewrite <- (split_out D (vecf (y s)) p Hp). unfold out. destruct (D <=? lv (fst p))%Z; [apply Lift, Hp|apply derivable_pt_lim_const].
      + intros p Hp. apply idx_in in Hp. unfold out. destruct (Z.leb_spec D (lv (fst p))); [|reflexivity]. unfold vecf. rewrite (Y0 (fst p) Hp) by (unfold D in *; lia). destruct (snd p); reflexivity.
      + rewrite Rmult_0_r, pow_ne_zero by discriminate. unfold Rdiv. ring.
      + intros s. pose proof (derivable_pt_lim_comp (fun s => B * s) (fun x => x ^ S d) s B (INR (S d) * (B * s) ^ d)) as C.
        assert (D1 : derivable_pt_lim (fun s => B * s) s B) by (eapply deriv_eq; [exact (derivable_pt_lim_scal (fun x => x) B s 1 (derivable_pt_lim_id s))|reflexivity|ring]).
        specialize (C D1 (derivable_pt_lim_pow (B * s) (S d))).
        eapply deriv_eq; [exact (derivable_pt_lim_scal _ (/ INR (fact (S d))) s _ C)|intros x; unfold mult_real_fct, comp; unfold Rdiv; ring|].
        rewrite fact_simpl, mult_INR. field. split; [apply INR_fact_neq_0|apply not_0_INR; discriminate].
      + intros s [Hs _]. apply Rle_trans with (nrm I (ap I (SM E0) (at_level (D - 1) (vecf (y s))))).
        * apply nrm_le_part. intros p _. unfold r. destruct (D <=? lv (fst p))%Z; [left|right]; reflexivity.
        * eapply Rle_trans; [apply (op_nrm (at_level (D - 1) (vecf (y s))))|]. apply Rmult_le_compat_l; [exact Bpos|]. eapply Rle_trans; [|apply (IH s Hs)].
          apply nrm_le_part. intros p _. unfold at_level, out. destruct (Z.eqb_spec (lv (fst p)) (D - 1)) as [e|e]; [left|right; reflexivity]. destruct (Z.leb_spec (Z.of_nat d) (lv (fst p))); [reflexivity|unfold D in e; lia].
  Qed.
End Robinson.
