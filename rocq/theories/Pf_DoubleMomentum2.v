(** PROOFS: norms of the matrix of the momentum-space program in double precision. *)
From Coq Require Import Reals Lra Psatz List ZArith Lia Sorting.Sorted.
From Flocq Require Import Core.
From Verif Require Import Base M_Operator M_Lattice Spec_Lattice Pf_Lattice M_LatticeReal M_Basis Pf_Basis M_Matrix M_Ode M_Dispersion Pf_Matrix Pf_Matrix2 Pf_MatrixEntry Spec_Matrix Pf_Triplet P_Matrix Pf_Momentum P_Momentum P_Ode
  Spec_Stability Pf_Stability Pf_Stability2 Pf_Stability3 P_Stability Pf_Arrow M_Rounding Spec_Rounding M_Double Pf_Double M_DoubleMomentum Pf_DoubleMomentum Spec_MomentumProgram Pf_MomentumProgram.
Local Open Scope R_scope.
Local Open Scope list_scope.

(** i times a matrix with a diagonal and constant first row and column *)
Definition arrow_r (D : Z -> R) (be : R) (r c : Z) : R := if Z.eqb r c then D r else if (Z.eqb r 0 || Z.eqb c 0)%bool then be else 0.
Definition arrow_i (D : Z -> R) (be : R) (r c : Z) : CR := (0, arrow_r D be r c).
Lemma generator_arrow N J U r c : generator N J U r c = arrow_i (energy N J U) (U / (2 * IZR N)) r c.
Proof. reflexivity. Qed.

Section Norms.
  Variables (N : Z) (D : Z -> R) (be : R).
  Hypothesis HN : (0 < N)%Z.
  Let n := (1 + N * N)%Z.
  Lemma arrow_anti : anti_hermitian CR n (arrow_i D be).
  Proof.
    intros i j _ _. unfold arrow_i, arrow_r. rewrite (Z.eqb_sym j i), (orb_comm (Z.eqb j 0)). destruct (Z.eqb_spec i j) as [<-|_]; apply (injective_projections (A := R) (B := R)); cbn; ring.
  Qed.
  Lemma arrow_op a b : (forall r, (0 <= r < n)%Z -> Rabs (D r) <= a) -> 0 <= b -> Rabs be * IZR N <= b -> op_bound n (arrow_i D be) (a + b).
  Proof.
    intros Ha Hb Hbe. apply (op_bound_real _ (arrow_r D be)); [reflexivity|]. intros w.
    assert (PN : 0 < IZR N) by (apply IZR_lt; lia).
    pose proof (arrow_norm (N * N) (arrow_r D be) D be a) as A. unfold Mw in A. apply A; clear A.
    - nia.
    - reflexivity.
    - intros r Hr. unfold arrow_r. destruct (Z.eqb_spec 0 r); [lia|]. destruct (Z.eqb_spec r 0); [lia|]. cbn. split; reflexivity.
    - intros r Hr. unfold arrow_r. rewrite Z.eqb_refl. reflexivity.
    - intros r c Hr Hc Hne. unfold arrow_r. destruct (Z.eqb_spec r c); [contradiction|]. destruct (Z.eqb_spec r 0); [lia|]. destruct (Z.eqb_spec c 0); [lia|]. reflexivity.
    - exact Ha.
    - exact Hb.
    - rewrite mult_IZR. replace (be ^ 2 * (IZR N * IZR N)) with ((Rabs be * IZR N) ^ 2) by (rewrite Rpow_mult_distr, pow2_abs; ring).
      apply pow_incr. split; [|exact Hbe]. apply Rmult_le_pos; [apply Rabs_pos|lra].
  Qed.
  Lemma arrow_rows L : (forall r, (0 <= r < n)%Z -> Rabs (D r) + IZR (N * N) * Rabs be <= L) -> row_bound n (arrow_i D be) L.
  Proof.
    intros HL i Hi. eapply Rle_trans; [|apply (HL i Hi)]. unfold arrow_i, arrow_r. cbn [fst snd].
    assert (B0 : 0 <= Rabs be) by apply Rabs_pos. assert (N2 : 1 <= IZR (N * N)) by (apply IZR_le; nia).
    rewrite (SR_ext _ (fun j => Rabs (if Z.eqb i j then D i else if (Z.eqb i 0 || Z.eqb j 0)%bool then be else 0))) by (intros j _; rewrite Rabs_R0; ring).
    destruct (Z.eq_dec i 0) as [->|Ni].
    - unfold n. rewrite zrange_cons by nia. cbn [SR]. replace (0 =? 0)%Z with true by reflexivity. apply Rplus_le_compat_l.
      rewrite (SR_ext _ (fun _ => Rabs be)).
      + rewrite SR_const. apply Req_le. f_equal. rewrite zrange_length. rewrite INR_IZR_INZ. f_equal. lia.
      + intros j Hj. apply zrange_in in Hj. destruct (Z.eqb_spec 0 j); [lia|]. reflexivity.
    - rewrite (SR_ext _ (fun j => (if Z.eqb i j then Rabs (D i) else 0) + (if Z.eqb 0 j then Rabs be else 0))).
      + rewrite SR_add. rewrite !SR_pick_eq; [|apply zrange_NoDup|apply zrange_in; unfold n; nia|apply zrange_NoDup|apply zrange_in; exact Hi]. nra.
      + intros j _. destruct (Z.eqb_spec i j) as [<-|]; [destruct (Z.eqb_spec 0 i); [lia|ring]|]. destruct (Z.eqb_spec i 0); [lia|]. cbn [orb].
        rewrite (Z.eqb_sym j 0). destruct (Z.eqb 0 j); rewrite ?Rabs_R0; ring.
  Qed.
End Norms.
Lemma SM_arrow_diff D be D' be' p q : SM (arrow_i D' be') p q - SM (arrow_i D be) p q = SM (arrow_i (fun r => D' r - D r) (be' - be)) p q.
Proof.
  unfold SM, arrow_i, arrow_r. destruct (snd p), (snd q); cbn [fst snd]; try ring; destruct (Z.eqb (fst p) (fst q)); try ring; destruct (Z.eqb (fst p) 0 || Z.eqb (fst q) 0)%bool; ring.
Qed.

(** multiplication of the matrix by i is exact *)
Section Scale.
  Variables (garbage : R -> R) (N : Z) (D : Z -> R) (be : R).
  Hypothesis HN : (0 < N)%Z.
  Let n := (1 + N * N)%Z.
  Let good x := is_double x /\ Rabs x <= bpow radix2 1023.
  Hypothesis HD : forall r, (0 <= r < n)%Z -> good (D r).
  Hypothesis Hbe : good be.
  Lemma scaled_mat : fbm_scale (double_arith garbage) imag_unit (arrow_mat (K := CR) N (fun r => real (D r)) (real be)) = arrow_mat (K := CR) N (fun r => (0, D r)) (0, be).
  Proof.
    assert (T : forall x, good x -> cf_mul (double_arith garbage) imag_unit (real x) = ((0, x) : CR)).
    { intros x [G1 G2]. rewrite times_i by assumption. apply (injective_projections (A := R) (B := R)); cbn; ring. }
    unfold fbm_scale, arrow_mat. cbn [bm_size bm_cap bm_done bm_cur map]. f_equal. unfold arows. cbn [map]. f_equal.
    - unfold pairs, atrip0. cbn [map t_col t_val fst snd]. rewrite T by (apply HD; unfold n; nia). f_equal. rewrite !map_map. apply map_ext. intros i. cbn [t_col t_val fst snd]. rewrite T by exact Hbe. reflexivity.
    - rewrite map_map. apply map_ext_in. intros r Hr. apply zrange_in in Hr. unfold pairs, atrip. cbn [map t_col t_val fst snd]. rewrite !T; [reflexivity|apply HD; unfold n; lia|exact Hbe].
  Qed.
  Lemma scaled_entry r c : (0 <= r < n)%Z -> (0 <= c < n)%Z -> entry (arrow_mat (K := CR) N (fun r => (0, D r)) (0, be)) r c = arrow_i D be r c.
  Proof.
    intros Hr Hc. rewrite (arrow_entry N) by assumption. unfold arrow_i, arrow_r. destruct (Z.eqb r c); [reflexivity|]. destruct (Z.eqb r 0 || Z.eqb c 0)%bool; reflexivity.
  Qed.
End Scale.
