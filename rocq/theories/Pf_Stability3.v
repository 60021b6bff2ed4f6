(** PROOFS for C77, C78: row sums of the shipped matrices. *)
From Coq Require Import Reals Lra Psatz Sorting.Sorted.
From Verif Require Import Base M_Operator M_Lattice Spec_Lattice Pf_Lattice M_Basis Pf_Basis M_Matrix M_MatrixCheck M_Ode M_Dispersion
  Spec_Algebra Spec_Matrix Spec_Ode Pf_Matrix Pf_Matrix2 Pf_MatrixEntry Pf_Projection P_Matrix Pf_Ode P_Ode Pf_Triplet P_Dynamics Spec_Stability Pf_Stability Pf_Stability2.
Local Open Scope R_scope.
Local Open Scope list_scope.
Local Notation len u := (Z.of_nat (length u)).

(** |Re z| + |Im z| *)
Definition n1 (z : CR) : R := Rabs (fst z) + Rabs (snd z).
Lemma n1_pos z : 0 <= n1 z.
Proof. unfold n1. pose proof (Rabs_pos (fst z)). pose proof (Rabs_pos (snd z)). lra. Qed.
Lemma n1_add (a b : CR) : n1 (radd a b) <= n1 a + n1 b.
Proof.
  destruct a as [a1 a2], b as [b1 b2]. unfold n1. cbn. pose proof (Rabs_triang a1 b1). pose proof (Rabs_triang a2 b2). lra.
Qed.
Lemma n1_i (a : CR) : n1 (rmul imag_unit a) = n1 a.
Proof.
  destruct a as [a1 a2]. cbn in a1, a2. unfold n1. cbn. replace (0 * a1 - 1 * a2) with (- a2) by ring. replace (0 * a2 + 1 * a1) with a1 by ring.
  rewrite Rabs_Ropp. ring.
Qed.
Lemma n1_real x : n1 (real x) = Rabs x.
Proof. unfold n1. cbn. rewrite Rabs_R0. ring. Qed.
Lemma n1_ropp x : n1 (ropp (real x)) = Rabs x.
Proof. unfold n1. cbn. rewrite Ropp_0, Rabs_R0, Rabs_Ropp. ring. Qed.
Lemma n1_half x : n1 (rmul (real x) (real (1 / 2))) = Rabs x / 2.
Proof.
  unfold n1. cbn. replace (x * (1 / 2) - 0 * 0) with (x * (1/2)) by ring. replace (x * 0 + 0 * (1 / 2)) with 0 by ring.
  rewrite Rabs_R0, Rabs_mult, (Rabs_pos_eq (1/2)) by lra. lra.
Qed.
Lemma SR_pick c k l : NoDup l -> 0 <= c -> SR (fun j => if Z.eqb k j then c else 0) l <= c.
Proof.
  induction l as [|a l IH]; intros Hn Hc; cbn [SR]; [exact Hc|]. inversion Hn; subst. destruct (Z.eqb_spec k a) as [->|_].
  - assert (Z0 : SR (fun j => if Z.eqb a j then c else 0) l = 0).
    { transitivity (SR (fun _ : Z => 0) l); [|apply SR_zero]. apply SR_ext. intros j Hj. destruct (Z.eqb_spec a j) as [->|_]; [contradiction|reflexivity]. }
    lra.
  - pose proof (IH H2 Hc). lra.
Qed.
Lemma zrange_NoDup a b : NoDup (zrange a b).
Proof. unfold zrange. apply FinFun.Injective_map_NoDup; [intros x y E; lia|apply seq_NoDup]. Qed.
Lemma weight_rows (l : list (triplet CR)) n : SR (fun j => n1 (weight l j)) (zrange 0 n) <= SR (fun t => n1 (t_val t)) l.
Proof.
  induction l as [|t l IH].
  - cbn [SR]. apply Req_le. transitivity (SR (fun _ : Z => 0) (zrange 0 n)); [|apply SR_zero]. apply SR_ext. intros j _. unfold weight. cbn. unfold n1. cbn. rewrite Rabs_R0. ring.
  - cbn [SR]. eapply Rle_trans.
    + apply SR_le. intros j _. rewrite weight_cons. apply n1_add.
    + rewrite SR_add. apply Rplus_le_compat; [|exact IH].
      rewrite (SR_ext _ (fun j => if Z.eqb (t_col t) j then n1 (t_val t) else 0)).
      * apply SR_pick; [apply zrange_NoDup|apply n1_pos].
      * intros j _. destruct (Z.eqb (t_col t) j); [reflexivity|]. unfold n1. cbn. rewrite Rabs_R0. ring.
Qed.
Lemma SR_const {T} c (l : list T) : SR (fun _ => c) l = INR (length l) * c.
Proof. induction l as [|a l IH]; cbn [SR length]; [cbn; ring|]. rewrite IH, S_INR. ring. Qed.
Lemma INR_len {T} (l : list T) z : len l = z -> INR (length l) = IZR z.
Proof. intros <-. apply INR_IZR_INZ. Qed.

Section Rows.
  Context (sort : list (triplet CR) -> list (triplet CR)) (J U : R) (lat : lattice) (N : Z).
  Hypothesis Hs : sorts_by_column sort.
  Hypothesis Hl : shipped3 lat N.
  Let z : R := IZR (lat_coordination lat).
  Let HG := shipped3_graph lat N Hl.
  Lemma kin1_total r : site N r -> SR (fun t => n1 (t_val t)) (kinetic_triplets1 (K := CR) (real J) lat r) = z * Rabs J.
  Proof.
    intros Hr. unfold kinetic_triplets1. rewrite SR_map. cbn [t_val].
    rewrite (SR_ext _ (fun _ => Rabs J)) by (intros; apply n1_ropp). rewrite SR_const, (INR_len _ _ (g_len _ _ HG r Hr)). reflexivity.
  Qed.
  Lemma kinetic_rows m : (N * lat_coordination lat < two64)%Z -> init_kinetic_matrix sort (real J : CR) lat = Ok m ->
    row_bound N (entry (bm_scale imag_unit m)) (z * Rabs J).
  Proof.
    intros Hf Em i Hi. rewrite (init_kinetic_closed sort Hs _ lat N HG Hf) in Em. injection Em as <-.
    rewrite <- (kin1_total i Hi). eapply Rle_trans; [|apply (weight_rows _ N)]. apply Req_le, SR_ext. intros j _.
    rewrite entry_scale. etransitivity; [exact (n1_i _)|]. f_equal. unfold entry, row_of. cbn [bm_done]. rewrite nth_zrange_map by exact Hi. apply (entry_weight sort Hs).
  Qed.
  Lemma full_rows m : fits3 lat N -> init_matrix sort (real J : CR) (real U) (real (1 / 2)) lat = Ok m ->
    row_bound (N + N * N * N) (entry (bm_scale imag_unit m)) (3 * z * Rabs J + Rabs U).
  Proof.
    intros Hf Em i Hi. pose proof (fits3_S3 lat N HG Hf) as HS. rewrite (init_matrix_closed sort Hs _ _ _ lat N HG HS Hf) in Em.
    injection Em as <-. set (m := mkB _ _ _ _).
    assert (Hz : 0 <= z) by (apply IZR_le; pose proof (g_co _ _ HG); lia). pose proof (Rabs_pos J) as HJ. pose proof (Rabs_pos U) as HU.
    assert (Q : exists l : list (triplet CR), (forall j, entry m i j = weight l j) /\ SR (fun t => n1 (t_val t)) l <= 3 * z * Rabs J + Rabs U).
    { destruct (col_cases lat N HG HS i Hi) as [Ri|(i0 & i1 & i2 & I0 & I1 & I2 & ->)].
      - exists (triplets1 (real J : CR) (real U) (real (1/2)) lat i). split.
        + intros j. unfold entry, row_of, m. cbn [bm_done]. rewrite (nth_rows1 sort _ _ _ lat N) by assumption. apply (entry_weight sort Hs).
        + unfold triplets1. rewrite SR_app, (kin1_total i Ri). cbn [SR t_val]. rewrite !n1_half. nra.
      - eexists (triplets3 (real J : CR) (real U) (real (1/2)) lat _ i0 i1 i2). split.
        + intros j. unfold entry, row_of, m. cbn [bm_done]. rewrite (nth_rows3 sort _ _ _ lat N HG HS) by assumption. apply (entry_weight sort Hs).
        + unfold triplets3, kinetic_triplets3. rewrite !SR_app, !SR_map. cbn [t_val].
          rewrite (SR_ext (fun x : Z => n1 (ropp (real J))) (fun _ => Rabs J) (lat_neighbors lat i0)) by (intros; apply n1_ropp).
          rewrite (SR_ext (fun x : Z => n1 (ropp (real J))) (fun _ => Rabs J) (lat_neighbors lat i1)) by (intros; apply n1_ropp).
          rewrite (SR_ext (fun x : Z => n1 (real J)) (fun _ => Rabs J) (lat_neighbors lat i2)) by (intros; apply n1_real).
          rewrite !SR_const, (INR_len _ _ (g_len _ _ HG i0 I0)), (INR_len _ _ (g_len _ _ HG i1 I1)), (INR_len _ _ (g_len _ _ HG i2 I2)). fold z.
          destruct ((i0 =? i1)%Z && (i0 =? i2)%Z)%bool; cbn [SR t_val]; rewrite ?n1_half; nra. }
    destruct Q as (l & El & Hb). eapply Rle_trans; [|exact Hb]. eapply Rle_trans; [|apply (weight_rows l (N + N * N * N))].
    apply Req_le, SR_ext. intros j _. rewrite entry_scale, <- El. exact (n1_i _).
  Qed.
End Rows.
