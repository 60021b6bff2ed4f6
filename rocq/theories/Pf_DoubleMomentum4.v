(** PROOFS: the matrix of the momentum-space program in double precision is close to the generator. *)
From Coq Require Import Reals Lra Psatz List ZArith Lia.
From Flocq Require Import Core.
From Verif Require Import Base M_Operator M_Lattice Spec_Lattice Pf_Lattice M_LatticeReal M_Basis Pf_Basis M_Matrix M_Ode M_Dispersion Pf_Matrix Pf_Momentum P_Momentum P_Ode Spec_Matrix
  Spec_Stability Pf_Stability Pf_Stability2 Pf_Stability3 P_Stability Pf_Arrow M_Rounding Spec_Rounding Pf_Rounding5 P_Rounding M_Double Pf_Double M_LatticeDouble P_LatticeDouble M_DoubleMomentum Pf_DoubleMomentum Spec_MomentumProgram Pf_MomentumProgram
  Pf_DoubleMomentum2 Pf_DoubleMomentum3.
Local Open Scope R_scope.

(** arithmetic *)
Lemma row_num NR aJ aU u eta : 1 <= NR <= 4096 -> 0 <= aJ -> 0 <= aU -> 0 <= u <= / 2 ^ 53 -> 0 <= eta <= / 2 ^ 1075 ->
  (6 * aJ + aU / 2 + (aJ / 2 ^ 42 + aU / 2 ^ 51 + / 2 ^ 1070)) + NR * NR * (aU / (2 * NR) + (u * (aU / (2 * NR)) + eta)) <= 7 * aJ + (NR + 2) * aU / 2 + / 2 ^ 1000.
Proof.
  intros HN HJ HU Hu He.
  replace (NR * NR * (aU / (2 * NR) + (u * (aU / (2 * NR)) + eta))) with (NR * aU / 2 + u * (NR * aU) / 2 + NR * NR * eta) by (field; lra).
  assert (S1 : aJ / 2 ^ 42 <= aJ / 2).
  { unfold Rdiv. apply Rmult_le_compat_l; [exact HJ|]. apply Rinv_le_contravar; [lra|]. rewrite <- (pow_1 2) at 1. apply Rle_pow; [lra|lia]. }
  assert (S2 : aU / 2 ^ 51 <= aU / 4).
  { unfold Rdiv. apply Rmult_le_compat_l; [exact HU|]. apply Rinv_le_contravar; [lra|]. replace 4 with (2 ^ 2) by ring. apply Rle_pow; [lra|lia]. }
  assert (S3 : u * (NR * aU) <= aU / 4).
  { apply Rle_trans with (/ 2 ^ 14 * (4096 * aU)).
    - apply Rmult_le_compat; [lra|apply Rmult_le_pos; lra| |apply Rmult_le_compat_r; lra]. eapply Rle_trans; [apply Hu|]. apply Rinv_le_contravar; [apply pow2_pos|apply Rle_pow; [lra|lia]].
    - replace (2 ^ 14) with 16384 by ring. lra. }
  assert (S4 : NR * NR * eta + / 2 ^ 1070 <= / 2 ^ 1000).
  { assert (NR * NR * eta <= 2 ^ 24 * / 2 ^ 1075) by (apply Rmult_le_compat; [apply Rmult_le_pos; lra|lra| |lra]; replace (2 ^ 24) with (4096 * 4096) by ring; apply Rmult_le_compat; lra).
    rewrite (half_pow 1000 1075), (half_pow 1070 1075) by lia. assert (P : 0 < / 2 ^ 1075) by (apply Rinv_0_lt_compat, pow2_pos).
    assert (2 ^ 24 + 2 ^ (1075 - 1070) <= 2 ^ (1075 - 1000)).
    { replace (1075 - 1000)%nat with (1 + 74)%nat by lia. replace (1075 - 1070)%nat with 5%nat by lia. rewrite pow_add. assert (2 ^ 24 <= 2 ^ 74) by (apply Rle_pow; [lra|lia]). assert (2 ^ 5 <= 2 ^ 74) by (apply Rle_pow; [lra|lia]). lra. }
    assert ((2 ^ 24 + 2 ^ (1075 - 1070)) * / 2 ^ 1075 <= 2 ^ (1075 - 1000) * / 2 ^ 1075) by (apply Rmult_le_compat_r; lra). lra. }
  lra.
Qed.
Lemma diff_num NR aJ aU u eta : 1 <= NR <= 4096 -> 0 <= aJ -> 0 <= aU -> 0 <= u <= / 2 ^ 53 -> 0 <= eta <= / 2 ^ 1075 ->
  (aJ / 2 ^ 42 + aU / 2 ^ 51 + / 2 ^ 1070) + (u * (aU / (2 * NR)) + eta) * NR <= aJ / 2 ^ 42 + aU / 2 ^ 50 + / 2 ^ 1050.
Proof.
  intros HN HJ HU Hu He. replace ((u * (aU / (2 * NR)) + eta) * NR) with (u * aU / 2 + NR * eta) by (field; lra).
  assert (S2 : u * aU / 2 <= aU / 2 ^ 51).
  { apply Rle_trans with (/ 2 ^ 53 * aU); [assert (u * aU <= / 2 ^ 53 * aU) by (apply Rmult_le_compat_r; lra); assert (0 <= u * aU) by (apply Rmult_le_pos; lra); lra|].
    unfold Rdiv. rewrite Rmult_comm. apply Rmult_le_compat_l; [exact HU|]. apply Rinv_le_contravar; [apply pow2_pos|apply Rle_pow; [lra|lia]]. }
  assert (S3 : aU / 2 ^ 50 = 2 * (aU / 2 ^ 51)) by (unfold Rdiv; rewrite (half_pow 50 51) by lia; replace (2 ^ (51 - 50)) with 2 by (cbn; lra); ring).
  assert (S4 : NR * eta + / 2 ^ 1070 <= / 2 ^ 1050).
  { assert (NR * eta <= 2 ^ 12 * / 2 ^ 1075) by (apply Rmult_le_compat; try lra; replace (2 ^ 12) with 4096 by ring; lra).
    rewrite (half_pow 1050 1075), (half_pow 1070 1075) by lia. assert (P : 0 < / 2 ^ 1075) by (apply Rinv_0_lt_compat, pow2_pos).
    replace (1075 - 1050)%nat with (1 + 24)%nat by lia. replace (1075 - 1070)%nat with 5%nat by lia. rewrite pow_add.
    assert (Q : 2 ^ 12 + 2 ^ 5 <= 2 ^ 1 * 2 ^ 24) by (assert (2 ^ 12 <= 2 ^ 24) by (apply Rle_pow; [lra|lia]); assert (2 ^ 5 <= 2 ^ 24) by (apply Rle_pow; [lra|lia]); lra).
    assert ((2 ^ 12 + 2 ^ 5) * / 2 ^ 1075 <= 2 ^ 1 * 2 ^ 24 * / 2 ^ 1075) by (apply Rmult_le_compat_r; lra). lra. }
  lra.
Qed.

(** the bound on the rows and on the deviation from the generator *)
Definition row_L (N : Z) (J U : R) : R := 7 * Rabs J + (IZR N + 2) * Rabs U / 2 + / 2 ^ 1000.
Definition dev_L (J U : R) : R := Rabs J / 2 ^ 42 + Rabs U / 2 ^ 50 + / 2 ^ 1050.
Lemma row_ext n E E' L : (forall i j, (0 <= i < n)%Z -> (0 <= j < n)%Z -> E i j = E' i j) -> row_bound n E L -> row_bound n E' L.
Proof.
  intros H R i Hi. rewrite (SR_ext _ (fun j => Rabs (fst (E i j)) + Rabs (snd (E i j)))); [apply R; exact Hi|]. intros j Hj. apply zrange_in in Hj. rewrite (H i j Hi Hj). reflexivity.
Qed.
Lemma anti_ext n (E E' : Z -> Z -> CR) : (forall i j, (0 <= i < n)%Z -> (0 <= j < n)%Z -> E i j = E' i j) -> anti_hermitian CR n E -> anti_hermitian CR n E'.
Proof. intros H A i j Hi Hj. rewrite <- (H i j Hi Hj), <- (H j i Hj Hi). apply A; assumption. Qed.

Section Facts.
  Variables (garbage : R -> R) (N : Z) (J U : R) (disp : Z -> R).
  Hypothesis HN : (0 < N <= 2 ^ 12)%Z.
  Hypothesis HJ : Rabs J <= 2 ^ 400.
  Hypothesis HU : Rabs U <= 2 ^ 400.
  Hypothesis Hdisp : forall k, site N k -> Rabs (disp k - band N J k) <= Rabs J / 2 ^ 44 + / 2 ^ 1073.
  Let ar := double_arith garbage.
  Let n := (1 + N * N)%Z.
  Lemma fit64 : (N * (1 + 3 * N) < two64)%Z.
  Proof. rewrite P_EigenIo.two64_eq. nia. Qed.
  Lemma double_matrix : exists m, f_compute_matrix ar (mom_closed N (center N)) N disp U (to_double_int garbage N) = Ok m /\
    well_formed m n /\ Forall (fun r => (length r <= Z.to_nat n)%nat) (bm_done m) /\
    row_bound n (entry m) (row_L N J U) /\ anti_hermitian CR n (entry m) /\
    forall x, n2 (idx n) (ap (idx n) (fun p q => SM (entry m) p q - SM (generator N J U) p q) x) <= dev_L J U ^ 2 * n2 (idx n) x.
  Proof.
    assert (N0 : (0 < N)%Z) by lia. pose proof fit64 as Hf. pose proof (q_site N N0) as Hq. pose proof (Rabs_pos J) as J0. pose proof (Rabs_pos U) as U0.
    assert (NR : 1 <= IZR N <= 4096) by (split; apply IZR_le; lia).
    set (D := f_energy ar N (center N) disp U). set (be := f_coupling ar U (to_double_int garbage N)).
    pose proof (energy_double garbage N J U disp HN HJ HU Hdisp) as HD. cbv zeta in HD. cbn beta in HD. fold ar D n in HD.
    destruct (coupling_double garbage N U HN HU) as [Gb Eb]. fold ar be in Gb, Eb.
    assert (u0 : 0 <= / 2 ^ 53 <= / 2 ^ 53) by (split; [left; apply Rinv_0_lt_compat, pow2_pos|lra]).
    assert (e0 : 0 <= / 2 ^ 1075 <= / 2 ^ 1075) by (split; [left; apply Rinv_0_lt_compat, pow2_pos|lra]).
    assert (NU : 0 <= Rabs U / (2 * IZR N)) by (apply Rmult_le_pos; [exact U0|left; apply Rinv_0_lt_compat; lra]).
    assert (A : Rabs (U / (2 * IZR N)) = Rabs U / (2 * IZR N)) by (unfold Rdiv; rewrite Rabs_mult, (Rabs_pos_eq (/ (2 * IZR N))) by (left; apply Rinv_0_lt_compat; lra); reflexivity).
    set (m := arrow_mat (K := CR) N (fun r => (0, D r)) (0, be)).
    assert (En : forall i j, (0 <= i < n)%Z -> (0 <= j < n)%Z -> arrow_i D be i j = entry m i j) by (intros i j Hi Hj; symmetry; apply (scaled_entry N); assumption).
    exists m. split; [|split; [|split; [|split; [|split]]]].
    - unfold f_compute_matrix. rewrite (f_closed_form ar N (center N) disp U (to_double_int garbage N) N0 Hf). cbn [obind]. f_equal. apply (scaled_mat garbage N D be N0); [intros r Hr; apply (HD r Hr)|exact Gb].
    - apply arrow_wf; assumption.
    - apply arrow_short; assumption.
    - apply (row_ext n (arrow_i D be)); [exact En|]. apply (arrow_rows N D be N0). fold n. intros r Hr. destruct (HD r Hr) as [_ E]. pose proof (energy_bound N J U r) as B.
      eapply Rle_trans; [|apply (row_num (IZR N) (Rabs J) (Rabs U) (/ 2 ^ 53) (/ 2 ^ 1075)); assumption]. rewrite mult_IZR.
      assert (Q1 : Rabs (D r) <= 6 * Rabs J + Rabs U / 2 + (Rabs J / 2 ^ 42 + Rabs U / 2 ^ 51 + / 2 ^ 1070)).
      { replace (D r) with (energy N J U r + (D r - energy N J U r)) by ring. eapply Rle_trans; [apply Rabs_triang|]. apply Rplus_le_compat; assumption. }
      assert (Q2 : Rabs be <= Rabs U / (2 * IZR N) + (/ 2 ^ 53 * (Rabs U / (2 * IZR N)) + / 2 ^ 1075)).
      { replace be with (U / (2 * IZR N) + (be - U / (2 * IZR N))) by ring. eapply Rle_trans; [apply Rabs_triang|]. rewrite A. apply Rplus_le_compat_l. exact Eb. }
      apply Rplus_le_compat; [exact Q1|]. apply Rmult_le_compat_l; [apply Rmult_le_pos; lra|exact Q2].
    - apply (anti_ext n (arrow_i D be)); [exact En|]. apply arrow_anti.
    - intros x.
      assert (X : n2 (idx n) (ap (idx n) (fun p q => SM (entry m) p q - SM (generator N J U) p q) x) = n2 (idx n) (ap (idx n) (SM (arrow_i (fun r => D r - energy N J U r) (be - U / (2 * IZR N)))) x)).
      { unfold n2. apply dot_ext; intros p Hp; unfold ap; apply SR_ext; intros q Hq'; f_equal; rewrite <- SM_arrow_diff; apply idx_in in Hp, Hq';
          unfold SM; rewrite !(En _ _ Hp Hq'); reflexivity. }
      rewrite X. set (b := (/ 2 ^ 53 * (Rabs U / (2 * IZR N)) + / 2 ^ 1075) * IZR N). set (a := Rabs J / 2 ^ 42 + Rabs U / 2 ^ 51 + / 2 ^ 1070).
      assert (b0 : 0 <= b) by (apply Rmult_le_pos; [|lra]; apply Rplus_le_le_0_compat; [apply Rmult_le_pos; lra|lra]).
      assert (a0 : 0 <= a) by (destruct (HD 0%Z ltac:(unfold n; nia)) as [_ E]; eapply Rle_trans; [apply Rabs_pos|exact E]).
      pose proof (arrow_op N (fun r => D r - energy N J U r) (be - U / (2 * IZR N)) N0 a b) as O. fold n in O.
      eapply Rle_trans; [apply O|].
      + intros r Hr. apply (HD r Hr).
      + exact b0.
      + unfold b. apply Rmult_le_compat_r; [lra|exact Eb].
      + apply Rmult_le_compat_r; [apply n2_nonneg|]. apply pow_incr. split; [lra|]. unfold a, b, dev_L. apply diff_num; assumption.
  Qed.
  Lemma row_L_pos : 0 <= row_L N J U.
  Proof. unfold row_L. pose proof (Rabs_pos J). pose proof (Rabs_pos U). assert (1 <= IZR N) by (apply IZR_le; lia). assert (0 < / 2 ^ 1000) by (apply Rinv_0_lt_compat, pow2_pos). assert (0 <= (IZR N + 2) * Rabs U) by (apply Rmult_le_pos; lra). lra. Qed.
  Lemma row_L_op : 6 * Rabs J + Rabs U <= row_L N J U.
  Proof. unfold row_L. pose proof (Rabs_pos J). pose proof (Rabs_pos U). assert (1 <= IZR N) by (apply IZR_le; lia). assert (0 < / 2 ^ 1000) by (apply Rinv_0_lt_compat, pow2_pos). assert (3 * Rabs U <= (IZR N + 2) * Rabs U) by (apply Rmult_le_compat_r; lra). lra. Qed.
  Lemma generator_L : forall x, n2 (idx n) (ap (idx n) (SM (generator N J U)) x) <= row_L N J U ^ 2 * n2 (idx n) x.
  Proof.
    intros x. eapply Rle_trans; [apply (generator_op N J U ltac:(lia))|]. apply Rmult_le_compat_r; [apply n2_nonneg|]. apply pow_incr. split; [apply Lc_pos|apply row_L_op].
  Qed.
  Lemma dev_L_pos : 0 <= dev_L J U.
  Proof. unfold dev_L. assert (P : forall k, 0 < / 2 ^ k) by (intros; apply Rinv_0_lt_compat, pow2_pos). pose proof (Rmult_le_pos _ _ (Rabs_pos J) (Rlt_le _ _ (P 42%nat))). pose proof (Rmult_le_pos _ _ (Rabs_pos U) (Rlt_le _ _ (P 50%nat))). pose proof (P 1050%nat). unfold Rdiv. lra. Qed.
End Facts.
