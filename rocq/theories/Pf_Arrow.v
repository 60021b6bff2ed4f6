(** PROOFS for C82: operator norm of an arrow matrix (diagonal, first row and first column). *)
From Coq Require Import Reals Lra Psatz.
From Verif Require Import Base M_Matrix M_MatrixCheck M_Ode M_Dispersion Spec_Ode Pf_Matrix Pf_Matrix2 Pf_MatrixEntry Pf_Ode P_Ode Spec_Stability Pf_Stability Pf_Stability2 Pf_Stability3.
Local Open Scope R_scope.
Local Open Scope list_scope.

Lemma SR_one {T} l : SR (fun _ : T => 1) l = INR (length l).
Proof. induction l as [|a l IH]; [reflexivity|]. cbn [SR length]. rewrite IH, S_INR. ring. Qed.
(** (sum_i x_i)^2 <= n sum_i x_i^2 *)
Lemma SR_square {T} (x : T -> R) l : SR x l ^ 2 <= INR (length l) * SR (fun i => x i * x i) l.
Proof.
  pose proof (cauchy l (fun _ => 1) x) as C. unfold n2, dot in C.
  rewrite (SR_ext (fun i => 1 * x i) x), (SR_ext (fun _ => 1 * 1) (fun _ => 1)), SR_one in C by (intros; ring). exact C.
Qed.

Section Arrow.
  Variables (n : Z) (M : Z -> Z -> R) (d : Z -> R) (be a : R).
  Hypothesis Hn : (0 <= n)%Z.
  Hypothesis M00 : M 0%Z 0%Z = d 0%Z.
  Hypothesis M0r : forall r, (1 <= r < 1 + n)%Z -> M 0%Z r = be /\ M r 0%Z = be.
  Hypothesis Mrr : forall r, (1 <= r < 1 + n)%Z -> M r r = d r.
  Hypothesis Mrc : forall r c, (1 <= r < 1 + n)%Z -> (1 <= c < 1 + n)%Z -> r <> c -> M r c = 0.
  Hypothesis Hd : forall r, (0 <= r < 1 + n)%Z -> Rabs (d r) <= a.
  Let I := zrange 0 (1 + n).
  Let J := zrange 1 (1 + n).
  Lemma IJ : I = 0%Z :: J.
  Proof. unfold I, J. rewrite zrange_cons by lia. reflexivity. Qed.
  Definition Mw (w : Z -> R) (i : Z) : R := SR (fun j => M i j * w j) I.
  (** diagonal and arrow part *)
  Definition Dw (w : Z -> R) (i : Z) : R := d i * w i.
  Definition Aw (w : Z -> R) (i : Z) : R := if Z.eqb i 0 then be * SR w J else be * w 0%Z.
  Lemma split_w w i : (0 <= i < 1 + n)%Z -> Mw w i = Dw w i + Aw w i.
  Proof.
    intros Hi. unfold Mw, Dw, Aw. rewrite IJ. cbn [SR]. destruct (Z.eqb_spec i 0) as [->|Hne].
    - rewrite M00. rewrite (SR_ext (fun j => M 0%Z j * w j) (fun j => be * w j)), SR_mul; [ring|].
      intros j Hj. apply zrange_in in Hj. rewrite (Logic.proj1 (M0r j Hj)). reflexivity.
    - rewrite (Logic.proj2 (M0r i ltac:(lia))).
      assert (Q : SR (fun j => M i j * w j) J = d i * w i); [|rewrite Q; ring].
      assert (G : forall l, NoDup l -> (forall j, In j l -> (1 <= j < 1 + n)%Z) ->
        SR (fun j => M i j * w j) l = if in_dec Z.eq_dec i l then d i * w i else 0).
      { induction l as [|k l IH]; intros Nd Hl; [reflexivity|]. inversion Nd as [|? ? N1 N2]; subst. cbn [SR].
        rewrite IH by (try assumption; intros j Hj; apply Hl; right; exact Hj).
        destruct (Z.eq_dec i k) as [<-|Hk].
        - rewrite (Mrr i) by lia. destruct (in_dec Z.eq_dec i l) as [C|_]; [contradiction|].
          destruct (in_dec Z.eq_dec i (i :: l)) as [_|C]; [ring|exfalso; apply C; left; reflexivity].
        - rewrite (Mrc i k) by (try lia; try (apply Hl; left; reflexivity); exact Hk).
          destruct (in_dec Z.eq_dec i l) as [C|C]; destruct (in_dec Z.eq_dec i (k :: l)) as [C'|C']; try ring.
          + exfalso; apply C'; right; exact C.
          + exfalso. destruct C' as [C'|C']; [congruence|contradiction]. }
      rewrite G; [|apply zrange_NoDup|intros j Hj; apply zrange_in; exact Hj].
      destruct (in_dec Z.eq_dec i J) as [_|C]; [reflexivity|]. exfalso. apply C, zrange_in. lia.
  Qed.
  Lemma a_pos : 0 <= a.
  Proof. eapply Rle_trans; [apply Rabs_pos|apply (Hd 0%Z); lia]. Qed.
  Lemma D_le w : n2 I (Dw w) <= a ^ 2 * n2 I w.
  Proof.
    unfold n2, dot. rewrite <- SR_mul. apply SR_le. intros i Hi. apply zrange_in in Hi. unfold Dw.
    assert (Q : d i * d i <= a ^ 2).
    { pose proof (Hd i Hi) as X. pose proof a_pos. pose proof (Rabs_pos (d i)). assert (Rabs (d i) * Rabs (d i) = d i * d i) by (rewrite <- Rabs_mult; apply Rabs_pos_eq; nra). nra. }
    assert (0 <= w i * w i) by nra. nra.
  Qed.
  Lemma A_le w : n2 I (Aw w) <= be ^ 2 * IZR n * n2 I w.
  Proof.
    assert (Ln : INR (length J) = IZR n). { unfold J. rewrite zrange_length. rewrite INR_IZR_INZ. f_equal. lia. }
    unfold n2, dot. rewrite IJ. cbn [SR]. unfold Aw at 1 2. rewrite Z.eqb_refl.
    rewrite (SR_ext (fun i => Aw w i * Aw w i) (fun _ => (be * w 0%Z) ^ 2 * 1)).
    2:{ intros i Hi. apply zrange_in in Hi. unfold Aw. destruct (Z.eqb_spec i 0) as [->|_]; [lia|]. ring. }
    rewrite SR_mul, SR_one, Ln. pose proof (SR_square w J) as S. rewrite Ln in S.
    assert (0 <= be ^ 2) by nra. nra.
  Qed.
  Lemma arrow_norm w b : 0 <= b -> be ^ 2 * IZR n <= b ^ 2 -> n2 I (Mw w) <= (a + b) ^ 2 * n2 I w.
  Proof.
    intros Hb Hbb. pose proof a_pos as Ha. pose proof (n2_nonneg I w) as Hw.
    assert (T : nrm I (Mw w) <= (a + b) * nrm I w).
    { rewrite (nrm_ext I (Mw w) (fun i => Dw w i + Aw w i)) by (intros i Hi; apply zrange_in in Hi; apply split_w; exact Hi).
      eapply Rle_trans; [apply nrm_triangle|]. rewrite Rmult_plus_distr_r. apply Rplus_le_compat.
      - apply nrm_le; [exact Ha|apply D_le].
      - apply nrm_le; [exact Hb|]. eapply Rle_trans; [apply A_le|]. apply Rmult_le_compat_r; assumption. }
    rewrite <- (nrm_sq I (Mw w)), <- (nrm_sq I w). pose proof (nrm_pos I (Mw w)). pose proof (nrm_pos I w).
    replace ((a + b) ^ 2 * (nrm I w * nrm I w)) with (((a + b) * nrm I w) * ((a + b) * nrm I w)) by ring.
    apply Rmult_le_compat; assumption.
  Qed.
End Arrow.

(** i times a real matrix *)
Lemma op_bound_real n (M : Z -> Z -> R) (E : Z -> Z -> CR) B :
  (forall i j, (0 <= i < n)%Z -> (0 <= j < n)%Z -> E i j = ((0, M i j) : CR)) ->
  (forall w, n2 (zrange 0 n) (fun i => SR (fun j => M i j * w j) (zrange 0 n)) <= B ^ 2 * n2 (zrange 0 n) w) ->
  op_bound n E B.
Proof.
  intros HE HM x. unfold n2, dot. rewrite !SR_idx.
  set (v := fun i => (x (i, true), x (i, false)) : CR).
  assert (X : forall p, ap (idx n) (SM E) x p = ap (idx n) (SM E) (vecf v) p) by (intros p; apply ap_ext; intros [i []] _; reflexivity).
  pose proof (HM (fun i => x (i, true))) as H1. pose proof (HM (fun i => x (i, false))) as H2. unfold n2, dot in H1, H2.
  rewrite (SR_ext _ (fun i => SR (fun j => M i j * x (j, true)) (zrange 0 n) * SR (fun j => M i j * x (j, true)) (zrange 0 n) +
                              SR (fun j => M i j * x (j, false)) (zrange 0 n) * SR (fun j => M i j * x (j, false)) (zrange 0 n))).
  - rewrite !SR_add. lra.
  - intros i Hi. apply zrange_in in Hi. rewrite !X, !ap_SM. cbn [fst snd part]. rewrite fst_sum, snd_sum.
    rewrite (SR_ext (fun j => fst (rmul (E i j) (v j))) (fun j => -1 * (M i j * x (j, false)))),
      (SR_ext (fun j => snd (rmul (E i j) (v j))) (fun j => M i j * x (j, true))).
    + rewrite SR_mul. ring.
    + intros j Hj. apply zrange_in in Hj. rewrite HE by assumption. unfold v. cbn. ring.
    + intros j Hj. apply zrange_in in Hj. rewrite HE by assumption. unfold v. cbn. ring.
Qed.
