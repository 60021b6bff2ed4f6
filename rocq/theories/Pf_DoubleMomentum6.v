(** PROOFS: the error of the coefficients after the eight steps of the momentum-space program. *)
From Coq Require Import Reals Lra Psatz List ZArith Lia.
From Flocq Require Import Core.
From Verif Require Import Base M_Operator M_Lattice Spec_Lattice Pf_Lattice M_LatticeReal M_Basis Pf_Basis M_Matrix M_Ode M_Dispersion Pf_Matrix Pf_Momentum P_Momentum P_Ode Spec_Matrix
  Spec_Stability Pf_Stability Pf_Stability2 Pf_Stability3 P_Stability Pf_Arrow M_Rounding Spec_Rounding Pf_Rounding4 Pf_Rounding5 P_Rounding M_Double Pf_Double M_LatticeDouble P_LatticeDouble M_DoubleMomentum Pf_DoubleMomentum Spec_MomentumProgram Pf_MomentumProgram
  Pf_Perturbation Pf_DoubleMomentum2 Pf_DoubleMomentum3 Pf_DoubleMomentum4 Pf_DoubleMomentum5.
Local Open Scope R_scope.
Local Open Scope list_scope.
Local Notation len u := (Z.of_nat (length u)).

Lemma Pn_PnE n m h k : forall x, Pn n m h k x = PnE (idx n) h (SM (entry m)) k x.
Proof. induction k as [|k IH]; intros x; cbn [Pn PnE]; [reflexivity|]. apply IH. Qed.
Lemma PnE_step {T} (I : list T) h S k : forall x, PnE I h S (Datatypes.S k) x = P I S h (PnE I h S k x).
Proof.
  induction k as [|k IH]; intros x; [reflexivity|]. change (PnE I h S (Datatypes.S (Datatypes.S k)) x) with (PnE I h S (Datatypes.S k) (P I S h x)). rewrite IH. reflexivity.
Qed.
(** arithmetic *)
Lemma small_run NR : 1 <= NR <= 4096 -> NR * NR * / 2 ^ 39 + / 2 ^ 926 + 1 <= 2.
Proof.
  intros H. assert (A : NR * NR <= 2 ^ 24) by (replace (2 ^ 24) with (4096 * 4096) by ring; apply Rmult_le_compat; lra).
  assert (B : / 2 ^ 926 <= / 2 ^ 39) by (apply Rinv_le_contravar; [apply pow2_pos|apply Rle_pow; [lra|lia]]).
  assert (C : 0 < / 2 ^ 39) by (apply Rinv_0_lt_compat, pow2_pos). assert (D : NR * NR * / 2 ^ 39 <= 2 ^ 24 * / 2 ^ 39) by (apply Rmult_le_compat_r; lra).
  assert (E : 2 ^ 24 * / 2 ^ 39 + / 2 ^ 39 <= 1) by (apply Rmult_le_reg_r with (2 ^ 39); [apply pow2_pos|]; rewrite Rmult_plus_distr_r, Rmult_assoc, Rinv_l by (apply pow_nonzero; lra); cbn [pow]; lra).
  lra.
Qed.
Lemma state_num NR aJ aU dt : 1 <= NR <= 4096 -> 0 <= aJ -> 0 <= aU -> 0 <= dt <= 2 ^ 100 ->
  dt ^ 2 * (7 * aJ + (NR + 2) * aU / 2 + / 2 ^ 1000) ^ 2 <= 8 ->
  NR * NR * / 2 ^ 39 + / 2 ^ 926 + 8 * (12 * dt * (aJ / 2 ^ 42 + aU / 2 ^ 50 + / 2 ^ 1050) * 1) <= NR * NR / 2 ^ 35.
Proof.
  intros HN HJ HU Hdt Hs. assert (T0 : 0 < / 2 ^ 1000) by (apply Rinv_0_lt_compat, pow2_pos).
  assert (NU : 3 * aU <= (NR + 2) * aU) by (apply Rmult_le_compat_r; lra).
  set (L := 7 * aJ + (NR + 2) * aU / 2 + / 2 ^ 1000) in *. assert (L0 : 0 <= L) by (unfold L; lra).
  assert (S0 : 0 <= dt * L) by (apply Rmult_le_pos; lra). assert (S1 : dt * L <= 3) by (assert ((dt * L) ^ 2 <= 8) by (rewrite Rpow_mult_distr; exact Hs); nra).
  assert (SJ : dt * (7 * aJ) <= 3) by (eapply Rle_trans; [|exact S1]; apply Rmult_le_compat_l; unfold L; lra).
  assert (SU : dt * (3 / 2 * aU) <= 3) by (eapply Rle_trans; [|exact S1]; apply Rmult_le_compat_l; unfold L; lra).
  assert (M1 : 1 <= NR * NR) by nra. clear Hs S0 S1 NU.
  assert (P : forall k, 0 < / 2 ^ k) by (intros; apply Rinv_0_lt_compat, pow2_pos).
  assert (D : dt * / 2 ^ 1050 <= / 2 ^ 950).
  { apply Rle_trans with (2 ^ 100 * / 2 ^ 1050); [apply Rmult_le_compat_r; [left; apply P|apply Hdt]|]. rewrite (half_pow 950 1050) by lia. apply Rle_refl. }
  assert (D1 : / 2 ^ 950 <= / 2 ^ 60) by (apply Rinv_le_contravar; [apply pow2_pos|apply Rle_pow; [lra|lia]]).
  assert (D2 : / 2 ^ 926 <= / 2 ^ 60) by (apply Rinv_le_contravar; [apply pow2_pos|apply Rle_pow; [lra|lia]]).
  assert (H1 : / 2 ^ 39 = 2097152 * / 2 ^ 60) by (rewrite (half_pow 39 60) by lia; f_equal; cbn; lra).
  assert (H2 : / 2 ^ 42 = 262144 * / 2 ^ 60) by (rewrite (half_pow 42 60) by lia; f_equal; cbn; lra).
  assert (H3 : / 2 ^ 50 = 1024 * / 2 ^ 60) by (rewrite (half_pow 50 60) by lia; f_equal; cbn; lra).
  assert (H4 : / 2 ^ 35 = 33554432 * / 2 ^ 60) by (rewrite (half_pow 35 60) by lia; f_equal; cbn; lra).
  unfold Rdiv in *. rewrite H1, H2, H3, H4. pose proof (P 60%nat) as Px. set (x := / 2 ^ 60) in *. clearbody x. clear H1 H2 H3 H4 P L L0.
  assert (X1 : dt * aJ * x <= 3 / 7 * x) by (apply Rmult_le_compat_r; lra). assert (X2 : dt * aU * x <= 2 * x) by (apply Rmult_le_compat_r; lra).
  assert (X3 : 1 * x <= NR * NR * x) by (apply Rmult_le_compat_r; lra). set (y := / 2 ^ 1050) in *. set (M := NR * NR) in *. clearbody y M. set (a := / 2 ^ 950) in *. set (b := / 2 ^ 926) in *. clearbody a b.
  replace (8 * (12 * dt * (aJ * (262144 * x) + aU * (1024 * x) + y) * 1)) with (96 * (262144 * (dt * aJ * x) + 1024 * (dt * aU * x) + dt * y)) by ring. lra.
Qed.

Section State.
  Variables (garbage : R -> R) (N : Z) (J U dt : R) (disp : Z -> R).
  Hypothesis HN : (0 < N <= 2 ^ 12)%Z.
  Hypothesis HJ : Rabs J <= 2 ^ 400.
  Hypothesis HU : Rabs U <= 2 ^ 400.
  Hypothesis Hdisp : forall k, site N k -> Rabs (disp k - band N J k) <= Rabs J / 2 ^ 44 + / 2 ^ 1073.
  Hypothesis Hdt : / 2 ^ 1000 <= dt <= 2 ^ 100.
  Hypothesis Hst : dt ^ 2 * row_L N J U ^ 2 <= 8.
  Let ar := double_arith garbage.
  Let n := (1 + N * N)%Z.
  Lemma row_L_max : row_L N J U <= 2 ^ 500.
  Proof.
    unfold row_L. assert (NR : 1 <= IZR N <= 4096) by (split; apply IZR_le; lia). pose proof (Rabs_pos U) as U0. pose proof (Rabs_pos J) as J0.
    assert (O : 1 <= 2 ^ 400) by (apply pow_R1_Rle; lra). assert (S : / 2 ^ 1000 <= 1) by (rewrite <- Rinv_1; apply Rinv_le_contravar; [lra|apply pow_R1_Rle; lra]).
    assert (Q : (IZR N + 2) * Rabs U <= 4098 * 2 ^ 400) by (apply Rmult_le_compat; lra).
    assert (E5 : 2 ^ 500 = 2 ^ 100 * 2 ^ 400) by (rewrite <- pow_add; reflexivity). rewrite E5. clear E5. assert (Q2 : 2 ^ 13 <= 2 ^ 100) by (apply Rle_pow; [lra|lia]). replace (2 ^ 13) with 8192 in Q2 by ring.
    assert (8192 * 2 ^ 400 <= 2 ^ 100 * 2 ^ 400) by (apply Rmult_le_compat_r; lra).
    set (b := 2 ^ 400) in *. set (c := 2 ^ 100 * b) in *. set (w := (IZR N + 2) * Rabs U) in *. set (t := / 2 ^ 1000) in *. clearbody b c w t. lra.
  Qed.
  Lemma state_error (v : list CR) y : len v = n -> nrm (idx n) (vec v) = 1 -> exact_solution n (generator N J U) y -> (forall i, (0 <= i < n)%Z -> y 0 i = vget v i) ->
    exists m, f_compute_matrix ar (mom_closed N (center N)) N disp U (to_double_int garbage N) = Ok m /\
      len (frun ar dt m 8 v) = n /\
      nrm (idx n) (vec (frun ar dt m 8 v)) <= 2 /\
      nrm (idx n) (fun p => vec (frun ar dt m 8 v) p + -1 * vecf (y (8 * dt)) p) <=
        IZR N * IZR N / 2 ^ 35 + 8 * ((dt * (6 * Rabs J + Rabs U)) ^ 5 / 120).
  Proof.
    intros Lv Nv Hy Y0. destruct (double_matrix garbage N J U disp HN HJ HU Hdisp) as (m & Em & wf & Sh & Rw & An & Df). fold ar n in Em, wf, Sh, Rw, An, Df.
    exists m. split; [exact Em|]. pose proof (row_L_pos N J U HN) as L0. assert (dt0 : 0 <= dt) by (assert (0 < / 2 ^ 1000) by (apply Rinv_0_lt_compat, pow2_pos); lra).
    assert (Ad : Rabs dt = dt) by (apply Rabs_pos_eq; exact dt0).
    destruct (run8 ar (double_ok garbage) N m (row_L N J U) HN wf Sh Rw An L0 dt Hst row_L_max ltac:(rewrite Ad; apply Hdt) ltac:(rewrite Ad; apply Hdt) v (vec v) Lv Nv (fun p _ => eq_refl)) as [L8 E1].
    fold n in L8, E1. split; [exact L8|]. rewrite Pn_PnE in E1.
    pose proof (generator_anti N J U) as Ag. fold n in Ag.
    assert (AnS : forall i j, In i (idx n) -> In j (idx n) -> SM (entry m) i j = - SM (entry m) j i) by (apply SM_anti; exact An).
    assert (AgS : forall i j, In i (idx n) -> In j (idx n) -> SM (generator N J U) i j = - SM (generator N J U) j i) by (apply SM_anti; exact Ag).
    assert (Om : forall x, n2 (idx n) (ap (idx n) (SM (entry m)) x) <= row_L N J U ^ 2 * n2 (idx n) x) by (apply (row_op n (entry m) (row_L N J U) An Rw L0)).
    pose proof (generator_L N J U HN) as Og. fold n in Og.
    pose proof (runs_diff (idx n) (SM (generator N J U)) (SM (entry m)) (row_L N J U) (dev_L J U) dt AgS AnS L0 (dev_L_pos J U) dt0 Og Om Df Hst 8 (vec v) (vec v)) as E2.
    rewrite Nv in E2.
    assert (Z0 : nrm (idx n) (fun p => vec v p + -1 * vec v p) <= 0).
    { eapply Rle_trans; [apply (nrm_le (idx n) _ (vec v) 0); [lra|]|lra]. unfold n2, dot. rewrite (SR_ext _ (fun _ => 0)); [rewrite SR_zero; lra|]. intros p _. ring. }
    assert (Lift : solution (idx n) (SM (generator N J U)) (fun t => vecf (y t))).
    { intros t [i c] Hi. rewrite ap_SM. apply idx_in in Hi. cbn [fst snd] in *. destruct (Hy t i Hi) as [D1 D2]. unfold vecf. cbn [fst snd]. destruct c; cbn [part]; [exact D1|exact D2]. }
    set (B := 6 * Rabs J + Rabs U) in *. assert (B0 : 0 <= B) by apply (Lc_pos J U).
    assert (HB : dt ^ 2 * B ^ 2 <= 8).
    { eapply Rle_trans; [|exact Hst]. apply Rmult_le_compat_l; [apply pow2_ge_0|]. apply pow_incr. split; [exact B0|apply (row_L_op N J U HN)]. }
    pose proof (global_error (idx n) (SM (generator N J U)) B AgS B0 (generator_op N J U ltac:(lia)) (fun t => vecf (y t)) dt (fun k => PnE (idx n) dt (SM (generator N J U)) k (vec v)) Lift dt0 HB) as E3.
    specialize (E3 ltac:(intros p Hp; apply idx_in in Hp; cbn [PnE]; unfold vec, vecf; rewrite (Y0 _ Hp); reflexivity)).
    assert (St : forall k p, In p (idx n) -> PnE (idx n) dt (SM (generator N J U)) (Datatypes.S k) (vec v) p = P (idx n) (SM (generator N J U)) dt (PnE (idx n) dt (SM (generator N J U)) k (vec v)) p) by (intros k p _; rewrite PnE_step; reflexivity).
    specialize (E3 St 8%nat).
    assert (Ny : nrm (idx n) (vecf (y 0)) = 1).
    { rewrite <- Nv. apply nrm_ext. intros p Hp. apply idx_in in Hp. unfold vec, vecf. rewrite (Y0 _ Hp). reflexivity. }
    cbn beta in E3. rewrite Ny in E3. replace (INR 8) with 8 in * by (cbn; ring).
    split.
    { rewrite (nrm_ext (idx n) _ (fun p => (vec (frun ar dt m 8 v) p + -1 * PnE (idx n) dt (SM (entry m)) 8 (vec v) p) + PnE (idx n) dt (SM (entry m)) 8 (vec v) p)) by (intros; ring).
      eapply Rle_trans; [apply nrm_triangle|]. pose proof (PnE_len (idx n) (SM (entry m)) (row_L N J U) dt AnS Om Hst 8 (vec v)) as E4. rewrite Nv in E4.
      eapply Rle_trans; [apply Rplus_le_compat; [exact E1|exact E4]|]. apply small_run. split; apply IZR_le; lia. }
    rewrite (nrm_ext (idx n) _ (fun p => ((vec (frun ar dt m 8 v) p + -1 * PnE (idx n) dt (SM (entry m)) 8 (vec v) p) +
       (PnE (idx n) dt (SM (entry m)) 8 (vec v) p + -1 * PnE (idx n) dt (SM (generator N J U)) 8 (vec v) p)) +
       (PnE (idx n) dt (SM (generator N J U)) 8 (vec v) p + -1 * vecf (y (8 * dt)) p))) by (intros; ring).
    eapply Rle_trans; [apply nrm_triangle|]. eapply Rle_trans; [apply Rplus_le_compat_r, nrm_triangle|].
    assert (NR : 1 <= IZR N <= 4096) by (split; apply IZR_le; lia).
    pose proof (state_num (IZR N) (Rabs J) (Rabs U) dt NR (Rabs_pos J) (Rabs_pos U) ltac:(lra) Hst) as Num. unfold dev_L in E2.
    apply Rplus_le_compat; [|lra]. eapply Rle_trans; [apply Rplus_le_compat; [exact E1|exact E2]|].
    eapply Rle_trans; [|exact Num]. rewrite <- !Rplus_assoc. lra.
  Qed.
End State.
