(** PROOFS: the rounding error of a whole run in the Euclidean norm. *)
From Coq Require Import Reals Lra Psatz List ZArith Lia Sorting.Sorted.
From Verif Require Import Base M_Matrix M_Dispersion Spec_Matrix Pf_Matrix Spec_Stability M_Ode P_Ode Pf_Stability Pf_Stability2 Pf_Stability3 M_Rounding Spec_Rounding Pf_Rounding Pf_Rounding2 Pf_Rounding3.
Local Open Scope R_scope.
Local Open Scope list_scope.
Local Notation len u := (Z.of_nat (length u)).

Section Norms.
  Context {T : Type} (I : list T).
  Lemma nrm_mono x y : (forall i, In i I -> Rabs (x i) <= y i) -> nrm I x <= nrm I y.
  Proof.
    intros Hxy. unfold nrm. apply sqrt_le_1_alt. unfold n2, dot. apply SR_le. intros i Hi. pose proof (Hxy i Hi) as B. pose proof (Rabs_pos (x i)) as P0.
    rewrite <- (Rabs_pos_eq (x i * x i)) by nra. rewrite Rabs_mult. apply Rmult_le_compat; lra.
  Qed.
  Lemma nrm_abs x : nrm I (fun i => Rabs (x i)) = nrm I x.
  Proof. unfold nrm, n2, dot. f_equal. apply SR_ext. intros i _. rewrite <- Rabs_mult. apply Rabs_pos_eq. nra. Qed.
  Lemma nrm_scal c x : 0 <= c -> nrm I (fun i => c * x i) <= c * nrm I x.
  Proof. intros Hc. apply nrm_le; [exact Hc|]. unfold n2. rewrite dot_mul_l, dot_mul_r. lra. Qed.
  Lemma nrm_const c : 0 <= c -> nrm I (fun _ => c) = c * sqrt (INR (length I)).
  Proof.
    intros Hc. unfold nrm, n2, dot. rewrite SR_const. replace (INR (length I) * (c * c)) with (c * c * INR (length I)) by ring. rewrite sqrt_mult_alt by nra. rewrite sqrt_square by exact Hc. reflexivity.
  Qed.
  Lemma nrm_point x i : In i I -> Rabs (x i) <= nrm I x.
  Proof.
    intros Hi. unfold nrm. rewrite <- (sqrt_Rsqr_abs (x i)). apply sqrt_le_1_alt. unfold Rsqr, n2, dot.
    induction I as [|a l IH]; [destruct Hi|]. cbn [SR]. assert (0 <= SR (fun j => x j * x j) l) by (apply SR_nonneg; intros j _; nra).
    destruct Hi as [->|Hi]; [lra|]. specialize (IH Hi). assert (0 <= x a * x a) by nra. lra.
  Qed.
  Lemma schur_abs (S : T -> T -> R) B : 0 <= B -> (forall i j, In i I -> In j I -> S i j = - S j i) ->
    (forall i, In i I -> SR (fun j => Rabs (S i j)) I <= B) -> forall x, nrm I (ap I (fun p q => Rabs (S p q)) x) <= B * nrm I x.
  Proof.
    intros B0 anti rows x. apply nrm_le; [exact B0|]. set (A := fun p q => Rabs (S p q)).
    apply Rle_trans with (SR (fun i => B * SR (fun j => A i j * x j ^ 2) I) I).
    - unfold n2, dot. apply SR_le. intros i Hi. pose proof (weighted_cs (A i) x I (fun j => Rabs_pos _)) as CS. fold (ap I A x i) in CS. cbn beta in CS.
      assert (A3 : 0 <= SR (fun j => A i j * x j ^ 2) I) by (apply SR_nonneg; intros j _; apply Rmult_le_pos; [apply Rabs_pos|apply pow2_ge_0]).
      assert (A4 : SR (A i) I <= B) by exact (rows i Hi). replace (ap I A x i * ap I A x i) with (ap I A x i ^ 2) by ring.
      eapply Rle_trans; [exact CS|]. apply Rmult_le_compat_r; assumption.
    - rewrite SR_mul. rewrite (SR_swap (fun i j => A i j * x j ^ 2)).
      assert (Q : SR (fun j => SR (fun i => A i j * x j ^ 2) I) I <= B * n2 I x).
      { unfold n2, dot. rewrite <- SR_mul. apply SR_le. intros j Hj.
        rewrite (SR_ext _ (fun i => x j ^ 2 * A j i)) by (intros i Hi; unfold A; rewrite (anti i j Hi Hj), Rabs_Ropp; ring).
        rewrite SR_mul. assert (SR (A j) I <= B) by exact (rows j Hj). pose proof (pow2_ge_0 (x j)). change (x j ^ 2 * SR (A j) I <= B * (x j * x j)). nra. }
      replace (B ^ 2 * n2 I x) with (B * (B * n2 I x)) by ring. apply Rmult_le_compat_l; assumption.
  Qed.
  (** 1 + a + a^2/2 + a^3/6 + a^4/24 *)
  Definition expo4 (a : R) : R := 1 + a + a ^ 2 / 2 + a ^ 3 / 6 + a ^ 4 / 24.
  Lemma nrm_P_abs (A : T -> T -> R) B g x : 0 <= B -> 0 <= g -> (forall y, nrm I (ap I A y) <= B * nrm I y) ->
    nrm I (P I A g x) <= expo4 (g * B) * nrm I x.
  Proof.
    intros B0 g0 HA.
    assert (N : forall k, nrm I (apn I A k x) <= B ^ k * nrm I x).
    { induction k as [|k IH]; cbn [apn pow]; [lra|]. eapply Rle_trans; [apply HA|]. rewrite Rmult_assoc. apply Rmult_le_compat_l; assumption. }
    assert (M : forall k c, 0 <= c -> nrm I (fun i => c * apn I A k x i) <= c * (B ^ k * nrm I x)).
    { intros k c Hc. eapply Rle_trans; [apply nrm_scal; exact Hc|]. apply Rmult_le_compat_l; [exact Hc|apply N]. }
    unfold P. eapply Rle_trans; [apply nrm_triangle|]. eapply Rle_trans; [apply Rplus_le_compat_r, nrm_triangle|].
    eapply Rle_trans; [apply Rplus_le_compat_r, Rplus_le_compat_r, nrm_triangle|]. eapply Rle_trans; [apply Rplus_le_compat_r, Rplus_le_compat_r, Rplus_le_compat_r, nrm_triangle|].
    pose proof (M 1%nat g g0) as M1. assert (g2 : 0 <= g ^ 2 / 2) by (pose proof (pow2_ge_0 g); lra). assert (g3 : 0 <= g ^ 3 / 6) by (pose proof (pow_le g 3 g0); lra). assert (g4 : 0 <= g ^ 4 / 24) by (pose proof (pow_le g 4 g0); lra).
    pose proof (M 2%nat _ g2) as M2. pose proof (M 3%nat _ g3) as M3. pose proof (M 4%nat _ g4) as M4. cbn [apn] in M1. unfold expo4.
    rewrite !Rpow_mult_distr. cbn [pow] in M1. lra.
  Qed.
End Norms.

Section Run.
  Context (u eta H : R) (ar : arith).
  Hypothesis u0 : 0 <= u.
  Hypothesis e0 : 0 <= eta.
  Hypothesis acc : accurate u eta H ar.
  Local Notation pw := (pw u).
  Context (n : Z) (m : bmat CR) (W : nat) (L : R).
  Hypothesis wf : well_formed m n.
  Hypothesis HW : Forall (fun r => (length r <= W)%nat) (bm_done m).
  Hypothesis W1 : (1 <= W)%nat.
  Hypothesis rows : row_bound n (entry m) L.
  Hypothesis anti : anti_hermitian CR n (entry m).
  Hypothesis L0 : 0 <= L.
  Local Notation I := (idx n).
  Let S := SM (entry m).
  Let A := fun p q => Rabs (S p q).
  Context (h : R).
  Hypothesis Ha : h ^ 2 * L ^ 2 <= 8.
  Hypothesis Hh : eta <= u * (Rabs h / 6).
  Let tau := 4 * INR W * eta.
  Let K := (4 * (W + 2) + 15)%nat.
  Hypothesis Hp2 : pw K <= 2.
  (** relative and absolute error of one step *)
  Definition step_rel : R := (pw K - 1) * expo4 (Rabs h * L).
  Definition step_abs : R := pw K * (6 * (Rabs h * tau) + 35 / 2 * tau) * sqrt (2 * IZR n).

  Lemma small : Rabs h * L <= 3.
  Proof.
    assert (Q : (Rabs h * L) ^ 2 <= 8) by (rewrite Rpow_mult_distr, pow2_abs; exact Ha).
    assert (0 <= Rabs h * L) by (apply Rmult_le_pos; [apply Rabs_pos|exact L0]). nra.
  Qed.
  Lemma n_pos : (0 <= n)%Z.
  Proof. destruct wf as (_ & Ln & _). lia. Qed.
  Lemma idx_len : INR (length I) = 2 * IZR n.
  Proof.
    pose proof n_pos as Hn. assert (E : SR (fun _ => 1) I = INR (length I) * 1) by apply SR_const. rewrite SR_idx in E.
    assert (E2 : SR (fun _ : Z => 1 + 1) (zrange 0 n) = INR (length (zrange 0 n)) * (1 + 1)) by apply SR_const.
    rewrite E2 in E. rewrite (INR_len (zrange 0 n) n) in E by (rewrite zrange_length; lia). lra.
  Qed.
  Lemma step_rel_pos : 0 <= step_rel.
  Proof.
    unfold step_rel. apply Rmult_le_pos; [pose proof (pw_ge u u0 K); lra|]. unfold expo4. assert (0 <= Rabs h * L) by (apply Rmult_le_pos; [apply Rabs_pos|exact L0]).
    pose proof (pow_le _ 2 H0). pose proof (pow_le _ 3 H0). pose proof (pow_le _ 4 H0). lra.
  Qed.
  Lemma step_abs_pos : 0 <= step_abs.
  Proof.
    unfold step_abs. destruct (tau_eta eta e0 W W1) as [_ T0]. fold tau in T0. pose proof (pw_ge u u0 K). pose proof (Rabs_pos h).
    apply Rmult_le_pos; [|apply sqrt_pos]. apply Rmult_le_pos; [lra|]. assert (0 <= Rabs h * tau) by (apply Rmult_le_pos; assumption). lra.
  Qed.
  Lemma step_error v : len v = n -> 100 * ((1 + L) * (1 + Rabs h) * (1 + nrm I (vec v) + tau)) <= H ->
    len (frk_step ar h m v) = n /\
    nrm I (fun p => vec (frk_step ar h m v) p + -1 * P I S h (vec v) p) <= step_rel * nrm I (vec v) + step_abs.
  Proof.
    intros Lv HR. destruct (tau_eta eta e0 W W1) as [_ T0]. fold tau in T0. pose proof (pw_ge u u0 K) as PK. pose proof (Rabs_pos h) as Pg.
    destruct (step_dev u eta H ar u0 e0 acc n m W L wf HW W1 rows L0 h small Hh Hp2 v (nrm I (vec v)) Lv) as [Ln E]; [intros p Hp; apply nrm_point; exact Hp|apply nrm_pos|exact HR|].
    split; [exact Ln|]. fold S A tau K in E. set (X := P I A (Rabs h) (fun p => Rabs (vec v p))) in *. set (T := 6 * (Rabs h * tau) + 35 / 2 * tau) in *.
    assert (PT : 0 <= T) by (unfold T; assert (0 <= Rabs h * tau) by (apply Rmult_le_pos; assumption); lra).
    eapply Rle_trans; [apply (nrm_mono I _ (fun p => (pw K - 1) * X p + pw K * T))|].
    { intros p Hp. eapply Rle_trans; [|exact (E p Hp)]. apply Req_le. f_equal. ring. }
    eapply Rle_trans; [apply nrm_triangle|]. apply Rplus_le_compat.
    - eapply Rle_trans; [apply nrm_scal; lra|]. unfold step_rel. rewrite Rmult_assoc. apply Rmult_le_compat_l; [lra|].
      eapply Rle_trans; [apply (nrm_P_abs I A L); [exact L0|exact Pg|]|rewrite nrm_abs; apply Rle_refl].
      apply (schur_abs I S L L0); [apply SM_anti, anti|apply SM_rows, rows].
    - rewrite nrm_const by (apply Rmult_le_pos; lra). rewrite idx_len. unfold step_abs. fold T. apply Rle_refl.
  Qed.
  Fixpoint Pn (k : nat) (x : Z * bool -> R) : Z * bool -> R := match k with O => x | Datatypes.S k' => Pn k' (P I S h x) end.
  Lemma nrm_P_S x : nrm I (P I S h x) <= nrm I x.
  Proof.
    apply (nrm_P I S L); [apply SM_anti, anti| |exact Ha]. apply (row_op n (entry m) L anti rows L0).
  Qed.
  Lemma P_diff x y p : In p I -> P I S h (fun q => x q + -1 * y q) p = P I S h x p + -1 * P I S h y p.
  Proof.
    intros Hp. unfold P. change (ap I S (fun q => x q + -1 * y q) p) with (apn I S 1 (fun q => x q + -1 * y q) p).
    assert (E : forall k, apn I S k (fun q => x q + -1 * y q) p = apn I S k x p + -1 * apn I S k y p).
    { intros k. rewrite (apn_add I S k x (fun q => -1 * y q) p Hp), (apn_mul I S k (-1) y p Hp). reflexivity. }
    rewrite !E. cbn [apn]. ring.
  Qed.
  Theorem run_rounding k : forall v x, len v = n ->
    100 * ((1 + L) * (1 + Rabs h) * (1 + (1 + step_rel) ^ k * (nrm I (vec v) + INR k * step_abs) + tau)) <= H ->
    len (frun ar h m k v) = n /\
    nrm I (fun p => vec (frun ar h m k v) p + -1 * Pn k x p) <=
      ((1 + step_rel) ^ k - 1) * nrm I (vec v) + INR k * (1 + step_rel) ^ k * step_abs + nrm I (fun p => vec v p + -1 * x p).
  Proof.
    pose proof step_rel_pos as R0. pose proof step_abs_pos as A0. set (d := step_rel) in *. set (th := step_abs) in *.
    destruct (tau_eta eta e0 W W1) as [_ T0]. fold tau in T0. pose proof (Rabs_pos h) as Pg.
    assert (Pd : forall k, 1 <= (1 + d) ^ k) by (intros j; apply pow_R1_Rle; lra).
    assert (PC : 0 <= (1 + L) * (1 + Rabs h)) by (apply Rmult_le_pos; lra).
    induction k as [|k IH]; intros v x Lv HR.
    - cbn [frun Pn pow INR]. split; [exact Lv|]. lra.
    - cbn [frun Pn]. set (V := nrm I (vec v)) in *. assert (V0 : 0 <= V) by apply nrm_pos. pose proof (pos_INR k) as Ik. pose proof (Pd k) as Pk. rewrite S_INR in *.
      assert (Nt : 0 <= INR k * th) by (apply Rmult_le_pos; assumption).
      assert (Step : (1 + d) ^ k * ((1 + d) * V + th + INR k * th) <= (1 + d) ^ Datatypes.S k * (V + (INR k + 1) * th)).
      { cbn [pow]. replace ((1 + d) * (1 + d) ^ k * (V + (INR k + 1) * th)) with ((1 + d) ^ k * ((1 + d) * (V + (INR k + 1) * th))) by ring. apply Rmult_le_compat_l; [lra|]. assert (0 <= d * ((INR k + 1) * th)) by (apply Rmult_le_pos; [exact R0|apply Rmult_le_pos; lra]). lra. }
      assert (VB : V <= (1 + d) ^ Datatypes.S k * (V + (INR k + 1) * th)).
      { pose proof (Pd (Datatypes.S k)). assert (0 <= (INR k + 1) * th) by (apply Rmult_le_pos; lra). nra. }
      assert (HR1 : 100 * ((1 + L) * (1 + Rabs h) * (1 + V + tau)) <= H).
      { eapply Rle_trans; [|exact HR]. apply Rmult_le_compat_l; [lra|]. apply Rmult_le_compat_l; lra. }
      destruct (step_error v Lv HR1) as [L' E']. fold d th V in E'. set (v' := frk_step ar h m v) in *.
      assert (NV : nrm I (vec v') <= (1 + d) * V + th).
      { rewrite (nrm_ext I _ (fun p => (vec v' p + -1 * P I S h (vec v) p) + P I S h (vec v) p)) by (intros; ring).
        eapply Rle_trans; [apply nrm_triangle|]. pose proof (nrm_P_S (vec v)) as Q. fold V in Q. lra. }
      assert (D' : nrm I (fun p => vec v' p + -1 * P I S h x p) <= d * V + th + nrm I (fun p => vec v p + -1 * x p)).
      { rewrite (nrm_ext I _ (fun p => (vec v' p + -1 * P I S h (vec v) p) + (P I S h (vec v) p + -1 * P I S h x p))) by (intros; ring).
        eapply Rle_trans; [apply nrm_triangle|]. apply Rplus_le_compat; [exact E'|].
        rewrite <- (nrm_ext I (P I S h (fun q => vec v q + -1 * x q)) _ (fun p Hp => P_diff (vec v) x p Hp)). apply nrm_P_S. }
      assert (HR2 : 100 * ((1 + L) * (1 + Rabs h) * (1 + (1 + d) ^ k * (nrm I (vec v') + INR k * th) + tau)) <= H).
      { eapply Rle_trans; [|exact HR]. apply Rmult_le_compat_l; [lra|]. apply Rmult_le_compat_l; [exact PC|]. apply Rplus_le_compat_r, Rplus_le_compat_l.
        eapply Rle_trans; [|exact Step]. apply Rmult_le_compat_l; lra. }
      destruct (IH v' (P I S h x) L' HR2) as [L2 E2]. split; [exact L2|]. eapply Rle_trans; [exact E2|].
      assert (Q1 : ((1 + d) ^ k - 1) * nrm I (vec v') <= ((1 + d) ^ k - 1) * ((1 + d) * V + th)) by (apply Rmult_le_compat_l; lra).
      cbn [pow]. set (w := (1 + d) ^ k) in *. assert (Q2 : w * th <= (1 + d) * w * th) by (assert (0 <= d * (w * th)) by (apply Rmult_le_pos; [exact R0|apply Rmult_le_pos; lra]); lra).
      assert (Q3 : INR k * w * th <= INR k * ((1 + d) * w) * th).
      { rewrite !Rmult_assoc. apply Rmult_le_compat_l; [exact Ik|]. lra. }
      lra.
  Qed.
End Run.
