(** PROOFS: the rounding error of one Runge-Kutta step and of a whole run. *)
From Coq Require Import Reals Lra Psatz List ZArith Lia Sorting.Sorted.
From Verif Require Import Base M_Matrix M_Dispersion Spec_Matrix Spec_Stability M_Ode P_Ode Pf_Stability Pf_Stability2 M_Rounding Spec_Rounding Pf_Rounding Pf_Rounding2.
Local Open Scope R_scope.
Local Open Scope list_scope.
Local Notation len u := (Z.of_nat (length u)).

Section Step.
  Context (u eta H : R) (ar : arith).
  Hypothesis u0 : 0 <= u.
  Hypothesis e0 : 0 <= eta.
  Hypothesis acc : accurate u eta H ar.
  Local Notation pw := (pw u).
  Context (n : Z) (m : bmat CR) (W : nat) (L : R).
  Hypothesis wf : well_formed m n.
  Hypothesis HW : Forall (fun r => (length r <= W)%nat) (bm_done m).
  Hypothesis W1 : (1 <= W)%nat.
  Hypothesis rows : row_bound n (entry m) L.
  Hypothesis L0 : 0 <= L.
  Local Notation I := (idx n).
  Let S := SM (entry m).
  Let A := fun p q => Rabs (S p q).
  Context (h : R).
  Hypothesis Ha : Rabs h * L <= 3.
  Hypothesis Hh : eta <= u * (Rabs h / 6).
  Let tau := 4 * INR W * eta.
  Let q := (W + 2)%nat.
  Hypothesis Hp2 : pw (4 * q + 15) <= 2.

  Lemma tau_eta : eta <= tau /\ 0 <= tau.
  Proof. unfold tau. assert (1 <= INR W) by (apply (le_INR 1); exact W1). split; [nra|]. apply Rmult_le_pos; lra. Qed.
  Lemma coef c : c = 2 \/ c = 6 -> Rabs h / c <= H -> Rabs (f_div ar h c - h / c) <= (pw 2 - 1) * Rabs (h / c).
  Proof.
    intros Hc HR. assert (Pc : 0 < c) by (destruct Hc; subst; lra).
    assert (E : Rabs (h / c) = Rabs h / c) by (unfold Rdiv; rewrite Rabs_mult, (Rabs_pos_eq (/ c)); [reflexivity|left; apply Rinv_0_lt_compat; exact Pc]).
    destruct (acc h c) as (_ & _ & D). assert (Nc : c <> 0) by lra. specialize (D Nc). unfold within in D. rewrite E in *. specialize (D HR).
    eapply Rle_trans; [exact D|]. unfold Pf_Rounding.pw. pose proof (Rabs_pos h) as Ph.
    assert (G : Rabs h / 6 <= Rabs h / c) by (destruct Hc; subst; lra).
    assert (u * (Rabs h / 6) <= u * (Rabs h / c)) by (apply Rmult_le_compat_l; lra).
    assert (0 <= u * u * (Rabs h / c)) by (apply Rmult_le_pos; [nra|]; destruct Hc; subst; lra). cbn [pow]. lra.
  Qed.

  Lemma step_dev v U : len v = n -> (forall p, In p I -> Rabs (vec v p) <= U) -> 0 <= U ->
    100 * ((1 + L) * (1 + Rabs h) * (1 + U + tau)) <= H ->
    len (frk_step ar h m v) = n /\
    forall p, In p I -> Rabs (vec (frk_step ar h m v) p - P I S h (vec v) p) <=
      (pw (4 * q + 15) - 1) * P I A (Rabs h) (fun p => Rabs (vec v p)) p + pw (4 * q + 15) * (6 * (Rabs h * tau) + 35 / 2 * tau).
  Proof.
    intros Lv HU U0 HR. destruct tau_eta as [Te T0]. pose proof (Rabs_pos h) as Pg. set (g := Rabs h) in *.
    (* the atoms *)
    assert (P1 : 0 <= g * U) by (apply Rmult_le_pos; lra). assert (P2 : 0 <= L * U) by (apply Rmult_le_pos; lra).
    assert (P3 : 0 <= g * tau) by (apply Rmult_le_pos; lra). assert (P4 : 0 <= L * tau) by (apply Rmult_le_pos; lra).
    assert (P5 : 0 <= g * L * U) by (apply Rmult_le_pos; [apply Rmult_le_pos|]; lra). assert (P6 : 0 <= g * L * tau) by (apply Rmult_le_pos; [apply Rmult_le_pos|]; lra).
    assert (Q5 : g * L * U <= 3 * U) by (apply Rmult_le_compat_r; lra). assert (Q6 : g * L * tau <= 3 * tau) by (apply Rmult_le_compat_r; lra).
    assert (HM0 : 100 * (g + U + tau + L * U + L * tau + g * U + g * tau) <= H).
    { eapply Rle_trans; [|exact HR]. assert (0 <= g * L) by (apply Rmult_le_pos; lra).
      replace ((1 + L) * (1 + g) * (1 + U + tau)) with (1 + L + g + g * L + U + tau + L * U + L * tau + g * U + g * tau + g * L * U + g * L * tau) by ring. lra. }
    assert (HM : 100 * (U + tau + L * U + L * tau + g * U + g * tau) <= H) by lra.
    assert (HR' : forall k x, (k <= 4 * q + 15)%nat -> 0 <= x -> x <= 50 * (U + tau + L * U + L * tau + g * U + g * tau) -> pw k * x <= H).
    { intros k x Hk X0 Hx. pose proof (pw_mono u u0 _ _ Hk) as Hm. pose proof (pw_ge u u0 k). assert (pw k * x <= 2 * x) by (apply Rmult_le_compat_r; lra). lra. }
    assert (Hg : forall c, (c = 2 \/ c = 6) -> Rabs (h / c) = g / c).
    { intros c Hc. unfold Rdiv, g. rewrite Rabs_mult, (Rabs_pos_eq (/ c)); [reflexivity|]. destruct Hc; subst; lra. }
    assert (A2 : Rabs 2 = 2) by (apply Rabs_pos_eq; lra).
    set (X0 := fun p => Rabs (vec v p)). set (x0 := vec v).
    assert (D0 : forall k, Dev u n k X0 U 0 (vec v) x0).
    { intros k p Hp. split; [|exact (HU p Hp)]. apply (sdev_mono u u0 0 k _ 0 0); [lia|lra|]. apply sdev_exact. unfold X0, x0. lra. }
    unfold frk_step.
    set (k1 := fsp_vec ar m v).
    assert (Lk1 : len k1 = n) by (apply fsp_len; exact wf).
    assert (D1 : Dev u n q (ap I A X0) (L * U) tau (vec k1) (ap I S x0)).
    { apply (dev_mono u u0 n (0 + q) q _ (L * U) (L * U) (L * 0 + tau) tau); [lia|lra|lra|]. apply (dev_mat u eta H ar u0 e0 acc n m W L wf HW rows L0 0); [lra|lra|apply D0|].
      fold tau q. rewrite Rplus_0_r. apply HR'; [lia|lra|lra]. }
    (* h/2 or h/6 times a vector *)
    set (h2 := f_div ar h 2). set (h6 := f_div ar h 6).
    assert (Cf : forall c, (c = 2 \/ c = 6) -> Rabs (f_div ar h c - h / c) <= (pw 2 - 1) * Rabs (h / c)).
    { intros c Hc. apply coef; [exact Hc|]. fold g.
      assert (E1 : g / c <= g / 2) by (destruct Hc; subst; lra). lra. }
    pose proof (Cf 2 (or_introl eq_refl)) as C2. pose proof (Cf 6 (or_intror eq_refl)) as C6. fold h2 in C2. fold h6 in C6.
    pose proof (Hg 2 (or_introl eq_refl)) as G2. pose proof (Hg 6 (or_intror eq_refl)) as G6. rewrite G2 in C2. rewrite G6 in C6. clear Cf Hg.
    rewrite <- G2 in C2. rewrite <- G6 in C6.
    set (s1 := fv_scale ar h2 k1). assert (Ls1 : len s1 = n) by (apply fv_scale_len; exact Lk1).
    assert (E1 : Dev u n (q + 3) (fun p => Rabs (h / 2) * ap I A X0 p) (3 / 2 * U) (g * tau / 2 + tau) (vec s1) (fun p => h / 2 * ap I S x0 p)).
    { eapply (dev_mono u u0 n (Datatypes.S (2 + q)) (q + 3)); [lia| | |apply (dev_scale u eta H ar u0 e0 acc n 2 q h2 (h / 2) (ap I A X0) (L * U) tau); [exact Lk1| |exact C2|exact D1]]; rewrite ?G2; [lra|lra|apply HR'; [lia|lra|lra]]. }
    set (v2 := fv_add ar v s1). assert (Lv2 : len v2 = n) by (apply fv_add_len; assumption).
    set (X2 := fun p => X0 p + Rabs (h / 2) * ap I A X0 p). set (x2 := fun p => x0 p + h / 2 * ap I S x0 p).
    assert (D2 : Dev u n (q + 4) X2 (5 / 2 * U) (g * tau / 2 + 2 * tau) (vec v2) x2).
    { eapply (dev_mono u u0 n (Datatypes.S (q + 3)) (q + 4)); [lia| | |eapply (dev_add u eta H ar u0 e0 acc n (q + 3) _ _ _ _ _ _ _ _ _ _ Lv Ls1); [|apply D0|exact E1]]; [lra|lra|apply HR'; [lia|lra|lra]]. }
    set (k2 := fsp_vec ar m v2). assert (Lk2 : len k2 = n) by (apply fsp_len; exact wf).
    assert (F2 : Dev u n (2 * q + 4) (ap I A X2) (5 / 2 * (L * U)) (5 / 2 * tau + 2 * (L * tau)) (vec k2) (ap I S x2)).
    { eapply (dev_mono u u0 n ((q + 4) + q) (2 * q + 4)); [lia| | |eapply (dev_mat u eta H ar u0 e0 acc n m W L wf HW rows L0 (q + 4)); [| |exact D2|]]; fold tau q; [lra|lra|lra|lra|apply HR'; [lia|lra|lra]]. }
    set (s2 := fv_scale ar h2 k2). assert (Ls2 : len s2 = n) by (apply fv_scale_len; exact Lk2).
    assert (E2 : Dev u n (2 * q + 7) (fun p => Rabs (h / 2) * ap I A X2 p) (15 / 4 * U) (5 / 4 * (g * tau) + 4 * tau) (vec s2) (fun p => h / 2 * ap I S x2 p)).
    { eapply (dev_mono u u0 n (Datatypes.S (2 + (2 * q + 4))) (2 * q + 7)); [lia| | |apply (dev_scale u eta H ar u0 e0 acc n 2 (2 * q + 4) h2 (h / 2) (ap I A X2) (5 / 2 * (L * U)) (5 / 2 * tau + 2 * (L * tau))); [exact Lk2| |exact C2|exact F2]]; rewrite ?G2; [lra|lra|apply HR'; [lia|lra|lra]]. }
    set (v3 := fv_add ar v s2). assert (Lv3 : len v3 = n) by (apply fv_add_len; assumption).
    set (X3 := fun p => X0 p + Rabs (h / 2) * ap I A X2 p). set (x3 := fun p => x0 p + h / 2 * ap I S x2 p).
    assert (D3 : Dev u n (2 * q + 8) X3 (19 / 4 * U) (5 / 4 * (g * tau) + 5 * tau) (vec v3) x3).
    { eapply (dev_mono u u0 n (Datatypes.S (2 * q + 7)) (2 * q + 8)); [lia| | |eapply (dev_add u eta H ar u0 e0 acc n (2 * q + 7) _ _ _ _ _ _ _ _ _ _ Lv Ls2); [|apply D0|exact E2]]; [lra|lra|apply HR'; [lia|lra|lra]]. }
    set (k3 := fsp_vec ar m v3). assert (Lk3 : len k3 = n) by (apply fsp_len; exact wf).
    assert (F3 : Dev u n (3 * q + 8) (ap I A X3) (19 / 4 * (L * U)) (19 / 4 * tau + 5 * (L * tau)) (vec k3) (ap I S x3)).
    { eapply (dev_mono u u0 n ((2 * q + 8) + q) (3 * q + 8)); [lia| | |eapply (dev_mat u eta H ar u0 e0 acc n m W L wf HW rows L0 (2 * q + 8)); [| |exact D3|]]; fold tau q; [lra|lra|lra|lra|apply HR'; [lia|lra|lra]]. }
    set (s3 := fv_scale ar h k3). assert (Ls3 : len s3 = n) by (apply fv_scale_len; exact Lk3).
    assert (Cz : forall c, Rabs (c - c) <= (pw 0 - 1) * Rabs c) by (intros c; rewrite Rminus_diag_eq by reflexivity; rewrite Rabs_R0; cbn; lra).
    assert (E3 : Dev u n (3 * q + 9) (fun p => Rabs h * ap I A X3 p) (57 / 4 * U) (19 / 4 * (g * tau) + 16 * tau) (vec s3) (fun p => h * ap I S x3 p)).
    { eapply (dev_mono u u0 n (Datatypes.S (0 + (3 * q + 8))) (3 * q + 9)); [lia| | |apply (dev_scale u eta H ar u0 e0 acc n 0 (3 * q + 8) h h (ap I A X3) (19 / 4 * (L * U)) (19 / 4 * tau + 5 * (L * tau))); [exact Lk3| |apply Cz|exact F3]]; fold g; [lra|lra|apply HR'; [lia|lra|lra]]. }
    set (v4 := fv_add ar v s3). assert (Lv4 : len v4 = n) by (apply fv_add_len; assumption).
    set (X4 := fun p => X0 p + Rabs h * ap I A X3 p). set (x4 := fun p => x0 p + h * ap I S x3 p).
    assert (D4 : Dev u n (3 * q + 10) X4 (61 / 4 * U) (19 / 4 * (g * tau) + 17 * tau) (vec v4) x4).
    { eapply (dev_mono u u0 n (Datatypes.S (3 * q + 9)) (3 * q + 10)); [lia| | |eapply (dev_add u eta H ar u0 e0 acc n (3 * q + 9) _ _ _ _ _ _ _ _ _ _ Lv Ls3); [|apply D0|exact E3]]; [lra|lra|apply HR'; [lia|lra|lra]]. }
    set (k4 := fsp_vec ar m v4). assert (Lk4 : len k4 = n) by (apply fsp_len; exact wf).
    assert (F4 : Dev u n (4 * q + 10) (ap I A X4) (61 / 4 * (L * U)) (61 / 4 * tau + 17 * (L * tau)) (vec k4) (ap I S x4)).
    { eapply (dev_mono u u0 n ((3 * q + 10) + q) (4 * q + 10)); [lia| | |eapply (dev_mat u eta H ar u0 e0 acc n m W L wf HW rows L0 (3 * q + 10)); [| |exact D4|]]; fold tau q; [lra|lra|lra|lra|apply HR'; [lia|lra|lra]]. }
    set (t2 := fv_scale ar 2 k2). assert (Lt2 : len t2 = n) by (apply fv_scale_len; exact Lk2).
    assert (G2' : Dev u n (2 * q + 5) (fun p => Rabs 2 * ap I A X2 p) (5 * (L * U)) (6 * tau + 4 * (L * tau)) (vec t2) (fun p => 2 * ap I S x2 p)).
    { eapply (dev_mono u u0 n (Datatypes.S (0 + (2 * q + 4))) (2 * q + 5)); [lia| | |apply (dev_scale u eta H ar u0 e0 acc n 0 (2 * q + 4) 2 2 (ap I A X2) (5 / 2 * (L * U)) (5 / 2 * tau + 2 * (L * tau))); [exact Lk2| |apply Cz|exact F2]]; rewrite ?A2; [lra|lra|apply HR'; [lia|lra|lra]]. }
    set (t3 := fv_scale ar 2 k3). assert (Lt3 : len t3 = n) by (apply fv_scale_len; exact Lk3).
    assert (G3 : Dev u n (3 * q + 9) (fun p => Rabs 2 * ap I A X3 p) (19 / 2 * (L * U)) (21 / 2 * tau + 10 * (L * tau)) (vec t3) (fun p => 2 * ap I S x3 p)).
    { eapply (dev_mono u u0 n (Datatypes.S (0 + (3 * q + 8))) (3 * q + 9)); [lia| | |apply (dev_scale u eta H ar u0 e0 acc n 0 (3 * q + 8) 2 2 (ap I A X3) (19 / 4 * (L * U)) (19 / 4 * tau + 5 * (L * tau))); [exact Lk3| |apply Cz|exact F3]]; rewrite ?A2; [lra|lra|apply HR'; [lia|lra|lra]]. }
    set (r1 := fv_add ar k1 t2). assert (Lr1 : len r1 = n) by (apply fv_add_len; assumption).
    assert (R1 : Dev u n (2 * q + 6) (fun p => ap I A X0 p + Rabs 2 * ap I A X2 p) (6 * (L * U)) (8 * tau + 4 * (L * tau)) (vec r1) (fun p => ap I S x0 p + 2 * ap I S x2 p)).
    { eapply (dev_mono u u0 n (Datatypes.S (2 * q + 5)) (2 * q + 6)); [lia| | |eapply (dev_add u eta H ar u0 e0 acc n (2 * q + 5) _ _ _ _ _ _ _ _ _ _ Lk1 Lt2); [|apply (dev_mono u u0 n q _ _ (L * U) _ tau); [lia|apply Rle_refl|apply Rle_refl|exact D1]|exact G2']]; [lra|lra|apply HR'; [lia|lra|lra]]. }
    set (r2 := fv_add ar r1 t3). assert (Lr2 : len r2 = n) by (apply fv_add_len; assumption).
    assert (R2 : Dev u n (3 * q + 10) (fun p => ap I A X0 p + Rabs 2 * ap I A X2 p + Rabs 2 * ap I A X3 p) (31 / 2 * (L * U)) (39 / 2 * tau + 14 * (L * tau)) (vec r2) (fun p => ap I S x0 p + 2 * ap I S x2 p + 2 * ap I S x3 p)).
    { eapply (dev_mono u u0 n (Datatypes.S (3 * q + 9)) (3 * q + 10)); [lia| | |eapply (dev_add u eta H ar u0 e0 acc n (3 * q + 9) _ _ _ _ _ _ _ _ _ _ Lr1 Lt3); [|apply (dev_mono u u0 n (2 * q + 6) _ _ (6 * (L * U)) _ (8 * tau + 4 * (L * tau))); [lia|apply Rle_refl|apply Rle_refl|exact R1]|exact G3]]; [lra|lra|apply HR'; [lia|lra|lra]]. }
    set (r3 := fv_add ar r2 k4). assert (Lr3 : len r3 = n) by (apply fv_add_len; assumption).
    set (X5 := fun p => ap I A X0 p + Rabs 2 * ap I A X2 p + Rabs 2 * ap I A X3 p + ap I A X4 p).
    set (x5 := fun p => ap I S x0 p + 2 * ap I S x2 p + 2 * ap I S x3 p + ap I S x4 p).
    assert (R3 : Dev u n (4 * q + 11) X5 (123 / 4 * (L * U)) (143 / 4 * tau + 31 * (L * tau)) (vec r3) x5).
    { eapply (dev_mono u u0 n (Datatypes.S (4 * q + 10)) (4 * q + 11)); [lia| | |eapply (dev_add u eta H ar u0 e0 acc n (4 * q + 10) _ _ _ _ _ _ _ _ _ _ Lr2 Lk4); [|apply (dev_mono u u0 n (3 * q + 10) _ _ (31 / 2 * (L * U)) _ (39 / 2 * tau + 14 * (L * tau))); [lia|apply Rle_refl|apply Rle_refl|exact R2]|exact F4]]; [lra|lra|apply HR'; [lia|lra|lra]]. }
    set (s6 := fv_scale ar h6 r3). assert (Ls6 : len s6 = n) by (apply fv_scale_len; exact Lr3).
    assert (R4 : Dev u n (4 * q + 14) (fun p => Rabs (h / 6) * X5 p) (123 / 8 * U) (6 * (g * tau) + 33 / 2 * tau) (vec s6) (fun p => h / 6 * x5 p)).
    { eapply (dev_mono u u0 n (Datatypes.S (2 + (4 * q + 11))) (4 * q + 14)); [lia| | |apply (dev_scale u eta H ar u0 e0 acc n 2 (4 * q + 11) h6 (h / 6) X5 (123 / 4 * (L * U)) (143 / 4 * tau + 31 * (L * tau))); [exact Lr3| |exact C6|exact R3]]; rewrite ?G6; [lra|lra|apply HR'; [lia|lra|lra]]. }
    assert (R5 : Dev u n (4 * q + 15) (fun p => X0 p + Rabs (h / 6) * X5 p) (131 / 8 * U) (6 * (g * tau) + 35 / 2 * tau) (vec (fv_add ar v s6)) (fun p => x0 p + h / 6 * x5 p)).
    { eapply (dev_mono u u0 n (Datatypes.S (4 * q + 14)) (4 * q + 15)); [lia| | |eapply (dev_add u eta H ar u0 e0 acc n (4 * q + 14) _ _ _ _ _ _ _ _ _ _ Lv Ls6); [|apply D0|exact R4]]; [lra|lra|apply HR'; [lia|lra|lra]]. }
    split; [apply fv_add_len; assumption|]. intros p Hp. destruct (R5 p Hp) as [(_ & _ & R6) _].
    assert (Es : x0 p + h / 6 * x5 p = P I S h x0 p) by (rewrite <- rkf_P; reflexivity).
    assert (Ea : X0 p + Rabs (h / 6) * X5 p = P I A g X0 p).
    { rewrite <- rkf_P. unfold X5, X4, X3, X2, rkf. rewrite G2, G6, A2. reflexivity. }
    rewrite Es, Ea in R6. exact R6.
  Qed.
End Step.
