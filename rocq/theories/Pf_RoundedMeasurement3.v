(** PROOFS: error of the parallel sum. *)
From Coq Require Import Reals Lra Psatz List ZArith Lia Permutation.
From Verif Require Import Base Instances M_Operator M_Basis M_Matrix M_Ode M_Dispersion M_Number M_OpenMP Spec_OpenMP Pf_OpenMP M_SiteOccupation Spec_Stability
  M_Rounding Spec_Rounding Pf_Rounding M_RoundedMeasurement Pf_Threads Pf_RoundedSum Pf_RoundedMeasurement Pf_RoundedMeasurement2 Pf_Matrix.
Local Open Scope R_scope.
Local Open Scope list_scope.

Lemma sum_fst (l : list (car (cplx_ring Rring))) : fst (sum_over (K := cplx_ring Rring) (fun x => x) l) = rsum (map fst l).
Proof. induction l as [|x l IH]; [reflexivity|]. rewrite sum_over_cons. cbn [map]. change (rsum (fst x :: map fst l)) with (fst x + rsum (map fst l)). rewrite <- IH. reflexivity. Qed.
Lemma sum_snd (l : list (car (cplx_ring Rring))) : snd (sum_over (K := cplx_ring Rring) (fun x => x) l) = rsum (map snd l).
Proof. induction l as [|x l IH]; [reflexivity|]. rewrite sum_over_cons. cbn [map]. change (rsum (snd x :: map snd l)) with (snd x + rsum (map snd l)). rewrite <- IH. reflexivity. Qed.
Lemma concat_flat {A B} (f : A -> list B) Ls : concat (map (flat_map f) Ls) = flat_map f (concat Ls).
Proof. induction Ls as [|l Ls IH]; cbn; [reflexivity|]. rewrite IH, flat_map_app. reflexivity. Qed.

Section Sum.
  Context (u eta H : R) (ar : arith).
  Hypothesis u0 : 0 <= u.
  Hypothesis e0 : 0 <= eta.
  Hypothesis acc : accurate u eta H ar.
  Local Notation pw := (pw u).
  Context (k : nat) (c : R).
  Hypothesis c0 : 0 <= c.
  Inductive Close : list summand -> list CR -> R -> Prop :=
  | Close_nil : Close [] [] 0
  | Close_cons : forall s x w ss xs W, close u eta k w c s x -> Close ss xs W -> Close (s :: ss) (x :: xs) (w + W).
  Lemma Close_app ss xs W ss' xs' W' : Close ss xs W -> Close ss' xs' W' -> Close (ss ++ ss') (xs ++ xs') (W + W').
  Proof.
    induction 1 as [|s x w ss xs W C CC IH]; intros D; cbn [app].
    - rewrite Rplus_0_l. exact D.
    - rewrite Rplus_assoc. constructor; [exact C|apply IH, D].
  Qed.
  Lemma Close_one s x w : close u eta k w c s x -> Close [s] [x] w.
  Proof. intros C. rewrite <- (Rplus_0_r w). constructor; [exact C|constructor]. Qed.
  Lemma Close_weight ss xs W : Close ss xs W -> 0 <= W.
  Proof. induction 1 as [|s x w ss xs W C CC IH]; [lra|]. pose proof (sdev_X _ _ _ _ _ _ (Logic.proj1 C)). lra. Qed.
  Lemma dev_terms w y x : dev u eta k w c y x -> Rabs (y - x) <= (pw k - 1) * w + pw k * (c * eta) /\ Rabs y <= pw k * (w + c * eta).
  Proof. intros D. split; [apply D|exact (sdev_hat _ _ _ _ _ _ D)]. Qed.
  Lemma Close_re ss xs W : Close ss xs W ->
    Rabs (rsum (map re ss) - rsum (map fst xs)) <= (pw k - 1) * W + pw k * (INR (length ss) * (c * eta)) /\
    asum (map re ss) <= pw k * (W + INR (length ss) * (c * eta)).
  Proof.
    induction 1 as [|s x w ss xs W C CC IH].
    - cbn. rewrite Rminus_0_r, Rabs_R0. lra.
    - destruct IH as (I1 & I2). destruct C as (C & _). destruct (dev_terms _ _ _ C) as (D1 & D2).
      cbn [map length]. rewrite S_INR. change (rsum (?a :: ?l)) with (a + rsum l). change (asum (?a :: ?l)) with (Rabs a + asum l). split; [|lra].
      replace (re s + rsum (map re ss) - (fst x + rsum (map fst xs))) with ((re s - fst x) + (rsum (map re ss) - rsum (map fst xs))) by ring.
      eapply Rle_trans; [apply Rabs_triang|]. lra.
  Qed.
  Lemma Close_im ss xs W : Close ss xs W ->
    Rabs (rsum (flat_map im ss) - rsum (map snd xs)) <= (pw k - 1) * W + pw k * (INR (length ss) * (c * eta)) /\
    asum (flat_map im ss) <= pw k * (W + INR (length ss) * (c * eta)) /\ (length (flat_map im ss) <= length ss)%nat.
  Proof.
    pose proof (pw_ge u u0 k) as G. assert (P : 0 <= c * eta) by nra.
    induction 1 as [|s x w ss xs W C CC IH].
    - cbn. rewrite Rminus_0_r, Rabs_R0. split; [lra|]. split; [lra|lia].
    - destruct IH as (I1 & I2 & I3). destruct C as (C0 & C). pose proof (sdev_X _ _ _ _ _ _ C0) as w0.
      cbn [map length]. rewrite S_INR. change (rsum (snd x :: ?l)) with (snd x + rsum l).
      destruct s as [z|r]; cbn [flat_map im app].
      + destruct (dev_terms _ _ _ C) as (D1 & D2). change (rsum (?a :: ?l)) with (a + rsum l). change (asum (?a :: ?l)) with (Rabs a + asum l).
        split; [|split; [lra|cbn [length]; lia]].
        replace (snd z + rsum (flat_map im ss) - (snd x + rsum (map snd xs))) with ((snd z - snd x) + (rsum (flat_map im ss) - rsum (map snd xs))) by ring.
        eapply Rle_trans; [apply Rabs_triang|]. lra.
      + rewrite C. rewrite Rplus_0_l.
        assert (0 <= (pw k - 1) * w) by (apply Rmult_le_pos; lra). assert (0 <= pw k * (c * eta)) by (apply Rmult_le_pos; lra).
        assert (0 <= pw k * w) by (apply Rmult_le_pos; lra).
        split; [lra|]. split; [lra|lia].
  Qed.

  Definition bound (W : R) (n T : nat) : R := (pw (n + T + k) - 1) * W + pw (n + T + k) * ((c + 1) * INR (n + T) * eta).
  (** the parallel sum of numbers that are themselves inexact *)
  Lemma total_err Ls target W n T : 0 <= W -> (length (concat Ls) <= n)%nat -> length Ls = T ->
    pw (n + T + k) * (W + (c + 1) * INR (n + T) * eta) <= H ->
    Rabs (rsum (concat Ls) - target) <= (pw k - 1) * W + pw k * (INR n * (c * eta)) ->
    asum (concat Ls) <= pw k * (W + INR n * (c * eta)) ->
    Rabs (fold_left (f_add ar) (map (part (f_add ar)) Ls) 0 - target) <= bound W n T.
  Proof.
    intros W0 L LT HH HT HA. unfold bound. set (m := length (concat Ls)) in *.
    assert (P : 0 <= c * eta) by nra. pose proof (asum_pos (concat Ls)) as PA.
    pose proof (pw_ge u u0 k) as Gk. pose proof (pw_ge u u0 (n + T)) as GN. pose proof (pw_mono u u0 (m + T) (n + T) ltac:(lia)) as M.
    pose proof (pw_ge u u0 (m + T)) as Gm. pose proof (pos_INR n) as In. pose proof (pos_INR T) as IT.
    assert (Im : INR (m + T) <= INR (n + T)) by (apply le_INR; lia). pose proof (pos_INR (m + T)) as Im0.
    rewrite (pw_add u (n + T) k) in *.
    assert (I1 : INR n * (c * eta) <= INR (n + T) * (c * eta)) by (apply Rmult_le_compat_r; [exact P|rewrite plus_INR; lra]).
    assert (B0 : 0 <= INR (n + T) * eta) by (apply Rmult_le_pos; [apply pos_INR|exact e0]).
    assert (B1 : INR (m + T) * eta <= INR (n + T) * eta) by (apply Rmult_le_compat_r; assumption).
    assert (BE : asum (concat Ls) + INR (m + T) * eta <= pw k * (W + (c + 1) * INR (n + T) * eta)).
    { assert (INR (n + T) * eta <= pw k * (INR (n + T) * eta)) by (rewrite <- (Rmult_1_l (INR (n + T) * eta)) at 1; apply Rmult_le_compat_r; lra).
      assert (pw k * (W + INR n * (c * eta)) <= pw k * (W + INR (n + T) * (c * eta))) by (apply Rmult_le_compat_l; lra). lra. }
    pose proof (parts_err u eta H (f_add ar) u0 e0 (fun a b => Logic.proj1 (acc a b)) Ls) as Q. cbn zeta in Q. rewrite LT in Q. fold m in Q.
    assert (HQ : pw (m + T) * (asum (concat Ls) + INR (m + T) * eta) <= H).
    { eapply Rle_trans; [|exact HH]. rewrite Rmult_assoc. apply Rmult_le_compat; [lra| |exact M|exact BE].
      assert (0 <= INR (m + T) * eta) by (apply Rmult_le_pos; assumption). lra. }
    specialize (Q HQ).
    replace (fold_left (f_add ar) (map (part (f_add ar)) Ls) 0 - target)
      with ((fold_left (f_add ar) (map (part (f_add ar)) Ls) 0 - rsum (concat Ls)) + (rsum (concat Ls) - target)) by ring.
    eapply Rle_trans; [apply Rabs_triang|].
    assert (Q1 : (pw (m + T) - 1) * asum (concat Ls) <= (pw (n + T) - 1) * (pw k * (W + INR n * (c * eta)))) by (apply Rmult_le_compat; lra).
    assert (Q2 : INR (m + T) * pw (m + T) * eta <= INR (n + T) * pw (n + T) * eta).
    { apply Rmult_le_compat_r; [exact e0|]. apply Rmult_le_compat; lra. }
    assert (Q3 : INR (n + T) * pw (n + T) * eta <= pw (n + T) * pw k * (INR (n + T) * eta)).
    { assert (0 <= pw (n + T) * (INR (n + T) * eta)) by (apply Rmult_le_pos; lra). assert (Z : 0 <= (pw k - 1) * (pw (n + T) * (INR (n + T) * eta))) by (apply Rmult_le_pos; lra). lra. }
    assert (Q4 : pw (n + T) * pw k * (INR n * (c * eta)) <= pw (n + T) * pw k * (INR (n + T) * (c * eta))).
    { apply Rmult_le_compat_l; [apply Rmult_le_pos; lra|exact I1]. }
    lra.
  Qed.

  Lemma acc_fst zs : forall z, fst (fold_left (cf_add ar) zs z) = fold_left (f_add ar) (map fst zs) (fst z).
  Proof. induction zs as [|x zs IH]; intros z; cbn [fold_left map]; [reflexivity|]. rewrite IH. reflexivity. Qed.
  Lemma acc_snd zs : forall z, snd (fold_left (cf_add ar) zs z) = fold_left (f_add ar) (map snd zs) (snd z).
  Proof. induction zs as [|x zs IH]; intros z; cbn [fold_left map]; [reflexivity|]. rewrite IH. reflexivity. Qed.
  Lemma plus_fst ss : forall z, fst (fold_left (fplus ar) ss z) = fold_left (f_add ar) (map re ss) (fst z).
  Proof. induction ss as [|[w|r] ss IH]; intros z; cbn [fold_left map re]; [reflexivity| |]; rewrite IH; reflexivity. Qed.
  Lemma plus_snd ss : forall z, snd (fold_left (fplus ar) ss z) = fold_left (f_add ar) (flat_map im ss) (snd z).
  Proof. induction ss as [|[w|r] ss IH]; intros z; cbn [fold_left flat_map im app]; [reflexivity| |]; rewrite IH; reflexivity. Qed.

  Lemma accumulate_err Ls ss xs W n T : Permutation (concat Ls) ss -> Close ss xs W -> (length ss <= n)%nat -> length Ls = T ->
    pw (n + T + k) * (W + (c + 1) * INR (n + T) * eta) <= H ->
    let z := f_accumulate ar (map (sum_up ((0, 0) : CR) (fplus ar)) Ls) in
    Rabs (fst z - rsum (map fst xs)) <= bound W n T /\ Rabs (snd z - rsum (map snd xs)) <= bound W n T.
  Proof.
    intros HP HC L LT HH. cbn zeta. pose proof (Close_weight _ _ _ HC) as W0.
    destruct (Close_re _ _ _ HC) as (R1 & R2). destruct (Close_im _ _ _ HC) as (I1 & I2 & I3).
    assert (P : 0 <= c * eta) by nra. pose proof (le_INR _ _ L) as LI. pose proof (pw_ge u u0 k) as G.
    assert (B1 : INR (length ss) * (c * eta) <= INR n * (c * eta)) by (apply Rmult_le_compat_r; assumption).
    assert (B2 : pw k * (INR (length ss) * (c * eta)) <= pw k * (INR n * (c * eta))) by (apply Rmult_le_compat_l; lra).
    assert (B3 : pw k * (W + INR (length ss) * (c * eta)) <= pw k * (W + INR n * (c * eta))) by (apply Rmult_le_compat_l; lra).
    unfold f_accumulate. rewrite acc_fst, acc_snd, !map_map. cbn [fst snd].
    assert (PR : Permutation (concat (map (map re) Ls)) (map re ss)) by (rewrite <- concat_map; apply Permutation_map, HP).
    assert (PI : Permutation (concat (map (flat_map im) Ls)) (flat_map im ss)) by (rewrite concat_flat; apply Permutation_flat_map, HP).
    split.
    - rewrite (map_ext _ (fun l => part (f_add ar) (map re l))) by (intros l; unfold sum_up; rewrite plus_fst; reflexivity).
      rewrite <- map_map. apply total_err; try assumption.
      + rewrite (Permutation_length PR), map_length. exact L.
      + rewrite map_length. exact LT.
      + rewrite (rsum_perm _ _ PR). lra.
      + rewrite (asum_perm _ _ PR). lra.
    - rewrite (map_ext _ (fun l => part (f_add ar) (flat_map im l))) by (intros l; unfold sum_up; rewrite plus_snd; reflexivity).
      rewrite <- map_map. apply total_err; try assumption.
      + rewrite (Permutation_length PI). lia.
      + rewrite map_length. exact LT.
      + rewrite (rsum_perm _ _ PI). lra.
      + rewrite (asum_perm _ _ PI). lra.
  Qed.
End Sum.
