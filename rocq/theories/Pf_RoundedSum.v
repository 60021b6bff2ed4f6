(** PROOFS: error of sums that are accumulated in several parts with a rounding addition. *)
From Coq Require Import Reals Lra Psatz List ZArith Lia Permutation.
From Verif Require Import Base M_Rounding Spec_Rounding Pf_Rounding.
Local Open Scope R_scope.
Local Open Scope list_scope.

Definition rsum (l : list R) : R := fold_right Rplus 0 l.
Definition asum (l : list R) : R := fold_right (fun x a => Rabs x + a) 0 l.
Lemma rsum_app l m : rsum (l ++ m) = rsum l + rsum m.
Proof. unfold rsum. induction l as [|x l IH]; cbn; [|rewrite IH]; ring. Qed.
Lemma asum_app l m : asum (l ++ m) = asum l + asum m.
Proof. unfold asum. induction l as [|x l IH]; cbn; [|rewrite IH]; ring. Qed.
Lemma asum_pos l : 0 <= asum l.
Proof. unfold asum. induction l as [|x l IH]; cbn; [lra|]. pose proof (Rabs_pos x). lra. Qed.
Lemma rsum_abs l : Rabs (rsum l) <= asum l.
Proof. unfold asum, rsum. induction l as [|x l IH]; cbn; [rewrite Rabs_R0; lra|]. eapply Rle_trans; [apply Rabs_triang|]. lra. Qed.
Lemma rsum_perm l m : Permutation l m -> rsum l = rsum m.
Proof. unfold rsum. induction 1; cbn; lra. Qed.
Lemma asum_perm l m : Permutation l m -> asum l = asum m.
Proof. unfold asum. induction 1; cbn; lra. Qed.

Section S.
  Context (u eta H : R) (add : R -> R -> R).
  Hypothesis u0 : 0 <= u.
  Hypothesis e0 : 0 <= eta.
  Hypothesis acc : forall a b, within u eta H (add a b) (a + b).
  Local Notation pw := (pw u).

  Lemma fold_err l : forall s S A k, Rabs S <= A -> Rabs (s - S) <= (pw k - 1) * A + INR k * pw k * eta ->
    pw (k + length l) * (A + asum l + INR (k + length l) * eta) <= H ->
    Rabs (fold_left add l s - (S + rsum l)) <= (pw (k + length l) - 1) * (A + asum l) + INR (k + length l) * pw (k + length l) * eta.
  Proof.
    induction l as [|x l IH]; intros s S A k HS HE HH; cbn [length fold_left] in *.
    - unfold rsum, asum in *. cbn in *. rewrite Nat.add_0_r, !Rplus_0_r in *. exact HE.
    - assert (Ex : rsum (x :: l) = x + rsum l) by reflexivity. assert (Ea : asum (x :: l) = Rabs x + asum l) by reflexivity.
      rewrite Ex, Ea in *. replace (k + Datatypes.S (length l))%nat with (Datatypes.S k + length l)%nat in * by lia.
      rewrite <- (Rplus_assoc S x), <- (Rplus_assoc A).
      pose proof (Rabs_pos x) as Px. pose proof (Rabs_pos S) as PS. pose proof (asum_pos l) as Pl. pose proof (pw_ge u u0 k) as Pk.
      pose proof (pos_INR k) as Ik.
      assert (Hsx : Rabs (s + x) <= pw k * (A + Rabs x + INR k * eta)).
      { replace (s + x) with ((s - S) + (S + x)) by ring. eapply Rle_trans; [apply Rabs_triang|].
        pose proof (Rabs_triang S x). assert (Rabs x <= pw k * Rabs x) by nra. nra. }
      assert (Hh : pw k * (A + Rabs x + INR k * eta) <= H).
      { eapply Rle_trans; [|exact HH]. apply Rmult_le_compat; [lra|nra|apply pw_mono; [exact u0|lia]|].
        assert (INR k <= INR (Datatypes.S k + length l)) by (apply le_INR; lia). nra. }
      specialize (acc s x (Rle_trans _ _ _ Hsx Hh)).
      apply IH.
      + eapply Rle_trans; [apply Rabs_triang|]. lra.
      + replace (add s x - (S + x)) with ((add s x - (s + x)) + (s - S)) by ring. eapply Rle_trans; [apply Rabs_triang|].
        assert (u * Rabs (s + x) <= u * (pw k * (A + Rabs x + INR k * eta))) by (apply Rmult_le_compat_l; assumption).
        rewrite S_INR, pw_S. assert (0 <= u * pw k) by nra. assert (eta <= (1 + u) * pw k * eta) by (assert (1 <= (1 + u) * pw k) by nra; nra).
        assert (0 <= (pw k - 1) * Rabs x) by nra. nra.
      + rewrite (Rplus_assoc A). exact HH.
  Qed.

  (** parts that are summed up separately, and then their sums *)
  Definition part (l : list R) : R := fold_left add l 0.
  Lemma part_err l k : (length l <= k)%nat -> pw k * (asum l + INR k * eta) <= H ->
    Rabs (part l - rsum l) <= (pw k - 1) * asum l + INR (length l) * pw k * eta.
  Proof.
    intros L HH. pose proof (asum_pos l) as Pl. pose proof (pw_mono u u0 _ _ L) as M. pose proof (pw_ge u u0 (length l)) as G.
    pose proof (pos_INR (length l)) as I.
    pose proof (fold_err l 0 0 0 0) as F. cbn [Nat.add] in F. rewrite !Rplus_0_l in F.
    eapply Rle_trans; [apply F|].
    - rewrite Rabs_R0. lra.
    - rewrite Rminus_0_r, Rabs_R0. cbn. lra.
    - eapply Rle_trans; [|exact HH]. apply Rmult_le_compat; [lra| |assumption|].
      + nra.
      + pose proof (le_INR _ _ L). nra.
    - assert (0 <= INR (length l) * eta) by nra. nra.
  Qed.
  Lemma parts_err Ls : let n := length (concat Ls) in let T := length Ls in
    pw (n + T) * (asum (concat Ls) + INR (n + T) * eta) <= H ->
    Rabs (fold_left add (map part Ls) 0 - rsum (concat Ls)) <= (pw (n + T) - 1) * asum (concat Ls) + INR (n + T) * pw (n + T) * eta.
  Proof.
    cbn zeta. set (n := length (concat Ls)). set (T := length Ls). intros HH. rewrite pw_add, plus_INR in *.
    pose proof (pw_ge u u0 n) as Gn. pose proof (pw_ge u u0 T) as GT. pose proof (pos_INR n) as In. pose proof (pos_INR T) as IT.
    pose proof (asum_pos (concat Ls)) as PA.
    assert (HHn : pw n * (asum (concat Ls) + INR n * eta) <= H).
    { eapply Rle_trans; [|exact HH]. apply Rmult_le_compat; [lra|nra|nra|]. assert (0 <= INR T * eta) by nra. lra. }
    assert (Parts : forall Ms, (length (concat Ms) <= n)%nat -> pw n * (asum (concat Ms) + INR n * eta) <= H ->
      Rabs (rsum (map part Ms) - rsum (concat Ms)) <= (pw n - 1) * asum (concat Ms) + INR (length (concat Ms)) * pw n * eta /\
      asum (map part Ms) <= pw n * (asum (concat Ms) + INR (length (concat Ms)) * eta)).
    { clear HH HHn PA. induction Ms as [|l Ms IH]; intros L HB; cbn [map concat].
      - unfold rsum, asum. cbn. rewrite Rminus_0_r, Rabs_R0. split; nra.
      - cbn [concat] in L, HB. rewrite app_length in L. rewrite asum_app in HB. pose proof (asum_pos l) as P1. pose proof (asum_pos (concat Ms)) as P2.
        destruct IH as (I1 & I2); [lia|eapply Rle_trans; [|exact HB]; apply Rmult_le_compat_l; lra|].
        pose proof (part_err l n) as P. assert (L' : (length l <= n)%nat) by lia. specialize (P L').
        assert (B' : pw n * (asum l + INR n * eta) <= H) by (eapply Rle_trans; [|exact HB]; apply Rmult_le_compat_l; lra).
        specialize (P B'). rewrite rsum_app, asum_app, app_length, plus_INR.
        change (rsum (part l :: map part Ms)) with (part l + rsum (map part Ms)). change (asum (part l :: map part Ms)) with (Rabs (part l) + asum (map part Ms)).
        split.
        + replace (part l + rsum (map part Ms) - (rsum l + rsum (concat Ms))) with ((part l - rsum l) + (rsum (map part Ms) - rsum (concat Ms))) by ring.
          eapply Rle_trans; [apply Rabs_triang|]. lra.
        + assert (Rabs (part l) <= pw n * (asum l + INR (length l) * eta)).
          { replace (part l) with ((part l - rsum l) + rsum l) by ring. eapply Rle_trans; [apply Rabs_triang|].
            pose proof (rsum_abs l). lra. }
          lra. }
    destruct (Parts Ls (le_n _) HHn) as (Q1 & Q2). fold n in Q1, Q2.
    assert (E0 : Rabs (fold_left add (map part Ls) 0 - rsum (map part Ls)) <= (pw T - 1) * asum (map part Ls) + INR T * pw T * eta).
    { pose proof (part_err (map part Ls) T) as P. rewrite map_length in P. fold T in P. change (fold_left add (map part Ls) 0) with (part (map part Ls)). apply P; [apply le_n|].
      eapply Rle_trans; [|exact HH]. rewrite (Rmult_comm (pw n)), Rmult_assoc. apply Rmult_le_compat_l; [lra|].
      assert (INR T * eta <= pw n * (INR T * eta)) by (assert (0 <= INR T * eta) by nra; nra). lra. }
    replace (fold_left add (map part Ls) 0 - rsum (concat Ls)) with ((fold_left add (map part Ls) 0 - rsum (map part Ls)) + (rsum (map part Ls) - rsum (concat Ls))) by ring.
    eapply Rle_trans; [apply Rabs_triang|].
    assert (E1 : (pw T - 1) * asum (map part Ls) <= (pw T - 1) * (pw n * (asum (concat Ls) + INR n * eta))) by (apply Rmult_le_compat_l; lra).
    assert (E2 : INR T * pw T * eta <= INR T * (pw n * pw T) * eta).
    { apply Rmult_le_compat_r; [exact e0|]. apply Rmult_le_compat_l; [exact IT|]. nra. }
    lra.
  Qed.
End S.
