(** PROOFS for C117: the exact solutions of two systems which agree on a window differ by what has reached its edge. *)
From Coq Require Import Reals Lra Psatz Permutation.
From Verif Require Import Base M_Operator M_Lattice Spec_Lattice Pf_Lattice M_Basis Pf_Basis M_Matrix M_Ode M_Dispersion M_OpenMP
  Pf_Matrix Spec_Matrix Pf_Matrix2 P_Matrix Spec_Stability Pf_Stability Pf_Stability2 Pf_Stability3 P_Stability Spec_Ode P_Ode Spec_Programs Pf_MatrixEntry P_OccupationFree Pf_Symmetry Pf_Theory Pf_Theory2 Spec_LightCone Pf_LightCone Pf_Window.
Local Open Scope R_scope.
Local Open Scope list_scope.

Section Grow.
  Variables (n n' : Z) (E E' : Z -> Z -> CR) (lv lv' f g : Z -> Z) (D : nat) (B b : R).
  Let DZ := Z.of_nat D.
  Hypothesis F : forall i, (0 <= i < n)%Z -> (lv i <= DZ)%Z -> (0 <= f i < n')%Z /\ lv' (f i) = lv i /\ g (f i) = i.
  Hypothesis G : forall i, (0 <= i < n')%Z -> (lv' i <= DZ)%Z -> (0 <= g i < n)%Z /\ lv (g i) = lv' i /\ f (g i) = i.
  Hypothesis same : forall i j, (0 <= i < n)%Z -> (0 <= j < n)%Z -> (lv i <= DZ)%Z -> (lv j <= DZ - 1)%Z -> E' (f i) (f j) = E i j.
  Hypothesis local' : forall i j, (0 <= i < n')%Z -> (0 <= j < n')%Z -> (lv' j + 1 < lv' i)%Z -> E' i j = real 0.
  Hypothesis anti' : anti_hermitian CR n' E'.
  Hypothesis op : op_bound n E B.
  Hypothesis op' : op_bound n' E' B.
  Hypothesis Bpos : 0 <= B.
  Variables y y' : R -> Z -> CR.
  Hypothesis Hy : exact_solution n E y.
  Hypothesis Hy' : exact_solution n' E' y'.
  Hypothesis start : forall i, (0 <= i < n')%Z -> y' 0 i = if (lv' i <=? DZ)%Z then y 0 (g i) else real 0.
  Hypothesis tail : forall t, 0 <= t -> nrm (idx n) (out lv DZ (vecf (y t))) <= (b * t) ^ D / INR (fact D).
  Definition carry (t : R) (j : Z) : CR := if (lv' j <=? DZ)%Z then y t (g j) else real 0.
  Definition rest (t : R) (j : Z) : CR := rsub (if (lv' j <=? DZ)%Z then sum_over (K := CR) (fun i => rmul (E (g j) i) (y t i)) (zrange 0 n) else real 0) (sum_over (K := CR) (fun i => rmul (E' j i) (carry t i)) (zrange 0 n')).
  Definition pulled (x : Z * bool -> R) : Z * bool -> R := fun p => if (lv' (fst p) <=? DZ)%Z then x (g (fst p), snd p) else 0.
  Lemma pulled_nrm x : nrm (idx n') (pulled x) <= nrm (idx n) x.
  Proof.
    apply (Rle_trans _ (nrm (idx n) (fun p => if (lv (fst p) <=? DZ)%Z then x p else 0))).
    - apply Req_le. unfold nrm. f_equal. unfold n2, dot. symmetry. apply (window_sum n n' lv lv' f g DZ F G).
      + intros p _ W. apply Z.leb_gt in W. rewrite W. ring.
      + intros p _ W. unfold pulled. apply Z.leb_gt in W. rewrite W. ring.
      + intros p Hp L. apply idx_in in Hp. destruct (F _ Hp L) as (_ & Q1 & Q2). unfold pulled, fw. cbn [fst snd]. rewrite Q1, Q2. destruct p as [i s]. reflexivity.
    - apply nrm_le_part. intros p _. destruct (lv (fst p) <=? DZ)%Z; auto.
  Qed.
  Lemma pulled_in x p : (lv' (fst p) <= DZ)%Z -> pulled x p = x (g (fst p), snd p).
  Proof. intros L. unfold pulled. apply Z.leb_le in L. rewrite L. reflexivity. Qed.
  Lemma pulled_out x p : (DZ < lv' (fst p))%Z -> pulled x p = 0.
  Proof. intros L. unfold pulled. apply Z.leb_gt in L. rewrite L. reflexivity. Qed.
  Lemma rest_value t p : In p (idx n') -> vecf (rest t) p =
    pulled (ap (idx n) (SM E) (out lv DZ (vecf (y t)))) p + -1 * ap (idx n') (SM E') (pulled (at_level lv DZ (vecf (y t)))) p.
  Proof.
    intros Hp. assert (Hp' := Hp). apply idx_in in Hp'.
    set (Y := vecf (y t)). set (X := fun q => if (lv (fst q) <=? DZ - 1)%Z then Y q else 0). set (X' := fun q => if (lv' (fst q) <=? DZ - 1)%Z then Y (g (fst q), snd q) else 0).
    assert (IX : inside n lv (DZ - 1) X) by (intros q Hq W; unfold X; apply Z.leb_gt in W; rewrite W; reflexivity).
    assert (IX' : inside n' lv' (DZ - 1) X') by (intros q Hq W; unfold X'; apply Z.leb_gt in W; rewrite W; reflexivity).
    assert (AX : agree n lv f DZ X X').
    { intros q Hq W. apply idx_in in Hq. destruct (F _ Hq W) as (_ & Q1 & Q2). unfold X', X, fw. cbn [fst snd]. rewrite Q1, Q2. destruct q; reflexivity. }
    pose proof (agree_ap n n' E E' lv lv' f g DZ F G same X X' IX IX' AX) as AA.
    assert (S1 : forall q, ap (idx n) (SM E) Y q = ap (idx n) (SM E) X q + ap (idx n) (SM E) (out lv DZ Y) q).
    { intros q. rewrite <- (ap_add (idx n) (SM E) X (out lv DZ Y) q). apply ap_ext. intros r _. unfold X, out. destruct (Z.leb_spec (lv (fst r)) (DZ - 1)), (Z.leb_spec DZ (lv (fst r))); try lia; ring. }
    assert (S2 : ap (idx n') (SM E') (vecf (carry t)) p = ap (idx n') (SM E') X' p + ap (idx n') (SM E') (pulled (at_level lv DZ Y)) p).
    { rewrite <- (ap_add (idx n') (SM E') X' _ p). apply ap_ext. intros r Hr. apply idx_in in Hr. unfold X', pulled, at_level. cbn [fst snd].
      unfold vecf at 1. unfold carry. destruct (Z.leb_spec (lv' (fst r)) DZ) as [L|L], (Z.leb_spec (lv' (fst r)) (DZ - 1)); try lia.
      - destruct (G _ Hr L) as (_ & Q & _). rewrite Q. destruct (Z.eqb_spec (lv' (fst r)) DZ); [lia|]. unfold Y, vecf. cbn [fst snd]. ring.
      - destruct (G _ Hr L) as (_ & Q & _). rewrite Q. destruct (Z.eqb_spec (lv' (fst r)) DZ); [|lia]. unfold Y, vecf. cbn [fst snd]. ring.
      - destruct (snd r); cbn; ring. }
    assert (V : vecf (rest t) p = pulled (ap (idx n) (SM E) Y) p + -1 * ap (idx n') (SM E') (vecf (carry t)) p).
    { rewrite ap_SM. unfold pulled, Y. rewrite ap_SM. unfold vecf. cbn [fst snd]. unfold rest. destruct (lv' (fst p) <=? DZ)%Z.
      - generalize (sum_over (K := CR) (fun i => rmul (E (g (fst p)) i) (y t i)) (zrange 0 n)) (sum_over (K := CR) (fun i => rmul (E' (fst p) i) (carry t i)) (zrange 0 n')). intros [a1 a2] [c1 c2]. destruct (snd p); cbn; ring.
      - generalize (sum_over (K := CR) (fun i => rmul (E' (fst p) i) (carry t i)) (zrange 0 n')). intros [c1 c2]. destruct (snd p); cbn; ring. }
    rewrite V, S2. destruct (Z_le_gt_dec (lv' (fst p)) DZ) as [L|L].
    - rewrite (pulled_in (ap (idx n) (SM E) Y) p L), (pulled_in (ap (idx n) (SM E) (out lv DZ Y)) p L). destruct (G _ Hp' L) as (R & Q & K). rewrite S1. pose proof (AA (g (fst p), snd p) ltac:(apply idx_in; exact R) ltac:(cbn [fst]; lia)) as A1. unfold fw in A1. cbn [fst snd] in A1. rewrite K in A1. destruct p as [p0 p1]. cbn [fst snd] in *. rewrite A1. ring.
    - rewrite (pulled_out (ap (idx n) (SM E) Y) p), (pulled_out (ap (idx n) (SM E) (out lv DZ Y)) p), (inside_ap n' E' lv' local' (DZ - 1) X' IX' p Hp ltac:(lia)) by lia. ring.
  Qed.
  Lemma rest_nrm t : 0 <= t -> nrm (idx n') (vecf (rest t)) <= 2 * B * ((b * t) ^ D / INR (fact D)).
  Proof.
    intros Ht. rewrite (nrm_ext _ _ _ (rest_value t)). pose proof (tail t Ht) as T. eapply Rle_trans; [apply nrm_triangle|].
    assert (A1 : nrm (idx n') (pulled (ap (idx n) (SM E) (out lv DZ (vecf (y t))))) <= B * ((b * t) ^ D / INR (fact D))).
    { eapply Rle_trans; [apply pulled_nrm|]. eapply Rle_trans; [apply (op_nrm n E B op Bpos)|]. apply Rmult_le_compat_l; assumption. }
    assert (A2 : nrm (idx n') (fun p => -1 * ap (idx n') (SM E') (pulled (at_level lv DZ (vecf (y t)))) p) <= B * ((b * t) ^ D / INR (fact D))).
    { rewrite nrm_neg. eapply Rle_trans; [apply (op_nrm n' E' B op' Bpos)|]. apply Rmult_le_compat_l; [exact Bpos|]. eapply Rle_trans; [apply pulled_nrm|]. eapply Rle_trans; [|exact T].
      apply nrm_le_part. intros p _. unfold at_level, out. destruct (Z.eqb_spec (lv (fst p)) DZ) as [->|]; [left; rewrite Z.leb_refl; reflexivity|right; reflexivity]. }
    lra.
  Qed.
  Lemma back (c a : R) : a = c + (a - c). Proof. ring. Qed.
  Lemma carry_deriv s i : (0 <= i < n')%Z -> let dh := radd (sum_over (K := CR) (fun j => rmul (E' i j) (carry s j)) (zrange 0 n')) (rest s i) in
     derivable_pt_lim (fun s => fst (carry s i)) s (fst dh) /\ derivable_pt_lim (fun s => snd (carry s i)) s (snd dh).
  Proof.
    intros Hi. cbv zeta. unfold rest. generalize (sum_over (K := CR) (fun j => rmul (E' i j) (carry s j)) (zrange 0 n')). intros [c1 c2]. unfold carry. destruct (Z.leb_spec (lv' i) DZ) as [L|L].
    - destruct (G i Hi L) as (R & _). destruct (Hy s (g i) R) as [H1 H2]. revert H1 H2. generalize (sum_over (K := CR) (fun j => rmul (E (g i) j) (y s j)) (zrange 0 n)). intros [a1 a2]. intros H1 H2. split; [apply (deriv_eq _ _ _ _ _ H1)|apply (deriv_eq _ _ _ _ _ H2)]; first [reflexivity | apply back].
    - split; apply (deriv_eq _ _ _ _ _ (derivable_pt_lim_const 0 s)); first [reflexivity | apply back].
  Qed.
  Lemma grow t : 0 <= t -> nrm (idx n') (fun p => vecf (carry t) p + -1 * vecf (y' t) p) <= 2 * B * t * (b * t) ^ D / INR (fact (D + 1)).
  Proof.
    intros Ht.
    pose proof (near_solution n' E' y' carry rest (fun s => 2 * B * b ^ D / INR (fact (D + 1)) * s ^ (D + 1)) (fun s => 2 * B * ((b * s) ^ D / INR (fact D))) t anti' Hy' Ht) as Q.
    assert (Fp : INR (fact D) <> 0) by apply INR_fact_neq_0. assert (Fp' : INR (fact (D + 1)) <> 0) by apply INR_fact_neq_0. assert (Np : INR (D + 1) <> 0) by (apply not_0_INR; lia).
    assert (Ff : INR (fact (D + 1)) = INR (D + 1) * INR (fact D)) by (replace (D + 1)%nat with (S D) by lia; rewrite fact_simpl, mult_INR; reflexivity).
    assert (Q' := Q carry_deriv ltac:(intros i Hi; rewrite (start i Hi); unfold carry; reflexivity)). clear Q.
    refine (Rle_trans _ _ _ _ (Rle_trans _ _ _ (Q' _ _ _) _)).
    - apply Req_le. unfold nrm. f_equal. unfold n2, dot. rewrite SR_idx. apply SR_ext. intros i _. unfold vecf. cbn [fst snd part]. ring.
    - rewrite pow_i by lia. ring.
    - intros s. apply (deriv_eq (mult_real_fct (2 * B * b ^ D / INR (fact (D + 1))) (fun s => s ^ (D + 1))) (fun s => 2 * B * b ^ D / INR (fact (D + 1)) * s ^ (D + 1)) s (2 * B * b ^ D / INR (fact (D + 1)) * (INR (D + 1) * s ^ pred (D + 1)))).
      + apply derivable_pt_lim_scal, derivable_pt_lim_pow.
      + intros x. unfold mult_real_fct. ring.
      + rewrite Ff, Rpow_mult_distr. replace (pred (D + 1)) with D by lia. field. auto.
    - intros s Hs. pose proof (rest_nrm s ltac:(lra)) as Rn. refine (Rle_trans _ _ _ _ Rn). apply Req_le. unfold nrm. f_equal. unfold n2, dot. rewrite SR_idx. apply SR_ext. intros i _. unfold vecf. cbn [fst snd part]. ring.
    - apply Req_le. rewrite Rpow_mult_distr, pow_add. field. exact Fp'.
  Qed.
End Grow.
