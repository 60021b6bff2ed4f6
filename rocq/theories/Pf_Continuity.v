(** Two differential equations with close coefficients (for C123). *)
From Coq Require Import Reals Lra Psatz.
From Verif Require Import Base M_Matrix M_Dispersion Spec_Matrix Spec_Ode Spec_Stability P_Ode Pf_Stability Pf_Stability2 Pf_Theory P_Stability.
Local Open Scope R_scope.
Local Open Scope list_scope.

(** the solutions of y' = E y and z' = F z that start from the same vector drift apart at most as fast as
    the difference F - E acts on z *)
Lemma drift n (E F : Z -> Z -> CR) (y z : R -> Z -> CR) B t :
  anti_hermitian CR n E -> anti_hermitian CR n F -> row_bound n (fun i j => rsub (F i j) (E i j)) B -> 0 <= B ->
  exact_solution n E y -> exact_solution n F z -> (forall i, (0 <= i < n)%Z -> z 0 i = y 0 i) -> 0 <= t ->
  sqrt (SR (fun i => (fst (z t i) - fst (y t i)) * (fst (z t i) - fst (y t i)) + (snd (z t i) - snd (y t i)) * (snd (z t i) - snd (y t i))) (zrange 0 n))
    <= B * nrm (idx n) (vecf (y 0)) * t.
Proof.
  intros AE AF HB Bp Hy Hz H0 Ht. set (D := fun i j => @rsub CR (F i j) (E i j)) in *.
  assert (AD : anti_hermitian CR n D).
  { intros i j Hi Hj. unfold D. pose proof (AE i j Hi Hj) as P. pose proof (AF i j Hi Hj) as Q. revert P Q. generalize (E i j) (E j i) (F i j) (F j i).
    intros [a1 a2] [b1 b2] [c1 c2] [d1 d2] P Q. cbn in *. injection P as P1 P2. injection Q as Q1 Q2. apply (f_equal2 (@pair R R)); lra. }
  pose proof (row_op n D B AD HB Bp) as OD.
  assert (Nz : forall s, nrm (idx n) (vecf (z s)) = nrm (idx n) (vecf (y 0))).
  { intros s. transitivity (nrm (idx n) (vecf (z 0))).
    - assert (Lift : solution (idx n) (SM F) (fun t => vecf (z t))).
      { intros u [i c] Hi. rewrite ap_SM. apply idx_in in Hi. cbn [fst snd] in *. destruct (Hz u i Hi) as [E1 E2]. unfold vecf. cbn [fst snd]. destruct c; cbn [part]; [exact E1|exact E2]. }
      unfold nrm. f_equal. exact (norm_conserved (idx n) (SM F) (SM_anti n F AF) _ Lift s).
    - apply nrm_ext. intros [i c] Hi. apply idx_in in Hi. unfold vecf. cbn [fst snd] in *. rewrite (H0 i Hi). reflexivity. }
  set (c0 := nrm (idx n) (vecf (y 0))) in *.
  apply (near_solution n E y z (fun s i => sum_over (K := CR) (fun j => rmul (D i j) (z s j)) (zrange 0 n)) (fun s => B * c0 * s) (fun _ => B * c0) t AE Hy Ht).
  - intros s i Hi dh. destruct (Hz s i Hi) as [E1 E2]. assert (X : dh = sum_over (K := CR) (fun j => rmul (F i j) (z s j)) (zrange 0 n)).
    { unfold dh. rewrite <- (sum_over_add CR). apply sum_over_ext. intros j _. unfold D. generalize (E i j) (F i j) (z s j). intros [a1 a2] [b1 b2] [x1 x2]. cbn. apply (f_equal2 (@pair R R)); ring. }
    rewrite X. split; assumption.
  - exact H0.
  - ring.
  - intros s. pose proof (derivable_pt_lim_scal (fun x => x) (B * c0) s 1 (derivable_pt_lim_id s)) as Q. rewrite Rmult_1_r in Q. exact Q.
  - intros s _. pose proof (OD (vecf (z s))) as O. apply Rle_trans with (sqrt (B ^ 2 * n2 (idx n) (vecf (z s)))).
    + apply sqrt_le_1_alt. refine (Rle_trans _ _ _ _ O). apply Req_le. unfold n2, dot. rewrite SR_idx. apply SR_ext. intros i _. rewrite !ap_SM. cbn [fst snd part]. reflexivity.
    + rewrite sqrt_mult_alt by apply pow2_ge_0. rewrite sqrt_pow2 by exact Bp. rewrite <- (Nz s). apply Rle_refl.
Qed.
