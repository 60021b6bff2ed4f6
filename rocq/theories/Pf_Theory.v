(** PROOFS for C79: how far a function that misses dy/dt = S y by r gets from the solution. *)
From Coq Require Import Reals Lra Psatz.
From Verif Require Import Base M_Lattice Spec_Lattice Pf_Lattice M_Matrix Pf_Matrix M_Dispersion Spec_Ode P_Ode Spec_Stability Pf_Stability Pf_Stability2.
Local Open Scope R_scope.
Local Open Scope list_scope.

Section Duhamel.
  Context {T : Type} (I : list T) (S : T -> T -> R).
  Hypothesis anti : forall i j, In i I -> In j I -> S i j = - S j i.
  Lemma duhamel (d r : R -> T -> R) (G G' : R -> R) t : 0 <= t ->
    (forall s i, In i I -> derivable_pt_lim (fun s => d s i) s (ap I S (d s) i + r s i)) ->
    (forall i, In i I -> d 0 i = 0) ->
    G 0 = 0 -> (forall s, derivable_pt_lim G s (G' s)) -> (forall s, 0 <= s <= t -> nrm I (r s) <= G' s) ->
    nrm I (d t) <= G t.
  Proof.
    intros Ht Hd H0 G0 DG Hr.
    assert (K : forall e, 0 < e -> nrm I (d t) <= G t + e).
    { intros e He.
      apply Rle_trans with (sqrt (n2 I (d t) + e * e)).
      { unfold nrm. apply sqrt_le_1_alt. nra. }
      assert (Dn : forall s, derivable_pt_lim (fun s => n2 I (d s) + e * e) s (2 * dot I (d s) (r s))).
      { intros s. replace (2 * dot I (d s) (r s)) with (SR (fun i => (ap I S (d s) i + r s i) * d s i + d s i * (ap I S (d s) i + r s i)) I + 0).
        - apply (derivable_pt_lim_plus (fun s => n2 I (d s)) (fun _ => e * e)); [|apply derivable_pt_lim_const].
          unfold n2, dot. apply (deriv_SR (fun s i => d s i * d s i)). intros i Hi.
          apply (derivable_pt_lim_mult (fun s => d s i) (fun s => d s i)); apply Hd; exact Hi.
        - rewrite SR_add. change (SR (fun i => (ap I S (d s) i + r s i) * d s i) I) with (dot I (fun i => ap I S (d s) i + r s i) (d s)).
          change (SR (fun i => d s i * (ap I S (d s) i + r s i)) I) with (dot I (d s) (fun i => ap I S (d s) i + r s i)).
          rewrite (dot_comm I (fun i => ap I S (d s) i + r s i)), dot_add_r.
          pose proof (dot_ap I S anti (d s) (d s)) as A. rewrite (dot_comm I (ap I S (d s))) in A. lra. }
      assert (P : forall s, 0 < n2 I (d s) + e * e) by (intros s; pose proof (n2_nonneg I (d s)); nra).
      apply (le_by_deriv (fun s => sqrt (n2 I (d s) + e * e)) (fun s => G s + e)
               (fun s => / (2 * sqrt (n2 I (d s) + e * e)) * (2 * dot I (d s) (r s))) (fun s => G' s + 0) t Ht).
      - rewrite G0. assert (E : n2 I (d 0) = 0). { unfold n2, dot. rewrite (SR_ext _ (fun _ => 0)); [apply SR_zero|]. intros i Hi. rewrite (H0 i Hi). ring. }
        rewrite E, Rplus_0_l, sqrt_square by lra. lra.
      - intros s. apply (derivable_pt_lim_comp (fun s => n2 I (d s) + e * e) sqrt); [apply Dn|]. apply derivable_pt_lim_sqrt, P.
      - intros s. apply (derivable_pt_lim_plus G (fun _ => e)); [apply DG|apply derivable_pt_lim_const].
      - intros s Hs. rewrite Rplus_0_r. apply Rle_trans with (nrm I (r s)); [|apply Hr, Hs].
        pose proof (dot_le I (d s) (r s)) as L. set (q := sqrt (n2 I (d s) + e * e)) in *.
        assert (Q : 0 < q) by (apply sqrt_lt_R0, P).
        assert (N : nrm I (d s) <= q) by (apply sqrt_le_1_alt; nra). pose proof (nrm_pos I (r s)). pose proof (nrm_pos I (d s)).
        replace (/ (2 * q) * (2 * dot I (d s) (r s))) with (dot I (d s) (r s) / q) by (field; lra).
        apply Rmult_le_reg_r with q; [exact Q|]. unfold Rdiv. rewrite Rmult_assoc, Rinv_l, Rmult_1_r by lra. nra. }
    destruct (Rle_lt_dec (nrm I (d t)) (G t)) as [|L]; [assumption|].
    specialize (K ((nrm I (d t) - G t) / 2) ltac:(lra)). lra.
  Qed.
End Duhamel.

(** the same for complex vectors *)
Lemma near_solution n (E : Z -> Z -> CR) (y h : R -> Z -> CR) (r : R -> Z -> CR) (G G' : R -> R) t :
  anti_hermitian CR n E -> exact_solution n E y -> 0 <= t ->
  (forall s i, (0 <= i < n)%Z -> let dh := radd (sum_over (K := CR) (fun j => rmul (E i j) (h s j)) (zrange 0 n)) (r s i) in
     derivable_pt_lim (fun s => fst (h s i)) s (fst dh) /\ derivable_pt_lim (fun s => snd (h s i)) s (snd dh)) ->
  (forall i, (0 <= i < n)%Z -> h 0 i = y 0 i) ->
  G 0 = 0 -> (forall s, derivable_pt_lim G s (G' s)) ->
  (forall s, 0 <= s <= t -> sqrt (SR (fun i => fst (r s i) * fst (r s i) + snd (r s i) * snd (r s i)) (zrange 0 n)) <= G' s) ->
  sqrt (SR (fun i => (fst (h t i) - fst (y t i)) * (fst (h t i) - fst (y t i)) + (snd (h t i) - snd (y t i)) * (snd (h t i) - snd (y t i))) (zrange 0 n)) <= G t.
Proof.
  intros A Hy Ht Hh H0 G0 DG Hr.
  pose proof (duhamel (idx n) (SM E) (SM_anti n E A) (fun s p => vecf (h s) p + -1 * vecf (y s) p) (fun s => vecf (r s)) G G' t Ht) as D.
  refine (Rle_trans _ _ _ _ (D _ _ G0 DG _)).
  - apply Req_le. unfold nrm, n2, dot. rewrite SR_idx. f_equal. apply SR_ext. intros i _. unfold vecf. cbn [fst snd part]. ring.
  - intros s [i c] Hi. rewrite ap_add, ap_mul, !ap_SM. apply idx_in in Hi. cbn [fst snd] in *.
    destruct (Hy s i Hi) as [Y1 Y2]. destruct (Hh s i Hi) as [D1 D2]. cbv zeta in *. revert Y1 Y2 D1 D2.
    generalize (sum_over (K := CR) (fun j => rmul (E i j) (h s j)) (zrange 0 n)). generalize (sum_over (K := CR) (fun j => rmul (E i j) (y s j)) (zrange 0 n)).
    intros [y1 y2] [h1 h2]. cbn in y1, y2, h1, h2. unfold vecf. cbn [fst snd part]. generalize (r s i). intros [r1 r2]. cbn in r1, r2. cbn. intros Y1 Y2 D1 D2.
    destruct c; cbn.
    + replace (h1 + -1 * y1 + r1) with ((h1 + r1) + -1 * y1) by ring. apply (derivable_pt_lim_plus (fun s => fst (h s i)) (fun s => -1 * fst (y s i))); [exact D1|]. apply deriv_scal, Y1.
    + replace (h2 + -1 * y2 + r2) with ((h2 + r2) + -1 * y2) by ring. apply (derivable_pt_lim_plus (fun s => snd (h s i)) (fun s => -1 * snd (y s i))); [exact D2|]. apply deriv_scal, Y2.
  - intros [i c] Hi. apply idx_in in Hi. cbn [fst snd] in *. unfold vecf. cbn [fst snd]. rewrite (H0 i Hi). destruct c; cbn [part]; ring.
  - intros s Hs. refine (Rle_trans _ _ _ _ (Hr s Hs)). apply Req_le. unfold nrm, n2, dot. rewrite SR_idx. reflexivity.
Qed.
