(** THEOREMS: C123 (the computed motion depends continuously on J and U; J and U given as decimal
    numerals on the command line). *)
From Coq Require Import Reals Lra Psatz Ascii String.
From Flocq Require Import Core Relative.
From Verif Require Import Base M_Operator M_Lattice Spec_Lattice Pf_Lattice P_Lattice M_LatticeReal Spec_LatticeReal M_Basis Pf_Basis P_Basis M_Matrix M_Ode M_Dispersion M_TimeLoop Spec_TimeLoop Spec_Ode
  Pf_Matrix Spec_Matrix Pf_Matrix2 P_Matrix P_Ode Spec_Stability Pf_Stability Pf_Stability2 Pf_Stability3 P_Stability Spec_Programs M_Programs Pf_Programs Pf_Programs2 P_TimeLoop P_Programs Pf_MatrixEntry P_OccupationFree Spec_Symmetry Pf_Symmetry P_Symmetry P_ParticleHole P_Parameters Pf_Continuity.
Local Open Scope R_scope.
Local Open Scope list_scope.
Local Notation len u := (Z.of_nat (length u)).

Section Entries.
  Context (sort : list (triplet CR) -> list (triplet CR)) (lat : lattice) (N : Z).
  Hypothesis Hs : sorts_by_column sort.
  Hypothesis Hl : shipped3 lat N.
  Hypothesis Hf : fits3 lat N.
  Let HG := shipped3_graph lat N Hl.
  Let HS := fits3_S3 lat N HG Hf.
  Let n := (N + N * N * N)%Z.
  (** the matrix is linear in J and U *)
  Lemma entry_change J U J' U' m m' d : init_matrix sort (real J : CR) (real U) (real (1/2)) lat = Ok m -> init_matrix sort (real J' : CR) (real U') (real (1/2)) lat = Ok m' ->
    init_matrix sort (real (J' - J) : CR) (real (U' - U)) (real (1/2)) lat = Ok d ->
    forall i j, (0 <= i < n)%Z -> (0 <= j < n)%Z -> rsub (entry (bm_scale imag_unit m') i j) (entry (bm_scale imag_unit m) i j) = entry (bm_scale imag_unit d) i j.
  Proof.
    intros Em Em' Ed i j Hi Hj. destruct (cases lat N Hl Hf i Hi) as [Qi|(a & b & e & Ha & Hb & Hd & ->)], (cases lat N Hl Hf j Hj) as [Qj|(a' & b' & e' & Ha' & Hb' & Hd' & ->)].
    - rewrite (entry_11 sort J U lat N Hs Hl Hf m Em), (entry_11 sort _ _ lat N Hs Hl Hf m' Em'), (entry_11 sort _ _ lat N Hs Hl Hf d Ed) by assumption. generalize (adjc (K := CR) lat i j) (delta (K := CR) i j). intros [p q] [x y]. cbn. apply (f_equal2 (@pair R R)); cbn; field.
    - rewrite (entry_13 sort J U lat N Hs Hl Hf m Em), (entry_13 sort _ _ lat N Hs Hl Hf m' Em'), (entry_13 sort _ _ lat N Hs Hl Hf d Ed) by assumption. generalize (rmul (rmul (delta (K := CR) i a') (delta i b')) (delta i e')). intros [p q]. cbn. apply (f_equal2 (@pair R R)); cbn; field.
    - rewrite (entry_31 sort J U lat N Hs Hl Hf m Em), (entry_31 sort _ _ lat N Hs Hl Hf m' Em'), (entry_31 sort _ _ lat N Hs Hl Hf d Ed) by assumption. generalize (rmul (rmul (delta (K := CR) j a) (delta j b)) (delta j e)). intros [p q]. cbn. apply (f_equal2 (@pair R R)); cbn; field.
    - rewrite (entry_33 sort J U lat N Hs Hl Hf m Em), (entry_33 sort _ _ lat N Hs Hl Hf m' Em'), (entry_33 sort _ _ lat N Hs Hl Hf d Ed) by assumption. rewrite !(weight_33 _ _ _ lat N HG HS) by assumption.
      generalize (rmul (rmul (adjc (K := CR) lat a a') (delta b b')) (delta e e')) (rmul (rmul (delta (K := CR) a a') (adjc lat b b')) (delta e e')) (rmul (rmul (delta (K := CR) a a') (delta b b')) (adjc lat e e')) (rmul (rmul (delta (K := CR) a a') (delta b b')) (delta e e')).
      intros [p q] [p' q'] [p'' q''] [x y]. cbn. apply (f_equal2 (@pair R R)); cbn; field.
  Qed.
End Entries.

(** the distance of two vectors with n elements *)
Definition apart (n : Z) (v w : Z -> CR) : R :=
  sqrt (sum_over (K := Rring) (fun i => (fst (v i) - fst (w i)) * (fst (v i) - fst (w i)) + (snd (v i) - snd (w i)) * (snd (v i) - snd (w i))) (zrange 0 n)).

(** two exact motions with parameters J, U and J', U' drift apart at most linearly in time *)
Theorem C123_solution : forall (sort : list (triplet CR) -> list (triplet CR)) J U J' U' lat N,
  sorts_by_column sort -> shipped3 lat N -> fits3 lat N -> let n := (N + N * N * N)%Z in
  exists m m', init_matrix sort (real J : CR) (real U) (real (1/2)) lat = Ok m /\ init_matrix sort (real J' : CR) (real U') (real (1/2)) lat = Ok m' /\
    forall y y', the_solution n (entry (bm_scale imag_unit m)) y -> the_solution n (entry (bm_scale imag_unit m')) y' ->
      forall t, 0 <= t -> apart n (y' t) (y t) <= (3 * neighbours lat * Rabs (J' - J) + Rabs (U' - U)) * t.
Proof.
  intros sort J U J' U' lat N Hs Hl Hf n.
  destruct (full_facts sort J U lat N Hs Hl Hf) as (m & Em & _ & A & _). destruct (full_facts sort J' U' lat N Hs Hl Hf) as (m' & Em' & _ & A' & _).
  destruct (full_facts sort (J' - J) (U' - U) lat N Hs Hl Hf) as (d & Ed & _ & _ & C & D). fold n in A, A', C.
  exists m, m'. split; [exact Em|]. split; [exact Em'|]. intros y y' (Y1 & Y2 & _) (Z1 & Z2 & _) t Ht.
  assert (Nn : (0 < n)%Z).
  { destruct (Z_le_gt_dec n 0) as [L|L]; [|lia]. exfalso. pose proof (shipped3_graph lat N Hl) as G. unfold n in L. destruct Hl; nia. }
  pose proof (drift n _ _ y y' (3 * neighbours lat * Rabs (J' - J) + Rabs (U' - U)) t A A') as Q.
  assert (N0 : nrm (idx n) (vecf (y 0)) = 1).
  { destruct (init_vector_unit n Nn) as (h0 & _ & L0 & V0). pose proof (unit_norm n h0 Nn L0 V0) as U0. rewrite (vec_n2 n h0 L0) in U0.
    unfold nrm. rewrite <- sqrt_1, <- U0. f_equal. unfold n2, dot. apply SR_ext. intros [i c] Hi. apply idx_in in Hi. unfold vecf, vec. cbn [fst snd] in *. pose proof (V0 i Hi) as V. pose proof (Y2 i Hi) as Y. rewrite Y, <- V. reflexivity. }
  rewrite N0 in Q. eapply Rle_trans; [|eapply Rle_trans; [apply Q|]]; try assumption.
  - unfold apart. rewrite sum_SR. apply Rle_refl.
  - intros i Hi. refine (Rle_trans _ _ _ _ (C i Hi)). apply Req_le, SR_ext. intros j Hj. apply zrange_in in Hj.
    rewrite (entry_change sort lat N Hs Hl Hf J U J' U' m m' d Em Em' Ed i j Hi Hj). reflexivity.
  - intros i Hi. rewrite (Y2 i Hi), (Z2 i Hi). reflexivity.
  - apply Req_le. ring.
Qed.
