(** PROPERTY C117: the exact solutions on chains of different length. *)
From Coq Require Import Reals Lra Psatz.
From Verif Require Import Base M_Operator M_Lattice Spec_Lattice Pf_Lattice P_Lattice M_LatticeReal Spec_LatticeReal M_Basis Pf_Basis P_Basis M_Matrix M_Ode M_Dispersion M_OpenMP M_TimeLoop Spec_TimeLoop
  Pf_Matrix Spec_Matrix Pf_Matrix2 P_Matrix Spec_Stability Pf_Stability Pf_Stability2 Pf_Stability3 P_Stability Spec_Programs M_Programs Pf_Programs Pf_Programs2 Spec_Ode Pf_Ode P_Ode P_TimeLoop P_Programs M_JumpPrograms P_JumpPrograms Pf_MatrixEntry P_OccupationFree Pf_Symmetry P_Symmetry Ex_Matrix Ex_Programs Spec_LightCone Pf_LightCone P_LightCone Spec_Window Pf_Window P_Window Spec_Grow Pf_Grow.
Local Open Scope R_scope.
Local Open Scope list_scope.
Local Notation far N := (ring_distance N 0).

(** a common part of both proofs: the window of N sites carried to N' sites *)
Section Carried.
  Context (D : Z).
  Lemma carried_back M M' : (2 * D + 1 <= M)%Z -> (2 * D + 1 <= M')%Z -> (3 <= M < two64)%Z -> (3 <= M' < two64)%Z -> fits3 (chain_lattice M) M -> forall i, (0 <= i < M + M * M * M)%Z -> (reach M (far M) i <= D)%Z ->
    (0 <= carried M M' i < M' + M' * M' * M')%Z /\ reach M' (far M') (carried M M' i) = reach M (far M) i /\ carried M' M (carried M M' i) = i.
  Proof.
    intros P P' Q Q' Fm i Hi L. destruct (window M D P Q Fm i Hi L) as [(a & Ha & ->)|(a & b & c & Ha & Hb & Hc & ->)].
    - rewrite (carried_1 M D P Q M' a Ha), (carried_1 M' D P' Q' M a Ha), !(index1_reach _ D) by assumption. split; [apply index1_range; assumption|auto].
    - rewrite (carried_3 M D P Q M' a b c Ha Hb Hc), (carried_3 M' D P' Q' M a b c Ha Hb Hc), !(index3_reach _ D) by assumption. split; [apply index3_range; assumption|auto].
  Qed.
  Lemma carried_entry sort sort' J U N N' m m' : sorts_by_column sort -> sorts_by_column sort' -> (2 * D + 1 <= N)%Z -> (2 * D + 1 <= N')%Z -> (3 <= N < two64)%Z -> (3 <= N' < two64)%Z -> fits3 (chain_lattice N) N -> fits3 (chain_lattice N') N' ->
    init_matrix sort (real J : CR) (real U) (real (1/2)) (chain_lattice N) = Ok m -> init_matrix sort' (real J : CR) (real U) (real (1/2)) (chain_lattice N') = Ok m' ->
    forall i j, (0 <= i < N + N * N * N)%Z -> (0 <= j < N + N * N * N)%Z -> (reach N (far N) i <= D)%Z -> (reach N (far N) j <= D - 1)%Z ->
      entry (bm_scale imag_unit m') (carried N N' i) (carried N N' j) = entry (bm_scale imag_unit m) i j.
  Proof.
    intros Hs Hs' B B' H3 H3' Hf Hf' Em Em' i j Hi Hj Li Lj. destruct (window N D B H3 Hf i Hi Li) as [(a & Ha & ->)|(a & b & c & Ha & Hb & Hc & ->)], (window N (D - 1) ltac:(lia) H3 Hf j Hj Lj) as [(x & Hx & ->)|(x & y & z & Hx & Hy & Hz & ->)].
    + rewrite !(carried_1 N D B H3 N') by lia. rewrite (win_11 sort J U N D m), (win_11 sort' J U N' D m') by (assumption || lia). reflexivity.
    + rewrite (carried_1 N D B H3 N'), (carried_3 N D B H3 N') by lia. rewrite (win_13 sort J U N D m), (win_13 sort' J U N' D m') by (assumption || lia). reflexivity.
    + rewrite (carried_1 N D B H3 N'), (carried_3 N D B H3 N') by lia. rewrite (win_31 sort J U N D m), (win_31 sort' J U N' D m') by (assumption || lia). reflexivity.
    + rewrite !(carried_3 N D B H3 N') by lia. rewrite (win_33 sort J U N D m), (win_33 sort' J U N' D m') by (assumption || lia). reflexivity.
  Qed.
End Carried.
Lemma SR_part {T} (h : T -> R) l : forall l', NoDup l -> incl l l' -> (forall x, In x l' -> 0 <= h x) -> SR h l <= SR h l'.
Proof.
  induction l as [|x l IH]; intros l' N I P; [apply SR_nonneg; exact P|]. inversion N as [|? ? N1 N2]; subst.
  destruct (in_split x l' (I x (or_introl eq_refl))) as (l1 & l2 & ->). assert (Q : SR h l <= SR h (l1 ++ l2)).
  { apply IH; [exact N2| |].
    - intros z Hz. pose proof (I z (or_intror Hz)) as J. rewrite in_app_iff in *. cbn in J. destruct J as [J|[->|J]]; auto. contradiction.
    - intros z Hz. apply P. rewrite in_app_iff in *. cbn. tauto. }
  rewrite SR_app in *. unfold SR in *. cbn. lra.
Qed.
Lemma zr_nodup2 a b : NoDup (zrange a b).
Proof. unfold zrange. apply FinFun.Injective_map_NoDup; [intros x y; lia|apply seq_NoDup]. Qed.
Lemma nodup_list_prod {A C} (l : list A) (l' : list C) : NoDup l -> NoDup l' -> NoDup (list_prod l l').
Proof.
  intros H H'. induction H as [|x l Hx H IH]; [constructor|]. cbn. apply nodup_app; [|exact IH|].
  - apply nodup_map; [intros u v _ _ Q; injection Q; auto|exact H'].
  - intros [u v] Hu Hv. apply in_map_iff in Hu. destruct Hu as (w & Q & _). injection Q as <- _. apply in_prod_iff in Hv. tauto.
Qed.
Lemma zero_carried N N' : (3 <= N)%Z -> carried N N' 0 = 0%Z.
Proof. intros H. unfold carried, index1, at_offset, offset. destruct (Z.ltb_spec 0 N); [|lia]. destruct (Z.ltb_spec (2 * 0) N); [|lia]. apply Zmod_0_l. Qed.
Lemma chain_full sort J U N : sorts_by_column sort -> (3 <= N < two64)%Z -> fits3 (chain_lattice N) N -> exists m, init_matrix sort (real J : CR) (real U) (real (1/2)) (chain_lattice N) = Ok m /\
  anti_hermitian CR (N + N * N * N) (entry (bm_scale imag_unit m)) /\ op_bound (N + N * N * N) (entry (bm_scale imag_unit m)) (6 * Rabs J + Rabs U) /\ 0 <= 6 * Rabs J + Rabs U.
Proof.
  intros Hs H3 Hf. assert (Hl : shipped3 (chain_lattice N) N) by (constructor; exact H3). destruct (full_facts sort J U _ N Hs Hl Hf) as (m & Em & _ & An & Rb & Bp). exists m. split; [exact Em|]. split; [exact An|].
  assert (X : 3 * neighbours (chain_lattice N) * Rabs J + Rabs U = 6 * Rabs J + Rabs U) by (unfold neighbours; cbn [lat_coordination chain_lattice]; lra). rewrite X in *. split; [|exact Bp]. apply row_op; assumption.
Qed.

(** two rings of at least 2 D + 1 sites: within D hops of site 0 the exact coefficients differ, all together, by at most 2 (6 |J| + |U|) t (6 |J| t)^D / (D + 1)! *)
Theorem C117_chains : forall (sort sort' : list (triplet CR) -> list (triplet CR)) J U N N' (D : nat) m m' y y',
  sorts_by_column sort -> sorts_by_column sort' -> (3 <= N < two64)%Z -> (3 <= N' < two64)%Z -> fits3 (chain_lattice N) N -> fits3 (chain_lattice N') N' ->
  init_matrix sort (real J : CR) (real U) (real (1/2)) (chain_lattice N) = Ok m -> init_matrix sort' (real J : CR) (real U) (real (1/2)) (chain_lattice N') = Ok m' ->
  the_solution (N + N * N * N) (entry (bm_scale imag_unit m)) y -> the_solution (N' + N' * N' * N') (entry (bm_scale imag_unit m')) y' ->
  (2 * Z.of_nat D + 1 <= N)%Z -> (2 * Z.of_nat D + 1 <= N')%Z -> forall t, 0 <= t ->
  length2 (differences N N' (Z.of_nat D) (y t) (y' t)) <= 2 * (6 * Rabs J + Rabs U) * t * (6 * Rabs J * t) ^ D / INR (fact (D + 1)).
Proof.
  intros sort sort' J U N N' D m m' y y' Hs Hs' H3 H3' Hf Hf' Em Em' Hy Hy' B B' t Ht. set (DZ := Z.of_nat D) in *.
  assert (Hl : shipped3 (chain_lattice N) N) by (constructor; exact H3). assert (Hl' : shipped3 (chain_lattice N') N') by (constructor; exact H3').
  destruct (chain_full sort J U N Hs H3 Hf) as (m1 & E1 & An & Op & Bp). rewrite Em in E1. injection E1 as <-. destruct (chain_full sort' J U N' Hs' H3' Hf') as (m1' & E1' & An' & Op' & _). rewrite Em' in E1'. injection E1' as <-.
  pose proof (C115_chain_distance N ltac:(lia) ltac:(lia)) as Hd. pose proof (C115_chain_distance N' ltac:(lia) ltac:(lia)) as Hd'.
  set (n := (N + N * N * N)%Z) in *. set (n' := (N' + N' * N' * N')%Z) in *.
  assert (Q : nrm (idx n') (fun p => vecf (carry (reach N' (far N')) (carried N' N) D y t) p + -1 * vecf (y' t) p) <= 2 * (6 * Rabs J + Rabs U) * t * (6 * Rabs J * t) ^ D / INR (fact (D + 1))).
  { apply (grow n n' (entry (bm_scale imag_unit m)) (entry (bm_scale imag_unit m')) (reach N (far N)) (reach N' (far N')) (carried N N') (carried N' N) D (6 * Rabs J + Rabs U) (6 * Rabs J)).
    - exact (carried_back DZ N N' B B' H3 H3' Hf).
    - exact (carried_back DZ N' N B' B H3' H3 Hf').
    - exact (carried_entry DZ sort sort' J U N N' m m' Hs Hs' B B' H3 H3' Hf Hf' Em Em').
    - intros i j. apply (full_local sort' J U _ N' _ Hs' Hl' Hd' Hf' m' Em').
    - exact An'.
    - exact Op.
    - exact Op'.
    - exact Bp.
    - exact (Logic.proj1 Hy).
    - exact (Logic.proj1 Hy').
    - destruct Hy as (_ & Y0 & _), Hy' as (_ & Y0' & _). intros i Hi. rewrite (Y0' i Hi). fold DZ. destruct (Z.leb_spec (reach N' (far N') i) DZ) as [L|L].
      + destruct (carried_back DZ N' N B' B H3' H3 Hf' i Hi L) as (R1 & _ & C). rewrite (Y0 _ R1). unfold first_unit. destruct (Z.eqb_spec (carried N' N i) 0) as [e|e], (Z.eqb_spec i 0) as [e'|e']; try reflexivity; exfalso; [apply e'; rewrite <- C, e; apply zero_carried; lia|apply e; rewrite e'; apply zero_carried; lia].
      + unfold first_unit. destruct (Z.eqb_spec i 0) as [->|]; [|reflexivity]. rewrite reach_1 in L by (unfold site; lia). unfold ring_distance in L. lia.
    - intros s Hs0. pose proof (C115_exact sort J U _ N _ m y Hs Hl Hf Hd Em Hy D s Hs0) as T. unfold length2 in T. rewrite (vec_n2 n) in T by (unfold beyond; rewrite map_length, zrange_length; fold n; unfold n; nia).
      assert (X : 3 * neighbours (chain_lattice N) * Rabs J = 6 * Rabs J) by (unfold neighbours; cbn [lat_coordination chain_lattice]; lra). rewrite X in T. eapply Rle_trans; [|exact T].
      apply Req_le. unfold nrm. f_equal. unfold n2, dot. apply SR_ext. intros p Hp. apply idx_in in Hp. unfold vec, vecf, out. unfold beyond, vget. rewrite nth_zrange_map by exact Hp. fold DZ. destruct (DZ <=? reach N (far N) (fst p))%Z; [reflexivity|destruct (snd p); reflexivity].
    - exact Ht. }
  eapply Rle_trans; [|exact Q]. unfold length2, nrm. apply sqrt_le_1_alt. unfold norm2, n2, dot. rewrite sum_SR, SR_idx. unfold differences.
  set (h := fun j => let z := rsub (carry (reach N' (far N')) (carried N' N) D y t j) (y' t j) in fst z * fst z + snd z * snd z).
  set (near := zrange (- DZ) (DZ + 1)). assert (Hn : forall a, In a near -> (Z.abs a <= DZ)%Z) by (intros a Ha; apply zrange_in in Ha; lia).
  rewrite SR_app, !SR_map.
  apply (Rle_trans _ (SR h (map (index1 N') near ++ map (fun p => index3 N' (fst p) (fst (snd p)) (snd (snd p))) (list_prod near (list_prod near near))))).
  - apply Req_le. rewrite SR_app, !SR_map. apply (f_equal2 Rplus); apply SR_ext; intros x Hx; unfold h, carry; fold DZ.
    + rewrite (index1_reach N' DZ B' H3') by auto. rewrite (carried_1 N' DZ B' H3' N) by auto. destruct (Z.leb_spec (Z.abs x) DZ); [reflexivity|pose proof (Hn x Hx); lia].
    + destruct x as [a [b c]]. apply in_prod_iff in Hx. destruct Hx as [Ha Hx]. apply in_prod_iff in Hx. destruct Hx as [Hb Hc]. pose proof (Hn a Ha). pose proof (Hn b Hb). pose proof (Hn c Hc). cbn [fst snd].
      rewrite (index3_reach N' DZ B' H3') by auto. rewrite (carried_3 N' DZ B' H3' N) by auto. destruct (Z.leb_spec (Z.max (Z.abs a) (Z.max (Z.abs b) (Z.abs c))) DZ); [reflexivity|lia].
  - assert (Hc : forall a, In a near -> offset N' (at_offset N' a) = a) by (intros a Ha; apply (offset_at N' DZ B'); auto).
    eapply Rle_trans; [apply (SR_part h _ (zrange 0 n'))|].
    + apply nodup_app.
      * apply nodup_map; [|apply zr_nodup2]. intros a b Ha Hb E. unfold index1 in E. rewrite <- (Hc a Ha), <- (Hc b Hb), E. reflexivity.
      * apply nodup_map; [|repeat apply nodup_list_prod; apply zr_nodup2]. intros [a [b c]] [a' [b' c']] H1 H2 E. cbn [fst snd] in E. apply in_prod_iff in H1, H2. destruct H1 as [Ha H1], H2 as [Ha' H2]. apply in_prod_iff in H1, H2. destruct H1 as [Hb Hc1], H2 as [Hb' Hc1'].
        destruct (index3_sites N' H3' a b c) as (X1 & X2 & X3), (index3_sites N' H3' a' b' c') as (Y1 & Y2 & Y3). rewrite E in X1, X2, X3. rewrite <- (Hc a Ha), <- (Hc b Hb), <- (Hc c Hc1), <- X1, <- X2, <- X3, Y1, Y2, Y3, !Hc by assumption. reflexivity.
      * intros x Hx Hx'. apply in_map_iff in Hx, Hx'. destruct Hx as (a & <- & _), Hx' as (p & E & _). pose proof (index1_is1 N' H3' a) as X1. pose proof (index3_not1 N' H3' (fst p) (fst (snd p)) (snd (snd p))) as X2. rewrite E in X2. congruence.
    + intros x Hx. apply zrange_in. apply in_app_iff in Hx. destruct Hx as [Hx|Hx]; apply in_map_iff in Hx; destruct Hx as (a & <- & _); [apply index1_range|apply index3_range]; exact H3'.
    + intros x _. unfold h. cbv zeta. pose proof (Rle_0_sqr (fst (rsub (carry (reach N' (far N')) (carried N' N) D y t x) (y' t x)))) as Q1. pose proof (Rle_0_sqr (snd (rsub (carry (reach N' (far N')) (carried N' N) D y t x) (y' t x)))) as Q2. unfold Rsqr in *. lra.
    + apply Req_le. apply SR_ext. intros i _. unfold h, vecf. cbn [fst snd part]. destruct (carry (reach N' (far N')) (carried N' N) D y t i) as [a1 a2], (y' t i) as [b1 b2]. cbn. ring.
Qed.
(** 12 and 20 sites at t = 1/10, within 5 hops of site 0 *)
Example C117_example : forall m m' y y', init_matrix isort (real 1 : CR) (real 1) (real (1/2)) (chain_lattice 12) = Ok m -> init_matrix isort (real 1 : CR) (real 1) (real (1/2)) (chain_lattice 20) = Ok m' ->
  the_solution (12 + 12 * 12 * 12) (entry (bm_scale imag_unit m)) y -> the_solution (20 + 20 * 20 * 20) (entry (bm_scale imag_unit m')) y' ->
  length2 (differences 12 20 5 (y (/ 10)) (y' (/ 10))) <= / 5000.
Proof.
  intros m m' y y' Em Em' Hy Hy'.
  assert (F1 : fits3 (chain_lattice 12) 12) by (unfold fits3; apply big; reflexivity). assert (F2 : fits3 (chain_lattice 20) 20) by (unfold fits3; apply big; reflexivity).
  assert (T : (20 < two64)%Z) by reflexivity.
  pose proof (C117_chains isort isort 1 1 12 20 5 m m' y y' isort_ok isort_ok ltac:(lia) ltac:(lia) F1 F2 Em Em' Hy Hy' ltac:(lia) ltac:(lia) (/ 10) ltac:(lra)) as Q. eapply Rle_trans; [exact Q|]. rewrite Rabs_R1. 
  assert (X : INR (fact (5 + 1)) = 720) by (rewrite INR_IZR_INZ; reflexivity). rewrite X. lra.
Qed.
