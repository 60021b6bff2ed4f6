(** PROOFS for C87: the measured quantity as a bounded quadratic form. *)
From Coq Require Import Reals Lra Psatz.
From Verif Require Import Base M_Operator M_Lattice Spec_Lattice Pf_Lattice M_LatticeReal Spec_LatticeReal M_Basis Pf_Basis P_Basis M_Matrix M_Ode M_Dispersion M_OpenMP Spec_OpenMP M_Expectation Spec_Expectation P_Expectation M_SiteOccupation Pf_SiteOccupation P_SiteOccupation M_TimeLoop Spec_TimeLoop Spec_Ode
  Pf_Matrix Spec_Matrix Spec_Stability Pf_Stability Pf_Stability2 Pf_Stability3 Spec_Programs M_Programs Pf_Programs.
Local Open Scope R_scope.
Local Open Scope list_scope.
Local Notation len u := (Z.of_nat (length u)).

Lemma decode N r : (0 < N)%Z -> (N <= r < N + N * N * N)%Z -> site N (site_a N r) /\ site N (site_b N r) /\ site N (site_c N r).
Proof.
  intros HP Hr. unfold site, site_a, site_b, site_c.
  assert (0 <= (r - N) / (N * N) < N)%Z by (split; [apply Z.div_pos; nia|apply Z.div_lt_upper_bound; nia]).
  pose proof (Z.mod_pos_bound ((r - N) / N) N HP). pose proof (Z.mod_pos_bound (r - N) N HP). tauto.
Qed.
Section Ev.
  Context (N : Z) (filling : R).
  Hypothesis HN : (N < two64)%Z.
  Definition table_value (a b : Z) : R := match ev1 N (init_ev1 N 1 filling) a b with Ok x => x | UB => 0 end.
  Lemma program_by_site : program_ev N filling = by_site (F := Rring) table_value.
  Proof. reflexivity. Qed.
  Lemma table_sea a b : site N a -> site N b -> table_value a b = sea N filling a b.
  Proof.
    intros Ha Hb. unfold table_value. destruct (C41_chain N 1 filling a b HN Ha Hb ltac:(lra)) as (E & _). rewrite E. unfold sea, ring_distance. rewrite Rmult_1_r.
    rewrite chain_distance_eq by assumption. reflexivity.
  Qed.
  Lemma sea_sym a b : sea N filling a b = sea N filling b a.
  Proof. unfold sea, ring_distance. do 2 f_equal. lia. Qed.
  Lemma sea_diag a : site N a -> sea N filling a a = filling.
  Proof.
    intros Ha. unfold sea, ring_distance, site in *. replace (Z.min (Z.abs (a - a)) (N - Z.abs (a - a)))%Z with 0%Z by lia. rewrite sea_1d_0. field. apply PI_nz.
  Qed.
  Lemma sea_off a b : site N a -> site N b -> a <> b -> Rabs (sea N filling a b) <= 1 / 3.
  Proof.
    intros Ha Hb Hne. unfold sea, ring_distance, site in *. set (z := Z.min _ _). assert (1 <= z)%Z by (unfold z; lia). assert (1 <= IZR z) by (apply IZR_le; assumption).
    rewrite sea_1d by lra. pose proof PI2_3_2 as P3. pose proof (SIN_bound (filling * PI * IZR z)) as [S1 S2].
    assert (P : 3 <= PI * IZR z) by nra. unfold Rdiv. rewrite Rabs_mult, (Rabs_right (/ (PI * IZR z))) by (apply Rle_ge, Rlt_le, Rinv_0_lt_compat; lra).
    assert (Rabs (sin (filling * PI * IZR z)) <= 1) by (apply Rabs_le; lra). assert (/ (PI * IZR z) <= / 3) by (apply Rinv_le_contravar; lra).
    assert (0 < / (PI * IZR z)) by (apply Rinv_0_lt_compat; lra). pose proof (Rabs_pos (sin (filling * PI * IZR z))). nra.
  Qed.
  Hypothesis Hf : 0 <= filling <= 1.
  Lemma sea_le a b : site N a -> site N b -> Rabs (sea N filling a b) <= 1.
  Proof.
    intros Ha Hb. destruct (Z.eq_dec a b) as [->|E]; [rewrite (sea_diag b Hb), Rabs_pos_eq; lra|]. pose proof (sea_off a b Ha Hb E). lra.
  Qed.
  Lemma pair_le a b : site N a -> site N b -> Rabs (pair_average (sea N filling) a b) <= 1.
  Proof.
    intros Ha Hb. unfold pair_average, kron. destruct (Z.eqb_spec a b) as [->|E].
    - rewrite (sea_diag b Hb). apply Rabs_le. lra.
    - pose proof (sea_off a b Ha Hb E) as Q. unfold Rabs in *. repeat destruct (Rcase_abs _); lra.
  Qed.
  Lemma hole_le a b : site N a -> site N b -> Rabs (kron a b - sea N filling b a) <= 1.
  Proof.
    intros Ha Hb. unfold kron. destruct (Z.eqb_spec a b) as [->|E].
    - rewrite (sea_diag b Hb). apply Rabs_le. lra.
    - pose proof (sea_off b a Hb Ha (not_eq_sym E)) as Q. unfold Rabs in *. repeat destruct (Rcase_abs _); lra.
  Qed.
  Lemma mul_le1 x y : Rabs x <= 1 -> Rabs y <= 1 -> Rabs (x * y) <= 1.
  Proof. intros Hx Hy. rewrite Rabs_mult. pose proof (Rabs_pos x). pose proof (Rabs_pos y). nra. Qed.
  Lemma overlap_le r s : (0 < N)%Z -> (0 <= r < N + N * N * N)%Z -> (0 <= s < N + N * N * N)%Z -> Rabs (overlap N (sea N filling) r s) <= 5.
  Proof.
    intros HP Hr Hs. unfold overlap. destruct (Z.ltb_spec r N) as [Lr|Lr], (Z.ltb_spec s N) as [Ls|Ls].
    - pose proof (sea_le r s ltac:(unfold site; lia) ltac:(unfold site; lia)). lra.
    - destruct (decode N s HP ltac:(lia)) as (A & B & C). pose proof (mul_le1 _ _ (pair_le _ _ C B) (sea_le r _ ltac:(unfold site; lia) A)). lra.
    - destruct (decode N r HP ltac:(lia)) as (A & B & C). pose proof (mul_le1 _ _ (pair_le _ _ B C) (sea_le _ s A ltac:(unfold site; lia))). lra.
    - destruct (decode N r HP ltac:(lia)) as (A & B & C). destruct (decode N s HP ltac:(lia)) as (A' & B' & C').
      pose proof (sea_le _ _ A A') as X1. pose proof (mul_le1 _ _ (pair_le _ _ B C) (pair_le _ _ C' B')) as X2.
      pose proof (mul_le1 _ _ (sea_le _ _ B B') (hole_le _ _ C C')) as X3.
      set (x1 := sea N filling (site_a N r) (site_a N s)) in *. set (x2 := _ * pair_average _ _ _) in *. rewrite Rmult_assoc. set (x3 := sea _ _ _ _ * (_ - _)) in *.
      rewrite Rabs_mult. assert (Rabs (x2 + 4 * x3) <= 5).
      { eapply Rle_trans; [apply Rabs_triang|]. rewrite Rabs_mult, (Rabs_right 4) by lra. lra. }
      pose proof (Rabs_pos x1). pose proof (Rabs_pos (x2 + 4 * x3)). nra.
  Qed.
End Ev.
(** what operator() returns *)
Lemma overlap_ext N rho rho' r s : (0 < N)%Z -> (forall a b, site N a -> site N b -> rho a b = rho' a b) ->
  (0 <= r < N + N * N * N)%Z -> (0 <= s < N + N * N * N)%Z -> overlap N rho r s = overlap N rho' r s.
Proof.
  intros HP H Hr Hs. unfold overlap, pair_average. destruct (Z.ltb_spec r N) as [Lr|Lr], (Z.ltb_spec s N) as [Ls|Ls].
  - apply H; unfold site; lia.
  - destruct (decode N s HP ltac:(lia)) as (A & B & C). rewrite !H by (assumption || (unfold site; lia)). reflexivity.
  - destruct (decode N r HP ltac:(lia)) as (A & B & C). rewrite !H by (assumption || (unfold site; lia)). reflexivity.
  - destruct (decode N r HP ltac:(lia)) as (A & B & C). destruct (decode N s HP ltac:(lia)) as (A' & B' & C'). rewrite !H by assumption. reflexivity.
Qed.
Lemma Ef_overlap N rho r s : Ef (F := Rring) (1/2) rho N r s * (1/2) = overlap N rho r s.
Proof.
  unfold Ef, overlap, E11, E13, E31, E33, pair_average, eight, four, two. change (Pf_SiteOccupation.dl (F := Rring)) with kron.
  change (dec1 N s) with (site_a N s). change (dec2 N s) with (site_b N s). change (dec3 N s) with (site_c N s).
  change (dec1 N r) with (site_a N r). change (dec2 N r) with (site_b N r). change (dec3 N r) with (site_c N r).
  destruct (r <? N)%Z, (s <? N)%Z; cbn; unfold Rminus; field.
Qed.
Lemma occupation_quad N rho n v : occupation N rho n v = quad n (overlap N rho) v.
Proof. unfold occupation, quad. rewrite sum_SR. apply SR_ext. intros i _. rewrite sum_SR. reflexivity. Qed.
Lemma quad_ext n w w' v v' : (forall i j, (0 <= i < n)%Z -> (0 <= j < n)%Z -> w i j = w' i j) -> (forall i, (0 <= i < n)%Z -> v i = v' i) -> quad n w v = quad n w' v'.
Proof.
  intros Hw Hv. unfold quad. apply SR_ext. intros i Hi. apply zrange_in in Hi. apply SR_ext. intros j Hj. apply zrange_in in Hj. rewrite (Hw i j Hi Hj), (Hv i Hi), (Hv j Hj). reflexivity.
Qed.
Lemma fst_total N rho (v : list CR) : fst (Pf_SiteOccupation.total (F := Rring) (1/2) rho N v) = quad (N + N * N * N) (overlap N rho) (vget v).
Proof.
  unfold Pf_SiteOccupation.total, quad. etransitivity; [apply fst_sum|]. apply SR_ext. intros i _. etransitivity; [apply fst_sum|]. apply SR_ext. intros j _.
  unfold Pf_SiteOccupation.g. rewrite Ef_overlap. change (vv (F := Rring) v i) with (vget v i). change (vv (F := Rring) v j) with (vget v j).
  destruct (vget v i) as [a b], (vget v j) as [c d]. cbn in a, b, c, d. cbn. ring.
Qed.
Lemma fst_total1 N rho (v : list CR) : (forall a b, site N a -> site N b -> rho a b = rho b a) ->
  total1 (F := Rring) (1/2) rho N v = (quad N (overlap N rho) (vget v), 0).
Proof.
  intros Hs. apply (injective_projections (A := R) (B := R)); cbn [fst snd].
  - unfold total1, quad. etransitivity; [apply fst_sum|]. apply SR_ext. intros i Hi. apply zrange_in in Hi. etransitivity; [apply fst_sum|]. apply SR_ext. intros j Hj. apply zrange_in in Hj.
    unfold g1, E11, overlap, two. change (vv (F := Rring) v i) with (vget v i). change (vv (F := Rring) v j) with (vget v j).
    destruct (Z.ltb_spec i N); [|lia]. destruct (Z.ltb_spec j N); [|lia].
    destruct (vget v i) as [a b], (vget v j) as [c d]. cbn in a, b, c, d. cbn. field.
  - unfold total1. set (f := fun i j => snd (g1 (F := Rring) (1/2) rho v i j) : R).
    assert (E : snd (sum_over (K := CR) (fun i => sum_over (K := CR) (fun j => g1 (F := Rring) (1/2) rho v i j) (zrange 0 N)) (zrange 0 N)) = SR (fun i => SR (f i) (zrange 0 N)) (zrange 0 N)).
    { etransitivity; [apply snd_sum|]. apply SR_ext. intros i _. apply snd_sum. }
    etransitivity; [exact E|].
    assert (A : forall i j, site N i -> site N j -> f i j = - f j i).
    { intros i j Hi Hj. unfold f, g1, E11, two. rewrite (Hs i j Hi Hj). destruct (vv (F := Rring) v i) as [a b], (vv (F := Rring) v j) as [c d]. cbn in a, b, c, d. cbn. ring. }
    assert (Q : SR (fun i => SR (f i) (zrange 0 N)) (zrange 0 N) = -1 * SR (fun i => SR (f i) (zrange 0 N)) (zrange 0 N)).
    { rewrite (SR_swap f) at 2. rewrite <- SR_mul. apply SR_ext. intros i Hi. apply zrange_in in Hi. rewrite <- SR_mul. apply SR_ext. intros j Hj. apply zrange_in in Hj. rewrite (A i j Hi Hj). ring. }
    lra.
Qed.
