(** THEOREMS: C54 (dispersion). *)
From Coq Require Import Reals Lra Psatz.
From Verif Require Import Base M_Lattice Spec_Lattice Pf_Lattice M_LatticeReal M_Basis M_Matrix Spec_Matrix Pf_Matrix Pf_Matrix2 Pf_MatrixEntry P_Matrix M_Ode Pf_Ode M_Dispersion.
Local Open Scope R_scope.
Local Open Scope list_scope.

Lemma vread_map {A} (f : Z -> A) n i : (0 <= i < n)%Z -> vread (map f (zrange 0 n)) i = Ok (f i).
Proof.
  intros H. unfold vread. destruct (Z.ltb_spec i 0); [lia|].
  rewrite (nth_error_nth' _ (f 0%Z)) by (rewrite map_length, zrange_length; lia). rewrite nth_zrange_map by lia. reflexivity.
Qed.
Lemma vread_out {A} (l : list A) i : (Z.of_nat (length l) <= i)%Z -> vread l i = UB.
Proof.
  intros H. unfold vread. destruct (Z.ltb_spec i 0); [reflexivity|]. rewrite (proj2 (nth_error_None _ _)) by lia. reflexivity.
Qed.

(** the tabulated values: one per momentum, -2J sum over lattice vectors of cos(k.v); reads past
    the end are out of bounds *)
Theorem C54_chain : forall N dx J i, (0 < N)%Z -> site N i ->
  let eps := chain_dispersion (momentum_chain N) (real_chain N dx) J in
  let k := - PI + 2 * PI * IZR i / IZR N in
  vread eps i = Ok (- 2 * J * cos (k * dx)) /\ Rabs (- 2 * J * cos (k * dx)) <= 2 * Rabs J /\
  vread eps N = UB.
Proof.
  intros N dx J i HN Hi eps k. unfold eps, chain_dispersion, dispersion, chain_vectors, dot1. cbn [ch_size momentum_chain fold_left real_chain ch_dx].
  split; [|split].
  - rewrite vread_map by exact Hi. f_equal. unfold ch_pos. cbn [momentum_chain ch_x_min ch_dx]. unfold k.
    replace (- PI + IZR i * (2 * PI / IZR N)) with (- PI + 2 * PI * IZR i / IZR N) by (field; apply not_0_IZR; lia). ring.
  - rewrite !Rabs_mult. rewrite (Rabs_left (-2)) by lra. pose proof (COS_bound (k * dx)). pose proof (Rabs_pos J).
    assert (Rabs (cos (k * dx)) <= 1) by (apply Rabs_le; lra). nra.
  - apply vread_out. rewrite map_length, zrange_length. lia.
Qed.
Theorem C54_square : forall N dx dy J i, (0 < N)%Z -> (N * N < two64)%Z -> site (N * N) i ->
  let eps := square_dispersion (momentum_square N N) (real_square N N dx dy) J in
  let kx := - PI + 2 * PI * IZR (i / N) / IZR N in let ky := - PI + 2 * PI * IZR (i mod N) / IZR N in
  vread eps i = Ok (- 2 * J * (cos (kx * dx) + cos (ky * dy))) /\
  Rabs (- 2 * J * (cos (kx * dx) + cos (ky * dy))) <= 4 * Rabs J.
Proof.
  intros N dx dy J i HN Hf Hi eps kx ky. unfold eps, square_dispersion, dispersion, square_vectors, dot2.
  cbn [momentum_square s_size_x s_size_y fold_left real_square s_dx s_dy fst snd]. unfold sq_size. rewrite u64_id by nia.
  split.
  - rewrite vread_map by exact Hi. f_equal. unfold s_pos. cbn [momentum_square s_size_x s_size_y s_x_min s_y_min s_dx s_dy fst snd]. unfold kx, ky.
    assert (IZR N <> 0) by (apply not_0_IZR; lia).
    replace (- PI + IZR (i / N) * (2 * PI / IZR N)) with (- PI + 2 * PI * IZR (i / N) / IZR N) by (field; assumption).
    replace (- PI + IZR (i mod N) * (2 * PI / IZR N)) with (- PI + 2 * PI * IZR (i mod N) / IZR N) by (field; assumption).
    rewrite !Rmult_0_r, Rplus_0_r, !Rplus_0_l. ring.
  - rewrite !Rabs_mult. rewrite (Rabs_left (-2)) by lra. pose proof (COS_bound (kx * dx)). pose proof (COS_bound (ky * dy)). pose proof (Rabs_pos J).
    assert (Rabs (cos (kx * dx) + cos (ky * dy)) <= 2) by (apply Rabs_le; lra). nra.
Qed.

(** eps(k) = eps(-k): the momentum opposite to site i is site (N - i) mod N *)
Theorem C54_even : forall N dx J i, (0 < N)%Z -> site N i ->
  vread (chain_dispersion (momentum_chain N) (real_chain N dx) J) ((N - i) mod N) =
  vread (chain_dispersion (momentum_chain N) (real_chain N dx) J) i.
Proof.
  intros N dx J i HN Hi. assert (Nz : IZR N <> 0) by (apply not_0_IZR; lia).
  assert (S' : site N ((N - i) mod N)) by (unfold site; apply Z.mod_pos_bound; lia).
  rewrite (Logic.proj1 (C54_chain N dx J i HN Hi)), (Logic.proj1 (C54_chain N dx J _ HN S')). do 2 f_equal. unfold site in *.
  destruct (Z.eq_dec i 0) as [->|Hi0]; [rewrite Z.sub_0_r, Z.mod_same by lia; reflexivity|].
  rewrite Z.mod_small by lia. rewrite minus_IZR.
  replace ((- PI + 2 * PI * (IZR N - IZR i) / IZR N) * dx) with (- ((- PI + 2 * PI * IZR i / IZR N) * dx)) by (field; exact Nz).
  apply cos_neg.
Qed.
(** particle-hole symmetry of the unit-spacing chain: eps(k + pi) = - eps(k) *)
Theorem C54_nesting : forall h J i, (0 < h)%Z -> site (2 * h) i ->
  let eps := chain_dispersion (momentum_chain (2 * h)) (real_chain (2 * h) 1) J in
  exists e, vread eps i = Ok e /\ vread eps ((i + h) mod (2 * h)) = Ok (- e).
Proof.
  intros h J i Hh Hi eps. assert (Hz : IZR h <> 0) by (apply not_0_IZR; lia).
  assert (S' : site (2 * h) ((i + h) mod (2 * h))) by (unfold site; apply Z.mod_pos_bound; lia).
  eexists. split; [apply (C54_chain (2 * h) 1 J i); [lia|exact Hi]|].
  etransitivity; [apply (C54_chain (2 * h) 1 J _ ltac:(lia) S')|]. f_equal. unfold site in *.
  assert (E : cos ((- PI + 2 * PI * IZR ((i + h) mod (2 * h)) / IZR (2 * h)) * 1) = - cos ((- PI + 2 * PI * IZR i / IZR (2 * h)) * 1)); [|rewrite E; ring].
  rewrite mult_IZR. destruct (Z.lt_ge_cases (i + h) (2 * h)).
  - rewrite Z.mod_small by lia. rewrite plus_IZR. rewrite <- neg_cos. f_equal. field. exact Hz.
  - clear S'. assert (Em : ((i + h) mod (2 * h) = i - h)%Z) by (symmetry; apply (Z.mod_unique_pos (i + h) (2 * h) 1 (i - h)); lia). rewrite Em.
    rewrite minus_IZR.
    replace ((- PI + 2 * PI * (IZR i - IZR h) / (2 * IZR h)) * 1) with (- (- ((- PI + 2 * PI * IZR i / (2 * IZR h)) * 1) + PI)) by (field; exact Hz).
    rewrite cos_neg, neg_cos, cos_neg. reflexivity.
Qed.

(** ** The dispersion is the spectrum of the kinetic matrix (even N) *)
Lemma cos_add_2PI x m : cos (x + 2 * PI * IZR m) = cos x.
Proof.
  rewrite cos_plus. replace (2 * PI * IZR m) with (2 * (IZR m * PI)) by ring.
  rewrite cos_2a_sin, sin_2a. assert (S0 : sin (IZR m * PI) = 0) by (apply sin_eq_0_1; exists m; reflexivity). rewrite S0. ring.
Qed.
(** the vector with components cos(k n + phi) *)
Definition wave (N : Z) (k phi : R) : list R := map (fun n => cos (k * IZR n + phi)) (zrange 0 N).
Lemma vget_wave N k phi n : site N n -> vget (K := Rring) (wave N k phi) n = cos (k * IZR n + phi).
Proof. intros H. unfold vget, wave. exact (nth_zrange_map (fun n => cos (k * IZR n + phi)) N n 0 H). Qed.
(** action of the kinetic matrix of a chain *)
Lemma kinetic_action (sort : list (triplet Rring) -> list (triplet Rring)) (J : R) N m (v : list R) :
  sorts_by_column sort -> (3 <= N)%Z -> (N * 2 < two64)%Z ->
  init_kinetic_matrix (K := Rring) sort J (chain_lattice N) = Ok m ->
  forall n, site N n -> vget (K := Rring) (sp_vec m v) n =
    - J * (vget (K := Rring) v ((n - 1) mod N) + vget (K := Rring) v ((n + 1) mod N)).
Proof.
  intros Hs H3 Hf Em n Hn. assert (HG : graph (chain_lattice N) N) by (apply shipped3_graph; constructor; lia).
  rewrite (init_kinetic_closed sort Hs J (chain_lattice N) N HG Hf) in Em. injection Em as <-.
  unfold sp_vec. cbn [bm_done]. rewrite map_map. unfold vget at 1. rewrite (nth_zrange_map (A := Rring)) by exact Hn.
  rewrite (sum_over_perm _ _ _ (pairs (kinetic_triplets1 (K := Rring) J (chain_lattice N) n))) by (unfold pairs; apply Permutation_map; apply Hs).
  unfold pairs, kinetic_triplets1. cbn [chain_lattice lat_neighbors]. rewrite chain_neighbors_ring by (try lia; exact Hn).
  cbn. ring.
Qed.
Lemma k_period q h n e : (0 < h)%Z -> (e = 1 \/ e = -1)%Z -> site (2 * h) n ->
  exists m, - PI * IZR ((n + e) mod (2 * h)) + 2 * PI * IZR q / IZR (2 * h) * IZR ((n + e) mod (2 * h)) =
    (- PI + 2 * PI * IZR q / IZR (2 * h)) * (IZR n + IZR e) + 2 * PI * IZR m.
Proof.
  intros Hh He Hn. assert (Hz : IZR h <> 0) by (apply not_0_IZR; lia).
  pose proof (Z.div_mod (n + e) (2 * h) ltac:(lia)) as D. set (r := ((n + e) mod (2 * h))%Z) in *. set (d := ((n + e) / (2 * h))%Z) in *.
  exists (d * h - d * q)%Z. assert (E : IZR n + IZR e = 2 * IZR h * IZR d + IZR r) by (rewrite <- !mult_IZR, <- !plus_IZR; f_equal; lia).
  rewrite E, minus_IZR, !mult_IZR. field. exact Hz.
Qed.
Theorem C54_spectrum : forall (sort : list (triplet Rring) -> list (triplet Rring)) J h q phi,
  sorts_by_column sort -> (2 <= h)%Z -> (2 * h * 2 < two64)%Z -> site (2 * h) q ->
  let N := (2 * h)%Z in let k := ch_pos (momentum_chain N) q in
  exists m e, init_kinetic_matrix (K := Rring) sort J (chain_lattice N) = Ok m /\
    vread (chain_dispersion (momentum_chain N) (real_chain N 1) J) q = Ok e /\
    sp_vec (K := Rring) m (wave N k phi) = map (fun x => e * x) (wave N k phi).
Proof.
  intros sort J h q phi Hs Hh Hf Hq N k.
  assert (HG : graph (chain_lattice N) N) by (apply shipped3_graph; constructor; unfold N; lia).
  eexists. eexists. split; [apply (init_kinetic_closed sort Hs J (chain_lattice N) N HG); exact Hf|].
  split; [apply (C54_chain N 1 J q); [unfold N; lia|exact Hq]|].
  assert (L : forall a b : list R, length a = length b -> (forall n, site (Z.of_nat (length a)) n -> vget (K := Rring) a n = vget (K := Rring) b n) -> a = b).
  { intros a b La Hab. apply (nth_ext _ _ 0 0 La). intros i Hi. specialize (Hab (Z.of_nat i)). unfold vget in Hab. rewrite Nat2Z.id in Hab. apply Hab. split; lia. }
  assert (LL : length (wave N k phi) = Z.to_nat N) by (unfold wave; rewrite map_length, zrange_length; lia).
  apply L. { unfold sp_vec. cbn [bm_done]. rewrite !map_length, LL, zrange_length. lia. }
  intros n Hn. unfold sp_vec in Hn. cbn [bm_done] in Hn. rewrite !map_length, zrange_length in Hn. assert (Hn' : site N n) by (unfold site in *; lia).
  rewrite (kinetic_action sort J N _ (wave N k phi) Hs ltac:(unfold N; lia) Hf (init_kinetic_closed sort Hs J (chain_lattice N) N HG Hf) n Hn').
  assert (R : vget (K := Rring) (map (fun x => - 2 * J * cos ((- PI + 2 * PI * IZR q / IZR N) * 1) * x) (wave N k phi)) n =
    - 2 * J * cos ((- PI + 2 * PI * IZR q / IZR N) * 1) * cos (k * IZR n + phi)).
  { unfold wave. rewrite map_map. unfold vget. exact (nth_zrange_map (fun n => - 2 * J * cos ((- PI + 2 * PI * IZR q / IZR N) * 1) * cos (k * IZR n + phi)) N n 0 Hn'). }
  etransitivity; [|symmetry; exact R]. clear R.
  assert (HNp : (0 < N)%Z) by (unfold N; lia).
  rewrite !vget_wave by (unfold site; apply Z.mod_pos_bound; exact HNp).
  assert (Ek : k = - PI + 2 * PI * IZR q / IZR N) by (unfold k, ch_pos; cbn [momentum_chain ch_x_min ch_dx]; field; apply not_0_IZR; lia).
  destruct (k_period q h n (-1) ltac:(lia) ltac:(lia) Hn') as [m1 E1]. destruct (k_period q h n 1 ltac:(lia) ltac:(lia) Hn') as [m2 E2].
  replace (n - 1)%Z with (n + -1)%Z by lia. fold N in E1, E2.
  replace (k * IZR ((n + -1) mod N) + phi) with ((k * IZR n + phi - k) + 2 * PI * IZR m1) by (rewrite Ek; lra).
  replace (k * IZR ((n + 1) mod N) + phi) with ((k * IZR n + phi + k) + 2 * PI * IZR m2) by (rewrite Ek; lra).
  rewrite !cos_add_2PI, <- Ek, Rmult_1_r. rewrite cos_plus, cos_minus. match goal with |- ?a = ?b => change (@eq R a b) end. ring.
Qed.
(** For odd N the momentum grid -pi + 2 pi i/N is not that of the periodic chain: the tabulated
    energy of its first momentum is no eigenvalue of the kinetic matrix (defect). *)
Theorem C54_odd_refuted : forall (sort : list (triplet Rring) -> list (triplet Rring)) J h,
  sorts_by_column sort -> J <> 0 -> (1 <= h)%Z -> ((2 * h + 1) * 2 < two64)%Z ->
  let N := (2 * h + 1)%Z in
  exists m e, init_kinetic_matrix (K := Rring) sort J (chain_lattice N) = Ok m /\
    vread (chain_dispersion (momentum_chain N) (real_chain N 1) J) 0 = Ok e /\
    forall v : list R, Z.of_nat (length v) = N -> sp_vec (K := Rring) m v = map (fun x => e * x) v -> Forall (fun x => x = 0) v.
Proof.
  intros sort J h Hs HJ Hh Hf N. assert (HN : (3 <= N)%Z) by (unfold N; lia).
  assert (HG : graph (chain_lattice N) N) by (apply shipped3_graph; constructor; lia).
  eexists. exists (2 * J). split; [apply (init_kinetic_closed sort Hs J (chain_lattice N) N HG); exact Hf|].
  split.
  - etransitivity; [apply (C54_chain N 1 J 0); unfold site; lia|]. f_equal.
    replace ((- PI + 2 * PI * 0 / IZR N) * 1) with (- PI) by (field; apply not_0_IZR; lia). rewrite cos_neg, cos_PI. ring.
  - intros v Lv Hv. set (vn := (fun n : nat => vget (K := Rring) v (Z.of_nat n mod N)) : nat -> R).
    assert (Hvg : forall n, site N n -> vget (K := Rring) (map (fun x => 2 * J * x) v) n = 2 * J * vget (K := Rring) v n).
    { intros n Hn. unfold vget. rewrite (nth_indep _ _ (2 * J * 0)) by (rewrite map_length; unfold site in Hn; lia). exact (map_nth (fun x => 2 * J * x) v 0 (Z.to_nat n)). }
    assert (Rec : forall n, vn (S (S n)) = - 2 * vn (S n) - vn n).
    { intros n. set (c := (Z.of_nat (S n) mod N)%Z). assert (Hc : site N c) by (unfold c, site; apply Z.mod_pos_bound; lia).
      pose proof (kinetic_action sort J N _ v Hs HN Hf (init_kinetic_closed sort Hs J (chain_lattice N) N HG Hf) c Hc) as A.
      rewrite Hv, (Hvg c Hc) in A. replace ((c - 1) mod N)%Z with (Z.of_nat n mod N)%Z in A.
      - replace ((c + 1) mod N)%Z with (Z.of_nat (S (S n)) mod N)%Z in A.
        + change (2 * J * vn (S n) = - J * (vn n + vn (S (S n)))) in A. apply (Rmult_eq_reg_l J); [|exact HJ]. lra.
        + unfold c. rewrite Zplus_mod_idemp_l. f_equal. lia.
      - unfold c. rewrite Zminus_mod_idemp_l. f_equal. lia. }
    assert (Cl : forall n, vn n = (-1) ^ n * (vn 0%nat + INR n * (- vn 1%nat - vn 0%nat)) /\ vn (S n) = (-1) ^ S n * (vn 0%nat + INR (S n) * (- vn 1%nat - vn 0%nat))).
    { induction n as [|n [I1 I2]].
      - split; cbn; ring.
      - split; [exact I2|]. rewrite Rec, I1, I2, !S_INR. cbn [pow]. ring. }
    assert (P1 : vn (Z.to_nat N) = vn 0%nat) by (unfold vn; f_equal; rewrite Z2Nat.id by lia; rewrite Z.mod_same by lia; reflexivity).
    assert (P2 : vn (S (Z.to_nat N)) = vn 1%nat) by (unfold vn; f_equal; rewrite Nat2Z.inj_succ, Z2Nat.id by lia; replace (Z.succ N) with (1 + 1 * N)%Z by lia; rewrite Z.mod_add by lia; reflexivity).
    assert (Podd : (-1) ^ Z.to_nat N = -1) by (replace (Z.to_nat N) with (S (2 * Z.to_nat h)) by (unfold N; lia); apply pow_1_odd).
    destruct (Cl (Z.to_nat N)) as [C1 C2]. rewrite P1 in C1. rewrite P2 in C2. cbn [pow] in C2. rewrite Podd in C1, C2. rewrite S_INR in C2.
    assert (NP : 0 < INR (Z.to_nat N)) by (apply lt_0_INR; lia). set (nn := INR (Z.to_nat N)) in *.
    assert (D0 : - vn 1%nat - vn 0%nat = 0) by nra. rewrite D0 in C1. assert (V0 : vn 0%nat = 0) by lra.
    apply Forall_forall. intros x Hx. apply (In_nth _ _ 0) in Hx as (i & Hi & <-).
    destruct (Cl i) as [Ci _]. rewrite D0, V0 in Ci. assert (Q : vn i = 0) by (rewrite Ci; ring). unfold vn, vget in Q.
    rewrite Z.mod_small in Q by lia. rewrite Nat2Z.id in Q. exact Q.
Qed.
Example ex_bz : vread (chain_dispersion (momentum_chain 4) (real_chain 4 1) 1) 2 = Ok (-2 * 1 * cos ((- PI + 2 * PI * 2 / 4) * 1)).
Proof. apply C54_chain; unfold site; lia. Qed.
Print Assumptions C54_spectrum.
