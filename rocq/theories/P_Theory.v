(** THEOREMS: C79 (the coefficients written down by the theory program are the exact solution
    of the infinite chain; how far they are from the ring the other programs integrate; its
    output does not depend on the schedule; it is not the half-filled chain). *)
From Coq Require Import Reals Lra Psatz Lia.
From Verif Require Import Base M_Lattice M_Basis Spec_Lattice Pf_Lattice M_Matrix Pf_Matrix Pf_Matrix2 Pf_MatrixEntry M_Ode M_Dispersion M_Expectation M_OpenMP Spec_OpenMP Spec_Matrix Spec_Ode Pf_Ode P_Ode Spec_Stability
  Pf_Stability Pf_Stability2 Pf_Stability3 P_Stability Pf_OpenMP P_SiteOccupation Spec_Expectation P_Lattice P_Dispersion P_Expectation Spec_Bessel Pf_Bessel Spec_Theory M_Theory Pf_Theory Pf_Theory2 Pf_Theory3.
Local Open Scope R_scope.
Local Open Scope list_scope.
Local Notation len u := (Z.of_nat (length u)).

(** dh_j/dt = -i (h_{j-1} + h_{j+1}) for all sites j of the infinite chain, h_j(0) = delta_{j,0} *)
Theorem C79_infinite_chain : let h := fun (j : Z) t => theory_coefficient (Z.abs j) t in
  (forall j, h j 0 = if (j =? 0)%Z then (1, 0) else (0, 0)) /\
  forall j t, let r := radd (h (j - 1)%Z t) (h (j + 1)%Z t) : CR in
    derivable_pt_lim (fun s => fst (h j s)) t (snd r) /\
    derivable_pt_lim (fun s => snd (h j s)) t (- fst r).
Proof.
  intros h. unfold h. split.
  - intros j. rewrite coefficient_A, A_at_0. destruct (Z.eqb_spec j 0) as [->|E]; [cbn; unfold sc; cbn; f_equal; ring|].
    destruct (Nat.eqb_spec (Z.to_nat (Z.abs j)) 0); [lia|]. unfold sc. apply (injective_projections (A := R) (B := R)); cbn; ring.
  - intros j t. cbv zeta.
    assert (comm : forall x y : CR, radd x y = radd y x) by (intros [x1 x2] [y1 y2]; cbn in *; f_equal; lra).
    destruct (Z.eq_dec j 0) as [->|E]; [exact (coefficient_deriv0 t)|].
    destruct (Z.lt_ge_cases 0 j) as [L|L].
    + replace (Z.abs (j - 1)) with (Z.abs j - 1)%Z by lia. replace (Z.abs (j + 1)) with (Z.abs j + 1)%Z by lia. apply coefficient_deriv. lia.
    + replace (Z.abs (j - 1)) with (Z.abs j + 1)%Z by lia. replace (Z.abs (j + 1)) with (Z.abs j - 1)%Z by lia. rewrite comm. apply coefficient_deriv. lia.
Qed.
Print Assumptions C79_infinite_chain.

Section Kin.
  Context (sort : list (triplet CR) -> list (triplet CR)) (N : Z).
  Hypothesis Hs : sorts_by_column sort.
  Hypothesis HN : (3 <= N)%Z.
  Hypothesis Hf : (N * 2 < two64)%Z.
  Let lat := chain_lattice N.
  Let Hl : shipped3 lat N. Proof. constructor. lia. Qed.
  Lemma ring_apply m (v : Z -> CR) i : init_kinetic_matrix sort (real 1 : CR) lat = Ok m -> site N i ->
    sum_over (K := CR) (fun j => rmul (entry (bm_scale imag_unit m) i j) (v j)) (zrange 0 N) =
    mi (radd (v ((i - 1) mod N)%Z) (v ((i + 1) mod N)%Z)).
  Proof.
    intros Em Hi.
    assert (In1 : In ((i - 1) mod N)%Z (zrange 0 N)) by (apply zrange_in; apply Z.mod_pos_bound; lia).
    assert (In2 : In ((i + 1) mod N)%Z (zrange 0 N)) by (apply zrange_in; apply Z.mod_pos_bound; lia).
    set (a := ((i - 1) mod N)%Z) in *. set (b := ((i + 1) mod N)%Z) in *.
    assert (Q : forall j, rmul (entry (bm_scale imag_unit m) i j) (v j) =
      (((if (a =? j)%Z then snd (v a) else 0) + (if (b =? j)%Z then snd (v b) else 0)),
       ((if (a =? j)%Z then - fst (v a) else 0) + (if (b =? j)%Z then - fst (v b) else 0))) :> CR).
    { intros j. rewrite (kinetic_entry sort 1 lat N Hs Hl Hf m Em i j Hi). unfold adjc. cbn [lat lat_neighbors chain_lattice].
      rewrite chain_neighbors_ring by (lia || exact Hi). fold a b.
      change (sum_over (fun x : Z => delta (K := CR) x j) [a; b]) with (radd (delta (K := CR) a j) (radd (delta b j) r0)). unfold delta.
      clearbody a b. destruct (Z.eqb_spec a j) as [Ea|], (Z.eqb_spec b j) as [Eb|]; try rewrite Ea; try rewrite Eb; generalize (v j) (v a) (v b); intros;
      repeat match goal with z : car CR |- _ => let z1 := fresh in let z2 := fresh in destruct z as [z1 z2]; cbn in z1, z2 end;
      apply (injective_projections (A := R) (B := R)); cbn; ring. }
    apply (injective_projections (A := R) (B := R)).
    - etransitivity; [apply fst_sum|]. rewrite (SR_ext _ (fun j => (if (a =? j)%Z then snd (v a) else 0) + (if (b =? j)%Z then snd (v b) else 0))) by (intros j _; rewrite Q; reflexivity).
      rewrite SR_add, !SR_pick_eq by (apply zrange_NoDup || assumption). destruct (v a), (v b); reflexivity.
    - etransitivity; [apply snd_sum|]. rewrite (SR_ext _ (fun j => (if (a =? j)%Z then - fst (v a) else 0) + (if (b =? j)%Z then - fst (v b) else 0))) by (intros j _; rewrite Q; reflexivity).
      rewrite SR_add, !SR_pick_eq by (apply zrange_NoDup || assumption). generalize (v a) (v b). intros [x1 x2] [y1 y2]. cbn in *. ring.
  Qed.
End Kin.

(** On the ring with J = 1 the coefficients of the theory program stay within [ring_bound] of
    the exact solution of the equation the kinetic programs integrate. *)
Theorem C79_ring : forall (sort : list (triplet CR) -> list (triplet CR)) N,
  sorts_by_column sort -> (3 <= N)%Z -> (N * 2 < two64)%Z ->
  exists m, init_kinetic_matrix sort (real 1 : CR) (chain_lattice N) = Ok m /\
    forall y, exact_solution N (entry (bm_scale imag_unit m)) y ->
      (forall i, (0 <= i < N)%Z -> y 0 i = if (i =? 0)%Z then (1, 0) else (0, 0)) ->
      forall t, 0 <= t -> distance2 (map (h_val N t) (zrange 0 N)) (y t) <= ring_bound N t.
Proof.
  intros sort N Hs HN Hf. assert (Hl : shipped3 (chain_lattice N) N) by (constructor; lia).
  destruct (kinetic_facts sort 1 (chain_lattice N) N Hs Hl Hf) as (m & Em & _ & An & _). exists m. split; [exact Em|].
  intros y Hy H0 t Ht.
  pose proof (near_solution N (entry (bm_scale imag_unit m)) y (h_val N) (residual N) (ring_bound N) (ring_bound' N) t An Hy Ht) as Q.
  assert (L : length (map (h_val N t) (zrange 0 N)) = Z.to_nat N) by (rewrite map_length, zrange_length; lia).
  unfold distance2. rewrite L, Z2Nat.id by lia.
  rewrite sum_SR. rewrite (SR_ext _ (fun i => (fst (h_val N t i) - fst (y t i)) * (fst (h_val N t i) - fst (y t i)) + (snd (h_val N t i) - snd (y t i)) * (snd (h_val N t i) - snd (y t i)))).
  - apply Q.
    + intros s i Hi. rewrite (ring_apply sort N Hs HN Hf m (h_val N s) i Em Hi). apply ring_deriv; [lia|exact Hi].
    + intros i Hi. rewrite (H0 i Hi). apply h_val_0; [lia|exact Hi].
    + apply bound_0; lia.
    + intros s. apply bound_deriv. lia.
    + intros s [Hp _]. apply residual_small; [lia|exact Hp].
  - intros i Hi. apply zrange_in in Hi. unfold vget. rewrite nth_zrange_map by exact Hi. reflexivity.
Qed.
Print Assumptions C79_ring.

Lemma triangle2 n (p : list CR) (h y : Z -> CR) : len p = n ->
  distance2 p h <= distance2 p y + distance2 (map h (zrange 0 n)) y.
Proof.
  intros L. assert (Hn : (0 <= n)%Z) by lia.
  assert (L2 : len (map h (zrange 0 n)) = n) by (rewrite map_length, zrange_length; lia).
  rewrite !(distance_nrm n) by assumption.
  rewrite <- (nrm_neg (idx n) (fun q => vec (map h (zrange 0 n)) q + -1 * vecf y q)).
  rewrite (nrm_ext (idx n) (fun q => vec p q + -1 * vecf h q)
     (fun q => (vec p q + -1 * vecf y q) + -1 * (vec (map h (zrange 0 n)) q + -1 * vecf y q))); [apply nrm_triangle|].
  intros q Hq. apply idx_in in Hq. unfold vec, vecf. replace (vget (map h (zrange 0 n)) (fst q)) with (h (fst q)) by (unfold vget; rewrite nth_zrange_map by exact Hq; reflexivity). ring.
Qed.
(** The state of the kinetic program after [length sts] steps of size dt from the initial vector
    and the coefficients of the theory program at the same time *)
Theorem C79_programs : forall (sort : list (triplet CR) -> list (triplet CR)) N d dt u,
  sorts_by_column sort -> (3 <= N)%Z -> (N * 2 < two64)%Z -> 0 <= dt -> dt ^ 2 <= 2 ->
  init_vector N = Ok u ->
  exists m, init_kinetic_matrix sort (real 1 : CR) (chain_lattice N) = Ok m /\
    forall sts, let t := INR (length sts) * dt in
      distance2 (program_run d dt m sts u) (h_val N t) <= 4 / 15 * t * dt ^ 4 + ring_bound N t.
Proof.
  intros sort N d dt u Hs HN Hf Hp Hd Hu.
  assert (Hl : shipped3 (chain_lattice N) N) by (constructor; lia).
  assert (Eu : u = map (fun i => if (i =? 0)%Z then (1, 0) else (0, 0)) (zrange 0 N)).
  { unfold init_vector in Hu. destruct (Z.leb_spec N 0); [lia|]. injection Hu as <-. rewrite zrange_cons by lia. cbn [map list_set Z.eqb]. f_equal.
    apply map_ext_in. intros i Hi. apply zrange_in in Hi. destruct (Z.eqb_spec i 0); [lia|reflexivity]. }
  assert (Lu : len u = N) by (rewrite Eu, map_length, zrange_length; lia).
  assert (U0 : forall i, (0 <= i < N)%Z -> vget u i = if (i =? 0)%Z then (1, 0) else (0, 0)).
  { intros i Hi. unfold vget. rewrite Eu, nth_zrange_map by exact Hi. reflexivity. }
  assert (N1 : length2 u = 1).
  { unfold length2, norm2. rewrite sum_SR, Eu, SR_map. rewrite (SR_ext _ (fun i => if (0 =? i)%Z then 1 else 0)).
    - rewrite SR_pick_eq by (apply zrange_NoDup || (apply zrange_in; lia)). apply sqrt_1.
    - intros i _. rewrite Z.eqb_sym. destruct (0 =? i)%Z; cbn; ring. }
  destruct (kinetic_facts sort 1 (chain_lattice N) N Hs Hl Hf) as (m & Em & Ac & An & Rb & B0).
  destruct (exists_unique N _ _ u An (row_op _ _ _ An Rb B0) B0) as (y & Hy & Y0 & _).
  destruct (C79_ring sort N Hs HN Hf) as (m1 & Em1 & R1).
  assert (Hz : neighbours (chain_lattice N) * Rabs 1 = 2) by (rewrite Rabs_R1; unfold neighbours; cbn; ring).
  destruct (C78_kinetic sort 1 (chain_lattice N) N d dt Hs Hl Hf Hp ltac:(rewrite Hz; nra)) as (m2 & Em2 & R2).
  rewrite Em in Em1, Em2. injection Em1 as <-. injection Em2 as <-. exists m. split; [exact Em|]. intros sts t.
  assert (Ht : 0 <= t) by (apply Rmult_le_pos; [apply pos_INR|exact Hp]).
  assert (Lr : len (program_run d dt m sts u) = N) by (apply (run_len N _ _ Ac); exact Lu).
  eapply Rle_trans; [apply (triangle2 N _ _ (y t) Lr)|]. apply Rplus_le_compat.
  - eapply Rle_trans; [apply (R2 sts u y Lu Hy Y0)|]. rewrite Hz, N1. fold t. apply Req_le. field.
  - apply R1; [exact Hy| |exact Ht]. intros i Hi. rewrite (Y0 i Hi). apply U0, Hi.
Qed.
Print Assumptions C79_programs.

(** They are the infinite chain, not the ring: no ring is solved exactly. *)
Lemma F_not_zero n : ~ (forall t, 0 < t -> F n (t ^ 2) = 0).
Proof.
  intros H. pose proof (F_deriv n 0 1 Rlt_0_1) as [[del Hdel] D]. cbn in D. rewrite F_0 in D.
  set (l := F (S n) 0) in *. set (c := / INR (fact n)) in *. assert (Hc : 0 < c) by (apply Rinv_0_lt_compat, INR_fact_lt_0).
  set (h := Rmin (del / 2) (c / (2 + Rabs l))). pose proof (Rabs_pos l) as Pl.
  assert (Hh : 0 < h) by (apply Rmin_glb_lt; [lra|apply Rdiv_lt_0_compat; lra]).
  assert (h <= del / 2) by apply Rmin_l. assert (Hm : h <= c / (2 + Rabs l)) by apply Rmin_r.
  specialize (D h ltac:(lra) ltac:(rewrite Rabs_pos_eq; lra)). rewrite Rplus_0_l in D.
  replace (F n h) with 0 in D by (rewrite <- (H (sqrt h)) by (apply sqrt_lt_R0; exact Hh); f_equal; rewrite <- Rsqr_pow2; apply Rsqr_sqrt; lra).
  assert (K : c / h <= 1 + Rabs l).
  { replace (c / h) with (- ((0 - c) / h - - l) + l) by (field; lra). eapply Rle_trans; [apply Rle_abs|]. eapply Rle_trans; [apply Rabs_triang|]. rewrite Rabs_Ropp. lra. }
  assert (c <= (1 + Rabs l) * h) by (apply Rmult_le_reg_r with (/ h); [apply Rinv_0_lt_compat; exact Hh|]; rewrite Rmult_assoc, Rinv_r by lra; unfold Rdiv in K; lra).
  assert (h * (2 + Rabs l) <= c) by (apply Rmult_le_reg_r with (/ (2 + Rabs l)); [apply Rinv_0_lt_compat; lra|]; rewrite Rmult_assoc, Rinv_r by lra; unfold Rdiv in Hm; lra).
  nra.
Qed.
Theorem C79_ring_refuted : forall (sort : list (triplet CR) -> list (triplet CR)) N,
  sorts_by_column sort -> (3 <= N)%Z -> (N * 2 < two64)%Z ->
  exists m, init_kinetic_matrix sort (real 1 : CR) (chain_lattice N) = Ok m /\
    ~ exact_solution N (entry (bm_scale imag_unit m)) (h_val N).
Proof.
  intros sort N Hs HN Hf. assert (Hl : shipped3 (chain_lattice N) N) by (constructor; lia).
  destruct (kinetic_facts sort 1 (chain_lattice N) N Hs Hl Hf) as (m & Em & _ & _ & _). exists m. split; [exact Em|]. intros Hy.
  assert (NM : (N = 2 * (N / 2) + N mod 2)%Z) by (apply Z.div_mod; lia). pose proof (Z.mod_pos_bound N 2 ltac:(lia)) as MB.
  set (M := (N / 2)%Z) in *.
  assert (HM : site N M) by (unfold site; lia).
  assert (R0 : forall t, residual N t M = (0, 0)).
  { intros t. destruct (Hy t M HM) as [Y1 Y2]. rewrite (ring_apply sort N Hs HN Hf m (h_val N t) M Em HM) in Y1, Y2.
    destruct (ring_deriv N ltac:(lia) M t HM) as [D1 D2].
    pose proof (uniqueness_limite _ _ _ _ Y1 D1) as U1. pose proof (uniqueness_limite _ _ _ _ Y2 D2) as U2. revert U1 U2.
    generalize (mi (radd (h_val N t ((M - 1) mod N)) (h_val N t ((M + 1) mod N)))). generalize (residual N t M). intros [a b] [c d]. cbn in a, b, c, d. cbn.
    intros U1 U2. f_equal; lra. }
  apply (F_not_zero (S (Z.to_nat (M - 1)))). intros t Ht. specialize (R0 t). unfold residual in R0. fold M in R0.
  assert (Dd : chain_distance N 0 M = M) by (rewrite chain_distance_eq by (unfold site; lia); lia). rewrite Dd, Z.ltb_irrefl in R0.
  pose proof (minus_i_norm M) as E1. destruct (minus_i_power M) as [p q]. cbn in p, q, E1. set (k := Z.to_nat (M - 1)) in *.
  assert (Pk : 0 < t ^ k) by (apply pow_lt, Ht).
  destruct (Z.even N).
  - assert (X : A k t + A (S (S k)) t = 0).
    { cbn in R0. injection R0 as Z1 Z2.
      assert (Q : (A k t + A (S (S k)) t) * (p * p + q * q) = 0) by (transitivity (- p * (- (A k t + A (S (S k)) t) * p) - q * (- (A k t + A (S (S k)) t) * q)); [ring|rewrite Z1, Z2; ring]).
      rewrite E1 in Q. lra. }
    rewrite A_sum in X. assert (0 < INR (S k)) by (apply lt_0_INR; lia).
    apply Rmult_integral in X. destruct X as [X|X]; [|exact X]. apply Rmult_integral in X. destruct X; lra.
  - assert (X : A (S k) t = 0).
    { cbn in R0. injection R0 as Z1 Z2. set (x := A (S k) t) in *. set (y := A (S (S k)) t) in *.
      assert (Q : x * (p * p + q * q) = 0) by (transitivity (- q * (- y * p + - x * q) + p * (- y * q + - x * - p)); [ring|rewrite Z1, Z2; ring]).
      rewrite E1 in Q. lra. }
    unfold A in X. apply Rmult_integral in X. destruct X as [X|X]; [|exact X]. cbn in X. nra.
Qed.
Print Assumptions C79_ring_refuted.

(** ** The output *)
(** what the constructed object holds: 1 on the diagonal, sin(d/2)/(pi d) at distance d *)
Definition constructed_average (d : Z) : R := if (d =? 0)%Z then 1 else sin (IZR d / 2) / (PI * IZR d).
Theorem C79_value : forall N t T s r, (1 <= N < two64)%Z -> shares T 0 N s ->
  theory_value N t T s = Some r ->
  exists v, r = Ok v /\ snd v = 0 /\
    v = sum_over (K := CR) (fun i => sum_over (K := CR) (fun j =>
          rmul (real (constructed_average (chain_distance N i j))) (rmul (h_val N t i) (kconj (h_val N t j)))) (zrange 0 N)) (zrange 0 N).
Proof.
  intros N t T s r HN Hs H. unfold theory_value in H.
  set (g := fun i => map (fun j => rmul (real (constructed_average (chain_distance N i j))) (rmul (h_val N t i) (kconj (h_val N t j))) : CR) (zrange 0 N)).
  match type of H with pbind (par_reduce s ?b ?z) _ = _ => destruct (par_reduce s b z) as [r1|] eqn:R1; [|discriminate] end.
  apply (par_reduce_value T 0 N s _ g) in R1; [|exact Hs|rewrite repeat_length; reflexivity|].
  - destruct R1 as (x & -> & _ & Q). cbn [pbind] in H. injection H as <-. rewrite accumulate_sum.
    assert (Z0 : sum_over (K := CR) (fun x => x) (repeat (@r0 CR) T) = r0) by (apply sum_over_zero; intros z Hz; apply repeat_spec in Hz; exact Hz).
    rewrite Z0, add0l in Q. eexists. split; [reflexivity|].
    assert (V : sum_over (K := CR) (fun x => x) x = sum_over (K := CR) (fun i => sum_over (K := CR) (fun j =>
          rmul (real (constructed_average (chain_distance N i j))) (rmul (h_val N t i) (kconj (h_val N t j)))) (zrange 0 N)) (zrange 0 N)).
    { etransitivity; [exact Q|]. apply sum_over_ext. intros i _. unfold g. apply sum_over_map. }
    split; [|exact V].
    assert (C : kconj (sum_over (K := CR) (fun x => x) x) = sum_over (K := CR) (fun x => x) x).
    { rewrite V. rewrite conj_sum_over. rewrite (sum_over_swap CR (fun i j => rmul (real (constructed_average (chain_distance N i j))) (rmul (h_val N t i) (kconj (h_val N t j))) : CR)).
      apply sum_over_ext. intros i Hi. rewrite conj_sum_over. apply sum_over_ext. intros j Hj. apply zrange_in in Hi, Hj.
      rewrite !conj_mul, conj_inv, conj_real. rewrite (Logic.proj1 (C18_metric N i j i ltac:(lia) Hi Hj Hi)).
      generalize (h_val N t i) (h_val N t j) (real (constructed_average (chain_distance N j i))). intros [a1 a2] [b1 b2] [c1 c2]. cbn in a1, a2, b1, b2, c1, c2.
      apply (injective_projections (A := R) (B := R)); cbn; ring. }
    destruct (sum_over (K := CR) (fun x => x) x) as [a b]. cbn in a, b. cbn in C. injection C as C. cbn. lra.
  - intros i Hi. apply zrange_in in Hi. unfold g. apply omap_ok. intros j Hj. apply zrange_in in Hj.
    unfold ev1, ev1_table. destruct (C18_metric N i j i ltac:(lia) Hi Hj Hi) as (_ & _ & _ & Rg). rewrite P_Dispersion.vread_map by lia. cbn [obind]. f_equal. f_equal.
    + f_equal. unfold constructed_average. destruct (Z.eqb_spec (chain_distance N i j) 0); [reflexivity|]. rewrite !Rmult_1_r. f_equal. f_equal. field.
    + f_equal. unfold h_val_conj, h_val, theory_coefficient. cbn. apply (injective_projections (A := R) (B := R)); cbn; ring.
Qed.
Print Assumptions C79_value.
(** for every distribution of the iterations some interleaving runs to the end *)
Theorem C79_completes : forall N t T w, exists tr, theory_value N t T (mkSch w tr) <> None.
Proof.
  intros N t T w. unfold theory_value.
  match goal with |- exists tr, pbind (par_reduce _ ?b ?z) _ <> None => destruct (C44_completes CR w b z) as (tr & H) end.
  exists tr. destruct (par_reduce (mkSch w tr) _ _) as [[x|]|]; cbn [pbind]; [discriminate|discriminate|]. contradiction.
Qed.
Print Assumptions C79_completes.
(** The program constructs the table with filling 1 and Fermi momentum 1/2: at t = 0 it writes 1,
    the half-filled Fermi sea has 1/2. *)
Theorem C79_half_filling_refuted : forall N T s r, (3 <= N < two64)%Z -> shares T 0 N s ->
  theory_value N 0 T s = Some r -> r = Ok (real 1) /\ fermi_sea_1d (PI / 2) 0 = 1 / 2.
Proof.
  intros N T s r HN Hs H. destruct (C79_value N 0 T s r ltac:(lia) Hs H) as (v & -> & _ & V). split.
  - f_equal. rewrite V.
    assert (P0 : In 0%Z (zrange 0 N)) by (apply zrange_in; lia).
    assert (D0 : chain_distance N 0 0 = 0%Z) by (rewrite chain_distance_eq by (unfold site; lia); lia).
    rewrite (sum_over_ext CR _ (fun i => if (0 =? i)%Z then real 1 else r0)).
    + apply (injective_projections (A := R) (B := R)).
      * etransitivity; [apply fst_sum|]. rewrite (SR_ext _ (fun j => if (0 =? j)%Z then 1 else 0)); [apply SR_pick_eq; [apply zrange_NoDup|exact P0]|].
        intros j _. destruct (0 =? j)%Z; reflexivity.
      * etransitivity; [apply snd_sum|]. rewrite (SR_ext _ (fun j => 0)); [apply SR_zero|]. intros j _. destruct (0 =? j)%Z; reflexivity.
    + intros i Hi. apply zrange_in in Hi. rewrite (h_val_0 N HN i Hi). rewrite (Z.eqb_sym i 0). destruct (Z.eqb_spec 0 i) as [<-|E].
      * rewrite (sum_over_ext CR _ (fun j => if (0 =? j)%Z then real 1 else r0)).
        -- apply (injective_projections (A := R) (B := R)).
           ++ etransitivity; [apply fst_sum|]. rewrite (SR_ext _ (fun j => if (0 =? j)%Z then 1 else 0)); [apply SR_pick_eq; [apply zrange_NoDup|exact P0]|].
              intros j _. destruct (0 =? j)%Z; reflexivity.
           ++ etransitivity; [apply snd_sum|]. rewrite (SR_ext _ (fun j => 0)); [apply SR_zero|]. intros j _. destruct (0 =? j)%Z; reflexivity.
        -- intros j Hj. apply zrange_in in Hj. rewrite (h_val_0 N HN j Hj). rewrite (Z.eqb_sym j 0). destruct (Z.eqb_spec 0 j) as [<-|E'].
           ++ rewrite D0. unfold constructed_average. cbn. apply (injective_projections (A := R) (B := R)); cbn; ring.
           ++ apply (injective_projections (A := R) (B := R)); cbn; ring.
      * apply sum_over_zero. intros j _. apply (injective_projections (A := R) (B := R)); cbn; ring.
  - rewrite sea_1d_0. field. apply PI_nz.
Qed.
Print Assumptions C79_half_filling_refuted.
