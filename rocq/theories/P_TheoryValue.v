(** PROPERTY C114: the values hubbard_real_1d_kinetic_theory writes, for all times. *)
From Coq Require Import Reals Lra Psatz List ZArith Permutation Lia Ascii String.
From Verif Require Import Base Instances Spec_Lattice M_Operator M_Lattice Pf_Lattice M_Basis M_Matrix Pf_Matrix M_Ode M_Dispersion M_Expectation M_OpenMP Spec_OpenMP Spec_Stability Pf_Stability Pf_Stability2
  Spec_Matrix M_Text M_Io M_Rounding Spec_Rounding M_Double M_DispersionProgram Spec_RoundedMeasurement P_Stability Spec_Programs Spec_Bessel Pf_BesselNorm Spec_Theory M_Theory Spec_TheoryProgram M_TheoryProgram Pf_TheoryProgram2 Pf_TheoryProgram3 M_SiteOccupation Pf_Bessel Pf_Theory2 P_Theory P_TheoryProgram
  Pf_Programs Pf_Programs2 Pf_DoublePrograms P_Occupation.
Local Open Scope R_scope.
Local Open Scope list_scope.
Local Notation len u := (Z.of_nat (length u)).

(** ** the sum of the squares *)
Lemma Q_low n t : 0 <= t -> 1 - 4 * t * (t ^ n / INR (fact n)) <= Q n t.
Proof.
  intros Ht. set (c := t ^ n / INR (fact n)). assert (Fp : 0 < INR (fact n)) by apply INR_fact_lt_0.
  apply (le_by_deriv (fun s => 1 - 4 * s * c) (Q n) (fun _ => - (4 * c)) (fun s => - 4 * A n s * A (S n) s) t Ht).
  - rewrite Q_0. lra.
  - intros s. replace (- (4 * c)) with (0 - 4 * c) by ring. apply (derivable_pt_lim_minus (fun _ => 1) (fun s => 4 * s * c)); [apply derivable_pt_lim_const|].
    eapply deriv_eq; [exact (derivable_pt_lim_scal (fun s => s) (4 * c) s 1 (derivable_pt_lim_id s))|intros x; unfold mult_real_fct; ring|ring].
  - intros s. apply Q_deriv.
  - intros s Hs. pose proof (A_bound n s (Logic.proj1 Hs)) as B. pose proof (A_1 (S n) s (Logic.proj1 Hs)) as B1.
    assert (s ^ n / INR (fact n) <= c) by (unfold c, Rdiv; apply Rmult_le_compat_r; [left; apply Rinv_0_lt_compat, Fp|apply pow_incr; lra]).
    assert (Rabs (A n s * A (S n) s) <= c * 1) by (rewrite Rabs_mult; apply Rmult_le_compat; try apply Rabs_pos; lra). pose proof (Rle_abs (A n s * A (S n) s)). lra.
Qed.
(** J_0^2 + 2 (J_1^2 + ... + J_n^2) *)
Definition squares (x : R) (n : nat) : R := bessel_j 0 x ^ 2 + 2 * fold_right Rplus 0 (map (fun k => bessel_j k x ^ 2) (seq 1 n)).
Lemma squares_Q n t : squares (2 * t) n = Q n t.
Proof.
  unfold squares. induction n as [|n IH]; [cbn [seq map fold_right Q]; rewrite bessel_A; ring|]. rewrite seq_S, map_app. cbn [Q]. rewrite <- IH. cbn [map Nat.add].
  assert (F : forall l x, fold_right Rplus 0 (l ++ [x]) = fold_right Rplus 0 l + x) by (induction l as [|y l J]; intros x; cbn [fold_right app]; [ring|rewrite J; ring]).
  rewrite F, !bessel_A. ring.
Qed.
Theorem C114_normalised : forall x, 0 <= x -> Un_cv (squares x) 1.
Proof.
  intros x Hx. set (t := x / 2). assert (Ht : 0 <= t) by (unfold t; lra). replace x with (2 * t) by (unfold t; field).
  intros eps He. destruct (cv_speed_pow_fact t (eps / (4 * t + 1))) as (n0 & H); [apply Rdiv_lt_0_compat; lra|]. exists n0. intros n Hn. specialize (H n Hn). unfold R_dist in *.
  rewrite squares_Q. pose proof (Q_1 n t Ht). pose proof (Q_low n t Ht). rewrite Rminus_0_r in H. apply Rabs_def2 in H. destruct H as [H _].
  assert (P : 0 <= t ^ n / INR (fact n)) by (apply Rmult_le_pos; [apply pow_le, Ht|left; apply Rinv_0_lt_compat, INR_fact_lt_0]).
  assert (4 * t * (t ^ n / INR (fact n)) < eps).
  { apply Rle_lt_trans with (4 * t * (eps / (4 * t + 1))); [apply Rmult_le_compat_l; lra|]. apply Rlt_le_trans with ((4 * t + 1) * (eps / (4 * t + 1))); [|apply Req_le; field; lra].
    apply Rmult_lt_compat_r; [apply Rdiv_lt_0_compat; lra|lra]. }
  rewrite Rabs_left1 by lra. lra.
Qed.

(** ** as long as the wave has not gone round the ring *)
Lemma theory_quad N t : (1 <= N < two64)%Z -> theory_exact N t = quad N (fun i j => object_average (ring_distance N i j)) (h_val N t).
Proof.
  intros HN. unfold theory_exact, quad. rewrite sum_SR. apply SR_ext. intros i Hi. rewrite sum_SR. apply SR_ext. intros j Hj. apply zrange_in in Hi, Hj.
  assert (S0 : site N 0) by (unfold site; lia).
  assert (D : forall c, site N c -> chain_distance N 0 c = from_origin N c /\ (0 <= from_origin N c)%Z).
  { intros c Hc. rewrite chain_distance_eq by (try assumption; lia). split; [reflexivity|]. unfold from_origin, ring_distance, site in *. lia. }
  destruct (D i Hi) as (Ei & Pi). destruct (D j Hj) as (Ej & Pj). unfold h_val, theory_coefficient. rewrite Ei, Ej, (power_phase _ Pi), (power_phase _ Pj), minus_IZR.
  replace (PI / 2 * (IZR (from_origin N i) - IZR (from_origin N j))) with (PI / 2 * IZR (from_origin N i) - PI / 2 * IZR (from_origin N j)) by ring. rewrite cos_minus. cbn. ring.
Qed.
Theorem C114_constant : forall N t, (3 <= N)%Z -> (N * 2 < two64)%Z -> 0 <= t -> let b := ring_bound N t in
  Rabs (theory_exact N t - 1) <= IZR N * (2 + b) * b.
Proof.
  intros N t HN Hf Ht b. set (sort := @Ex_Matrix.isort CR). assert (Hs : sorts_by_column sort) by apply Ex_Matrix.isort_ok.
  set (rho := fun i j => object_average (ring_distance N i j)).
  destruct (C79_ring sort N Hs HN Hf) as (m & Em & Near). destruct (C108_exact sort N 1 rho Hs HN Hf) as (m' & Em' & _ & Const); [exists object_average; reflexivity|].
  rewrite Em in Em'. injection Em' as <-.
  assert (Hl : shipped3 (chain_lattice N) N) by (constructor; lia).
  destruct (kinetic_facts sort 1 (chain_lattice N) N Hs Hl Hf) as (m1 & Em1 & A1 & B1 & C1 & D1). rewrite Em in Em1. injection Em1 as <-.
  destruct (init_vector_unit N ltac:(lia)) as (h0 & _ & L0 & V0).
  destruct (exists_unique N _ _ h0 B1 (row_op _ _ _ B1 C1 D1) D1) as (y & Y1 & Y2 & Y3).
  assert (Y0 : forall i, (0 <= i < N)%Z -> y 0 i = first_unit i) by (intros i Hi; rewrite (Y2 i Hi); apply V0, Hi).
  assert (Sol : the_solution N (entry (bm_scale imag_unit m)) y).
  { split; [exact Y1|]. split; [exact Y0|]. intros y' H1 H2. apply Y3; [exact H1|]. intros i Hi. rewrite (H2 i Hi). symmetry. apply V0, Hi. }
  specialize (Const y Sol t). specialize (Near y Y1 Y0 t Ht). fold b in Near.
  rewrite occupation_quad in Const. rewrite (quad_ext N _ rho (y t) (y t)) in Const; [|intros i j Hi Hj; unfold overlap; destruct (Z.ltb_spec i N), (Z.ltb_spec j N); try lia; reflexivity|reflexivity].
  assert (R0 : rho 0%Z 0%Z = 1) by (unfold rho, object_average, ring_distance; replace (Z.min (Z.abs (0 - 0)) (N - Z.abs (0 - 0))) with 0%Z by lia; reflexivity).
  rewrite theory_quad by lia. fold rho. rewrite R0 in Const. rewrite <- Const at 1.
  assert (L : len (map (h_val N t) (zrange 0 N)) = N) by (rewrite map_length, zrange_length; lia).
  rewrite (distance_nrm N _ _ L) in Near.
  rewrite (Pf_Stability.nrm_ext (idx N) _ (fun p => vecf (h_val N t) p + -1 * vecf (y t) p)) in Near.
  2:{ intros p Hp. apply idx_in in Hp. unfold vec, vecf. replace (vget (map (h_val N t) (zrange 0 N)) (fst p)) with (h_val N t (fst p)) by (unfold vget; rewrite Pf_Ode.nth_zrange_map by exact Hp; reflexivity). reflexivity. }
  eapply Rle_trans; [apply (quad_lip2 N rho 1); [lra| |lia]|].
  { intros i j Hi Hj. unfold rho. apply average_1. unfold ring_distance. lia. }
  set (dn := Pf_Stability.nrm (idx N) (fun p => vecf (h_val N t) p + -1 * vecf (y t) p)) in *.
  assert (NY : Pf_Stability.nrm (idx N) (vecf (y t)) = 1).
  { assert (Lift : Pf_Stability.solution (idx N) (SM (entry (bm_scale imag_unit m))) (fun t => vecf (y t))).
    { intros s [i c] Hi. rewrite ap_SM. apply idx_in in Hi. cbn [fst snd] in *. destruct (Y1 s i Hi) as [E1 E2]. unfold vecf. cbn [fst snd]. destruct c; cbn [part]; [exact E1|exact E2]. }
    unfold nrm. rewrite (norm_conserved (idx N) _ (SM_anti N _ B1) _ Lift t). rewrite <- sqrt_1. f_equal.
    rewrite <- (unit_norm N h0 ltac:(lia) L0 V0), (vec_n2 N _ L0). unfold n2. apply dot_ext; intros p Hp; apply idx_in in Hp; unfold vec, vecf; rewrite (Y2 _ Hp); reflexivity. }
  assert (NH : nrm (idx N) (vecf (h_val N t)) <= 1 + dn).
  { rewrite <- NY at 1. unfold dn. eapply Rle_trans; [|apply nrm_triangle]. apply Req_le, nrm_ext. intros p _. ring. }
  rewrite NY. pose proof (nrm_pos (idx N) (fun p => vecf (h_val N t) p + -1 * vecf (y t) p)) as DP. fold dn in DP. assert (0 < IZR N) by (apply IZR_lt; lia).
  rewrite Rmult_1_l. apply Rmult_le_compat; [|exact DP| |exact Near].
  - apply Rmult_le_pos; [lra|]. pose proof (nrm_pos (idx N) (vecf (h_val N t))). lra.
  - apply Rmult_le_compat_l; lra.
Qed.

(** ** long times *)
Lemma A_shift p t : 0 < t -> INR (S p) / t * A (S p) t = INR (S p) * t ^ p * F (S p) (t ^ 2).
Proof. intros Ht. unfold A. generalize (INR (S p)) (F (S p) (t ^ 2)). intros x y. cbn [pow]. field. lra. Qed.
Section Decay.
  Variable n : nat.
  Let k := (2 * INR n + 1) / 2.
  Let V t := A n t * A n t + A (S n) t * A (S n) t.
  Let Wf t := t * V t - k * (A n t * A (S n) t).
  Lemma a_deriv t : 0 < t -> derivable_pt_lim (A n) t (INR n / t * A n t - 2 * A (S n) t).
  Proof.
    intros Ht. destruct n as [|p].
    - replace (INR 0 / t * A 0 t - 2 * A 1 t) with (- 2 * A 1 t) by (cbn [INR]; field; lra). apply A_deriv0.
    - replace (INR (S p) / t * A (S p) t - 2 * A (S (S p)) t) with (A p t - A (S (S p)) t); [apply A_deriv|].
      assert (S1 : A p t = INR (S p) / t * A (S p) t - A (S (S p)) t).
      { pose proof (A_sum p t) as H. rewrite (A_shift p t Ht). lra. }
      rewrite S1. ring.
  Qed.
  Lemma b_deriv t : 0 < t -> derivable_pt_lim (A (S n)) t (2 * A n t - INR (S n) / t * A (S n) t).
  Proof.
    intros Ht. replace (2 * A n t - INR (S n) / t * A (S n) t) with (A n t - A (S (S n)) t); [apply A_deriv|].
    pose proof (A_sum n t) as H. rewrite (A_shift n t Ht). lra.
  Qed.
  Lemma W_deriv t : 0 < t -> derivable_pt_lim Wf t (k * (A n t * A (S n) t) / t).
  Proof.
    intros Ht. pose proof (a_deriv t Ht) as Da. pose proof (b_deriv t Ht) as Db. unfold Wf, V.
    pose proof (derivable_pt_lim_mult _ _ t _ _ Da Da) as Daa. pose proof (derivable_pt_lim_mult _ _ t _ _ Db Db) as Dbb. pose proof (derivable_pt_lim_mult _ _ t _ _ Da Db) as Dab.
    pose proof (derivable_pt_lim_minus _ _ t _ _ (derivable_pt_lim_mult _ _ t _ _ (derivable_pt_lim_id t) (derivable_pt_lim_plus _ _ t _ _ Daa Dbb)) (derivable_pt_lim_scal _ k t _ Dab)) as D.
    eapply deriv_eq; [exact D|reflexivity|]. unfold mult_fct, plus_fct, id. rewrite S_INR. unfold k. field. lra.
  Qed.
  Lemma half_sum a b : a * b <= (a * a + b * b) / 2.
  Proof. pose proof (pow2_ge_0 (a - b)) as H. replace ((a - b) ^ 2) with (a * a + b * b - 2 * (a * b)) in H by ring. lra. Qed.
  Lemma sum_pos a b : 0 <= (a * a + b * b) / 2.
  Proof. pose proof (Rle_0_sqr a). pose proof (Rle_0_sqr b). unfold Rsqr in *. lra. Qed.
  Lemma k_pos : 0 < k.
  Proof. unfold k. pose proof (pos_INR n). lra. Qed.
  Lemma W_low t : k <= t -> t * V t / 2 <= Wf t.
  Proof.
    intros Ht. pose proof k_pos. unfold Wf. set (a := A n t) in *. set (b := A (S n) t) in *. assert (HV : V t = a * a + b * b) by reflexivity. rewrite HV.
    assert (k * (a * b) <= k * ((a * a + b * b) / 2)) by (apply Rmult_le_compat_l; [apply Rlt_le, H|apply half_sum]). assert (k * ((a * a + b * b) / 2) <= t * ((a * a + b * b) / 2)) by (apply Rmult_le_compat_r; [apply sum_pos|exact Ht]). lra.
  Qed.
  Lemma times_1 a b : 0 <= a -> 1 <= b -> a <= a * b.
  Proof. intros H1 H2. rewrite <- (Rmult_1_r a) at 1. apply Rmult_le_compat_l; assumption. Qed.
  Lemma W_pos t : k <= t -> 0 <= Wf t.
  Proof.
    intros Ht. eapply Rle_trans; [|apply (W_low t Ht)]. pose proof k_pos. replace (t * V t / 2) with (t * (V t / 2)) by field. apply Rmult_le_pos; [lra|]. unfold V. apply sum_pos.
  Qed.
  Lemma W_bound t : k <= t -> Wf t <= Wf k * exp 1.
  Proof.
    intros Ht. pose proof k_pos as Kp. destruct (Req_dec k t) as [<-|ne].
    - pose proof (W_pos k (Rle_refl k)) as P0. pose proof (exp_ineq1 1 ltac:(apply Rgt_not_eq; lra)). apply (times_1 _ _ P0). lra.
    - set (G := fun s => Wf s * exp (k / s)). set (G' := fun s => (k * (A n s * A (S n) s) / s) * exp (k / s) + Wf s * (exp (k / s) * (- k / s ^ 2))).
      destruct (MVT_cor2 G G' k t) as (c & Ec & Hc); [lra| |].
      + intros c Hc. unfold G, G'. apply (derivable_pt_lim_mult Wf (fun s => exp (k / s))); [apply W_deriv; lra|].
        apply (derivable_pt_lim_comp (fun s => k / s) exp); [|apply derivable_pt_lim_exp].
        eapply deriv_eq; [exact (derivable_pt_lim_div (fun _ => k) (fun s => s) c 0 1 (derivable_pt_lim_const k c) (derivable_pt_lim_id c) ltac:(lra))|reflexivity|unfold Rsqr; field; lra].
      + assert (G' c <= 0).
        { unfold G'. pose proof (exp_pos (k / c)) as Ep. pose proof (W_low c ltac:(lra)) as L.
          assert (X : k * (A n c * A (S n) c) / c <= k * Wf c / c ^ 2).
          { set (a := A n c) in *. set (b := A (S n) c) in *. assert (HV : V c = a * a + b * b) by reflexivity. rewrite HV in L.
            assert (c * (a * b) <= Wf c) by (eapply Rle_trans; [|exact L]; replace (c * (a * a + b * b) / 2) with (c * ((a * a + b * b) / 2)) by field; apply Rmult_le_compat_l; [lra|apply half_sum]).
            replace (k * (a * b) / c) with (k / c ^ 2 * (c * (a * b))) by (field; lra). replace (k * Wf c / c ^ 2) with (k / c ^ 2 * Wf c) by (field; lra). apply Rmult_le_compat_l; [|assumption].
            apply Rmult_le_pos; [lra|]. left. apply Rinv_0_lt_compat, pow_lt. lra. }
          replace (Wf c * (exp (k / c) * (- k / c ^ 2))) with (- (k * Wf c / c ^ 2) * exp (k / c)) by (field; lra). rewrite <- Rmult_plus_distr_r. rewrite <- (Rmult_0_l (exp (k / c))). apply Rmult_le_compat_r; lra. }
        assert (G t <= G k) by (assert (G' c * (t - k) <= 0 * (t - k)) by (apply Rmult_le_compat_r; lra); lra). unfold G in H0. replace (k / k) with 1 in H0 by (field; lra). eapply Rle_trans; [|exact H0].
        pose proof (W_pos t Ht) as P0. assert (1 <= exp (k / t)).
        { assert (0 < k / t) by (apply Rdiv_lt_0_compat; lra). pose proof (exp_ineq1 (k / t) ltac:(apply Rgt_not_eq; lra)). lra. }
        nra.
  Qed.
  Lemma A_decay : exists C, 0 <= C /\ forall t, k <= t -> A n t * A n t <= C / t.
  Proof.
    exists (2 * (Wf k * exp 1)). pose proof k_pos as Kp. pose proof (exp_pos 1) as E. pose proof (W_pos k (Rle_refl k)) as P0. split; [apply Rmult_le_pos; [lra|apply Rmult_le_pos; lra]|].
    intros t Ht. pose proof (W_low t Ht) as L1. pose proof (W_bound t Ht) as B. assert (V t <= 2 * (Wf k * exp 1) / t).
    { apply Rmult_le_reg_l with t; [lra|]. replace (t * (2 * (Wf k * exp 1) / t)) with (2 * (Wf k * exp 1)) by (field; lra). lra. }
    unfold V in H. pose proof (Rle_0_sqr (A (S n) t)). unfold Rsqr in *. lra.
  Qed.
End Decay.
Lemma A_vanishes n eps : 0 < eps -> exists t0, 0 < t0 /\ forall t, t0 <= t -> Rabs (A n t) <= eps.
Proof.
  intros He. destruct (A_decay n) as (C & Cp & H). pose proof (k_pos n) as Kp. exists (Rmax ((2 * INR n + 1) / 2) (C / eps ^ 2)). split; [eapply Rlt_le_trans; [exact Kp|apply Rmax_l]|].
  intros t Ht. pose proof (Rmax_l ((2 * INR n + 1) / 2) (C / eps ^ 2)). pose proof (Rmax_r ((2 * INR n + 1) / 2) (C / eps ^ 2)). specialize (H t ltac:(lra)).
  assert (E2 : 0 < eps ^ 2) by (apply pow_lt, He). assert (C / t <= eps ^ 2).
  { apply Rmult_le_reg_r with t; [lra|]. replace (C / t * t) with C by (field; lra). assert (C <= eps ^ 2 * t); [|lra]. replace C with (eps ^ 2 * (C / eps ^ 2)) at 1 by (field; lra). apply Rmult_le_compat_l; lra. }
  apply Rabs_le. nra.
Qed.
Lemma all_vanish M eps : 0 < eps -> exists t0, 0 < t0 /\ forall t n, t0 <= t -> (n <= M)%nat -> Rabs (A n t) <= eps.
Proof.
  intros He. induction M as [|M (t0 & P0 & H)].
  - destruct (A_vanishes 0 eps He) as (t0 & P0 & H). exists t0. split; [exact P0|]. intros t n Ht Hn. replace n with O by lia. apply H, Ht.
  - destruct (A_vanishes (S M) eps He) as (t1 & P1 & H1). exists (Rmax t0 t1). split; [eapply Rlt_le_trans; [exact P0|apply Rmax_l]|]. intros t n Ht Hn.
    pose proof (Rmax_l t0 t1). pose proof (Rmax_r t0 t1). destruct (Nat.eq_dec n (S M)) as [->|ne]; [apply H1; lra|apply H; [lra|lia]].
Qed.
Lemma SR_abs {T} (f : T -> R) c l : (forall x, In x l -> Rabs (f x) <= c) -> Rabs (SR f l) <= INR (length l) * c.
Proof.
  intros H. induction l as [|x l IH]; [cbn; rewrite Rabs_R0; lra|]. cbn [SR length]. rewrite S_INR. eapply Rle_trans; [apply Rabs_triang|].
  pose proof (H x (or_introl eq_refl)). pose proof (IH (fun y Hy => H y (or_intror Hy))). lra.
Qed.
(** on any ring the written value dies out *)
Theorem C114_decay_refuted : forall N eps, (1 <= N)%Z -> 0 < eps -> exists t0, 0 < t0 /\ forall t, t0 <= t -> Rabs (theory_exact N t) <= eps.
Proof.
  intros N eps HN He. assert (N1 : 1 <= IZR N) by (apply IZR_le; lia). set (e := Rmin 1 (eps / (IZR N * IZR N))).
  assert (D : 0 < eps / (IZR N * IZR N)) by (apply Rdiv_lt_0_compat; [lra|apply Rmult_lt_0_compat; lra]).
  assert (Ep : 0 < e) by (unfold e; apply Rmin_glb_lt; lra).
  destruct (all_vanish (Z.to_nat N) e Ep) as (t0 & P0 & H). exists t0. split; [exact P0|]. intros t Ht.
  assert (B : forall i, (0 <= i < N)%Z -> Rabs (bessel_j (Z.to_nat (from_origin N i)) (2 * t)) <= e).
  { intros i Hi. rewrite bessel_A. apply H; [exact Ht|]. unfold from_origin, ring_distance. lia. }
  assert (L : INR (length (zrange 0 N)) = IZR N) by (rewrite zrange_length, INR_IZR_INZ; f_equal; lia).
  unfold theory_exact. rewrite sum_SR. eapply Rle_trans; [apply (SR_abs _ (IZR N * e))|].
  - intros i Hi. apply zrange_in in Hi. rewrite sum_SR, <- L. apply SR_abs. intros j Hj. apply zrange_in in Hj.
    pose proof (B i Hi) as Bi. pose proof (B j Hj) as Bj. rewrite !Rabs_mult.
    assert (Rabs (object_average (ring_distance N i j)) <= 1) by (apply average_1; unfold ring_distance; lia).
    assert (C : forall x, Rabs (cos x) <= 1) by (intros x; apply Rabs_le; apply COS_bound). specialize (C (PI / 2 * IZR (from_origin N i - from_origin N j))).
    assert (E1 : e <= 1) by (unfold e; apply Rmin_l). rewrite <- (Rmult_1_l e). apply Rmult_le_compat; try apply Rabs_pos; [repeat apply Rmult_le_pos; apply Rabs_pos|exact H0|].
    replace e with (e * 1 * 1) by ring. apply Rmult_le_compat; try apply Rabs_pos; [apply Rmult_le_pos; apply Rabs_pos| |exact C]. apply Rmult_le_compat; try apply Rabs_pos; [exact Bi|lra].
  - rewrite L. apply Rle_trans with (IZR N * (IZR N * (eps / (IZR N * IZR N)))); [|apply Req_le; field; lra].
    apply Rmult_le_compat_l; [lra|]. apply Rmult_le_compat_l; [lra|]. unfold e. apply Rmin_r.
Qed.
(** the file written in double precision *)
Theorem C114_file : forall garbage bessel table N dt steps T0 d b show s writable f r,
  (3 <= N)%Z -> theory_sizes N dt steps T0 -> accurate_bessel b bessel -> b <= / 2 ^ 20 -> accurate_table d N table -> d <= 1 ->
  shares T0 0 N s -> theory_main garbage bessel table N dt steps show T0 s writable f = Some r ->
  exists time value,
    r = Ok (if writable then set_file f (str "theory.txt") (Some (theory_lines show time value steps)) else f, 0%Z) /\
    forall k, (0 <= k < steps)%Z -> let t := IZR k * dt in let far := ring_bound N t in
      near (theory_error N T0 d b t + IZR N * (2 + far) * far) (value k) (1, 0).
Proof.
  intros garbage bessel table N dt steps T0 d b show s writable f r HN Hz Hb Hb1 Hd Hd1 Hs H.
  destruct (C105_file garbage bessel table N dt steps T0 d b show s writable f r Hz Hb Hb1 Hd Hd1 Hs H) as (time & value & -> & V). exists time, value. split; [reflexivity|].
  intros k Hk t far. destruct (V k Hk) as (_ & Vn). fold t in Vn. destruct Hz as (Hn & Hdt & _).
  assert (T : (N * 2 < two64)%Z) by (apply Z.le_lt_trans with (2 ^ 21)%Z; [lia|reflexivity]).
  assert (Tp : 0 <= t) by (unfold t; apply Rmult_le_pos; [apply IZR_le; lia|exact Hdt]).
  pose proof (C114_constant N t HN T Tp) as C. cbv zeta in C. fold far in C. unfold near in *. cbn [fst snd] in *. destruct Vn as [V1 V2]. split.
  - apply (Rle_trans _ (Rabs ((fst (value k) - theory_exact N t) + (theory_exact N t - 1)))); [apply Req_le; apply f_equal; cbn; ring|]. exact (Rle_trans _ _ _ (Rabs_triang (fst (value k) - theory_exact N t) (theory_exact N t - 1)) (Rplus_le_compat _ _ _ _ V1 C)).
  - eapply Rle_trans; [exact V2|]. rewrite <- (Rplus_0_r (theory_error N T0 d b t)) at 1. apply Rplus_le_compat_l. eapply Rle_trans; [apply Rabs_pos|exact C].
Qed.
(** the 128 sites of the program: up to t = 20 (the first 2000 of its 10000 lines) the exact value is 1 up to 1/1000 *)
Fixpoint zfact (n : nat) : Z := match n with O => 1%Z | S m => (Z.of_nat (S m) * zfact m)%Z end.
Lemma zfact_ok n : INR (fact n) = IZR (zfact n).
Proof. induction n as [|n IH]; [reflexivity|]. rewrite fact_simpl, mult_INR, IH, INR_IZR_INZ, <- mult_IZR. reflexivity. Qed.
Theorem C114_example : forall t, 0 <= t <= 20 -> ring_bound 128 t <= 2 / 10 ^ 6 /\ Rabs (theory_exact 128 t - 1) <= / 1000.
Proof.
  intros t Ht. assert (B : 0 <= ring_bound 128 t <= 2 / 10 ^ 6).
  { unfold ring_bound. cbn [Z.even]. change (Z.to_nat (128 / 2)) with 64%nat. rewrite zfact_ok. assert (P : 0 < IZR (zfact 64)) by (apply IZR_lt; vm_compute; reflexivity). split.
    - apply Rmult_le_pos; [apply pow_le; lra|left; apply Rinv_0_lt_compat, P].
    - apply Rle_trans with (20 ^ 64 / IZR (zfact 64)); [unfold Rdiv; apply Rmult_le_compat_r; [left; apply Rinv_0_lt_compat, P|apply pow_incr; lra]|].
      apply Rmult_le_reg_r with (IZR (zfact 64)); [exact P|]. replace (20 ^ 64 / IZR (zfact 64) * IZR (zfact 64)) with (20 ^ 64) by (field; lra).
      assert (X : (10 ^ 6 * 20 ^ 64 <= 2 * zfact 64)%Z) by (vm_compute; discriminate). apply IZR_le in X. rewrite !mult_IZR in X. change (10 ^ 6)%Z with (10 ^ Z.of_nat 6)%Z in X. change (20 ^ 64)%Z with (20 ^ Z.of_nat 64)%Z in X. rewrite <- !pow_IZR in X.
      replace (2 / 10 ^ 6 * IZR (zfact 64)) with ((2 * IZR (zfact 64)) / 10 ^ 6) by (unfold Rdiv; ring). apply Rmult_le_reg_l with (10 ^ 6); [lra|]. replace (10 ^ 6 * (2 * IZR (zfact 64) / 10 ^ 6)) with (2 * IZR (zfact 64)) by (field; lra). exact X. }
  split; [apply B|]. assert (T : (128 * 2 < two64)%Z) by reflexivity. eapply Rle_trans; [apply (C114_constant 128 t ltac:(lia) T (Logic.proj1 Ht))|].
  set (b := ring_bound 128 t) in *. assert (b * b <= 1 * b) by (apply Rmult_le_compat_r; lra). replace (IZR 128 * (2 + b) * b) with (128 * (2 * b + b * b)) by ring. lra.
Qed.
Print Assumptions C114_normalised.
Print Assumptions C114_constant.
Print Assumptions C114_decay_refuted.
Print Assumptions C114_file.
Print Assumptions C114_example.
