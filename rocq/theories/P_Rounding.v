(** THEOREMS: C91 (rounding errors of the time evolution in double precision). *)
From Coq Require Import Reals Lra Psatz List ZArith Lia Sorting.Sorted.
From Flocq Require Import Core.
From Verif Require Import Base M_Operator M_Lattice Spec_Lattice Pf_Lattice M_Basis Pf_Basis M_Matrix M_MatrixCheck M_Ode M_Dispersion
  Spec_Algebra Spec_Matrix Spec_Ode Pf_Matrix Pf_Matrix2 P_Matrix Pf_Ode P_Ode P_Dynamics
  Spec_Stability Pf_Stability Pf_Stability2 Pf_Stability3 P_Stability P_EigenIo
  M_Rounding Spec_Rounding Pf_Rounding Pf_Rounding2 Pf_Rounding3 Pf_Rounding4 Pf_Rounding5 M_Double Pf_Double Ex_Matrix.
Local Open Scope R_scope.
Local Open Scope list_scope.
Local Notation len u := (Z.of_nat (length u)).

(** ** With exact operations the model of this file is the model of C77, C78 *)
Lemma ex_add x y : cf_add exact_arith x y = radd x y.
Proof. reflexivity. Qed.
Lemma ex_mul x y : cf_mul exact_arith x y = rmul x y.
Proof. destruct x as [a b], y as [c d]. cbn in a, b, c, d. apply (injective_projections (A:=R) (B:=R)); cbn; ring. Qed.
Lemma ex_scale c x : cf_scale exact_arith c x = rmul (real c : CR) x.
Proof. destruct x as [a b]. cbn in a, b. apply (injective_projections (A:=R) (B:=R)); cbn; ring. Qed.
Lemma ex_vadd u v : fv_add exact_arith u v = vadd u v.
Proof. unfold fv_add, vadd. apply map_ext. intros p. apply ex_add. Qed.
Lemma ex_vscale c u : fv_scale exact_arith c u = vscale (K := CR) (real c) u.
Proof. unfold fv_scale, vscale. apply map_ext. intros p. apply ex_scale. Qed.
Lemma ex_row (g : Z * CR -> CR) row : forall a, fold_left (fun acc e => cf_add exact_arith acc (g e)) row a = radd a (sum_over (K := CR) g row).
Proof.
  induction row as [|e row IH]; intros a; cbn [fold_left].
  - rewrite sum_over_nil. destruct a as [x y]. cbn in x, y. apply (injective_projections (A:=R) (B:=R)); cbn; ring.
  - rewrite IH, sum_over_cons, ex_add. generalize (sum_over (K := CR) g row), (g e). intros [p q] [r s]. destruct a as [x y]. cbn in x, y, p, q, r, s.
    apply (injective_projections (A:=R) (B:=R)); cbn; ring.
Qed.
Lemma ex_sp m u : fsp_vec exact_arith m u = sp_vec m u.
Proof.
  unfold fsp_vec, sp_vec. apply map_ext. intros row.
  rewrite (ex_row (fun e => cf_mul exact_arith (snd e) (vget u (fst e))) row). 
  assert (E : sum_over (K := CR) (fun e => cf_mul exact_arith (snd e) (vget u (fst e))) row = sum_over (K := CR) (fun e => rmul (snd e) (vget u (fst e))) row).
  { apply sum_over_ext. intros e _. apply ex_mul. }
  etransitivity; [apply f_equal; exact E|]. generalize (sum_over (K := CR) (fun e => rmul (snd e) (vget u (fst e))) row). intros [x y]. cbn in x, y.
  apply (injective_projections (A:=R) (B:=R)); cbn; ring.
Qed.
Lemma ex_step d h m st u : frk_step exact_arith h m u = snd (rk_step (K := CR) (real (1/2)) (real (1/6)) (mkRk4 (K := CR) d (real h)) (sp_vec m) st u).
Proof.
  assert (R1 : forall a b c : R, a / b = c -> (real c : CR) = real (a / b)) by (intros a b c ->; reflexivity).
  assert (E2 : rmul (real h : CR) (real (1/2)) = real (h / 2)) by (apply (injective_projections (A:=R) (B:=R)); cbn; field).
  assert (E6 : rmul (real h : CR) (real (1/6)) = real (h / 6)) by (apply (injective_projections (A:=R) (B:=R)); cbn; field).
  assert (ET : radd (@r1 CR) (@r1 CR) = real 2) by (apply (injective_projections (A:=R) (B:=R)); cbn; ring).
  unfold frk_step, rk_step. cbn [snd rk_step_size s_k1 s_k2 s_k3 s_k4]. unfold rk_combine. cbn [s_k1 s_k2 s_k3 s_k4]. rewrite E2, E6.
  change (f_div exact_arith h 2) with (h / 2). change (f_div exact_arith h 6) with (h / 6).
  rewrite !ex_sp, !ex_vscale, !ex_vadd. try rewrite ET. reflexivity.
Qed.
Theorem C91_exact : forall d dt (m : bmat CR) sts u,
  fprogram_run exact_arith dt m (length sts) u = program_run d dt m sts u.
Proof.
  intros d dt m sts. unfold fprogram_run, program_run.
  assert (E : fbm_scale exact_arith imag_unit m = bm_scale (K := CR) imag_unit m).
  { reflexivity. }
  rewrite E. induction sts as [|st sts IH]; intros u; cbn [length frun run_steps]; [reflexivity|].
  rewrite (ex_step d dt (bm_scale imag_unit m) st u). apply IH.
Qed.

(** ** Runs with exact operations are iterated Taylor polynomials *)
Lemma Pn_ext n m h k : forall x y, (forall p, In p (idx n) -> x p = y p) -> forall p, In p (idx n) -> Pn n m h k x p = Pn n m h k y p.
Proof.
  induction k as [|k IH]; intros x y E p Hp; cbn [Pn]; [exact (E p Hp)|]. apply IH; [|exact Hp]. apply P_ext. exact E.
Qed.
Lemma run_Pn n m d dt sts : acts_as CR n (entry m) (sp_vec m) -> forall u, len u = n -> forall p, In p (idx n) ->
  vec (run_steps CR (real (1/2)) (real (1/6)) (mkRk4 (K := CR) d (real dt)) (sp_vec m) sts u) p = Pn n m dt (length sts) (vec u) p.
Proof.
  intros A. induction sts as [|st sts IH]; intros u Lu p Hp; cbn [run_steps length Pn]; [reflexivity|].
  destruct (vec_step n _ _ A d dt st u Lu) as [L' V]. rewrite (IH _ L' p Hp). apply Pn_ext; [|exact Hp]. intros q Hq. exact (V q Hq).
Qed.
Lemma bp (a : nat) : bpow radix2 (Z.of_nat a) = 2 ^ a.
Proof. rewrite <- IZR_Zpower by lia. rewrite <- pow_IZR. reflexivity. Qed.
Lemma bm (a : nat) : bpow radix2 (- Z.of_nat a) = / 2 ^ a.
Proof. rewrite bpow_opp, bp. reflexivity. Qed.
Lemma double_ok garbage : accurate (/ 2 ^ 53) (/ 2 ^ 1075) (2 ^ 1023) (double_arith garbage).
Proof.
  pose proof (double_accurate garbage) as A.
  rewrite <- (bm 53), <- (bm 1075), <- (bp 1023). exact A.
Qed.
Lemma len2_nrm n u : len u = n -> length2 u = nrm (idx n) (vec u).
Proof. intros L. unfold length2, nrm. rewrite (vec_n2 n u L). reflexivity. Qed.
Lemma coordination lat N : shipped3 lat N -> (lat_coordination lat <= 4)%Z.
Proof. intros [? ?|? ? ?]; cbn; lia. Qed.

Section Run.
  Context (garbage : R -> R) (n : Z) (m : bmat CR) (L J U : R).
  Hypothesis wf : well_formed m n.
  Hypothesis shape : Forall (fun r => (length r <= 14)%nat /\ Forall (fun e => one_of J U (snd e)) r) (bm_done m) /\ bm_cur m = [].
  Let M := bm_scale (K := CR) imag_unit m.
  Hypothesis acts : acts_as CR n (entry M) (sp_vec M).
  Hypothesis anti : anti_hermitian CR n (entry M).
  Hypothesis rows : row_bound n (entry M) L.
  Hypothesis L0 : 0 <= L.
  Hypothesis HJ : is_double J. Hypothesis HU : is_double (U / 2).
  Hypothesis BJ : Rabs J <= L. Hypothesis BU : Rabs (U / 2) <= L.
  Hypothesis Hn : (n < two64)%Z.
  Hypothesis HL : L <= 2 ^ 500.
  Context (d : Z) (dt : R).
  Hypothesis Ha : dt ^ 2 * L ^ 2 <= 8.
  Hypothesis Hh1 : / 2 ^ 1000 <= Rabs dt.
  Hypothesis Hh2 : Rabs dt <= 2 ^ 100.
  Lemma big_L : L <= bpow radix2 1023.
  Proof. eapply Rle_trans; [exact HL|]. rewrite <- (bp 500). apply bpow_le. lia. Qed.
  Lemma n_real : IZR n <= 2 ^ 64.
  Proof. rewrite pow_IZR. apply IZR_le. rewrite two64_eq in Hn. change (2 ^ Z.of_nat 64)%Z with 18446744073709551616%Z. lia. Qed.
  Lemma rounded_run sts u : len u = n -> INR (length sts) <= 2 ^ 40 -> length2 u <= 2 ^ 200 ->
    len (fprogram_run (double_arith garbage) dt m (length sts) u) = n /\
    distance2 (fprogram_run (double_arith garbage) dt m (length sts) u) (vget (program_run d dt m sts u)) <=
      INR (length sts) * (length2 u / 2 ^ 41 + / 2 ^ 925).
  Proof.
    intros Lu Hk Hu. destruct shape as [F C]. unfold fprogram_run.
    rewrite (scale_exact garbage J U m 14 HJ HU (Rle_trans _ _ _ BJ big_L) (Rle_trans _ _ _ BU big_L) F C).
    fold M. rewrite (len2_nrm n u Lu) in Hu |- *.
    destruct (double_run (double_arith garbage) (double_ok garbage) n M L (wf_scale CR imag_unit m n wf) (scale_lengths m 14 (one_of J U) F) rows anti L0 dt Ha n_real HL Hh1 Hh2
      (length sts) u (vec u) Lu Hk Hu) as [E1 E2].
    split; [exact E1|]. rewrite (distance_nrm n) by exact E1.
    assert (Q : nrm (idx n) (fun p => vec u p + -1 * vec u p) = 0).
    { unfold nrm, n2, dot. rewrite (SR_ext _ (fun _ => 0 * 0)) by (intros; ring). rewrite SR_const, !Rmult_0_r. apply sqrt_0. }
    rewrite Q, Rplus_0_r in E2. eapply Rle_trans; [|exact E2]. apply Req_le, nrm_ext. intros p Hp.
    change (vecf (vget (program_run d dt m sts u)) p) with (vec (program_run d dt m sts u) p). unfold program_run. fold M.
    rewrite (run_Pn n M d dt sts acts u Lu p Hp). reflexivity.
  Qed.
End Run.

Ltac abs_le := match goal with |- Rabs ?x <= _ => pose proof (Rabs_pos x) end.
(** The matrices of the programs satisfy the assumptions *)
Section Full.
  Context (sort : list (triplet CR) -> list (triplet CR)) (J U : R) (lat : lattice) (N : Z).
  Hypothesis Hs : sorts_by_column sort.
  Hypothesis Hl : shipped3 lat N.
  Lemma full_rounded garbage d dt : fits3 lat N -> is_double J -> is_double (U / 2) ->
    let L := 3 * neighbours lat * Rabs J + Rabs U in L <= 2 ^ 500 -> dt ^ 2 * L ^ 2 <= 8 -> / 2 ^ 1000 <= Rabs dt <= 2 ^ 100 ->
    exists m, init_matrix sort (real J : CR) (real U) (real (1/2)) lat = Ok m /\
      forall sts u, len u = (N + N * N * N)%Z -> INR (length sts) <= 2 ^ 40 -> length2 u <= 2 ^ 200 ->
        len (fprogram_run (double_arith garbage) dt m (length sts) u) = (N + N * N * N)%Z /\
        distance2 (fprogram_run (double_arith garbage) dt m (length sts) u) (vget (program_run d dt m sts u)) <=
          INR (length sts) * (length2 u / 2 ^ 41 + / 2 ^ 925).
  Proof.
    intros Hf HJ HU L HL Hd [H1 H2]. destruct (full_facts sort J U lat N Hs Hl Hf) as (m & Em & A & B & C & D). exists m. split; [exact Em|].
    destruct (C32_full CR sort (real J) (real U) (real (1/2)) lat N Hs Hl Hf) as (m' & Em' & W). rewrite Em in Em'. injection Em' as <-.
    pose proof (shipped3_graph _ _ Hl) as HG. pose proof (neighbours_pos lat N Hl) as Z1. pose proof (Rabs_pos J) as J0. pose proof (Rabs_pos U) as U0.
    destruct (full_shape sort J U lat N Hs Hl m Hf Em) as [F0 C0].
    intros sts u Lu Hk Hu. apply (rounded_run garbage (N + N * N * N) m L J U); try assumption.
    - split; [|exact C0]. rewrite Forall_forall in *. intros r Hr. destruct (F0 r Hr) as [G1 G2]. split; [|exact G2].
      pose proof (coordination lat N Hl). lia.
    - unfold L. nra.
    - unfold L. unfold Rdiv. rewrite Rabs_mult, (Rabs_pos_eq (/ 2)) by lra. nra.
    - apply (fits3_S3 lat N HG Hf).
  Qed.
  Lemma kinetic_rounded garbage d dt : (N * lat_coordination lat < two64)%Z -> is_double J ->
    let L := neighbours lat * Rabs J in L <= 2 ^ 500 -> dt ^ 2 * L ^ 2 <= 8 -> / 2 ^ 1000 <= Rabs dt <= 2 ^ 100 ->
    exists m, init_kinetic_matrix sort (real J : CR) lat = Ok m /\
      forall sts u, len u = N -> INR (length sts) <= 2 ^ 40 -> length2 u <= 2 ^ 200 ->
        len (fprogram_run (double_arith garbage) dt m (length sts) u) = N /\
        distance2 (fprogram_run (double_arith garbage) dt m (length sts) u) (vget (program_run d dt m sts u)) <=
          INR (length sts) * (length2 u / 2 ^ 41 + / 2 ^ 925).
  Proof.
    intros Hf HJ L HL Hd [H1 H2]. destruct (kinetic_facts sort J lat N Hs Hl Hf) as (m & Em & A & B & C & D). exists m. split; [exact Em|].
    destruct (C32_kinetic CR sort (real J) lat N Hs Hl Hf) as (m' & Em' & W & _). rewrite Em in Em'. injection Em' as <-.
    pose proof (shipped3_graph _ _ Hl) as HG. pose proof (neighbours_pos lat N Hl) as Z1. pose proof (Rabs_pos J) as J0. pose proof (HNpos lat N HG) as N0.
    destruct (kinetic_shape sort J 0 lat N Hs Hl m Hf Em) as [F0 C0].
    intros sts u Lu Hk Hu. apply (rounded_run garbage N m L J 0); try assumption.
    - split; [|exact C0]. rewrite Forall_forall in *. intros r Hr. destruct (F0 r Hr) as [G1 G2]. split; [|exact G2].
      pose proof (coordination lat N Hl). lia.
    - unfold Rdiv. rewrite Rmult_0_l. apply generic_format_0.
    - unfold L. nra.
    - unfold Rdiv. rewrite Rmult_0_l, Rabs_R0. exact D.
    - pose proof (g_co _ _ HG). nia.
  Qed.
End Full.
Lemma distance_triangle n a b y : len a = n -> len b = n -> distance2 a y <= distance2 a (vget b) + distance2 b y.
Proof.
  intros La Lb. rewrite !(distance_nrm n a) by exact La. rewrite (distance_nrm n b) by exact Lb.
  eapply Rle_trans; [|apply nrm_triangle]. apply Req_le, nrm_ext. intros p _. change (vecf (vget b) p) with (vec b p). ring.
Qed.
Lemma length_triangle n a b : len a = n -> len b = n -> length2 a <= distance2 a (vget b) + length2 b.
Proof.
  intros La Lb. rewrite (distance_nrm n a) by exact La. rewrite !(len2_nrm n) by assumption.
  eapply Rle_trans; [|apply nrm_triangle]. apply Req_le, nrm_ext. intros p _. change (vecf (vget b) p) with (vec b p). ring.
Qed.

(** ** C91 *)
(** the interacting programs of src/hubbard/real_space: every rounding of every step included, the computed
    vector differs from the one of exact arithmetic by at most 2^-41 |u| per step (plus 2^-925 for underflow) *)
Theorem C91_full : forall (sort : list (triplet CR) -> list (triplet CR)) (J U : R) lat N garbage d dt,
  sorts_by_column sort -> shipped3 lat N -> fits3 lat N -> is_double J -> is_double (U / 2) ->
  let L := 3 * neighbours lat * Rabs J + Rabs U in
  L <= 2 ^ 500 -> dt ^ 2 * L ^ 2 <= 8 -> / 2 ^ 1000 <= Rabs dt <= 2 ^ 100 ->
  exists m, init_matrix sort (real J : CR) (real U) (real (1/2)) lat = Ok m /\
    forall sts u, len u = (N + N * N * N)%Z -> INR (length sts) <= 2 ^ 40 -> length2 u <= 2 ^ 200 ->
      let computed := fprogram_run (double_arith garbage) dt m (length sts) u in
      len computed = len u /\
      distance2 computed (vget (program_run d dt m sts u)) <= INR (length sts) * (length2 u / 2 ^ 41 + / 2 ^ 925).
Proof.
  intros sort J U lat N garbage d dt Hs Hl Hf HJ HU L HL Hd Hb.
  destruct (full_rounded sort J U lat N Hs Hl garbage d dt Hf HJ HU HL Hd Hb) as (m & Em & H). exists m. split; [exact Em|].
  intros sts u Lu Hk Hu. cbv zeta. rewrite Lu. apply (H sts u Lu Hk Hu).
Qed.
Theorem C91_kinetic : forall (sort : list (triplet CR) -> list (triplet CR)) (J : R) lat N garbage d dt,
  sorts_by_column sort -> shipped3 lat N -> (N * lat_coordination lat < two64)%Z -> is_double J ->
  let L := neighbours lat * Rabs J in
  L <= 2 ^ 500 -> dt ^ 2 * L ^ 2 <= 8 -> / 2 ^ 1000 <= Rabs dt <= 2 ^ 100 ->
  exists m, init_kinetic_matrix sort (real J : CR) lat = Ok m /\
    forall sts u, len u = N -> INR (length sts) <= 2 ^ 40 -> length2 u <= 2 ^ 200 ->
      let computed := fprogram_run (double_arith garbage) dt m (length sts) u in
      len computed = len u /\
      distance2 computed (vget (program_run d dt m sts u)) <= INR (length sts) * (length2 u / 2 ^ 41 + / 2 ^ 925).
Proof.
  intros sort J lat N garbage d dt Hs Hl Hf HJ L HL Hd Hb.
  destruct (kinetic_rounded sort J lat N Hs Hl garbage d dt Hf HJ HL Hd Hb) as (m & Em & H). exists m. split; [exact Em|].
  intros sts u Lu Hk Hu. cbv zeta. rewrite Lu. apply (H sts u Lu Hk Hu).
Qed.
(** distance to the exact solution: discretisation error (C78) plus rounding error *)
Theorem C91_full_error : forall (sort : list (triplet CR) -> list (triplet CR)) (J U : R) lat N garbage dt,
  sorts_by_column sort -> shipped3 lat N -> fits3 lat N -> is_double J -> is_double (U / 2) ->
  let L := 3 * neighbours lat * Rabs J + Rabs U in
  L <= 2 ^ 500 -> dt ^ 2 * L ^ 2 <= 8 -> / 2 ^ 1000 <= dt <= 2 ^ 100 ->
  exists m, init_matrix sort (real J : CR) (real U) (real (1/2)) lat = Ok m /\
    forall k u y, len u = (N + N * N * N)%Z -> INR k <= 2 ^ 40 -> length2 u <= 2 ^ 200 ->
      exact_solution (N + N * N * N) (entry (bm_scale imag_unit m)) y ->
      (forall i, (0 <= i < N + N * N * N)%Z -> y 0 i = vget u i) ->
      let computed := fprogram_run (double_arith garbage) dt m k u in
      let t := INR k * dt in
      distance2 computed (y t) <= t * dt ^ 4 * L ^ 5 / 120 * length2 u + INR k * (length2 u / 2 ^ 41 + / 2 ^ 925) /\
      length2 computed <= length2 u + INR k * (length2 u / 2 ^ 41 + / 2 ^ 925).
Proof.
  intros sort J U lat N garbage dt Hs Hl Hf HJ HU L HL Hd Hb. assert (D0 : 0 < / 2 ^ 1000) by (apply Rinv_0_lt_compat, pow_lt; lra).
  assert (Hb' : / 2 ^ 1000 <= Rabs dt <= 2 ^ 100) by (rewrite Rabs_pos_eq; lra). assert (D1 : 0 <= dt) by lra.
  destruct (C91_full sort J U lat N garbage 0%Z dt Hs Hl Hf HJ HU HL Hd Hb') as (m & Em & H). exists m. split; [exact Em|].
  destruct (C78_full sort J U lat N 0%Z dt Hs Hl Hf D1 Hd) as (m' & Em' & H'). rewrite Em in Em'. injection Em' as <-.
  destruct (C77_full sort J U lat N 0%Z dt Hs Hl Hf Hd) as (m' & Em' & H''). rewrite Em in Em'. injection Em' as <-.
  intros k u y Lu Hk Hu Hy H0 computed t. set (sts := repeat (mkSt (K := CR) [] [] [] []) k).
  assert (Ek : length sts = k) by apply repeat_length. specialize (H sts u Lu). rewrite Ek in H. destruct (H Hk Hu) as [E1 E2]. fold computed in E1, E2.
  specialize (H' sts u y Lu Hy H0). cbv zeta in H'. rewrite Ek in H'. destruct (H'' sts u Lu) as [E3 E4]. rewrite Lu in E1. split.
  - eapply Rle_trans; [apply (distance_triangle _ computed (program_run 0 dt m sts u) (y t) E1 E3)|]. rewrite Rplus_comm. apply Rplus_le_compat; [exact H'|exact E2].
  - eapply Rle_trans; [apply (length_triangle _ computed (program_run 0 dt m sts u) E1 E3)|]. rewrite Rplus_comm. apply Rplus_le_compat; [|exact E2].
    apply sqrt_le_1_alt. exact E4.
Qed.
Theorem C91_kinetic_error : forall (sort : list (triplet CR) -> list (triplet CR)) (J : R) lat N garbage dt,
  sorts_by_column sort -> shipped3 lat N -> (N * lat_coordination lat < two64)%Z -> is_double J ->
  let L := neighbours lat * Rabs J in
  L <= 2 ^ 500 -> dt ^ 2 * L ^ 2 <= 8 -> / 2 ^ 1000 <= dt <= 2 ^ 100 ->
  exists m, init_kinetic_matrix sort (real J : CR) lat = Ok m /\
    forall k u y, len u = N -> INR k <= 2 ^ 40 -> length2 u <= 2 ^ 200 ->
      exact_solution N (entry (bm_scale imag_unit m)) y ->
      (forall i, (0 <= i < N)%Z -> y 0 i = vget u i) ->
      let computed := fprogram_run (double_arith garbage) dt m k u in
      let t := INR k * dt in
      distance2 computed (y t) <= t * dt ^ 4 * L ^ 5 / 120 * length2 u + INR k * (length2 u / 2 ^ 41 + / 2 ^ 925) /\
      length2 computed <= length2 u + INR k * (length2 u / 2 ^ 41 + / 2 ^ 925).
Proof.
  intros sort J lat N garbage dt Hs Hl Hf HJ L HL Hd Hb. assert (D0 : 0 < / 2 ^ 1000) by (apply Rinv_0_lt_compat, pow_lt; lra).
  assert (Hb' : / 2 ^ 1000 <= Rabs dt <= 2 ^ 100) by (rewrite Rabs_pos_eq; lra). assert (D1 : 0 <= dt) by lra.
  destruct (C91_kinetic sort J lat N garbage 0%Z dt Hs Hl Hf HJ HL Hd Hb') as (m & Em & H). exists m. split; [exact Em|].
  destruct (C78_kinetic sort J lat N 0%Z dt Hs Hl Hf D1 Hd) as (m' & Em' & H'). rewrite Em in Em'. injection Em' as <-.
  destruct (kinetic_facts sort J lat N Hs Hl Hf) as (m' & Em' & A & B & C & D). rewrite Em in Em'. injection Em' as <-.
  intros k u y Lu Hk Hu Hy H0 computed t. set (sts := repeat (mkSt (K := CR) [] [] [] []) k).
  assert (Ek : length sts = k) by apply repeat_length. specialize (H sts u Lu). rewrite Ek in H. destruct (H Hk Hu) as [E1 E2]. fold computed in E1, E2.
  specialize (H' sts u y Lu Hy H0). cbv zeta in H'. rewrite Ek in H'. rewrite Lu in E1.
  pose proof (run_len _ _ _ A 0%Z dt sts u Lu) as E3. pose proof (run_norm _ _ _ _ A B (row_op _ _ _ B C D) 0%Z dt sts Hd u Lu) as E4. split.
  - eapply Rle_trans; [apply (distance_triangle _ computed (program_run 0 dt m sts u) (y t) E1 E3)|]. rewrite Rplus_comm. apply Rplus_le_compat; [exact H'|exact E2].
  - eapply Rle_trans; [apply (length_triangle _ computed (program_run 0 dt m sts u) E1 E3)|]. rewrite Rplus_comm. apply Rplus_le_compat; [|exact E2].
    apply sqrt_le_1_alt. exact E4.
Qed.

(** ** Examples: the assumptions hold for J = 1, U = 2, dt = 1/8 on the chain with three sites *)
Lemma double_int (k : Z) : (Z.abs k < 2 ^ 53)%Z -> is_double (IZR k).
Proof.
  intros B. apply generic_format_FLT. exists (Float radix2 k 0).
  - unfold F2R. cbn. ring.
  - exact B.
  - cbn. lia.
Qed.
Example C91_applies : shipped3 (chain_lattice 3) 3 /\ fits3 (chain_lattice 3) 3 /\ sorts_by_column (K := CR) isort /\
  is_double 1 /\ is_double (2 / 2) /\
  let L := 3 * neighbours (chain_lattice 3) * Rabs 1 + Rabs 2 in
  L <= 2 ^ 500 /\ (1 / 8) ^ 2 * L ^ 2 <= 8 /\ / 2 ^ 1000 <= 1 / 8 <= 2 ^ 100 /\
  INR 1000 <= 2 ^ 40 /\ length2 (map (fun i => if (i =? 0)%Z then real 1 else real 0) (zrange 0 30)) = 1.
Proof.
  split; [apply shipped3_chain; split; [lia|apply big; lia]|]. split; [unfold fits3; cbn; apply big; lia|]. split; [apply isort_ok|].
  split; [apply (double_int 1); cbn; lia|]. split; [replace (2 / 2) with 1 by lra; apply (double_int 1); cbn; lia|].
  assert (EL : 3 * neighbours (chain_lattice 3) * Rabs 1 + Rabs 2 = 8) by (unfold neighbours; cbn [lat_coordination chain_lattice]; rewrite !Rabs_pos_eq by lra; cbn; lra).
  rewrite EL. cbv zeta. assert (P1 : forall a, 1 <= 2 ^ a) by (intros; apply pow_R1_Rle; lra).
  split; [replace 8 with (2 ^ 3) by ring; apply Rle_pow; [lra|lia]|]. split; [lra|]. split; [split|].
  - replace (1 / 8) with (/ 2 ^ 3) by lra. apply Rinv_le_contravar; [apply pow_lt; lra|]. apply Rle_pow; [lra|lia].
  - pose proof (P1 100%nat). lra.
  - split.
    + rewrite INR_IZR_INZ. rewrite (pow_IZR 2 40). apply IZR_le. cbn. lia.
    + assert (E : norm2 (map (fun i => if (i =? 0)%Z then real 1 else real 0) (zrange 0 30)) = 1) by (cbv -[Rplus Rmult IZR Rminus Ropp]; lra). unfold length2. rewrite E. apply sqrt_1.
Qed.
(** the operations of the model do round: 1/3 is not a double *)
Example C91_rounds : forall garbage, f_div (double_arith garbage) 1 3 <> 1 / 3.
Proof.
  intros garbage E. cbn [f_div double_arith] in E.
  rewrite double_round in E by (rewrite Rabs_pos_eq by lra; apply Rle_trans with 1; [lra|change 1 with (bpow radix2 0); apply bpow_le; lia]).
  assert (D : generic_format radix2 (FLT_exp (-1074) 53) (1 / 3)) by (rewrite <- E; apply generic_format_round; [apply FLT_exp_valid; reflexivity|apply valid_rnd_N]).
  apply FLT_format_generic in D; [|reflexivity]. destruct D as [[k e] Ef Hk He]. unfold F2R in Ef. cbn [Fnum Fexp] in *.
  destruct (Z.le_gt_cases 0 e) as [He0|He0].
  - assert (Q : IZR (3 * (k * 2 ^ e)) = IZR 1).
    { rewrite !mult_IZR. replace (IZR (2 ^ e)) with (bpow radix2 e) by (rewrite <- IZR_Zpower by lia; reflexivity). lra. }
    apply eq_IZR in Q. lia.
  - assert (Q : IZR (3 * k) = IZR (2 ^ (- e))).
    { replace (IZR (2 ^ (- e))) with (bpow radix2 (- e)) by (rewrite <- IZR_Zpower by lia; reflexivity).
      rewrite mult_IZR. assert (B : bpow radix2 e * bpow radix2 (- e) = 1) by (rewrite <- bpow_plus; replace (e + - e)%Z with 0%Z by lia; reflexivity).
      apply Rmult_eq_reg_r with (bpow radix2 e); [|apply Rgt_not_eq, bpow_gt_0]. rewrite (Rmult_comm (bpow radix2 (- e))), B. lra. }
    apply eq_IZR in Q. assert (M3 : forall a : nat, (2 ^ Z.of_nat a mod 3 <> 0)%Z).
    { induction a as [|a IH]; [cbn; lia|]. replace (Z.of_nat (S a)) with (Z.of_nat a + 1)%Z by lia. rewrite Z.pow_add_r by lia.
      change (2 ^ 1)%Z with 2%Z. pose proof (Z.div_mod (2 ^ Z.of_nat a) 3 ltac:(lia)). pose proof (Z.mod_pos_bound (2 ^ Z.of_nat a) 3 ltac:(lia)).
      pose proof (Z.div_mod (2 ^ Z.of_nat a * 2) 3 ltac:(lia)). lia. }
    apply (M3 (Z.to_nat (- e))). rewrite Z2Nat.id by lia. rewrite <- Q. rewrite Z.mul_comm. apply Z.mod_mul. lia.
Qed.
Print Assumptions C91_exact.
Print Assumptions C91_full.
Print Assumptions C91_kinetic.
Print Assumptions C91_full_error.
Print Assumptions C91_kinetic_error.
