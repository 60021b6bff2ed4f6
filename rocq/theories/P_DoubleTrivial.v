(** THEOREMS: C104 (the small test program in double precision). *)
From Coq Require Import Reals Lra Psatz List ZArith Lia Sorting.Sorted.
From Flocq Require Import Core.
From Verif Require Import Base M_Matrix M_MatrixCheck M_Ode M_Dispersion Spec_Matrix Spec_Ode Pf_Matrix Pf_Matrix2 Pf_Ode P_Ode P_Dynamics
  Spec_Stability Pf_Stability Pf_Stability2 Pf_Stability3 Pf_Solution P_Stability Spec_Trivial M_Trivial P_Trivial
  M_Rounding Spec_Rounding Pf_Rounding Pf_Rounding2 Pf_Rounding3 Pf_Rounding4 Pf_Rounding5 M_Double Pf_Double P_Rounding M_LatticeDouble P_LatticeDouble Pf_PiDigits M_DoubleTrivial.
Local Open Scope R_scope.
Local Open Scope list_scope.
Local Notation len u := (Z.of_nat (length u)).

(** ** The dense matrix as a sparse matrix with full rows *)
Definition full (f : Z -> Z -> CR) : bmat CR := mkB 4 16 (map (fun i => map (fun j => (j, f i j)) (zrange 0 4)) (zrange 0 4)) [].
Lemma full_wf f : Spec_Matrix.well_formed (full f) 4.
Proof.
  split; [reflexivity|]. split; [reflexivity|]. split; [reflexivity|]. split.
  - cbn [bm_done full]. apply Forall_forall. intros r Hr. apply in_map_iff in Hr as (i & <- & _). split.
    + rewrite map_map. cbn [fst]. rewrite map_id. change (zrange 0 4) with [0; 1; 2; 3]%Z. repeat constructor.
    + apply Forall_forall. intros x Hx. apply in_map_iff in Hx as (j & <- & Hj). apply zrange_in in Hj. exact Hj.
  - vm_compute. discriminate.
Qed.
Lemma full_entry f i j : (0 <= i < 4)%Z -> (0 <= j < 4)%Z -> entry (full f) i j = f i j.
Proof.
  intros Hi Hj. unfold entry, row_of. cbn [bm_done full].
  assert (Z4 : forall a b : R, (a + (0 + 0) = a) /\ (0 + a = a)) by (intros; split; ring).
  destruct (four i Hi) as [->|[->|[->| ->]]], (four j Hj) as [->|[->|[->| ->]]]; cbn; unfold Pos.to_nat; cbn; match goal with |- _ = ?x => destruct x as [a b] end; cbn in a, b; apply (injective_projections (A := R) (B := R)); cbn; ring.
Qed.
Lemma full_mul ar f u : f_mat_vec ar (mkMat 4 4 f) u = fsp_vec ar (full f) u.
Proof.
  unfold f_mat_vec, fsp_vec. cbn [m_rows m_cols m_at bm_done full]. rewrite map_map. apply map_ext. intros i.
  assert (G : forall l a, fold_left (fun acc j => cf_add ar acc (cf_mul ar (f i j) (vget u j))) l a =
    fold_left (fun (acc : CR) (e : Z * CR) => cf_add ar acc (cf_mul ar (snd e) (vget u (fst e)))) (map (fun j => (j, f i j)) l) a).
  { induction l as [|j l IH]; intros a; [reflexivity|]. cbn [fold_left map fst snd]. apply IH. }
  apply G.
Qed.
Lemma full_step ar f dt u : f_dense_step ar dt (mkMat 4 4 f) u = frk_step ar dt (full f) u.
Proof. unfold f_dense_step, frk_step. rewrite !full_mul. reflexivity. Qed.

Lemma sum_ext_acts n (g g' : Z -> Z -> CR) mul : (forall i j, (0 <= i < n)%Z -> (0 <= j < n)%Z -> g i j = g' i j) -> acts_as CR n g mul -> acts_as CR n g' mul.
Proof.
  intros E A u Lu. destruct (A u Lu) as [L V]. split; [exact L|]. intros i Hi. rewrite (V i Hi). apply sum_over_ext. intros j Hj. apply zrange_in in Hj. rewrite E by assumption. reflexivity.
Qed.
Lemma anti_ext n (g g' : Z -> Z -> CR) : (forall i j, (0 <= i < n)%Z -> (0 <= j < n)%Z -> g i j = g' i j) -> anti_hermitian CR n g -> anti_hermitian CR n g'.
Proof. intros E A i j Hi Hj. rewrite <- !E by assumption. apply A; assumption. Qed.
Lemma rows_ext n (g g' : Z -> Z -> CR) L : (forall i j, (0 <= i < n)%Z -> (0 <= j < n)%Z -> g i j = g' i j) -> row_bound n g L -> row_bound n g' L.
Proof.
  intros E A i Hi. eapply Rle_trans; [|apply (A i Hi)]. apply Req_le, SR_ext. intros j Hj. apply zrange_in in Hj. rewrite E by assumption. reflexivity.
Qed.

Lemma exact_ext n (g g' : Z -> Z -> CR) y : (forall i j, (0 <= i < n)%Z -> (0 <= j < n)%Z -> g i j = g' i j) -> exact_solution n g y -> exact_solution n g' y.
Proof.
  intros E A t i Hi. specialize (A t i Hi). cbv zeta in A |- *. replace (sum_over (K := CR) (fun j => rmul (g' i j) (y t j)) (zrange 0 n)) with (sum_over (K := CR) (fun j => rmul (g i j) (y t j)) (zrange 0 n)); [exact A|].
  apply sum_over_ext. intros j Hj. apply zrange_in in Hj. rewrite E by assumption. reflexivity.
Qed.

(** ** The state *)
Section State.
  Context (garbage : R -> R) (J U dt : R).
  Let ar := double_arith garbage.
  Let L := 2 * Rabs J + Rabs U.
  Hypothesis HJ : is_double J. Hypothesis HU : is_double (U / 2).
  Hypothesis HL : L <= 2 ^ 500.
  Let M := f_scaled ar imag_unit (f_trivial_matrix ar J U).
  Let m := full (m_at M).
  Lemma L_big x : Rabs x <= L -> Rabs x <= bpow radix2 1023.
  Proof. intros Hx. eapply Rle_trans; [exact Hx|]. eapply Rle_trans; [exact HL|]. rewrite <- (bp 500). apply bpow_le. lia. Qed.
  Lemma J_le : Rabs J <= L. Proof. unfold L. pose proof (Rabs_pos J). pose proof (Rabs_pos U). lra. Qed.
  Lemma U_le : Rabs (U / 2) <= L.
  Proof. unfold L, Rdiv. rewrite Rabs_mult, (Rabs_pos_eq (/ 2)) by lra. pose proof (Rabs_pos J). pose proof (Rabs_pos U). lra. Qed.
  Lemma half_U : f_div ar U 2 = U / 2.
  Proof. cbn [ar double_arith f_div]. apply double_exact; [exact HU|apply L_big, U_le]. Qed.
  Lemma m_entry i j : (0 <= i < 4)%Z -> (0 <= j < 4)%Z -> small_generator J U i j = entry m i j.
  Proof.
    intros Hi Hj. unfold m. rewrite full_entry by assumption. unfold M. cbn [f_scaled m_at f_trivial_matrix]. rewrite half_U.
    assert (T : forall x, is_double x -> Rabs x <= L -> cf_mul ar imag_unit (real x) = ((0, x) : CR)).
    { intros x Dx Bx. unfold ar. rewrite times_i; [|exact Dx|apply L_big, Bx]. apply (injective_projections (A := R) (B := R)); cbn; ring. }
    assert (TJ : cf_mul ar imag_unit (real (- J)) = ((0, - J) : CR)) by (apply T; [apply double_opp, HJ|rewrite Rabs_Ropp; apply J_le]).
    assert (TU : cf_mul ar imag_unit (real (U / 2)) = ((0, U / 2) : CR)) by (apply T; [exact HU|apply U_le]).
    assert (T0 : cf_mul ar imag_unit (real 0) = ((0, 0) : CR)) by (apply T; [apply generic_format_0|rewrite Rabs_R0; apply Rle_trans with (Rabs J); [apply Rabs_pos|apply J_le]]).
    destruct (four i Hi) as [->|[->|[->| ->]]], (four j Hj) as [->|[->|[->| ->]]]; cbn; unfold Pos.to_nat; cbn [nth Nat.add Pos.iter_op]; symmetry; assumption.
  Qed.
  Hypothesis Ha : dt ^ 2 * L ^ 2 <= 8.
  Hypothesis Hh : / 2 ^ 1000 <= dt <= 2 ^ 100.
  (** k steps *)
  Fixpoint f_steps (k : nat) (u : list CR) : list CR := match k with O => u | S k => f_steps k (f_dense_step ar dt M u) end.
  Lemma steps_run k : forall u, f_steps k u = frun ar dt m k u.
  Proof. induction k as [|k IH]; intros u; cbn [f_steps frun]; [reflexivity|]. rewrite IH. apply f_equal, full_step. Qed.
  Lemma state_error k y : INR k <= 2 ^ 40 -> exact_solution 4 (small_generator J U) y ->
    (forall i, (0 <= i < 4)%Z -> y 0 i = if Z.eqb i 0 then real 1 else real 0) ->
    let h := f_steps k [real 1; real 0; real 0; real 0] in
    len h = 4%Z /\ distance2 h (y (INR k * dt)) <= INR k * dt * dt ^ 4 * L ^ 5 / 120 + INR k * / 2 ^ 40 /\ length2 h <= 1 + INR k * / 2 ^ 40.
  Proof.
    intros Hk Hy Y0 h. set (u := [real 1; real 0; real 0; real 0] : list CR) in *. assert (Lu : len u = 4%Z) by reflexivity.
    pose proof (t_pos J U) as L0. fold L in L0. pose proof (t_anti J U) as An. pose proof (t_rows J U) as Ro. fold L in Ro.
    assert (D0 : 0 < / 2 ^ 1000) by (apply Rinv_0_lt_compat, pow_lt; lra). assert (D1 : 0 <= dt) by lra.
    assert (N0 : length2 u = 1) by (unfold length2; replace (norm2 u) with 1; [apply sqrt_1|unfold norm2, u; rewrite !sum_over_cons, sum_over_nil; cbn; ring]).
    assert (Wd : Forall (fun r => (length r <= 14)%nat) (bm_done m)) by (unfold m, full; cbn [bm_done]; apply Forall_forall; intros r Hr; apply in_map_iff in Hr as (i & <- & _); rewrite map_length, zrange_length; lia).
    assert (Ro' : row_bound 4 (entry m) L) by (apply (rows_ext 4 (small_generator J U)); [exact m_entry|exact Ro]).
    assert (An' : anti_hermitian CR 4 (entry m)) by (apply (anti_ext 4 (small_generator J U)); [exact m_entry|exact An]).
    assert (N64 : IZR 4 <= 2 ^ 64) by (apply Rle_trans with (2 ^ 2); [lra|apply Rle_pow; [lra|lia]]).
    assert (Nu : nrm (idx 4) (vec u) = 1) by (rewrite <- (len2_nrm 4 u Lu); exact N0).
    assert (N2 : nrm (idx 4) (vec u) <= 2 ^ 200) by (rewrite Nu; apply pow_R1_Rle; lra).
    destruct (double_run ar (double_ok garbage) 4 m L (full_wf _) Wd Ro' An' L0 dt Ha N64 HL ltac:(rewrite Rabs_pos_eq; lra) ltac:(rewrite Rabs_pos_eq; lra) k u (vec u) Lu Hk N2) as [E1 E2].
    rewrite <- steps_run in E1, E2. fold h in E1, E2. split; [exact E1|].
    assert (Q : nrm (idx 4) (fun p => vec u p + -1 * vec u p) = 0).
    { unfold nrm, n2, dot. rewrite (SR_ext _ (fun _ => 0 * 0)) by (intros; ring). rewrite SR_const, !Rmult_0_r. apply sqrt_0. }
    rewrite Q, Rplus_0_r, Nu, Rmult_1_l in E2.
    set (sts := repeat (mkSt (K := CR) [] [] [] []) k). assert (Ek : length sts = k) by apply repeat_length.
    assert (Ac : acts_as CR 4 (entry m) (sp_vec m)) by exact (sparse_linear CR _ _ (full_wf _)).
    set (ex := run_steps CR (real (1/2)) (real (1/6)) (mkRk4 (K := CR) 4 (real dt)) (sp_vec m) sts u).
    assert (Lex : len ex = 4%Z) by exact (run_len 4 _ _ Ac 4 dt sts u Lu).
    assert (DE : distance2 h (vget ex) <= INR k * / 2 ^ 40).
    { rewrite (distance_nrm 4) by exact E1. eapply Rle_trans; [|apply Rle_trans with (INR k * (/ 2 ^ 41 + / 2 ^ 925)); [exact E2|]].
      - apply Req_le, nrm_ext. intros p Hp. change (vecf (vget ex) p) with (vec ex p). unfold ex. rewrite (run_Pn 4 m 4 dt sts Ac u Lu p Hp), Ek. reflexivity.
      - apply Rmult_le_compat_l; [apply pos_INR|]. rewrite (half_pow 40 41) by lia. replace (2 ^ (41 - 40)) with 2 by (cbn; lra).
        assert (/ 2 ^ 925 <= / 2 ^ 41) by (apply Rinv_le_contravar; [apply pow_lt; lra|apply Rle_pow; [lra|lia]]). lra. }
    assert (Hy' : exact_solution 4 (entry m) y).
    { revert Hy. apply exact_ext. exact m_entry. }
    pose proof (row_op 4 _ _ An' Ro' L0) as Op. split.
    - eapply Rle_trans; [apply (distance_triangle 4 h ex _ E1 Lex)|]. rewrite Rplus_comm. apply Rplus_le_compat; [|exact DE].
      unfold ex. rewrite <- Ek. eapply Rle_trans; [apply (run_error 4 _ _ L Ac An' L0 Op 4 dt sts u y D1 Ha Lu Hy')|rewrite N0; apply Req_le; field].
      intros i Hi. rewrite (Y0 i Hi). destruct (four i Hi) as [->|[->|[->| ->]]]; reflexivity.
    - eapply Rle_trans; [apply (length_triangle 4 h ex E1 Lex)|]. rewrite Rplus_comm. apply Rplus_le_compat; [|exact DE].
      rewrite <- N0. apply sqrt_le_1_alt. exact (run_norm 4 _ _ L Ac An' Op 4 dt sts Ha u Lu).
  Qed.
End State.

(** ** The particle number *)
Section Number.
  Context (garbage : R -> R).
  Let ar := double_arith garbage.
  Let w := / 2 ^ 53.
  Lemma w_small : 0 < w <= / 1000000.
  Proof. split; [apply Rinv_0_lt_compat, pow_lt; lra|]. apply Rle_trans with (/ 2 ^ 20); [apply Rinv_le_contravar; [apply pow_lt; lra|apply Rle_pow; [lra|lia]]|]. replace (2 ^ 20) with 1048576 by ring. lra. Qed.
  Lemma ops a b : Rabs a <= 300 -> Rabs b <= 300 -> Rabs (f_add ar a b - (a + b)) <= w * Rabs (a + b) + w /\ Rabs (f_mul ar a b - a * b) <= w * Rabs (a * b) + w /\
    (1 <= b -> Rabs (f_div ar a b - a / b) <= w * Rabs (a / b) + w).
  Proof.
    intros Ha Hb. assert (T : / 2 ^ 1075 <= w) by (apply Rinv_le_contravar; [apply pow_lt; lra|apply Rle_pow; [lra|lia]]).
    assert (B : 90000 <= 2 ^ 1023) by (apply Rle_trans with (2 ^ 17); [replace (2 ^ 17) with 131072 by ring; lra|apply Rle_pow; [lra|lia]]).
    pose proof (Rabs_pos a) as A0. pose proof (Rabs_pos b) as B0.
    destruct (double_ok garbage a b) as (P1 & P2 & P3). fold ar w in P1, P2, P3. unfold within in *. split; [|split].
    - eapply Rle_trans; [apply P1|lra]. eapply Rle_trans; [apply Rabs_triang|]. lra.
    - eapply Rle_trans; [apply P2|lra]. rewrite Rabs_mult. apply Rle_trans with (300 * 300); [apply Rmult_le_compat; assumption|lra].
    - intros H1. eapply Rle_trans; [apply P3; [lra|]|lra]. unfold Rdiv. rewrite Rabs_mult, (Rabs_pos_eq (/ b)) by (left; apply Rinv_0_lt_compat; lra).
      assert (/ b <= 1) by (rewrite <- Rinv_1; apply Rinv_le_contravar; lra). assert (0 < / b) by (apply Rinv_0_lt_compat; lra). nra.
  Qed.
  Lemma tri a b c x y : Rabs (a - b) <= x -> Rabs (b - c) <= y -> Rabs (a - c) <= x + y.
  Proof. intros A B. replace (a - c) with ((a - b) + (b - c)) by ring. eapply Rle_trans; [apply Rabs_triang|]. lra. Qed.
  Lemma from_near a b x y : Rabs (a - b) <= x -> Rabs b <= y -> Rabs a <= x + y.
  Proof. intros A B. replace a with ((a - b) + b) by ring. eapply Rle_trans; [apply Rabs_triang|]. lra. Qed.
  (** a b +- c d *)
  Lemma mul_near a b : Rabs a <= 2 -> Rabs b <= 2 -> Rabs (f_mul ar a b - a * b) <= 5 * w /\ Rabs (a * b) <= 4.
  Proof.
    intros A B. destruct (ops a b ltac:(lra) ltac:(lra)) as (_ & P & _). assert (Q : Rabs (a * b) <= 4) by (rewrite Rabs_mult; apply Rle_trans with (2 * 2); [apply Rmult_le_compat; try apply Rabs_pos; assumption|lra]).
    pose proof w_small as [W0 W1]. split; [|exact Q]. eapply Rle_trans; [exact P|]. assert (w * Rabs (a * b) <= w * 4) by (apply Rmult_le_compat_l; lra). lra.
  Qed.
  Lemma add_near p p' q q' x y X Y : Rabs (p' - p) <= x * w -> Rabs (q' - q) <= y * w -> Rabs p <= X -> Rabs q <= Y -> 0 <= x <= 5000 -> 0 <= y <= 5000 -> X + Y <= 200 ->
    Rabs (f_add ar p' q' - (p + q)) <= (x + y + (X + Y) + 2) * w /\ Rabs (p + q) <= X + Y.
  Proof.
    intros A B PX QY Hx Hy S. pose proof w_small as [W0 W1]. pose proof (Rabs_pos p) as p0. pose proof (Rabs_pos q) as q0.
    assert (xw : x * w <= / 200) by (apply Rle_trans with (5000 * / 1000000); [apply Rmult_le_compat; lra|lra]). assert (yw : y * w <= / 200) by (apply Rle_trans with (5000 * / 1000000); [apply Rmult_le_compat; lra|lra]).
    pose proof (from_near _ _ _ _ A PX) as P1. pose proof (from_near _ _ _ _ B QY) as Q1. destruct (ops p' q' ltac:(lra) ltac:(lra)) as (D & _).
    assert (E : Rabs (p' + q' - (p + q)) <= x * w + y * w) by (replace (p' + q' - (p + q)) with ((p' - p) + (q' - q)) by ring; eapply Rle_trans; [apply Rabs_triang|]; lra).
    assert (Q : Rabs (p + q) <= X + Y) by (eapply Rle_trans; [apply Rabs_triang|]; lra). pose proof (from_near _ _ _ _ E Q) as S1.
    split; [|exact Q]. eapply Rle_trans; [apply (tri _ _ _ _ _ D E)|]. assert (w * Rabs (p' + q') <= w * (X + Y + / 100)) by (apply Rmult_le_compat_l; lra). lra.
  Qed.
  Lemma neg_near p p' x : Rabs (p' - p) <= x -> Rabs (- p' - - p) <= x.
  Proof. intros A. replace (- p' - - p) with (- (p' - p)) by ring. rewrite Rabs_Ropp. exact A. Qed.
  Lemma scale_near c c' x x' e' : Rabs (c' - c) <= 3 * w -> Rabs c <= 1 -> Rabs (x' - x) <= e' * w -> Rabs x <= 8 -> 0 <= e' <= 100 ->
    Rabs (f_mul ar c' x' - c * x) <= (e' + 40) * w /\ Rabs (c * x) <= 8.
  Proof.
    intros C C1 X X8 He. pose proof w_small as [W0 W1]. assert (ew : e' * w <= / 1000) by (apply Rle_trans with (100 * / 1000000); [apply Rmult_le_compat; lra|lra]).
    pose proof (from_near _ _ _ _ X X8) as X1. pose proof (from_near _ _ _ _ C C1) as C2. assert (C3 : Rabs c' <= 1 + / 1000) by lra.
    destruct (ops c' x' ltac:(lra) ltac:(lra)) as (_ & D & _). pose proof (Rabs_pos c) as c0. pose proof (Rabs_pos x) as x0. pose proof (Rabs_pos x') as x1.
    assert (E : Rabs (c' * x' - c * x) <= 3 * w * (8 + / 1000) + e' * w).
    { replace (c' * x' - c * x) with ((c' - c) * x' + c * (x' - x)) by ring. eapply Rle_trans; [apply Rabs_triang|]. rewrite !Rabs_mult. apply Rplus_le_compat.
      - apply Rmult_le_compat; try apply Rabs_pos; lra.
      - apply Rle_trans with (1 * (e' * w)); [apply Rmult_le_compat; try apply Rabs_pos; lra|lra]. }
    split.
    - eapply Rle_trans; [apply (tri _ _ _ _ _ D E)|]. assert (w * Rabs (c' * x') <= w * 9).
      { apply Rmult_le_compat_l; [lra|]. rewrite Rabs_mult. apply Rle_trans with ((1 + / 1000) * (8 + / 1000)); [apply Rmult_le_compat; try apply Rabs_pos; lra|lra]. }
      lra.
    - rewrite Rabs_mult. apply Rle_trans with (1 * 8); [apply Rmult_le_compat; lra|lra].
  Qed.
  Lemma pi_inv_near : Rabs (f_div ar 1 (round_double PI) - 1 / PI) <= 3 * w /\ Rabs (1 / PI) <= 1.
  Proof.
    pose proof w_small as [W0 W1]. pose proof pi_err as E. unfold e in E. rewrite (half_pow 52 53) in E by lia. fold w in E. replace (2 ^ (53 - 52)) with 2 in E by (cbn; lra).
    pose proof PI_4 as P4. assert (P3 : 3 < PI) by (pose proof pi_b; lra). set (p := round_double PI) in *. assert (Pp : 3 - / 1000 <= p /\ p <= 5) by (apply Rabs_le_inv in E; lra).
    assert (I1 : 0 < / p <= / 2) by (split; [apply Rinv_0_lt_compat; lra|apply Rinv_le_contravar; lra]). assert (I2 : 0 < / PI <= / 3) by (split; [apply Rinv_0_lt_compat; lra|apply Rinv_le_contravar; lra]).
    destruct (ops 1 p ltac:(rewrite Rabs_R1; lra) ltac:(rewrite Rabs_pos_eq; lra)) as (_ & _ & D). specialize (D ltac:(lra)).
    assert (Q : Rabs (1 / p - 1 / PI) <= 8 * w * (/ 2 * / 3)).
    { replace (1 / p - 1 / PI) with ((PI - p) * (/ p * / PI)) by (field; lra). rewrite Rabs_mult. apply Rmult_le_compat; try apply Rabs_pos.
      - rewrite Rabs_minus_sym. lra.
      - rewrite Rabs_pos_eq by (apply Rmult_le_pos; lra). apply Rmult_le_compat; lra. }
    split; [|rewrite Rabs_pos_eq; unfold Rdiv; lra]. eapply Rle_trans; [apply (tri _ _ _ _ _ D Q)|].
    assert (w * Rabs (1 / p) <= w * / 2) by (apply Rmult_le_compat_l; [lra|]; rewrite Rabs_pos_eq; unfold Rdiv; lra). lra.
  Qed.
  Definition cnear (d B : R) (z' z : CR) : Prop := (Rabs (fst z' - fst z) <= d * w /\ Rabs (fst z) <= B) /\ (Rabs (snd z' - snd z) <= d * w /\ Rabs (snd z) <= B).
  Definition small (z : CR) : Prop := Rabs (fst z) <= 2 /\ Rabs (snd z) <= 2.
  Lemma prod_near x y : small x -> small y -> cnear 20 8 (cf_mul ar x y) (rmul x y).
  Proof.
    destruct x as [a b], y as [c d]. intros [A B] [C D]. cbn [fst snd] in A, B, C, D.
    destruct (mul_near a c A C) as [P1 Q1], (mul_near b d B D) as [P2 Q2], (mul_near a d A D) as [P3 Q3], (mul_near b c B C) as [P4 Q4].
    assert (Q2' : Rabs (- (b * d)) <= 4) by (rewrite Rabs_Ropp; exact Q2). apply neg_near in P2.
    destruct (add_near _ _ _ _ 5 5 4 4 P1 P2 Q1 Q2' ltac:(lra) ltac:(lra) ltac:(lra)) as [E1 F1]. destruct (add_near _ _ _ _ 5 5 4 4 P3 P4 Q3 Q4 ltac:(lra) ltac:(lra) ltac:(lra)) as [E2 F2].
    change (rmul ((a, b) : CR) ((c, d) : CR)) with ((a * c - b * d, a * d + b * c) : CR). unfold cnear, cf_mul. cbn [fst snd]. replace (a * c - b * d) with (a * c + - (b * d)) by ring.
    split; split; lra.
  Qed.
  Lemma cnorm_near x : small x -> Rabs (f_cnorm ar x - cnorm x) <= 20 * w /\ Rabs (cnorm x) <= 8.
  Proof.
    destruct x as [a b]. intros [A B]. cbn [fst snd] in A, B. destruct (mul_near a a A A) as [P1 Q1], (mul_near b b B B) as [P2 Q2].
    destruct (add_near _ _ _ _ 5 5 4 4 P1 P2 Q1 Q2 ltac:(lra) ltac:(lra) ltac:(lra)) as [E1 F1]. unfold f_cnorm, cnorm. cbn [fst snd]. split; lra.
  Qed.
  Lemma cscale_near c c' d z' z : Rabs (c' - c) <= 3 * w -> Rabs c <= 1 -> 0 <= d <= 100 -> cnear d 8 z' z -> cnear (d + 40) 8 (cf_scale ar c' z') (rmul z (real c)).
  Proof.
    intros C C1 Hd [[A A8] [B B8]]. destruct z as [x y], z' as [x' y']. cbn [fst snd] in A, A8, B, B8.
    destruct (scale_near c c' x x' d C C1 A A8 Hd) as [E1 F1]. destruct (scale_near c c' y y' d C C1 B B8 Hd) as [E2 F2].
    change (rmul ((x, y) : CR) (real c)) with ((x * c - y * 0, x * 0 + y * c) : CR). unfold cnear, cf_scale. cbn [fst snd]. replace (x * c - y * 0) with (c * x) by ring. replace (x * 0 + y * c) with (c * y) by ring. repeat split; assumption.
  Qed.
  Lemma self_near c : Rabs (c - c) <= 3 * w.
  Proof. replace (c - c) with 0 by ring. rewrite Rabs_R0. pose proof w_small. fold w in H. lra. Qed.
  Lemma step_near h ev ev0 (k : nat) i j : (forall i, small (vget h i)) -> (k < 16)%nat -> cnear (240 * INR k) (8 * INR k) ev ev0 ->
    cnear (240 * INR (S k)) (8 * INR (S k)) (f_ev_step ar (round_double PI) h ev i j) (radd ev0 (ev_term h i j)).
  Proof.
    intros Hs Hk N. pose proof w_small as [W0 _]. fold w in W0. rewrite S_INR. assert (K1 : INR k <= 15) by (replace 15 with (INR 15) by (cbn; lra); apply le_INR; lia). pose proof (pos_INR k) as K0. set (r := INR k) in *.
    assert (Acc : forall t' t d, 0 <= d <= 100 -> cnear d 8 t' t -> cnear (240 * (r + 1)) (8 * (r + 1)) (cf_add ar ev t') (radd ev0 t)).
    { intros t' t d Hd [[A A8] [B B8]]. destruct N as [[E E8] [F F8]]. destruct ev as [x' y'], ev0 as [x y], t as [a b], t' as [a' b']. cbn [fst snd] in *.
      destruct (add_near x x' a a' (240 * r) d (8 * r) 8 E A E8 A8 ltac:(lra) ltac:(lra) ltac:(lra)) as [X1 X2]. destruct (add_near y y' b b' (240 * r) d (8 * r) 8 F B F8 B8 ltac:(lra) ltac:(lra) ltac:(lra)) as [Y1 Y2].
      change (radd ((x, y) : CR) ((a, b) : CR)) with ((x + a, y + b) : CR). unfold cnear, cf_add. cbn [fst snd]. assert (D : (240 * r + d + (8 * r + 8) + 2) * w <= 240 * (r + 1) * w) by (apply Rmult_le_compat_r; lra). repeat split; lra. }
    assert (AccR : forall t' t d, 0 <= d <= 100 -> Rabs (t' - t) <= d * w -> Rabs t <= 8 -> cnear (240 * (r + 1)) (8 * (r + 1)) (cf_add_real ar ev t') (radd ev0 (real t))).
    { intros a' a d Hd A A8. destruct N as [[E E8] [F F8]]. destruct ev as [x' y'], ev0 as [x y]. cbn [fst snd] in *.
      destruct (add_near x x' a a' (240 * r) d (8 * r) 8 E A E8 A8 ltac:(lra) ltac:(lra) ltac:(lra)) as [X1 X2].
      change (radd ((x, y) : CR) (real a)) with ((x + a, y + 0) : CR). unfold cnear, cf_add_real. cbn [fst snd]. rewrite Rplus_0_r. assert (D : (240 * r + d + (8 * r + 8) + 2) * w <= 240 * (r + 1) * w) by (apply Rmult_le_compat_r; lra).
      assert (D2 : 240 * r * w <= 240 * (r + 1) * w) by (apply Rmult_le_compat_r; lra). repeat split; lra. }
    destruct pi_inv_near as [PI1 PI2]. unfold f_ev_step, ev_term. fold ar in PI1. fold w in PI1.
    assert (Cn : forall c, Rabs c <= 1 -> Rabs (f_mul ar (f_cnorm ar (vget h i)) c - cnorm (vget h i) * c) <= 60 * w /\ Rabs (cnorm (vget h i) * c) <= 8).
    { intros c Hc. destruct (cnorm_near _ (Hs i)) as [C1 C2]. destruct (scale_near c c _ _ 20 (self_near c) Hc C1 C2 ltac:(lra)) as [S1 S2].
      rewrite (Rmult_comm (cnorm _)). split; [|exact S2]. replace (f_mul ar (f_cnorm ar (vget h i)) c) with (f_mul ar c (f_cnorm ar (vget h i))) by (cbn [ar double_arith f_mul]; f_equal; ring). lra. }
    pose proof (prod_near _ _ (Hs i) (Hs j)) as Pr.
    assert (H2 : Rabs (1 / 2) <= 1) by (rewrite Rabs_pos_eq; lra). assert (H4 : Rabs (1 / 4) <= 1) by (rewrite Rabs_pos_eq; lra).
    destruct (i =? j)%Z; [destruct (i <? 3)%Z|destruct ((i <? 3)%Z && (j <? 3)%Z)%bool; [|destruct ((i =? 0)%Z || (j =? 0)%Z)%bool]].
    - apply (AccR _ _ 60); [lra|apply Cn, H2|apply Cn, H2].
    - apply (AccR _ _ 60); [lra|apply Cn, H4|apply Cn, H4].
    - apply (Acc _ _ (20 + 40)); [lra|]. apply cscale_near; try assumption. lra.
    - apply (Acc _ _ (20 + 40)); [lra|]. apply cscale_near; try assumption; [apply self_near|lra].
    - apply (Acc _ _ (20 + 40 + 40)); [lra|]. apply cscale_near; try assumption; [lra|]. apply cscale_near; try assumption; [apply self_near|lra].
  Qed.
  Lemma row_near h i l : (forall i, small (vget h i)) -> forall k ev ev0, (k + length l <= 16)%nat -> cnear (240 * INR k) (8 * INR k) ev ev0 ->
    cnear (240 * INR (k + length l)) (8 * INR (k + length l)) (fold_left (fun ev j => f_ev_step ar (round_double PI) h ev i j) l ev) (fold_left (fun ev j => radd ev (ev_term h i j)) l ev0).
  Proof.
    intros Hs. induction l as [|j l IH]; intros k ev ev0 Hk N; cbn [fold_left length] in *; [rewrite Nat.add_0_r; exact N|].
    replace (k + S (length l))%nat with (S k + length l)%nat by lia. apply IH; [lia|]. apply step_near; [exact Hs|lia|exact N].
  Qed.
  Lemma number_near h : (forall i, small (vget h i)) ->
    Rabs (fst (f_particle_number ar (round_double PI) h) - fst (trivial_particle_number h)) <= / 2 ^ 41 /\
    Rabs (snd (f_particle_number ar (round_double PI) h) - snd (trivial_particle_number h)) <= / 2 ^ 41.
  Proof.
    intros Hs. assert (N0 : cnear (240 * INR 0) (8 * INR 0) (0, 0) (@r0 CR)) by (change (@r0 CR) with ((0, 0) : CR); unfold cnear; cbn [fst snd INR]; rewrite Rminus_0_r, Rabs_R0; lra).
    pose proof (row_near h 0 (zrange 0 4) Hs 0 _ _ ltac:(apply Nat.leb_le; reflexivity) N0) as N1. pose proof (row_near h 1 (zrange 0 4) Hs 4 _ _ ltac:(apply Nat.leb_le; reflexivity) N1) as N2.
    pose proof (row_near h 2 (zrange 0 4) Hs 8 _ _ ltac:(apply Nat.leb_le; reflexivity) N2) as N3. pose proof (row_near h 3 (zrange 0 4) Hs 12 _ _ ltac:(apply Nat.leb_le; reflexivity) N3) as N4.
    unfold f_particle_number, trivial_particle_number. change (zrange 0 4) with [0; 1; 2; 3]%Z at 2 4 6 8. cbn [fold_left]. 
    assert (B : forall x, x <= 240 * INR (16) * w -> x <= / 2 ^ 41).
    { intros x Hx. eapply Rle_trans; [exact Hx|]. match goal with |- context [INR ?n] => change n with 16%nat end. replace (INR 16) with 16 by (rewrite INR_IZR_INZ; reflexivity). rewrite (half_pow 41 53) by lia. fold w. replace (2 ^ (53 - 41)) with 4096 by (cbn; lra). pose proof w_small as [W0 _]. fold w in W0. lra. }
    destruct N4 as [[N4 _] [N5 _]]. split; apply B; assumption.
  Qed.
End Number.

(** ** The lines *)
Lemma iter_r {A} (f : A -> A) k : forall x, Nat.iter (S k) f x = Nat.iter k f (f x).
Proof. induction k as [|k IH]; intros x; [reflexivity|]. change (f (Nat.iter (S k) f x) = f (Nat.iter k f (f x))). rewrite IH. reflexivity. Qed.
Lemma lines_at ar conv pi dt m : forall steps i h k, (k <= steps)%nat ->
  nth_error (f_trivial_lines ar conv pi dt m i steps h) k =
  Some (f_mul ar (conv (i + Z.of_nat k)%Z) dt, Nat.iter k (f_dense_step ar dt m) h, f_particle_number ar pi (Nat.iter k (f_dense_step ar dt m) h)).
Proof.
  induction steps as [|steps IH]; intros i h k Hk.
  - replace k with 0%nat by lia. cbn [f_trivial_lines nth_error Nat.iter nat_rect]. rewrite Z.add_0_r. reflexivity.
  - destruct k as [|k]; cbn [f_trivial_lines nth_error]; [cbn [Nat.iter nat_rect]; rewrite Z.add_0_r; reflexivity|]. rewrite IH by lia.
    replace (i + 1 + Z.of_nat k)%Z with (i + Z.of_nat (S k))%Z by lia. rewrite <- iter_r. reflexivity.
Qed.
Lemma steps_iter garbage J U dt k : forall h, Nat.iter k (f_dense_step (double_arith garbage) dt (f_scaled (double_arith garbage) imag_unit (f_trivial_matrix (double_arith garbage) J U))) h = f_steps garbage J U dt k h.
Proof. induction k as [|k IH]; intros h; [reflexivity|]. rewrite iter_r, IH. reflexivity. Qed.
Lemma f_lines_length ar conv pi dt m : forall steps i h, length (f_trivial_lines ar conv pi dt m i steps h) = S steps.
Proof. induction steps as [|steps IH]; intros i h; cbn [f_trivial_lines length]; [reflexivity|]. rewrite IH. reflexivity. Qed.

(** every line: the time is right up to one rounding, the coefficients differ from the exact solution by the
    discretisation error plus 2^-40 per step, and the number written is right to 2^-41 for the formula of the
    program (C83: the occupation plus a spurious term) *)
Theorem C104_lines : forall garbage J U dt steps,
  let L := 2 * Rabs J + Rabs U in
  is_double J -> is_double (U / 2) -> L <= 2 ^ 500 -> dt ^ 2 * L ^ 2 <= 8 -> / 2 ^ 1000 <= dt <= 2 ^ 100 -> INR steps <= 2 ^ 40 ->
  length (double_trivial garbage J U dt steps) = S steps /\
  exists y, exact_solution 4 (small_generator J U) y /\ (forall i, (0 <= i < 4)%Z -> y 0 i = if Z.eqb i 0 then real 1 else real 0) /\
    forall k, (k <= steps)%nat -> exists t h n, nth_error (double_trivial garbage J U dt steps) k = Some (t, h, n) /\ length h = 4%nat /\
      Rabs (t - INR k * dt) <= INR k * dt / 2 ^ 53 + / 2 ^ 1075 /\
      distance2 h (y (INR k * dt)) <= INR k * dt * dt ^ 4 * L ^ 5 / 120 + INR k / 2 ^ 40 /\
      let exact := radd (occupation (vget h)) (rmul ((0, 2) : CR) (spurious (vget h))) in
      Rabs (fst n - fst exact) <= / 2 ^ 41 /\ Rabs (snd n - snd exact) <= / 2 ^ 41.
Proof.
  intros garbage J U dt steps L HJ HU HL Ha Hh Hs. split; [apply f_lines_length|].
  destruct (C83_lines J U dt 0 (mkSt (K := CR) [] [] [] [])) as (_ & y & Hy & Y0 & _). exists y. split; [exact Hy|]. split; [exact Y0|].
  intros k Hk. unfold double_trivial, f_trivial_program. eexists _, _, _. split; [apply lines_at; exact Hk|]. rewrite steps_iter.
  assert (Hk' : INR k <= 2 ^ 40) by (eapply Rle_trans; [apply le_INR; exact Hk|exact Hs]). pose proof (pos_INR k) as K0.
  destruct (state_error garbage J U dt HJ HU HL Ha Hh k y Hk' Hy Y0) as (E1 & E2 & E3). set (h := f_steps garbage J U dt k _) in *.
  assert (L4 : length h = 4%nat) by lia. split; [exact L4|]. split; [|split].
  - rewrite Z.add_0_l. rewrite int_exact.
    + rewrite <- INR_IZR_INZ. destruct (double_ok garbage (INR k) dt) as (_ & P & _). unfold within in P.
      assert (D0 : 0 < / 2 ^ 1000) by (apply Rinv_0_lt_compat, pow_lt; lra). assert (Q : 0 <= INR k * dt) by (apply Rmult_le_pos; lra). rewrite (Rabs_pos_eq (INR k * dt)) in P by exact Q.
      eapply Rle_trans; [apply P|apply Req_le; unfold Rdiv; ring]. apply Rle_trans with (2 ^ 40 * 2 ^ 100); [apply Rmult_le_compat; lra|]. rewrite <- pow_add. apply Rle_pow; [lra|lia].
    + rewrite INR_IZR_INZ, pow_IZR in Hk'. apply le_IZR in Hk'. change (2 ^ Z.of_nat 40)%Z with (2 ^ 40)%Z in Hk'. lia.
  - exact E2.
  - assert (S2 : forall i, small (vget h i)).
    { assert (B : length2 h <= 2) by (eapply Rle_trans; [exact E3|]; assert (INR k * / 2 ^ 40 <= 1); [|lra]; apply Rle_trans with (2 ^ 40 * / 2 ^ 40); [apply Rmult_le_compat_r; [left; apply Rinv_0_lt_compat, pow_lt; lra|exact Hk']|rewrite Rinv_r by (apply pow_nonzero; lra); lra]).
      rewrite (len2_nrm 4 h E1) in B. intros i. destruct (Z_lt_le_dec i 0) as [C|C]; [|destruct (Z_lt_le_dec i 4) as [D|D]].
      - assert (V : vget h i = vget h 0) by (unfold vget; replace (Z.to_nat i) with 0%nat by lia; reflexivity). rewrite V.
        split; (eapply Rle_trans; [|exact B]); [apply (nrm_point (idx 4) (vec h) (0%Z, true))|apply (nrm_point (idx 4) (vec h) (0%Z, false))]; apply idx_in; cbn [fst]; lia.
      - split; (eapply Rle_trans; [|exact B]); [apply (nrm_point (idx 4) (vec h) (i, true))|apply (nrm_point (idx 4) (vec h) (i, false))]; apply idx_in; cbn [fst]; lia.
      - assert (V : vget h i = (0, 0)) by (unfold vget; rewrite nth_overflow by lia; reflexivity). rewrite V. split; cbn [fst snd]; rewrite Rabs_R0; lra. }
    destruct (C83_particle_number h L4) as [_ Ex]. rewrite <- Ex. apply number_near. exact S2.
Qed.
Print Assumptions C104_lines.
(** the program as shipped: 2001 lines, the coefficients right to 10^-6, the times to 10^-13 *)
Lemma dt_near : Rabs (trivial_dt - 1 / 100) <= / 2 ^ 58.
Proof.
  assert (B : Rabs (1 / 100) <= bpow radix2 1023) by (rewrite Rabs_pos_eq by lra; apply Rle_trans with (bpow radix2 0); [cbn; lra|apply bpow_le; lia]).
  pose proof (double_within (fun _ => 0) (1 / 100) B) as W. rewrite (double_round (fun _ => 0) (1 / 100) B) in W. fold trivial_dt in W. eapply Rle_trans; [exact W|].
  change (-53)%Z with (- Z.of_nat 53)%Z. change (-1075)%Z with (- Z.of_nat 1075)%Z. rewrite !bm. rewrite (Rabs_pos_eq (1 / 100)) by lra.
  assert (/ 2 ^ 1075 <= / 2 ^ 63) by (apply Rinv_le_contravar; [apply pow_lt; lra|apply Rle_pow; [lra|lia]]). rewrite (half_pow 53 63), (half_pow 58 63) by lia.
  replace (2 ^ (63 - 53)) with 1024 by (cbn; lra). replace (2 ^ (63 - 58)) with 32 by (cbn; lra). assert (0 < / 2 ^ 63) by (apply Rinv_0_lt_compat, pow_lt; lra). lra.
Qed.
Theorem C104_shipped : forall garbage, let out := double_trivial garbage 1 1 trivial_dt 2000 in
  length out = 2001%nat /\
  exists y, exact_solution 4 (small_generator 1 1) y /\ (forall i, (0 <= i < 4)%Z -> y 0 i = if Z.eqb i 0 then real 1 else real 0) /\
    forall k, (k <= 2000)%nat -> exists t h n, nth_error out k = Some (t, h, n) /\ length h = 4%nat /\
      Rabs (t - INR k / 100) <= / 10 ^ 13 /\ distance2 h (y (INR k * trivial_dt)) <= / 10 ^ 6.
Proof.
  intros garbage out. pose proof dt_near as D. assert (S58 : / 2 ^ 58 <= / 10 ^ 17) by (apply Rinv_le_contravar; [apply pow_lt; lra|cbn; lra]). assert (T17 : / 10 ^ 17 = / 100000000000000000) by (f_equal; ring). rewrite T17 in S58.
  apply Rabs_le_inv in D. assert (D1 : 1 / 100 - / 100000000000000000 <= trivial_dt <= 1 / 100 + / 100000000000000000) by lra. set (dt := trivial_dt) in *.
  assert (S1 : INR 2000 = 2000) by (rewrite INR_IZR_INZ; reflexivity).
  assert (I1 : is_double 1) by (apply double_int; lia). assert (I2 : is_double (1 / 2)).
  { apply generic_format_FLT. exists (Float radix2 1 (-1)); [unfold F2R; cbn; lra|cbn; lia|cbn; lia]. }
  destruct (C104_lines garbage 1 1 dt 2000) as (Len & y & Hy & Y0 & H); try assumption.
  - rewrite Rabs_R1. apply Rle_trans with (2 ^ 2); [lra|apply Rle_pow; [lra|lia]].
  - rewrite Rabs_R1. nra.
  - split; [apply Rle_trans with (/ 2 ^ 10); [apply Rinv_le_contravar; [apply pow_lt; lra|apply Rle_pow; [lra|lia]]|replace (2 ^ 10) with 1024 by ring; lra]|apply Rle_trans with 1; [lra|apply pow_R1_Rle; lra]].
  - rewrite S1. apply Rle_trans with (2 ^ 11); [lra|apply Rle_pow; [lra|lia]].
  - split; [exact Len|]. exists y. split; [exact Hy|]. split; [exact Y0|]. intros k Hk. destruct (H k Hk) as (t & h & n & E & Lh & T & E2 & _). exists t, h, n. split; [exact E|]. split; [exact Lh|].
    assert (K1 : INR k <= 2000) by (rewrite <- S1; apply le_INR; exact Hk). pose proof (pos_INR k) as K0. clear H E. set (r := INR k) in *. clearbody r.
    assert (RD : 0 <= r * dt <= 21) by (split; [apply Rmult_le_pos; lra|apply Rle_trans with (2000 * dt); [apply Rmult_le_compat_r; lra|lra]]). split.
    + apply Rle_trans with (r * dt / 2 ^ 53 + / 2 ^ 1075 + 2000 * / 2 ^ 58).
      * apply (tri t (r * dt) (r / 100)); [exact T|]. replace (r * dt - r / 100) with (r * (dt - 1 / 100)) by field. rewrite Rabs_mult, (Rabs_pos_eq r) by exact K0. apply Rmult_le_compat; [exact K0|apply Rabs_pos|exact K1|apply dt_near].
      * assert (A : / 2 ^ 1075 <= / 2 ^ 53) by (apply Rinv_le_contravar; [apply pow_lt; lra|apply Rle_pow; [lra|lia]]). assert (B : / 2 ^ 53 = 32 * / 2 ^ 58) by (rewrite (half_pow 53 58) by lia; replace (2 ^ (58 - 53)) with 32 by (cbn; lra); reflexivity).
        assert (P58 : 0 < / 2 ^ 58) by (apply Rinv_0_lt_compat, pow_lt; lra). assert (X : r * dt / 2 ^ 53 <= 21 * / 2 ^ 53) by (unfold Rdiv; apply Rmult_le_compat_r; lra).
        apply Rle_trans with (10000 * / 2 ^ 58); [lra|]. replace (/ 10 ^ 13) with (10000 * / 100000000000000000); [lra|]. replace (10 ^ 13) with 10000000000000 by ring. field.
    + eapply Rle_trans; [exact E2|]. rewrite Rabs_R1. replace (2 * 1 + 1) with 3 by ring.
      assert (D4 : 0 <= dt ^ 4 <= (1 / 99) ^ 4) by (split; [apply pow_le; lra|apply pow_incr; lra]).
      assert (X1 : r * dt * dt ^ 4 <= 21 * (1 / 99) ^ 4) by (apply Rmult_le_compat; lra).
      assert (X2 : r / 2 ^ 40 <= 2000 * / 2 ^ 40) by (unfold Rdiv; apply Rmult_le_compat_r; [left; apply Rinv_0_lt_compat, pow_lt; lra|exact K1]).
      replace (3 ^ 5) with 243 by ring. replace (2 ^ 40) with 1099511627776 in * by ring. replace (10 ^ 6) with 1000000 by ring. replace ((1 / 99) ^ 4) with (1 / 96059601) in X1 by (cbn; field).
      clear - X1 X2. lra.
Qed.
Print Assumptions C104_shipped.
