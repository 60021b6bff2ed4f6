(** THEOREMS: C83 (the small test program). *)
From Coq Require Import Reals Lra Psatz.
From Verif Require Import Base M_Matrix M_MatrixCheck M_Ode M_Dispersion Spec_Ode Pf_Matrix Pf_Matrix2 Pf_Ode P_Ode P_Dynamics
  Spec_Stability Pf_Stability Pf_Stability2 Pf_Stability3 Pf_Solution P_Stability Spec_Trivial M_Trivial.
Local Open Scope R_scope.
Local Open Scope list_scope.
Local Notation len u := (Z.of_nat (length u)).

Section G.
  Variables J U : R.
  Let mul := mat_vec (scaled imag_unit (trivial_matrix J U)).
  Lemma four i : (0 <= i < 4)%Z -> i = 0%Z \/ i = 1%Z \/ i = 2%Z \/ i = 3%Z. Proof. lia. Qed.
  Lemma t_acts : acts_as CR 4 (small_generator J U) mul.
  Proof.
    intros u Lu. unfold mul, mat_vec. rewrite map_length, zrange_length. cbn [m_rows m_cols scaled trivial_matrix]. split; [reflexivity|].
    intros i Hi. unfold vget at 1. rewrite nth_zrange_map by exact Hi. apply sum_over_ext. intros j Hj. apply zrange_in in Hj. f_equal.
    destruct (four i Hi) as [->|[->|[->| ->]]], (four j Hj) as [->|[->|[->| ->]]]; apply (injective_projections (A := R) (B := R)); cbn; unfold Pos.to_nat; cbn; ring.
  Qed.
  Lemma t_anti : anti_hermitian CR 4 (small_generator J U).
  Proof.
    intros i j Hi Hj. unfold small_generator, small_coupling. rewrite (Z.eqb_sym j i), (Z.add_comm j i), (orb_comm (Z.eqb j 0)).
    apply (injective_projections (A := R) (B := R)); cbn; [ring|]. destruct (Z.eqb_spec i j) as [<-|_]; ring.
  Qed.
  Lemma t_rows : row_bound 4 (small_generator J U) (2 * Rabs J + Rabs U).
  Proof.
    intros i Hi. assert (U2 : Rabs (U / 2) = Rabs U / 2) by (unfold Rdiv; rewrite Rabs_mult, (Rabs_pos_eq (/ 2)) by lra; reflexivity).
    pose proof (Rabs_pos J). pose proof (Rabs_pos U).
    change (zrange 0 4) with [0; 1; 2; 3]%Z. destruct (four i Hi) as [->|[->|[->| ->]]]; cbn; unfold small_coupling; cbn; rewrite ?U2, ?Rabs_Ropp, ?Rabs_R0; lra.
  Qed.
  Lemma t_pos : 0 <= 2 * Rabs J + Rabs U.
  Proof. pose proof (Rabs_pos J). pose proof (Rabs_pos U). lra. Qed.
  Lemma lines_run rk dt : forall k i st h m, (m <= k)%nat -> exists sts, length sts = m /\
    let hm := run_steps CR (real (1/2)) (real (1/6)) rk mul sts h in
    nth_error (trivial_lines rk mul dt i k st h) m = Some (INR (i + m) * dt, hm, trivial_particle_number hm).
  Proof.
    induction k as [|k IH]; intros i st h m Hm.
    - replace m with 0%nat by lia. exists []. split; [reflexivity|]. cbn. rewrite Nat.add_0_r. reflexivity.
    - destruct m as [|m]; [exists []; split; [reflexivity|]; cbn [run_steps trivial_lines nth_error]; rewrite Nat.add_0_r; reflexivity|].
      cbn [trivial_lines nth_error]. destruct (rk_step (real (1/2)) (real (1/6)) rk mul st h) as [st' h'] eqn:E.
      destruct (IH (S i) st' h' m ltac:(lia)) as (sts & Ls & Es). exists (st :: sts). split; [cbn [length]; rewrite Ls; reflexivity|].
      cbn [run_steps]. rewrite E. cbn [snd]. rewrite Es. replace (i + S m)%nat with (S i + m)%nat by lia. reflexivity.
  Qed.
  Lemma lines_length rk dt : forall k i st h, length (trivial_lines rk mul dt i k st h) = S k.
  Proof.
    induction k as [|k IH]; intros i st h; [reflexivity|]. cbn [trivial_lines length]. destruct (rk_step _ _ rk mul st h) as [st' h']. rewrite IH. reflexivity.
  Qed.
End G.

(** one line per step, with the time, the coefficients and the particle number of these *)
Theorem C83_lines : forall J U dt steps st,
  let L := 2 * Rabs J + Rabs U in
  length (trivial_program J U dt steps st) = S steps /\
  exists y, exact_solution 4 (small_generator J U) y /\
    (forall i, (0 <= i < 4)%Z -> y 0 i = if Z.eqb i 0 then real 1 else real 0) /\
    (forall y', exact_solution 4 (small_generator J U) y' -> (forall i, (0 <= i < 4)%Z -> y' 0 i = if Z.eqb i 0 then real 1 else real 0) ->
       forall t i, (0 <= i < 4)%Z -> y' t i = y t i) /\
    forall k, (k <= steps)%nat -> exists h, length h = 4%nat /\
      nth_error (trivial_program J U dt steps st) k = Some (INR k * dt, h, trivial_particle_number h) /\
      (dt ^ 2 * L ^ 2 <= 8 -> norm2 h <= 1) /\
      (0 <= dt -> dt ^ 2 * L ^ 2 <= 8 -> distance2 h (y (INR k * dt)) <= INR k * dt * dt ^ 4 * L ^ 5 / 120).
Proof.
  intros J U dt steps st L. split; [apply lines_length|].
  pose proof (t_acts J U) as Ac. pose proof (t_anti J U) as An. pose proof (t_pos J U) as Lp. fold L in Lp.
  pose proof (row_op _ _ _ An (t_rows J U) Lp) as Op. fold L in Op.
  assert (V0 : forall i, (0 <= i < 4)%Z -> vget trivial_start i = if Z.eqb i 0 then real 1 else real 0).
  { intros i Hi. destruct (four i Hi) as [->|[->|[->| ->]]]; reflexivity. }
  destruct (exists_unique 4 _ L trivial_start An Op Lp) as (y & Ey & Y0 & Yu).
  exists y. split; [exact Ey|]. split; [intros i Hi; rewrite (Y0 i Hi); apply V0; exact Hi|].
  split; [intros y' Hy' Hy0; apply (Yu y' Hy'); intros i Hi; rewrite (Hy0 i Hi); symmetry; apply V0; exact Hi|].
  assert (N0 : norm2 trivial_start = 1) by (unfold norm2, trivial_start; rewrite !sum_over_cons, sum_over_nil; cbn; ring).
  intros k Hk. destruct (lines_run J U (mkRk4 (K := CR) 4 (real dt)) dt steps 0 st trivial_start k Hk) as (sts & Ls & Es). cbv zeta in Es.
  eexists. split; [|split; [exact Es|split]].
  - apply Nat2Z.inj. exact (run_len 4 _ _ Ac 4 dt sts trivial_start eq_refl).
  - intros Hd. apply Rle_trans with (norm2 trivial_start); [exact (run_norm 4 _ _ L Ac An Op 4 dt sts Hd trivial_start eq_refl)|lra].
  - intros Hp Hd. rewrite <- Ls. eapply Rle_trans; [exact (run_error 4 _ _ L Ac An Lp Op 4 dt sts trivial_start y Hp Hd eq_refl Ey Y0)|].
    unfold length2. rewrite N0, sqrt_1. apply Req_le. field.
Qed.

(** The number written is not the occupation: the coefficients of different operators are
    multiplied without complex conjugation. *)
Theorem C83_particle_number : forall h, length h = 4%nat ->
  snd (occupation (vget h)) = 0 /\
  trivial_particle_number h = radd (occupation (vget h)) (rmul ((0, 2) : CR) (spurious (vget h))).
Proof.
  intros [|[a a'] [|[b b'] [|[c c'] [|[d d'] [|]]]]] H; try discriminate. cbn in a, a', b, b', c, c', d, d'.
  assert (Zr : zrange 0 4 = [0; 1; 2; 3]%Z) by reflexivity. pose proof PI_neq0 as Pn.
  split.
  - unfold occupation. rewrite Zr. rewrite !sum_over_cons, !sum_over_nil. unfold small_ev, vget. cbn. unfold Pos.to_nat. cbn. field. exact Pn.
  - unfold trivial_particle_number, occupation, spurious. rewrite Zr. cbn [fold_left]. rewrite !sum_over_cons, !sum_over_nil. unfold ev_term, cnorm, small_ev, vget.
    apply (injective_projections (A := R) (B := R)); cbn; unfold Pos.to_nat; cbn; field; exact Pn.
Qed.

(** With the parameters of the program the second line has an imaginary part. *)
Theorem C83_particle_number_refuted : forall st, exists h n,
  nth_error (trivial_program 1 1 (/ 100) 2000 st) 1 = Some (/ 100, h, n) /\
  snd (occupation (vget h)) = 0 /\ snd n <> 0.
Proof.
  intros st. destruct (lines_run 1 1 (mkRk4 (K := CR) 4 (real (/ 100))) (/ 100) 2000 0 st trivial_start 1 ltac:(lia)) as (sts & Ls & Es). cbv zeta in Es.
  destruct sts as [|s1 [|]]; try discriminate Ls. cbn [run_steps] in Es.
  set (mul := mat_vec (scaled imag_unit (trivial_matrix 1 1))) in *.
  assert (Mv : forall a a' b b' c c' d d' : R, mul ([(a, a'); (b, b'); (c, c'); (d, d')] : list CR) =
    ([(- (a'/2 - b' - c' + d'/2), a/2 - b - c + d/2); (- (- a' + b'/2), - a + b/2); (- (- a' + c'/2), - a + c/2); (- (a'/2 + d'/2), a/2 + d/2)] : list CR)).
  { intros. unfold mul, mat_vec. cbn [m_rows m_cols scaled trivial_matrix m_at]. change (zrange 0 4) with [0; 1; 2; 3]%Z. cbn [map]. rewrite !sum_over_cons, !sum_over_nil. unfold vget.
    repeat (apply (f_equal2 (@cons CR))); try reflexivity; apply (injective_projections (A := R) (B := R)); cbn; unfold Pos.to_nat; cbn; field. }
  set (h1 := ([(4799400017/4800000000, 59993/12000000); (23999/480000000, -19999/2000000); (23999/480000000, -19999/2000000); (-23999/960000000, 19999/4000000)] : list CR)).
  assert (H1 : snd (rk_step (real (1/2)) (real (1/6)) (mkRk4 (K := CR) 4 (real (/ 100))) mul s1 trivial_start) = h1).
  { unfold rk_step, rk_combine. cbn [snd s_k1 s_k2 s_k3 s_k4 rk_step_size]. unfold trivial_start, real. rewrite Mv.
    cbn [vadd vscale map combine fst snd]. cbn [radd rmul CR cplx_ring Rring fst snd].
    repeat (rewrite Mv; cbn [vadd vscale map combine fst snd]; cbn [radd rmul CR cplx_ring Rring fst snd]).
    unfold h1. repeat (apply (f_equal2 (@cons CR))); try reflexivity; apply (injective_projections (A := R) (B := R)); cbn; field. }
  rewrite H1 in Es. exists h1, (trivial_particle_number h1). split; [|split].
  - unfold trivial_program. fold mul. rewrite Es. replace (INR (0 + 1) * / 100) with (/ 100) by (cbn; ring). reflexivity.
  - apply C83_particle_number. reflexivity.
  - unfold trivial_particle_number, h1. change (zrange 0 4) with [0; 1; 2; 3]%Z. cbn [fold_left]. unfold ev_term, cnorm, vget. cbn. unfold Pos.to_nat. cbn.
    pose proof PI_RGT_0 as P0. pose proof PI_4 as P4. intros C.
    assert (P5 : / 4 <= 1 / PI) by (unfold Rdiv; rewrite Rmult_1_l; apply Rinv_le_contravar; assumption).
    set (p := 1 / PI) in *. clearbody p. clear - C P5. lra.
Qed.
Print Assumptions C83_lines.
Print Assumptions C83_particle_number.
Print Assumptions C83_particle_number_refuted.
(** the parameters of the program: 2001 lines, error of the last one below 10^-6 *)
Example C83_default : (/ 100) ^ 2 * (2 * Rabs 1 + Rabs 1) ^ 2 <= 8 /\
  INR 2000 * (/ 100) * (/ 100) ^ 4 * (2 * Rabs 1 + Rabs 1) ^ 5 / 120 <= / 1000000.
Proof.
  rewrite Rabs_R1. split; [lra|]. replace (INR 2000) with 2000; [lra|]. rewrite INR_IZR_INZ. f_equal.
Qed.
