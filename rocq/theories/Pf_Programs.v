(** PROOFS for C86, C87. *)
From Coq Require Import Reals Lra Psatz.
From Verif Require Import Base M_Operator M_Lattice Spec_Lattice Pf_Lattice M_LatticeReal Spec_LatticeReal M_Basis Pf_Basis M_Matrix M_Ode M_Dispersion M_OpenMP Spec_OpenMP M_Expectation M_SiteOccupation M_TimeLoop Spec_TimeLoop P_TimeLoop Spec_Ode
  Pf_Matrix Pf_Matrix2 Pf_MatrixEntry P_Dispersion Spec_Matrix Pf_Ode P_Ode
  Spec_Stability Pf_Stability Pf_Stability2 Pf_Stability3 Pf_Solution P_Stability Pf_Arrow Spec_Programs M_Programs.
Local Open Scope R_scope.
Local Open Scope list_scope.
Local Notation len u := (Z.of_nat (length u)).

Lemma init_vector_unit n : (0 < n)%Z -> exists h0, init_vector (K := CR) n = Ok h0 /\ len h0 = n /\ forall i, (0 <= i < n)%Z -> vget h0 i = first_unit i.
Proof.
  intros Hn. unfold init_vector. destruct (Z.leb_spec n 0) as [C|_]; [lia|]. eexists. split; [reflexivity|]. split.
  - rewrite list_set_length, map_length, zrange_length. lia.
  - intros i Hi. unfold vget. rewrite zrange_cons by lia. cbn [map list_set]. unfold first_unit. destruct (Z.eqb_spec i 0) as [->|Hne]; [reflexivity|].
    destruct (Z.to_nat i) eqn:Ez; [lia|]. cbn [nth].
    destruct (nth_in_or_default n0 (map (fun _ : Z => @r0 CR) (zrange (0 + 1) n)) (@r0 CR)) as [Hin| ->]; [|reflexivity].
    apply in_map_iff in Hin as (? & <- & _). reflexivity.
Qed.
Lemma unit_norm n h0 : (0 < n)%Z -> len h0 = n -> (forall i, (0 <= i < n)%Z -> vget h0 i = first_unit i) -> norm2 h0 = 1.
Proof.
  intros Hn L0 V0. rewrite (vec_n2 n _ L0). unfold n2, dot. rewrite SR_idx. rewrite (SR_ext _ (fun i => if Z.eqb 0 i then 1 else 0)).
  - apply SR_pick_eq; [apply zrange_NoDup|]. apply zrange_in. lia.
  - intros i Hi. apply zrange_in in Hi. unfold vec, vecf. cbn [fst snd part]. rewrite (V0 i Hi), (Z.eqb_sym 0 i). unfold first_unit. destruct (Z.eqb i 0); cbn; ring.
Qed.
(** the state after k steps *)
Lemma integrate_iter n dt M st h k : exists sts, length sts = k /\
  steps_done (times_applied (integrate n dt M) k (mkProgress 0 st h)) = k /\
  coefficients (times_applied (integrate n dt M) k (mkProgress 0 st h)) =
    run_steps CR (real (1/2)) (real (1/6)) (mkRk4 (K := CR) n (real dt)) (sp_vec M) sts h.
Proof.
  induction k as [|k (sts & Ls & Ek & Es)]; [exists []; repeat split|].
  set (s := times_applied (integrate n dt M) k (mkProgress 0 st h)) in *.
  exists (sts ++ [buffers s]). split; [rewrite app_length, Ls; cbn; lia|].
  change (times_applied (integrate n dt M) (S k) (mkProgress 0 st h)) with (integrate n dt M s). split; [cbn; rewrite Ek; reflexivity|].
  rewrite run_app. cbn [run_steps]. rewrite <- Es. reflexivity.
Qed.

(** everything about the coefficients, for a matrix with the properties needed *)
Section Main.
  Context (rnd : R -> R) (u : R) (st : statics CR) (n : Z) (dt t_end : R) (interval : Z) (steps : nat).
  Context (m : bmat CR) (matrix : outcome (bmat CR)) (B : R).
  Hypothesis Em : matrix = Ok (bm_scale imag_unit m).
  Let E := entry (bm_scale imag_unit m).
  Hypothesis acts : acts_as CR n E (sp_vec (bm_scale imag_unit m)).
  Hypothesis anti : anti_hermitian CR n E.
  Hypothesis op : op_bound n E B.
  Hypothesis Bpos : 0 <= B.
  Hypothesis Hn : (0 < n)%Z.
  Hypothesis Hdt : 0 < dt.
  Hypothesis Hd : dt ^ 2 * B ^ 2 <= 8.
  Hypothesis Hu : 0 <= u.
  Hypothesis Hr : relative_rounding rnd u.
  Hypothesis Hsmall : 32 * u * INR steps * INR steps <= 1.
  Hypothesis H64 : (Z.of_nat steps < two64)%Z.
  Hypothesis Hi : (0 <= interval)%Z.
  Hypothesis Hsteps : steps_until rnd dt t_end steps.
  Lemma main_lines : exists (y : R -> Z -> CR) (s : nat -> progress),
    exact_solution n E y /\ (forall i, (0 <= i < n)%Z -> y 0 i = first_unit i) /\
    (forall y', exact_solution n E y' -> (forall i, (0 <= i < n)%Z -> y' 0 i = first_unit i) -> forall t i, (0 <= i < n)%Z -> y' t i = y t i) /\
    (forall (O : Type) (obs : progress -> O), terminates_with (run_main rnd st n dt t_end interval matrix obs)
      (Ok (map (fun k => (time_at rnd dt k, obs (s k))) (schedule (Z.to_nat (Z.max 1 interval)) steps)))) /\
    (forall i, (0 <= i < n)%Z -> vget (coefficients (s 0%nat)) i = first_unit i) /\
    (forall t, n2 (idx n) (vecf (y t)) = 1) /\
    forall k, steps_done (s k) = k /\ len (coefficients (s k)) = n /\ norm2 (coefficients (s k)) <= 1 /\
      distance2 (coefficients (s k)) (y (INR k * dt)) <= INR k * dt * dt ^ 4 * B ^ 5 / 120.
  Proof.
    destruct (init_vector_unit n Hn) as (h0 & E0 & L0 & V0). pose proof (unit_norm n h0 Hn L0 V0) as N0.
    destruct (exists_unique n E B h0 anti op Bpos) as (y & Ey & Y0 & Yu).
    exists y, (fun k => times_applied (integrate n dt (bm_scale imag_unit m)) k (mkProgress 0 st h0)).
    split; [exact Ey|]. split; [intros i Hi'; rewrite (Y0 i Hi'); apply V0; exact Hi'|].
    split; [intros y' Hy' Hy0; apply (Yu y' Hy'); intros i Hi'; rewrite (Hy0 i Hi'); symmetry; apply V0; exact Hi'|].
    split; [|split; [exact V0|split]].
    - intros O obs. destruct (C53_schedule progress O rnd u dt t_end interval steps (integrate n dt (bm_scale imag_unit m)) obs (mkProgress 0 st h0) Hdt Hu Hr Hsmall H64 Hi Hsteps) as (s & (f0 & T) & _ & _ & Out).
      exists f0. intros fuel Hf. unfold run_main. rewrite Em, E0, (T fuel Hf), Out. reflexivity.
    - intros t.
      assert (Lift : solution (idx n) (SM E) (fun t => vecf (y t))).
      { intros t' [i c] Hi'. rewrite ap_SM. apply idx_in in Hi'. cbn [fst snd] in *. destruct (Ey t' i Hi') as [D1 D2]. unfold vecf. cbn [fst snd]. destruct c; cbn [part]; [exact D1|exact D2]. }
      rewrite (norm_conserved (idx n) (SM E) (SM_anti n _ anti) _ Lift t). rewrite <- N0, (vec_n2 n _ L0).
      unfold n2. apply dot_ext; intros p Hp'; apply idx_in in Hp'; unfold vec, vecf; rewrite (Y0 _ Hp'); reflexivity.
    - intros k. destruct (integrate_iter n dt (bm_scale imag_unit m) st h0 k) as (sts & Ls & Ek & Es).
      split; [exact Ek|]. rewrite Es. split; [exact (run_len n _ _ acts n dt sts h0 L0)|]. split.
      + eapply Rle_trans; [exact (run_norm n _ _ B acts anti op n dt sts Hd h0 L0)|rewrite N0; apply Rle_refl].
      + pose proof (run_error n _ _ B acts anti Bpos op n dt sts h0 y (Rlt_le _ _ Hdt) Hd L0 Ey Y0) as Er. rewrite Ls in Er.
        eapply Rle_trans; [exact Er|]. unfold length2. rewrite N0, sqrt_1. apply Req_le. field.
  Qed.
End Main.

Lemma dot_abs {T} (I : list T) x y : Rabs (dot I x y) <= nrm I x * nrm I y.
Proof.
  apply Rabs_le. split; [|apply dot_le]. pose proof (dot_le I (fun i => -1 * x i) y) as Q. rewrite nrm_neg, dot_mul_l in Q. lra.
Qed.
(** ** quadratic forms with bounded coefficients *)
Section Form.
  Context (n : Z) (w : Z -> Z -> R) (c : R).
  Hypothesis Hc : 0 <= c.
  Hypothesis Hw : forall i j, (0 <= i < n)%Z -> (0 <= j < n)%Z -> Rabs (w i j) <= c.
  Definition W (p q : Z * bool) : R := if Bool.eqb (snd p) (snd q) then w (fst p) (fst q) else 0.
  Definition quad (v : Z -> CR) : R := SR (fun i => SR (fun j => w i j * (fst (v i) * fst (v j) + snd (v i) * snd (v j))) (zrange 0 n)) (zrange 0 n).
  Lemma ap_W x i b : ap (idx n) W x (i, b) = SR (fun j => w i j * x (j, b)) (zrange 0 n).
  Proof. unfold ap. rewrite SR_idx. apply SR_ext. intros j _. unfold W. cbn [fst snd]. destruct b; cbn [Bool.eqb]; ring. Qed.
  Lemma quad_dot v : quad v = dot (idx n) (vecf v) (ap (idx n) W (vecf v)).
  Proof.
    unfold quad, dot. rewrite SR_idx. apply SR_ext. intros i _. rewrite !ap_W. rewrite <- !SR_mul, <- SR_add. apply SR_ext. intros j _. unfold vecf. cbn [fst snd part]. ring.
  Qed.
  Lemma INR_zr : (0 <= n)%Z -> SR (fun _ : Z => 1) (zrange 0 n) = IZR n.
  Proof. intros H. rewrite SR_const, (INR_len _ n) by (rewrite zrange_length; lia). ring. Qed.
  Lemma W_norm x : (0 <= n)%Z -> n2 (idx n) (ap (idx n) W x) <= (c * IZR n) ^ 2 * n2 (idx n) x.
  Proof.
    intros Hn. assert (PN : 0 <= IZR n) by (apply IZR_le; lia).
    assert (Row : forall i b, (0 <= i < n)%Z -> ap (idx n) W x (i, b) ^ 2 <= c ^ 2 * IZR n * SR (fun j => x (j, b) ^ 2) (zrange 0 n)).
    { intros i b Hi. rewrite ap_W.
      assert (A : Rabs (SR (fun j => w i j * x (j, b)) (zrange 0 n)) <= c * SR (fun j => 1 * Rabs (x (j, b))) (zrange 0 n)).
      { eapply Rle_trans; [apply SR_abs|]. rewrite <- SR_mul. apply SR_le. intros j Hj. apply zrange_in in Hj. rewrite Rabs_mult. pose proof (Hw i j Hi Hj). pose proof (Rabs_pos (x (j, b))). nra. }
      pose proof (weighted_cs (fun _ : Z => 1) (fun j => Rabs (x (j, b))) (zrange 0 n) ltac:(intros; lra)) as Q. rewrite (INR_zr Hn) in Q.
      rewrite (SR_ext (fun i0 => 1 * Rabs (x (i0, b)) ^ 2) (fun j => x (j, b) ^ 2)) in Q by (intros; rewrite pow2_abs; ring).
      set (S1 := SR (fun j => 1 * Rabs (x (j, b))) (zrange 0 n)) in *. set (S2 := SR (fun j => x (j, b) ^ 2) (zrange 0 n)) in *.
      rewrite <- pow2_abs. apply Rle_trans with ((c * S1) ^ 2); [apply pow_incr; split; [apply Rabs_pos|exact A]|].
      rewrite Rpow_mult_distr. rewrite Rmult_assoc. apply Rmult_le_compat_l; [apply pow2_ge_0|exact Q]. }
    unfold n2 at 1. unfold dot. rewrite SR_idx.
    apply Rle_trans with (SR (fun _ : Z => c ^ 2 * IZR n * n2 (idx n) x * 1) (zrange 0 n)).
    - apply SR_le. intros i Hi. apply zrange_in in Hi. pose proof (Row i true Hi) as R1. pose proof (Row i false Hi) as R2.
      replace (n2 (idx n) x) with (SR (fun j => x (j, true) ^ 2) (zrange 0 n) + SR (fun j => x (j, false) ^ 2) (zrange 0 n)); [nra|].
      unfold n2, dot. rewrite SR_idx, <- SR_add. apply SR_ext. intros j _. ring.
    - rewrite SR_mul, (INR_zr Hn). apply Req_le. ring.
  Qed.
  Lemma W_nrm x : (0 <= n)%Z -> nrm (idx n) (ap (idx n) W x) <= c * IZR n * nrm (idx n) x.
  Proof. intros Hn. apply nrm_le; [apply Rmult_le_pos; [exact Hc|apply IZR_le; exact Hn]|apply W_norm; exact Hn]. Qed.
  Lemma quad_le v : (0 <= n)%Z -> n2 (idx n) (vecf v) <= 1 -> Rabs (quad v) <= c * IZR n.
  Proof.
    intros Hn H1. rewrite quad_dot. eapply Rle_trans; [apply dot_abs|].
    pose proof (W_nrm (vecf v) Hn) as Q. pose proof (nrm_pos (idx n) (vecf v)) as P0. pose proof (nrm_sq (idx n) (vecf v)) as S1.
    assert (0 <= c * IZR n) by (apply Rmult_le_pos; [exact Hc|apply IZR_le; exact Hn]). nra.
  Qed.
  Lemma quad_lip (h k : Z -> CR) : (0 <= n)%Z -> n2 (idx n) (vecf h) <= 1 -> n2 (idx n) (vecf k) <= 1 ->
    Rabs (quad h - quad k) <= 2 * c * IZR n * nrm (idx n) (fun p => vecf h p + -1 * vecf k p).
  Proof.
    intros Hn H1 H2. rewrite !quad_dot. set (a := vecf h) in *. set (b := vecf k) in *. set (d := fun p => a p + -1 * b p).
    assert (Q : dot (idx n) a (ap (idx n) W a) - dot (idx n) b (ap (idx n) W b) = dot (idx n) d (ap (idx n) W a) + dot (idx n) b (ap (idx n) W d)).
    { unfold d. rewrite (dot_ext (idx n) b (ap (idx n) W (fun p => a p + -1 * b p)) b (fun p => ap (idx n) W a p + -1 * ap (idx n) W b p)).
      - rewrite dot_add_l, dot_add_r, dot_mul_l, dot_mul_r. ring.
      - reflexivity.
      - intros p _. unfold ap. rewrite <- SR_mul, <- SR_add. apply SR_ext. intros q _. ring. }
    rewrite Q. eapply Rle_trans; [apply Rabs_triang|].
    assert (CN : 0 <= c * IZR n) by (apply Rmult_le_pos; [exact Hc|apply IZR_le; exact Hn]).
    assert (UnitN : forall z, n2 (idx n) z <= 1 -> nrm (idx n) z <= 1).
    { intros z Hz. unfold nrm. rewrite <- sqrt_1. apply sqrt_le_1_alt. exact Hz. }
    pose proof (UnitN a H1) as A1. pose proof (UnitN b H2) as B1. pose proof (nrm_pos (idx n) a) as A0. pose proof (nrm_pos (idx n) b) as B0. pose proof (nrm_pos (idx n) d) as D0.
    pose proof (W_nrm a Hn) as Wa. pose proof (W_nrm d Hn) as Wd. pose proof (nrm_pos (idx n) (ap (idx n) W a)) as Wa0. pose proof (nrm_pos (idx n) (ap (idx n) W d)) as Wd0.
    pose proof (dot_abs (idx n) d (ap (idx n) W a)) as X1. pose proof (dot_abs (idx n) b (ap (idx n) W d)) as X2.
    assert (Y1 : nrm (idx n) d * nrm (idx n) (ap (idx n) W a) <= nrm (idx n) d * (c * IZR n)) by (apply Rmult_le_compat_l; [exact D0|nra]).
    assert (Y2 : nrm (idx n) b * nrm (idx n) (ap (idx n) W d) <= 1 * (c * IZR n * nrm (idx n) d)) by (apply Rmult_le_compat; assumption).
    lra.
  Qed.
End Form.
