(** PROOFS for C88: the Fermi jump as a bounded quadratic form. *)
From Coq Require Import Reals Lra Psatz.
From Verif Require Import Base M_Operator M_Lattice Spec_Lattice M_Basis Pf_Basis M_Matrix Pf_Matrix M_Dispersion Pf_Jump Spec_Stability Pf_Stability Pf_Stability2 Pf_Stability3 Spec_Programs Pf_Programs Pf_Programs2 Spec_JumpPrograms.
Local Open Scope R_scope.
Local Open Scope list_scope.

(** two orthogonal vectors of the same length *)
Section Bessel.
  Context {T : Type} (I : list T) (A1 A2 : T -> R) (S : R).
  Hypothesis H1 : n2 I A1 = S.
  Hypothesis H2 : n2 I A2 = S.
  Hypothesis H12 : dot I A1 A2 = 0.
  Definition sq (x : T -> R) : R := dot I A1 x * dot I A1 x + dot I A2 x * dot I A2 x.
  Lemma sq_pos x : 0 <= sq x.
  Proof. unfold sq. nra. Qed.
  Lemma bessel x : sq x <= S * n2 I x.
  Proof.
    set (a := dot I A1 x). set (b := dot I A2 x). set (y := fun i => a * A1 i + b * A2 i).
    assert (Y1 : dot I y x = sq x) by (unfold y; rewrite dot_add_l, !dot_mul_l; unfold sq, a, b; ring).
    assert (Y2 : n2 I y = S * sq x).
    { unfold n2, y. rewrite dot_add_l, !dot_mul_l, !dot_add_r, !dot_mul_r. rewrite (dot_comm I A2 A1), H12.
      change (dot I A1 A1) with (n2 I A1). change (dot I A2 A2) with (n2 I A2). rewrite H1, H2. unfold sq. fold a b. ring. }
    pose proof (cauchy I y x) as Q. rewrite Y1, Y2 in Q. pose proof (sq_pos x) as P0.
    destruct (Req_dec (sq x) 0) as [->|Hne]; [apply Rmult_le_pos; [rewrite <- H1; apply n2_nonneg|apply n2_nonneg]|].
    apply Rmult_le_reg_l with (sq x); [lra|]. nra.
  Qed.
  Lemma sq_lip c x y : 0 <= c -> S <= c -> n2 I x <= 1 -> n2 I y <= 1 -> Rabs (sq x - sq y) <= 2 * c * nrm I (fun i => x i + -1 * y i).
  Proof.
    intros Hc HS Hx Hy. set (d := fun i => x i + -1 * y i). set (e := fun i => x i + y i).
    assert (Sp : 0 <= S) by (rewrite <- H1; apply n2_nonneg).
    assert (E : sq x - sq y = dot I A1 d * dot I A1 e + dot I A2 d * dot I A2 e).
    { unfold sq, d, e. rewrite !dot_add_r, !dot_mul_r. ring. }
    pose proof (bessel d) as Bd. pose proof (bessel e) as Be. unfold sq in Bd, Be. rewrite E.
    assert (Ne : nrm I e <= 2).
    { eapply Rle_trans; [apply nrm_triangle|]. assert (U : forall z, n2 I z <= 1 -> nrm I z <= 1) by (intros z Hz; unfold nrm; rewrite <- sqrt_1; apply sqrt_le_1_alt; exact Hz).
      pose proof (U x Hx). pose proof (U y Hy). lra. }
    rewrite <- (nrm_sq I d) in Bd. rewrite <- (nrm_sq I e) in Be. pose proof (nrm_pos I d) as D0. pose proof (nrm_pos I e) as E0.
    set (p := dot I A1 d) in *. set (q := dot I A2 d) in *. set (r := dot I A1 e) in *. set (t := dot I A2 e) in *. set (nd := nrm I d) in *. set (ne := nrm I e) in *.
    assert (Sq : (p * r + q * t) ^ 2 <= (S * (nd * ne)) ^ 2).
    { apply Rle_trans with ((p * p + q * q) * (r * r + t * t)); [pose proof (pow2_ge_0 (p * t - q * r)); lra|].
      apply Rle_trans with ((S * (nd * nd)) * (S * (ne * ne))); [|apply Req_le; ring].
      apply Rmult_le_compat; [pose proof (pow2_ge_0 p); pose proof (pow2_ge_0 q); lra|pose proof (pow2_ge_0 r); pose proof (pow2_ge_0 t); lra|exact Bd|exact Be]. }
    assert (B : Rabs (p * r + q * t) <= S * (nd * ne)).
    { apply Rsqr_incr_0_var; [|apply Rmult_le_pos; [exact Sp|apply Rmult_le_pos; assumption]]. rewrite <- Rsqr_abs. unfold Rsqr. lra. }
    eapply Rle_trans; [exact B|]. assert (nd * ne <= nd * 2) by (apply Rmult_le_compat_l; assumption).
    assert (0 <= nd * ne) by (apply Rmult_le_pos; assumption). nra.
  Qed.
End Bessel.

Lemma triple_sum (N : Z) (f : Z -> R) : (0 <= N)%Z ->
  SR f (zrange N (N + N * N * N)) =
  SR (fun a => SR (fun b => SR (fun c => f (N + N * N * a + N * b + c)%Z) (zrange 0 N)) (zrange 0 N)) (zrange 0 N).
Proof.
  intros HN. assert (Sh : forall s, SR f (zrange s (s + N)) = SR (fun c => f (s + c)%Z) (zrange 0 N)).
  { intros s. rewrite <- (SR_map f (fun c => (s + c)%Z)). f_equal. unfold zrange. rewrite map_map. replace (s + N - s)%Z with N by lia. replace (N - 0)%Z with N by lia. apply map_ext. intros; lia. }
  replace (N + N * N * N)%Z with (N + N * (N * N))%Z by ring. rewrite zrange_blocks by nia. rewrite SR_flat_map. apply SR_ext. intros a _.
  rewrite (zrange_blocks (N + a * (N * N)) N N) by lia. rewrite SR_flat_map. apply SR_ext. intros b _. rewrite Sh. apply SR_ext. intros c _. f_equal. ring.
Qed.

Section Form.
  Context (N : Z) (rho : Z -> Z -> R) (phi : Z -> R).
  Hypothesis HN : (0 < N)%Z.
  Hypothesis Hp : forall a b, site N a -> site N b -> Rabs (pair_average rho a b) <= 1.
  Let n := (N + N * N * N)%Z.
  (** the factor of v_r *)
  Definition weight (r : Z) : R := if Z.ltb r N then 1 else pair_average rho (site_b N r) (site_c N r).
  Definition angle (r : Z) : R := if Z.ltb r N then phi r else phi (site_a N r).
  Definition vecA (p : Z * bool) : R := weight (fst p) * (if snd p then cos (angle (fst p)) else - sin (angle (fst p))).
  Definition vecB (p : Z * bool) : R := weight (fst p) * (if snd p then sin (angle (fst p)) else cos (angle (fst p))).
  Definition total2 : R := SR (fun r => weight r * weight r) (zrange 0 n).
  Lemma vecA_n2 : n2 (idx n) vecA = total2.
  Proof.
    unfold n2, dot. rewrite SR_idx. apply SR_ext. intros r _. unfold vecA. cbn [fst snd]. pose proof (sin2_cos2 (angle r)) as Q. unfold Rsqr in Q.
    transitivity (weight r * weight r * (sin (angle r) * sin (angle r) + cos (angle r) * cos (angle r))); [ring|rewrite Q; ring].
  Qed.
  Lemma vecB_n2 : n2 (idx n) vecB = total2.
  Proof.
    unfold n2, dot. rewrite SR_idx. apply SR_ext. intros r _. unfold vecB. cbn [fst snd]. pose proof (sin2_cos2 (angle r)) as Q. unfold Rsqr in Q.
    transitivity (weight r * weight r * (sin (angle r) * sin (angle r) + cos (angle r) * cos (angle r))); [ring|rewrite Q; ring].
  Qed.
  Lemma vecAB : dot (idx n) vecA vecB = 0.
  Proof.
    unfold dot. rewrite SR_idx. rewrite (SR_ext _ (fun _ => 0)); [apply SR_zero|]. intros r _. unfold vecA, vecB. cbn [fst snd]. ring.
  Qed.
  Lemma total2_le : total2 <= IZR n.
  Proof.
    unfold total2. rewrite <- (INR_zr n) by (unfold n; nia). apply SR_le. intros r Hr. apply zrange_in in Hr. unfold weight.
    destruct (Z.ltb_spec r N); [lra|]. destruct (decode N r HN ltac:(lia)) as (_ & B & C). pose proof (Hp _ _ B C) as Q.
    set (x := pair_average _ _ _) in *. unfold Rabs in Q. destruct (Rcase_abs x); nra.
  Qed.
  Lemma site_of a b c : site N a -> site N b -> site N c ->
    site_a N (N + N * N * a + N * b + c) = a /\ site_b N (N + N * N * a + N * b + c) = b /\ site_c N (N + N * N * a + N * b + c) = c.
  Proof.
    unfold site, site_a, site_b, site_c. intros Ha Hb Hc. repeat split.
    - symmetry. apply (Z.div_unique _ _ _ (N * b + c)); [left; nia|ring].
    - replace ((N + N * N * a + N * b + c - N) / N)%Z with (N * a + b)%Z by (apply (Z.div_unique _ _ _ c); [left; lia|ring]).
      symmetry. apply (Z.mod_unique _ _ a); [left; lia|ring].
    - symmetry. apply (Z.mod_unique _ _ (N * a + b)); [left; lia|ring].
  Qed.
  (** a part of the amplitude as a sum over the basis *)
  Lemma fold_sum (f : R -> Z -> R) (g : Z -> R) :
    (forall r, (0 <= r < n)%Z -> g r = weight r * f (angle r) r) ->
    SR g (zrange 0 n) =
    SR (fun a => f (phi a) a + SR (fun b => SR (fun c => pair_average rho b c * f (phi a) (N + N * N * a + N * b + c)%Z) (zrange 0 N)) (zrange 0 N)) (zrange 0 N).
  Proof.
    intros Hg. rewrite (zrange_app 0 N n) by (unfold n; nia). rewrite SR_app, SR_add. f_equal.
    - apply SR_ext. intros a Ha. apply zrange_in in Ha. rewrite Hg by (unfold n; nia). unfold weight, angle. destruct (Z.ltb_spec a N); [ring|lia].
    - unfold n. rewrite triple_sum by lia. apply SR_ext. intros a Ha. apply zrange_in in Ha. apply SR_ext. intros b Hb. apply zrange_in in Hb. apply SR_ext. intros c Hc. apply zrange_in in Hc.
      destruct (site_of a b c Ha Hb Hc) as (E1 & E2 & E3). rewrite Hg by (unfold n; nia). unfold weight, angle. rewrite E1, E2, E3.
      destruct (Z.ltb_spec (N + N * N * a + N * b + c) N); [nia|]. reflexivity.
  Qed.
  Lemma amplitude_re v : fst (jump_amplitude N rho phi v) = dot (idx n) vecA (vecf v).
  Proof.
    unfold dot. rewrite SR_idx. rewrite (fold_sum (fun t r => cos t * fst (v r) - sin t * snd (v r))).
    - unfold jump_amplitude. rewrite fst_sum. apply SR_ext. intros a _.
      set (S0 := sum_over (K := CR) _ (zrange 0 N)).
      assert (F1 : fst S0 = SR (fun b => SR (fun c => pair_average rho b c * fst (v (N + N * N * a + N * b + c)%Z)) (zrange 0 N)) (zrange 0 N)).
      { unfold S0. rewrite fst_sum. apply SR_ext. intros b _. rewrite fst_sum. apply SR_ext. intros c _. destruct (v _) as [x y]. cbn. ring. }
      assert (F2 : snd S0 = SR (fun b => SR (fun c => pair_average rho b c * snd (v (N + N * N * a + N * b + c)%Z)) (zrange 0 N)) (zrange 0 N)).
      { unfold S0. rewrite snd_sum. apply SR_ext. intros b _. rewrite snd_sum. apply SR_ext. intros c _. destruct (v _) as [x y]. cbn. ring. }
      transitivity (cos (phi a) * (fst (v a) + fst S0) - sin (phi a) * (snd (v a) + snd S0)); [destruct (v a), S0; reflexivity|]. rewrite F1, F2.
      transitivity (cos (phi a) * fst (v a) - sin (phi a) * snd (v a) + (cos (phi a) * SR (fun b => SR (fun c => pair_average rho b c * fst (v (N + N * N * a + N * b + c)%Z)) (zrange 0 N)) (zrange 0 N)
        + (- sin (phi a)) * SR (fun b => SR (fun c => pair_average rho b c * snd (v (N + N * N * a + N * b + c)%Z)) (zrange 0 N)) (zrange 0 N))); [ring|]. f_equal.
      rewrite <- !SR_mul, <- SR_add. apply SR_ext. intros b _. rewrite <- !SR_mul, <- SR_add. apply SR_ext. intros c _. ring.
    - intros r _. unfold vecA, vecf. cbn [fst snd part]. ring.
  Qed.
  Lemma amplitude_im v : snd (jump_amplitude N rho phi v) = dot (idx n) vecB (vecf v).
  Proof.
    unfold dot. rewrite SR_idx. rewrite (fold_sum (fun t r => sin t * fst (v r) + cos t * snd (v r))).
    - unfold jump_amplitude. rewrite snd_sum. apply SR_ext. intros a _.
      set (S0 := sum_over (K := CR) _ (zrange 0 N)).
      assert (F1 : fst S0 = SR (fun b => SR (fun c => pair_average rho b c * fst (v (N + N * N * a + N * b + c)%Z)) (zrange 0 N)) (zrange 0 N)).
      { unfold S0. rewrite fst_sum. apply SR_ext. intros b _. rewrite fst_sum. apply SR_ext. intros c _. destruct (v _) as [x y]. cbn. ring. }
      assert (F2 : snd S0 = SR (fun b => SR (fun c => pair_average rho b c * snd (v (N + N * N * a + N * b + c)%Z)) (zrange 0 N)) (zrange 0 N)).
      { unfold S0. rewrite snd_sum. apply SR_ext. intros b _. rewrite snd_sum. apply SR_ext. intros c _. destruct (v _) as [x y]. cbn. ring. }
      transitivity (sin (phi a) * (fst (v a) + fst S0) + cos (phi a) * (snd (v a) + snd S0)); [destruct (v a) as [p q], S0 as [p' q']; cbn; ring|]. rewrite F1, F2.
      transitivity (sin (phi a) * fst (v a) + cos (phi a) * snd (v a) + (sin (phi a) * SR (fun b => SR (fun c => pair_average rho b c * fst (v (N + N * N * a + N * b + c)%Z)) (zrange 0 N)) (zrange 0 N)
        + cos (phi a) * SR (fun b => SR (fun c => pair_average rho b c * snd (v (N + N * N * a + N * b + c)%Z)) (zrange 0 N)) (zrange 0 N))); [ring|]. f_equal.
      rewrite <- !SR_mul, <- SR_add. apply SR_ext. intros b _. rewrite <- !SR_mul, <- SR_add. apply SR_ext. intros c _. ring.
    - intros r _. unfold vecB, vecf. cbn [fst snd part]. ring.
  Qed.
  Lemma jump_sq v : jump N rho phi v = sq (idx n) vecA vecB (vecf v).
  Proof. unfold jump. cbv zeta. rewrite amplitude_re, amplitude_im. reflexivity. Qed.
  Lemma jump_range v : n2 (idx n) (vecf v) <= 1 -> 0 <= jump N rho phi v <= IZR n.
  Proof.
    intros Hv. rewrite jump_sq. split; [apply sq_pos|]. eapply Rle_trans; [apply (bessel (idx n) vecA vecB total2 vecA_n2 vecB_n2 vecAB)|].
    pose proof total2_le. pose proof (n2_nonneg (idx n) (vecf v)). assert (0 <= IZR n) by (apply IZR_le; unfold n; nia). nra.
  Qed.
  Lemma jump_lip v w : n2 (idx n) (vecf v) <= 1 -> n2 (idx n) (vecf w) <= 1 ->
    Rabs (jump N rho phi v - jump N rho phi w) <= 2 * IZR n * nrm (idx n) (fun p => vecf v p + -1 * vecf w p).
  Proof.
    intros Hv Hw. rewrite !jump_sq. apply (sq_lip (idx n) vecA vecB total2 vecA_n2 vecB_n2 vecAB); try assumption; [apply IZR_le; unfold n; nia|apply total2_le].
  Qed.
  Lemma jump_ext v w : (forall r, (0 <= r < n)%Z -> v r = w r) -> jump N rho phi v = jump N rho phi w.
  Proof.
    intros H. rewrite !jump_sq. unfold sq. assert (E : forall A, dot (idx n) A (vecf v) = dot (idx n) A (vecf w)); [|rewrite !E; reflexivity].
    intros A. apply dot_ext; [reflexivity|]. intros p Hq. apply idx_in in Hq. unfold vecf. rewrite (H _ Hq). reflexivity.
  Qed.
  Lemma jump_first v : (forall r, (0 <= r < n)%Z -> v r = first_unit r) -> jump N rho phi v = 1.
  Proof.
    intros H. unfold jump. cbv zeta. rewrite amplitude_re, amplitude_im.
    assert (E : forall A, dot (idx n) A (vecf v) = A (0%Z, true)).
    { intros A. unfold dot. rewrite SR_idx. rewrite (SR_ext _ (fun i => if Z.eqb 0 i then A (0%Z, true) else 0)).
      - apply P_Stability.SR_pick_eq; [apply zrange_NoDup|apply zrange_in; unfold n; nia].
      - intros r Hr. apply zrange_in in Hr. unfold vecf. cbn [fst snd part]. rewrite (H r Hr), (Z.eqb_sym 0 r). unfold first_unit. destruct (Z.eqb_spec r 0) as [->|_]; cbn; ring. }
    rewrite !E. unfold vecA, vecB, weight, angle. cbn [fst snd]. destruct (Z.ltb_spec 0 N); [|lia].
    pose proof (sin2_cos2 (phi 0%Z)) as Q. unfold Rsqr in Q. lra.
  Qed.
End Form.
