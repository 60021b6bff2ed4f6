(** PROOFS for C96: the Fermi jump for tables of expectation values and of phases with errors. *)
From Coq Require Import Reals List ZArith Lia Lra Psatz.

From Verif Require Import Base Instances M_Operator M_Lattice Spec_Lattice M_Basis Pf_Basis P_Basis M_Matrix Pf_Matrix M_Dispersion M_Ode Spec_Stability Pf_Stability Pf_Stability2 M_FermiJump Pf_FermiJump P_FermiJump
  Pf_SiteOccupation Pf_Programs2 Pf_DoublePrograms Pf_RoundedSum Spec_RoundedJump P_RoundedJump Pf_JumpError Spec_JumpPrograms Pf_JumpPrograms P_JumpPrograms.
Local Open Scope R_scope.
Local Open Scope list_scope.

Section Near.
  Variables (rho rho' : Z -> Z -> R) (lat : lattice) (N : Z) (h coef coef' : list CR) (delta eps : R).
  Hypothesis HL : regular lat N.
  Hypothesis HS : (N + N * N * N < two64)%Z.
  Hypothesis d0 : 0 <= delta.
  Hypothesis e0 : 0 <= eps.
  Hypothesis Hd : forall j k, (0 <= j < N)%Z -> (0 <= k < N)%Z -> Rabs (rho' j k - rho j k) <= delta /\ Rabs (rho' j k) <= 1 /\ Rabs (rho j k) <= 1.
  Local Notation at_ := (fun (l : list CR) i => nth (Z.to_nat i) l ((0, 0) : CR)).
  Hypothesis He : forall i, (0 <= i < N)%Z -> Rabs (fst (at_ coef' i) - fst (at_ coef i)) <= eps /\ Rabs (snd (at_ coef' i) - snd (at_ coef i)) <= eps.
  Hypothesis Hc : forall i, (0 <= i < N)%Z -> Rabs (fst (at_ coef i)) <= 1 /\ Rabs (snd (at_ coef i)) <= 1.
  Hypothesis Hc' : forall i, (0 <= i < N)%Z -> Rabs (fst (at_ coef' i)) <= 1 /\ Rabs (snd (at_ coef' i)) <= 1.
  Hypothesis Hh : Z.of_nat (length h) = (N + N * N * N)%Z.
  Local Notation g i p := (get_3op_index N i (fst p) (snd p)).
  Local Notation w := (w_no 0 N h).
  Lemma SR_sub {A} (f f' : A -> R) l : SR f l - SR f' l = SR (fun a => f a - f' a) l.
  Proof. induction l as [|a l IH]; unfold SR in *; cbn [fold_right] in *; lra. Qed.
  Lemma pref_bound (r : Z -> Z -> R) j k : Rabs (r j k) <= 1 -> Rabs (x_pref r j k) <= 3.
  Proof. intros H. apply abs_inv in H. unfold x_pref. apply Rabs_le. destruct (j =? k)%Z; lra. Qed.
  Lemma no_bound (r : Z -> Z -> R) part i : (forall j k, (0 <= j < N)%Z -> (0 <= k < N)%Z -> Rabs (r j k) <= 1) -> Rabs (x_no r N h part i) <= w part i.
  Proof.
    intros Hr. unfold x_no, w_no. eapply Rle_trans; [apply Rabs_triang|]. apply Rplus_le_compat.
    - unfold mag. pose proof (Rabs_pos (part (at_ h i))). lra.
    - rewrite rsum_SR. eapply Rle_trans; [apply SR_abs|]. apply SR_le. intros p Hp. apply pairs_in in Hp. unfold mag. rewrite Rabs_mult.
      pose proof (pref_bound r (fst p) (snd p) (Hr _ _ (Logic.proj1 Hp) (Logic.proj2 Hp))). pose proof (Rabs_pos (part (at_ h (g i p)))). nra.
  Qed.
  Lemma no_diff part i : Rabs (x_no rho' N h part i - x_no rho N h part i) <= delta * w part i.
  Proof.
    unfold x_no, w_no. rewrite !rsum_SR.
    match goal with |- Rabs (?a + ?s - (?a + ?t)) <= _ => replace (a + s - (a + t)) with (s - t) by ring end. rewrite SR_sub.
    eapply Rle_trans; [apply SR_abs|]. rewrite Rmult_plus_distr_l.
    assert (M : 0 <= delta * mag 0 (part (at_ h i))) by (apply Rmult_le_pos; [exact d0|unfold mag; pose proof (Rabs_pos (part (at_ h i))); lra]).
    assert (Q : SR (fun p => Rabs (x_pref rho' (fst p) (snd p) * part (at_ h (g i p)) - x_pref rho (fst p) (snd p) * part (at_ h (g i p)))) (pairs N)
      <= delta * SR (fun p => mag 0 (part (at_ h (g i p)))) (pairs N)); [|lra].
    rewrite <- SR_mul. apply SR_le. intros p Hp. apply pairs_in in Hp. destruct (Hd _ _ (Logic.proj1 Hp) (Logic.proj2 Hp)) as (D & _). rewrite <- Rmult_minus_distr_r, Rabs_mult. unfold mag.
    assert (E : Rabs (x_pref rho' (fst p) (snd p) - x_pref rho (fst p) (snd p)) <= 2 * delta).
    { apply abs_inv in D. unfold x_pref. apply Rabs_le. destruct (fst p =? snd p)%Z; lra. }
    pose proof (Rabs_pos (part (at_ h (g i p)))). nra.
  Qed.
  Let mass := magnitudes h.
  Lemma w_mass : SR (fun i => w fst i + w snd i) (zrange 0 N) = 3 * mass.
  Proof.
    pose proof (w_total 0 lat N h coef HL HS Hh O) as Q. unfold w_i in Q. etransitivity; [exact Q|]. pose proof (magnitudes_SR h _ Hh) as E. cbv beta in *. unfold mass. rewrite Rmult_0_r, Rplus_0_r. apply f_equal. exact E.
  Qed.
  Lemma products a a' x x' y : Rabs (a' - a) <= eps -> Rabs a <= 1 -> Rabs x' <= y -> Rabs (x' - x) <= delta * y -> Rabs (a' * x' - a * x) <= (delta + eps) * y.
  Proof.
    intros H1 H2 H3 H4. replace (a' * x' - a * x) with ((a' - a) * x' + a * (x' - x)) by ring. eapply Rle_trans; [apply Rabs_triang|]. rewrite !Rabs_mult.
    pose proof (Rabs_pos (a' - a)). pose proof (Rabs_pos x'). pose proof (Rabs_pos a). pose proof (Rabs_pos (x' - x)).
    assert (Rabs (a' - a) * Rabs x' <= eps * y) by (apply Rmult_le_compat; assumption).
    assert (Rabs a * Rabs (x' - x) <= 1 * (delta * y)) by (apply Rmult_le_compat; assumption). lra.
  Qed.
  Lemma product_bound a x y : Rabs a <= 1 -> Rabs x <= y -> Rabs (a * x) <= y.
  Proof. intros H1 H2. rewrite Rabs_mult. pose proof (Rabs_pos a). pose proof (Rabs_pos x). apply Rle_trans with (1 * y); [apply Rmult_le_compat; assumption|lra]. Qed.
  Lemma X_bound (r : Z -> Z -> R) c : (forall j k, (0 <= j < N)%Z -> (0 <= k < N)%Z -> Rabs (r j k) <= 1) ->
    (forall i, (0 <= i < N)%Z -> Rabs (fst (at_ c i)) <= 1 /\ Rabs (snd (at_ c i)) <= 1) ->
    Rabs (X_re r N h c) <= 3 * mass /\ Rabs (X_im r N h c) <= 3 * mass.
  Proof.
    intros Hr Hcc. rewrite <- w_mass. unfold X_re, X_im. split; (eapply Rle_trans; [apply SR_abs|]); apply SR_le; intros i Hi; apply zrange_in in Hi; destruct (Hcc i Hi) as [C1 C2];
      pose proof (no_bound r fst i Hr) as B1; pose proof (no_bound r snd i Hr) as B2.
    - unfold x_re. pose proof (product_bound _ _ _ C1 B1) as P1. pose proof (product_bound _ _ _ C2 B2) as P2. apply abs_inv in P1, P2. apply Rabs_le. lra.
    - unfold x_im. pose proof (product_bound _ _ _ C1 B2) as P1. pose proof (product_bound _ _ _ C2 B1) as P2. apply abs_inv in P1, P2. apply Rabs_le. lra.
  Qed.
  Lemma X_diff : Rabs (X_re rho' N h coef' - X_re rho N h coef) <= 3 * (delta + eps) * mass /\ Rabs (X_im rho' N h coef' - X_im rho N h coef) <= 3 * (delta + eps) * mass.
  Proof.
    replace (3 * (delta + eps) * mass) with ((delta + eps) * (3 * mass)) by ring. rewrite <- w_mass, <- SR_mul. unfold X_re, X_im. rewrite !SR_sub.
    assert (Hr : forall j k, (0 <= j < N)%Z -> (0 <= k < N)%Z -> Rabs (rho' j k) <= 1) by (intros j k Hj Hk; apply (Hd j k Hj Hk)).
    split; (eapply Rle_trans; [apply SR_abs|]); apply SR_le; intros i Hi; apply zrange_in in Hi; destruct (Hc i Hi) as [C1 C2]; destruct (He i Hi) as [D1 D2];
      pose proof (no_bound rho' fst i Hr) as B1; pose proof (no_bound rho' snd i Hr) as B2.
    - unfold x_re. pose proof (products _ _ _ _ _ D1 C1 B1 (no_diff fst i)) as P1. pose proof (products _ _ _ _ _ D2 C2 B2 (no_diff snd i)) as P2. apply abs_inv in P1, P2. apply Rabs_le. lra.
    - unfold x_im. pose proof (products _ _ _ _ _ D1 C1 B2 (no_diff snd i)) as P1. pose proof (products _ _ _ _ _ D2 C2 B1 (no_diff fst i)) as P2. apply abs_inv in P1, P2. apply Rabs_le. lra.
  Qed.
  Lemma squares x x' d b : Rabs x <= b -> Rabs x' <= b -> Rabs (x' - x) <= d -> Rabs (x' * x' - x * x) <= d * (2 * b).
  Proof.
    intros H1 H2 H3. replace (x' * x' - x * x) with ((x' - x) * (x' + x)) by ring. rewrite Rabs_mult. apply Rmult_le_compat; [apply Rabs_pos|apply Rabs_pos|exact H3|].
    eapply Rle_trans; [apply Rabs_triang|]. lra.
  Qed.
  Lemma tables_near : Rabs (jump_value (F := Rring) rho' N h coef' - jump_value (F := Rring) rho N h coef) <= 36 * (delta + eps) * mass ^ 2.
  Proof.
    rewrite !jump_parts. destruct X_diff as [D1 D2].
    destruct (X_bound rho coef) as [B1 B2]; [intros j k Hj Hk; apply (Hd j k Hj Hk)|exact Hc|].
    destruct (X_bound rho' coef') as [B1' B2']; [intros j k Hj Hk; apply (Hd j k Hj Hk)|exact Hc'|].
    pose proof (squares _ _ _ _ B1 B1' D1) as Q1. pose proof (squares _ _ _ _ B2 B2' D2) as Q2. apply abs_inv in Q1, Q2. apply Rabs_le.
    replace (36 * (delta + eps) * mass ^ 2) with (2 * (3 * (delta + eps) * mass * (2 * (3 * mass)))) by ring. cbn in *. lra.
  Qed.
End Near.

(** the sum of the magnitudes against the norm *)
Lemma SR_ones {A} (f : A -> R) l : SR f l ^ 2 <= INR (length l) * SR (fun a => f a * f a) l.
Proof.
  pose proof (cauchy l (fun _ => 1) f) as Q. unfold n2, dot in Q. rewrite (SR_ext _ f) in Q by (intros; ring). rewrite (SR_ext (fun i => 1 * 1) (fun _ => 1)) in Q by (intros; ring).
  rewrite SR_const in Q. lra.
Qed.
Lemma magnitudes_norm (h : list (R * R)) : magnitudes h ^ 2 <= 2 * INR (length h) * norm2 h.
Proof.
  rewrite <- (magnitudes_SR h (Z.of_nat (length h)) eq_refl). eapply Rle_trans; [apply SR_ones|]. rewrite zrange_length. replace (Z.to_nat (Z.of_nat (length h) - 0)) with (length h) by lia.
  rewrite (vec_n2 (Z.of_nat (length h)) h eq_refl). unfold n2, dot. rewrite SR_idx. rewrite (Rmult_comm 2), Rmult_assoc. apply Rmult_le_compat_l; [apply pos_INR|]. rewrite <- SR_mul.
  apply SR_le. intros r _. set (z := nth (Z.to_nat r) h (0, 0)).
  change (vec h (r, true)) with (fst z). change (vec h (r, false)) with (snd z). pose proof (pow2_ge_0 (Rabs (fst z) - Rabs (snd z))) as Q.
  replace (fst z * fst z) with (Rabs (fst z) * Rabs (fst z)) by (rewrite <- Rabs_mult; apply Rabs_pos_eq, Rle_0_sqr).
  replace (snd z * snd z) with (Rabs (snd z) * Rabs (snd z)) by (rewrite <- Rabs_mult; apply Rabs_pos_eq, Rle_0_sqr). lra.
Qed.

(** the jump as a function of the coefficients, for coefficients of norm at most 2 *)
Lemma sq_lip3 {T} (I : list T) A1 A2 S c x y : n2 I A1 = S -> n2 I A2 = S -> dot I A1 A2 = 0 -> S <= c -> nrm I x <= 2 -> nrm I y <= 1 ->
  Rabs (sq I A1 A2 x - sq I A1 A2 y) <= 3 * c * nrm I (fun i => x i + -1 * y i).
Proof.
  intros H1 H2 H12 HS Hx Hy. set (d := fun i => x i + -1 * y i). set (e := fun i => x i + y i).
  assert (Sp : 0 <= S) by (rewrite <- H1; apply n2_nonneg).
  assert (E : sq I A1 A2 x - sq I A1 A2 y = dot I A1 d * dot I A1 e + dot I A2 d * dot I A2 e).
  { unfold sq, d, e. rewrite !dot_add_r, !dot_mul_r. ring. }
  pose proof (bessel I A1 A2 S H1 H2 H12 d) as Bd. pose proof (bessel I A1 A2 S H1 H2 H12 e) as Be. unfold sq in Bd, Be. rewrite E.
  assert (Ne : nrm I e <= 3) by (eapply Rle_trans; [apply nrm_triangle|lra]).
  rewrite <- (nrm_sq I d) in Bd. rewrite <- (nrm_sq I e) in Be. pose proof (nrm_pos I d) as D0. pose proof (nrm_pos I e) as E0.
  set (p := dot I A1 d) in *. set (q := dot I A2 d) in *. set (r := dot I A1 e) in *. set (t := dot I A2 e) in *. set (nd := nrm I d) in *. set (ne := nrm I e) in *.
  assert (Sq : (p * r + q * t) ^ 2 <= (S * (nd * ne)) ^ 2).
  { apply Rle_trans with ((p * p + q * q) * (r * r + t * t)); [pose proof (pow2_ge_0 (p * t - q * r)); lra|].
    apply Rle_trans with ((S * (nd * nd)) * (S * (ne * ne))); [|apply Req_le; ring].
    apply Rmult_le_compat; [pose proof (pow2_ge_0 p); pose proof (pow2_ge_0 q); lra|pose proof (pow2_ge_0 r); pose proof (pow2_ge_0 t); lra|exact Bd|exact Be]. }
  assert (B : Rabs (p * r + q * t) <= S * (nd * ne)).
  { apply Rsqr_incr_0_var; [|apply Rmult_le_pos; [exact Sp|apply Rmult_le_pos; assumption]]. rewrite <- Rsqr_abs. unfold Rsqr. lra. }
  eapply Rle_trans; [exact B|]. replace (3 * c * nd) with (c * (nd * 3)) by ring. apply Rmult_le_compat; [exact Sp|apply Rmult_le_pos; assumption|exact HS|].
  apply Rmult_le_compat_l; assumption.
Qed.
Lemma jump_lip3 N rho phi v w : (0 < N)%Z -> (forall a b, site N a -> site N b -> Rabs (Spec_Programs.pair_average rho a b) <= 1) ->
  let n := (N + N * N * N)%Z in nrm (idx n) (vecf v) <= 2 -> nrm (idx n) (vecf w) <= 1 ->
  Rabs (jump N rho phi v - jump N rho phi w) <= 3 * IZR n * nrm (idx n) (fun p => vecf v p + -1 * vecf w p).
Proof.
  intros HN Hp n Hv Hw. rewrite !(jump_sq N rho phi HN).
  apply (sq_lip3 (idx n) _ _ (total2 N rho)); try assumption; [apply vecA_n2|apply vecB_n2|apply vecAB|apply (total2_le N rho HN Hp)].
Qed.
(** the exact tables *)
Lemma jump_exact lat N rho phi (h : list CR) : shipped lat N -> (N + N * N * N < two64)%Z ->
  jump_value (F := Rring) rho N h (map (fun i => ((cos (phi i), sin (phi i)) : CR)) (zrange 0 N)) = jump N rho phi (vget h).
Proof.
  intros HL HS. set (s0 := M_OpenMP.mkSch [] []).
  rewrite <- (formula_value Rring lat rho N _ h 1 s0 s0 HL HS). apply formula_jump; [reflexivity|].
  intros i Hi. unfold vread. destruct (Z.ltb_spec i 0); [lia|].
  assert (E : nth_error (zrange 0 N) (Z.to_nat i) = Some i).
  { unfold zrange. erewrite map_nth_error; [|rewrite (nth_error_nth' _ 0%nat) by (rewrite seq_length; lia); reflexivity]. rewrite seq_nth by lia. f_equal. lia. }
  erewrite map_nth_error; [|exact E]. reflexivity.
Qed.
