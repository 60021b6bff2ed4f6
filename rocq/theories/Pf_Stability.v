(** PROOFS for C77, C78: real antisymmetric matrices with bounded row sums.
    Schur test, the norm of a Runge-Kutta step, Taylor's theorem and the distance to the
    exact solution of x' = S x. *)
From Coq Require Import Reals Lra Psatz.
From Verif Require Import Base.
Local Open Scope R_scope.
Local Open Scope list_scope.

(** finite sums *)
Fixpoint SR {T} (f : T -> R) (l : list T) : R := match l with [] => 0 | x :: l' => f x + SR f l' end.
Section Sums.
  Context {T : Type}.
  Implicit Types (f g : T -> R) (l : list T).
  Lemma SR_ext f g l : (forall x, In x l -> f x = g x) -> SR f l = SR g l.
  Proof. induction l as [|a l IH]; intros H; cbn; [reflexivity|]. rewrite H, IH by (intros; try apply H; cbn; auto). reflexivity. Qed.
  Lemma SR_add f g l : SR (fun x => f x + g x) l = SR f l + SR g l.
  Proof. induction l as [|a l IH]; cbn; lra. Qed.
  Lemma SR_mul c f l : SR (fun x => c * f x) l = c * SR f l.
  Proof. induction l as [|a l IH]; cbn; lra. Qed.
  Lemma SR_zero l : SR (fun _ => 0) l = 0.
  Proof. induction l as [|a l IH]; cbn; lra. Qed.
  Lemma SR_le f g l : (forall x, In x l -> f x <= g x) -> SR f l <= SR g l.
  Proof.
    induction l as [|a l IH]; intros H; cbn; [lra|].
    pose proof (H a (or_introl eq_refl)). assert (SR f l <= SR g l) by (apply IH; intros; apply H; cbn; auto). lra.
  Qed.
  Lemma SR_nonneg f l : (forall x, In x l -> 0 <= f x) -> 0 <= SR f l.
  Proof. intros H. rewrite <- (SR_zero l). apply SR_le. exact H. Qed.
  Lemma SR_abs f l : Rabs (SR f l) <= SR (fun x => Rabs (f x)) l.
  Proof. induction l as [|a l IH]; cbn; [rewrite Rabs_R0; lra|]. pose proof (Rabs_triang (f a) (SR f l)). lra. Qed.
  Lemma SR_app f l l' : SR f (l ++ l') = SR f l + SR f l'.
  Proof. induction l as [|a l IH]; cbn; lra. Qed.
End Sums.
Lemma SR_swap {T U} (f : T -> U -> R) l l' : SR (fun x => SR (f x) l') l = SR (fun y => SR (fun x => f x y) l) l'.
Proof.
  induction l as [|a l IH]; cbn.
  - rewrite SR_zero. reflexivity.
  - rewrite IH, <- SR_add. reflexivity.
Qed.
Lemma SR_map {T U} (f : U -> R) (g : T -> U) l : SR f (map g l) = SR (fun x => f (g x)) l.
Proof. induction l as [|a l IH]; cbn; [reflexivity|]. rewrite IH. reflexivity. Qed.
Lemma SR_flat_map {T U} (f : U -> R) (g : T -> list U) l : SR f (flat_map g l) = SR (fun x => SR f (g x)) l.
Proof. induction l as [|a l IH]; cbn; [reflexivity|]. rewrite SR_app, IH. reflexivity. Qed.

(** (sum w x)^2 <= (sum w) (sum w x^2) *)
Lemma weighted_cs {T} (w x : T -> R) l : (forall i, 0 <= w i) ->
  (SR (fun i => w i * x i) l) ^ 2 <= SR w l * SR (fun i => w i * (x i) ^ 2) l.
Proof.
  intros Hw. induction l as [|a l IH]; cbn [SR]; [lra|].
  assert (HS : 0 <= SR w l) by (apply SR_nonneg; auto).
  assert (HQ : 0 <= SR (fun i => w i * x i ^ 2) l) by (apply SR_nonneg; intros; apply Rmult_le_pos; [auto|apply pow2_ge_0]).
  set (P := SR w l) in *. set (Q := SR (fun i => w i * x i ^ 2) l) in *. set (V := SR (fun i => w i * x i) l) in *.
  pose proof (Hw a) as Ha.
  assert (K : 0 <= P * x a ^ 2 - 2 * V * x a + Q).
  { destruct (Req_dec P 0) as [E|E].
    - rewrite E in IH. assert (V = 0) by nra. rewrite E, H. lra.
    - assert (0 < P) by lra. apply Rmult_le_reg_l with P; [assumption|].
      assert (0 <= (P * x a - V) ^ 2) by apply pow2_ge_0. nra. }
  assert (0 <= w a * (P * x a ^ 2 - 2 * V * x a + Q)) by (apply Rmult_le_pos; assumption). nra.
Qed.

Section Gen.
  Context {T : Type} (I : list T) (S : T -> T -> R) (B : R).
  Definition dot (x y : T -> R) : R := SR (fun i => x i * y i) I.
  Definition n2 (x : T -> R) : R := dot x x.
  Definition ap (x : T -> R) : T -> R := fun i => SR (fun j => S i j * x j) I.
  Fixpoint apn (k : nat) (x : T -> R) : T -> R := match k with O => x | Datatypes.S k' => ap (apn k' x) end.

  Lemma dot_ext x y x' y' : (forall i, In i I -> x i = x' i) -> (forall i, In i I -> y i = y' i) -> dot x y = dot x' y'.
  Proof. intros H1 H2. apply SR_ext. intros i Hi. rewrite H1, H2 by assumption. reflexivity. Qed.
  Lemma ap_ext x x' : (forall i, In i I -> x i = x' i) -> forall i, ap x i = ap x' i.
  Proof. intros H i. apply SR_ext. intros j Hj. rewrite H by assumption. reflexivity. Qed.
  Lemma apn_ext k x x' : (forall i, In i I -> x i = x' i) -> forall i, In i I -> apn k x i = apn k x' i.
  Proof. intros H. induction k as [|k IH]; intros i Hi; [apply H; exact Hi|]. cbn [apn]. apply ap_ext. exact IH. Qed.
  Lemma dot_comm x y : dot x y = dot y x.
  Proof. apply SR_ext. intros; ring. Qed.
  Lemma dot_add_r x y z : dot x (fun i => y i + z i) = dot x y + dot x z.
  Proof. unfold dot. rewrite <- SR_add. apply SR_ext. intros; ring. Qed.
  Lemma dot_mul_r x c y : dot x (fun i => c * y i) = c * dot x y.
  Proof. unfold dot. rewrite <- SR_mul. apply SR_ext. intros; ring. Qed.
  Lemma dot_add_l x y z : dot (fun i => y i + z i) x = dot y x + dot z x.
  Proof. rewrite dot_comm, dot_add_r, (dot_comm x y), (dot_comm x z). reflexivity. Qed.
  Lemma dot_mul_l x c y : dot (fun i => c * y i) x = c * dot y x.
  Proof. rewrite dot_comm, dot_mul_r, (dot_comm x y). reflexivity. Qed.
  Lemma n2_nonneg x : 0 <= n2 x.
  Proof. apply SR_nonneg. intros i _. nra. Qed.
  Lemma ap_add x y i : ap (fun i => x i + y i) i = ap x i + ap y i.
  Proof. unfold ap. rewrite <- SR_add. apply SR_ext. intros; ring. Qed.
  Lemma ap_mul c x i : ap (fun i => c * x i) i = c * ap x i.
  Proof. unfold ap. rewrite <- SR_mul. apply SR_ext. intros; ring. Qed.
  Lemma apn_add k x y : forall i, In i I -> apn k (fun i => x i + y i) i = apn k x i + apn k y i.
  Proof.
    induction k as [|k IH]; intros i Hi; [reflexivity|]. cbn [apn].
    rewrite (ap_ext _ _ IH). apply ap_add.
  Qed.
  Lemma apn_mul k c x : forall i, In i I -> apn k (fun i => c * x i) i = c * apn k x i.
  Proof.
    induction k as [|k IH]; intros i Hi; [reflexivity|]. cbn [apn].
    rewrite (ap_ext _ _ IH). apply ap_mul.
  Qed.

  Hypothesis anti : forall i j, In i I -> In j I -> S i j = - S j i.
  Hypothesis B0 : 0 <= B.
  (** ** Schur test *)
  Lemma schur_test : (forall i, In i I -> SR (fun j => Rabs (S i j)) I <= B) -> forall x, n2 (ap x) <= B ^ 2 * n2 x.
  Proof.
    intros rows x.
    apply Rle_trans with (SR (fun i => B * SR (fun j => Rabs (S i j) * x j ^ 2) I) I).
    - apply SR_le. intros i Hi.
      assert (A1 : Rabs (ap x i) <= SR (fun j => Rabs (S i j) * Rabs (x j)) I).
      { unfold ap. eapply Rle_trans; [apply SR_abs|]. apply Req_le, SR_ext. intros j _. apply Rabs_mult. }
      pose proof (weighted_cs (fun j => Rabs (S i j)) (fun j => Rabs (x j)) I (fun j => Rabs_pos _)) as CS.
      assert (A2 : SR (fun j => Rabs (S i j) * Rabs (x j) ^ 2) I = SR (fun j => Rabs (S i j) * x j ^ 2) I).
      { apply SR_ext. intros j _. rewrite pow2_abs. reflexivity. }
      cbn beta in CS. rewrite A2 in CS.
      assert (A3 : 0 <= SR (fun j => Rabs (S i j) * x j ^ 2) I).
      { apply SR_nonneg. intros j _. apply Rmult_le_pos; [apply Rabs_pos|apply pow2_ge_0]. }
      assert (A4 : ap x i * ap x i = Rabs (ap x i) ^ 2) by (rewrite pow2_abs; ring). rewrite A4.
      apply Rle_trans with ((SR (fun j => Rabs (S i j) * Rabs (x j)) I) ^ 2).
      + apply pow_incr. split; [apply Rabs_pos|exact A1].
      + eapply Rle_trans; [exact CS|]. apply Rmult_le_compat_r; [exact A3|]. apply rows. exact Hi.
    - rewrite SR_mul. rewrite (SR_swap (fun i j => Rabs (S i j) * x j ^ 2)).
      assert (A : SR (fun j => SR (fun i => Rabs (S i j) * x j ^ 2) I) I <= B * n2 x).
      { unfold n2, dot. rewrite <- SR_mul. apply SR_le. intros j Hj.
        rewrite (SR_ext _ (fun i => x j ^ 2 * Rabs (S j i))) by (intros i Hi; rewrite (anti i j Hi Hj), Rabs_Ropp; ring).
        rewrite SR_mul. pose proof (rows j Hj). pose proof (pow2_ge_0 (x j)). nra. }
      replace (B ^ 2 * n2 x) with (B * (B * n2 x)) by ring. apply Rmult_le_compat_l; assumption.
  Qed.
  (** from here on any bound of the operator norm will do *)
  Hypothesis schur : forall x, n2 (ap x) <= B ^ 2 * n2 x.
  Lemma schur_n k x : n2 (apn k x) <= (B ^ k) ^ 2 * n2 x.
  Proof.
    induction k as [|k IH]; cbn [apn pow]; [lra|]. eapply Rle_trans; [apply schur|].
    assert (0 <= B ^ 2) by apply pow2_ge_0. replace ((B * B ^ k) * ((B * B ^ k) * 1)) with (B ^ 2 * (B ^ k) ^ 2) by ring. nra.
  Qed.
  (** antisymmetry in the scalar product *)
  Lemma dot_ap x y : dot (ap x) y = - dot x (ap y).
  Proof.
    unfold dot, ap.
    rewrite (SR_ext _ (fun i => SR (fun j => S i j * x j * y i) I)) by (intros; rewrite Rmult_comm, <- SR_mul; apply SR_ext; intros; ring).
    rewrite SR_swap. rewrite <- (Rmult_1_l (SR (fun i => x i * _) I)), <- Ropp_mult_distr_l_reverse.
    rewrite <- SR_mul. apply SR_ext. intros i Hi. rewrite <- !SR_mul. apply SR_ext. intros j Hj. rewrite (anti j i Hj Hi). ring.
  Qed.

  (** ** one Runge-Kutta step *)
  Definition P (h : R) (x : T -> R) : T -> R :=
    fun i => x i + h * ap x i + h ^ 2 / 2 * apn 2 x i + h ^ 3 / 6 * apn 3 x i + h ^ 4 / 24 * apn 4 x i.
  Lemma P_ext h x x' : (forall i, In i I -> x i = x' i) -> forall i, In i I -> P h x i = P h x' i.
  Proof.
    intros H i Hi. unfold P. rewrite (H i Hi), (apn_ext 2 x x' H i Hi), (apn_ext 3 x x' H i Hi), (apn_ext 4 x x' H i Hi).
    rewrite (ap_ext x x' H i). reflexivity.
  Qed.
  Lemma P_norm h x : n2 (P h x) = n2 x - h ^ 6 / 72 * n2 (apn 3 x) + h ^ 8 / 576 * n2 (apn 4 x).
  Proof.
    unfold P. set (x1 := ap x). set (x2 := apn 2 x). set (x3 := apn 3 x). set (x4 := apn 4 x).
    assert (E2 : x2 = ap x1) by reflexivity. assert (E3 : x3 = ap x2) by reflexivity. assert (E4 : x4 = ap x3) by reflexivity.
    assert (S01 : dot x1 x = 0) by (pose proof (dot_ap x x) as Q; fold x1 in Q; rewrite (dot_comm x x1) in Q; lra).
    assert (S12 : dot x2 x1 = 0) by (pose proof (dot_ap x1 x1) as Q; rewrite <- E2 in Q; rewrite (dot_comm x1 x2) in Q; lra).
    assert (S23 : dot x3 x2 = 0) by (pose proof (dot_ap x2 x2) as Q; rewrite <- E3 in Q; rewrite (dot_comm x2 x3) in Q; lra).
    assert (S34 : dot x4 x3 = 0) by (pose proof (dot_ap x3 x3) as Q; rewrite <- E4 in Q; rewrite (dot_comm x3 x4) in Q; lra).
    assert (S02 : dot x2 x = - dot x1 x1) by (rewrite E2, dot_ap; fold x1; reflexivity).
    assert (S13 : dot x3 x1 = - dot x2 x2) by (rewrite E3, dot_ap, <- E2; reflexivity).
    assert (S24 : dot x4 x2 = - dot x3 x3) by (rewrite E4, dot_ap, <- E3; reflexivity).
    assert (S03 : dot x3 x = 0) by (rewrite E3, dot_ap; fold x1; rewrite S12; lra).
    assert (S14 : dot x4 x1 = 0) by (rewrite E4, dot_ap, <- E2, S23; lra).
    assert (S04 : dot x4 x = dot x2 x2) by (rewrite E4, dot_ap; fold x1; rewrite S13; lra).
    unfold n2.
    rewrite !dot_add_l, !dot_add_r, !dot_mul_l, !dot_mul_r.
    rewrite (dot_comm x x1), (dot_comm x x2), (dot_comm x x3), (dot_comm x x4), (dot_comm x1 x2), (dot_comm x1 x3), (dot_comm x1 x4),
      (dot_comm x2 x3), (dot_comm x2 x4), (dot_comm x3 x4), S01, S12, S23, S34, S02, S13, S24, S03, S14, S04. field.
  Qed.
  Lemma P_le h x : h ^ 2 * B ^ 2 <= 8 -> n2 (P h x) <= n2 x.
  Proof.
    intros H. rewrite P_norm. pose proof (schur (apn 3 x)) as Q. change (ap (apn 3 x)) with (apn 4 x) in Q.
    pose proof (n2_nonneg (apn 3 x)) as N3. assert (0 <= h ^ 6) by (replace (h ^ 6) with ((h ^ 3) ^ 2) by ring; apply pow2_ge_0).
    assert (0 <= h ^ 2) by apply pow2_ge_0.
    replace (h ^ 8) with (h ^ 6 * h ^ 2) by ring.
    assert (h ^ 2 * n2 (apn 4 x) <= 8 * n2 (apn 3 x)).
    { apply Rle_trans with (h ^ 2 * (B ^ 2 * n2 (apn 3 x))); [apply Rmult_le_compat_l; assumption|]. nra. }
    nra.
  Qed.
  Lemma P_add h x y i : In i I -> P h (fun i => x i + y i) i = P h x i + P h y i.
  Proof.
    intros Hi. unfold P. rewrite ap_add, (apn_add 2 x y i Hi), (apn_add 3 x y i Hi), (apn_add 4 x y i Hi). ring.
  Qed.
  Lemma P_mul h c x i : In i I -> P h (fun i => c * x i) i = c * P h x i.
  Proof.
    intros Hi. unfold P. rewrite ap_mul, (apn_mul 2 c x i Hi), (apn_mul 3 c x i Hi), (apn_mul 4 c x i Hi). ring.
  Qed.

  (** ** Cauchy-Schwarz and the triangle inequality *)
  Definition nrm (x : T -> R) : R := sqrt (n2 x).
  Lemma nrm_pos x : 0 <= nrm x. Proof. apply sqrt_pos. Qed.
  Lemma nrm_sq x : nrm x * nrm x = n2 x. Proof. apply sqrt_sqrt, n2_nonneg. Qed.
  Lemma nrm_ext x y : (forall i, In i I -> x i = y i) -> nrm x = nrm y.
  Proof. intros H. unfold nrm, n2. f_equal. apply dot_ext; exact H. Qed.
  Lemma cauchy x y : dot x y ^ 2 <= n2 x * n2 y.
  Proof.
    assert (K : forall c, 0 <= n2 x - 2 * c * dot x y + c ^ 2 * n2 y).
    { intros c. pose proof (n2_nonneg (fun i => x i + (- c) * y i)) as Q. unfold n2 in *.
      rewrite dot_add_l, !dot_add_r, !dot_mul_l, !dot_mul_r, (dot_comm y x) in Q. lra. }
    destruct (Req_dec (n2 y) 0) as [E|E].
    - rewrite E. pose proof (n2_nonneg x). destruct (Req_dec (dot x y) 0) as [D|D]; [rewrite D; lra|exfalso].
      pose proof (K ((n2 x + 1) / (2 * dot x y))) as Q. rewrite E in Q.
      replace (2 * ((n2 x + 1) / (2 * dot x y)) * dot x y) with (n2 x + 1) in Q by (field; assumption). lra.
    - pose proof (n2_nonneg y). assert (0 < n2 y) by lra. pose proof (K (dot x y / n2 y)) as Q.
      assert (n2 y * (n2 x - 2 * (dot x y / n2 y) * dot x y + (dot x y / n2 y) ^ 2 * n2 y) = n2 y * n2 x - dot x y ^ 2) by (field; assumption).
      assert (0 <= n2 y * (n2 x - 2 * (dot x y / n2 y) * dot x y + (dot x y / n2 y) ^ 2 * n2 y)) by (apply Rmult_le_pos; lra). lra.
  Qed.
  Lemma dot_le x y : dot x y <= nrm x * nrm y.
  Proof.
    pose proof (cauchy x y) as Q. rewrite <- (nrm_sq x), <- (nrm_sq y) in Q. pose proof (nrm_pos x). pose proof (nrm_pos y).
    assert (0 <= nrm x * nrm y) by (apply Rmult_le_pos; assumption). nra.
  Qed.
  Lemma nrm_triangle x y : nrm (fun i => x i + y i) <= nrm x + nrm y.
  Proof.
    pose proof (nrm_pos x). pose proof (nrm_pos y). pose proof (dot_le x y). apply Rsqr_incr_0_var; [|lra]. unfold Rsqr. rewrite nrm_sq.
    unfold n2. rewrite dot_add_l, !dot_add_r, (dot_comm y x). fold (n2 x) (n2 y). rewrite <- (nrm_sq x), <- (nrm_sq y). nra.
  Qed.
  Lemma nrm_le x y c : 0 <= c -> n2 x <= c ^ 2 * n2 y -> nrm x <= c * nrm y.
  Proof.
    intros Hc H. apply Rsqr_incr_0_var; [|apply Rmult_le_pos; [exact Hc|apply nrm_pos]]. unfold Rsqr. rewrite nrm_sq.
    replace (c * nrm y * (c * nrm y)) with (c ^ 2 * (nrm y * nrm y)) by ring. rewrite nrm_sq. exact H.
  Qed.
  Lemma nrm_neg x : nrm (fun i => -1 * x i) = nrm x.
  Proof. unfold nrm, n2. rewrite dot_mul_l, dot_mul_r. f_equal. ring. Qed.
  Lemma nrm_P h x : h ^ 2 * B ^ 2 <= 8 -> nrm (P h x) <= nrm x.
  Proof. intros H. apply sqrt_le_1_alt, P_le, H. Qed.

  (** ** the exact solution *)
  Definition solution (y : R -> T -> R) : Prop :=
    forall t i, In i I -> derivable_pt_lim (fun s => y s i) t (ap (y t) i).
  Lemma deriv_SR (g : R -> T -> R) (g' : T -> R) t l : (forall i, In i l -> derivable_pt_lim (fun s => g s i) t (g' i)) ->
    derivable_pt_lim (fun s => SR (g s) l) t (SR g' l).
  Proof.
    induction l as [|a l IH]; intros H; cbn [SR].
    - apply derivable_pt_lim_const.
    - apply (derivable_pt_lim_plus (fun s => g s a) (fun s => SR (g s) l)); [apply H; cbn; auto|apply IH; intros; apply H; cbn; auto].
  Qed.
  Lemma deriv_scal c f t f' : derivable_pt_lim f t f' -> derivable_pt_lim (fun s => c * f s) t (c * f').
  Proof. exact (derivable_pt_lim_scal f c t f'). Qed.
  Lemma deriv_apn y k : solution y -> forall t i, In i I -> derivable_pt_lim (fun s => apn k (y s) i) t (apn (Datatypes.S k) (y t) i).
  Proof.
    intros Hy. induction k as [|k IH]; intros t i Hi; [apply Hy; exact Hi|].
    cbn [apn]. unfold ap at 1 3. apply (deriv_SR (fun s j => S i j * apn k (y s) j) (fun j => S i j * ap (apn k (y t)) j)).
    intros j Hj. apply deriv_scal. apply (IH t j Hj).
  Qed.
  Lemma deriv_dot y w k : solution y -> forall t, derivable_pt_lim (fun s => dot w (apn k (y s))) t (dot w (apn (Datatypes.S k) (y t))).
  Proof.
    intros Hy t. unfold dot. apply (deriv_SR (fun s i => w i * apn k (y s) i)). intros i Hi. apply deriv_scal. apply (deriv_apn y k Hy t i Hi).
  Qed.
  (** functions with derivative 0 are constant; the norm is conserved *)
  Lemma deriv0_const f : (forall t, derivable_pt_lim f t 0) -> forall a b, f a = f b.
  Proof.
    intros H. assert (D : forall t, derivable_pt f t) by (intros t; exists 0; apply H).
    assert (K : forall a b, a < b -> f a = f b).
    { intros a b Hab. destruct (MVT_cor2 f (fun _ => 0) a b Hab) as (c & E & _); [intros; apply H|]. lra. }
    intros a b. destruct (Rtotal_order a b) as [L|[->|L]]; [apply K; exact L|reflexivity|symmetry; apply K; exact L].
  Qed.
  Lemma norm_conserved y : solution y -> forall t, n2 (y t) = n2 (y 0).
  Proof.
    intros Hy t. apply (deriv0_const (fun s => n2 (y s))). intros u.
    assert (E : 0 = SR (fun i => ap (y u) i * y u i + y u i * ap (y u) i) I).
    { rewrite SR_add. change (0 = dot (ap (y u)) (y u) + dot (y u) (ap (y u))). rewrite dot_ap. ring. }
    rewrite E. unfold n2, dot. apply (deriv_SR (fun s i => y s i * y s i)). intros i Hi.
    apply (derivable_pt_lim_mult (fun s => y s i) (fun s => y s i)); apply Hy; exact Hi.
  Qed.

  (** ** Taylor's theorem with a bound on the last derivative *)
  Lemma le_by_deriv (f g : R -> R) (f' g' : R -> R) t : 0 <= t -> f 0 <= g 0 ->
    (forall s, derivable_pt_lim f s (f' s)) -> (forall s, derivable_pt_lim g s (g' s)) ->
    (forall s, 0 <= s <= t -> f' s <= g' s) -> f t <= g t.
  Proof.
    intros Ht H0 Df Dg H. destruct (Req_dec t 0) as [->|E]; [exact H0|]. assert (0 < t) by lra.
    destruct (MVT_cor2 (fun s => g s - f s) (fun s => g' s - f' s) 0 t) as (c & Ec & Hc); [lra| |].
    - intros c _. apply (derivable_pt_lim_minus g f); auto.
    - pose proof (H c ltac:(lra)). assert (0 <= (g' c - f' c) * (t - 0)) by (apply Rmult_le_pos; lra). lra.
  Qed.
  Definition poly (g : nat -> R) (n : nat) (t : R) : R := sum_f_R0 (fun k => g k * t ^ k / INR (fact k)) n.
  Lemma deriv_pow k t : derivable_pt_lim (fun s => s ^ Datatypes.S k / INR (fact (Datatypes.S k))) t (t ^ k / INR (fact k)).
  Proof.
    assert (F : INR (fact (Datatypes.S k)) = INR (Datatypes.S k) * INR (fact k)) by (rewrite fact_simpl, mult_INR; reflexivity).
    pose proof (derivable_pt_lim_scal (fun s => s ^ Datatypes.S k) (/ INR (fact (Datatypes.S k))) t _ (derivable_pt_lim_pow t (Datatypes.S k))) as Q.
    assert (N1 : INR (fact k) <> 0) by apply INR_fact_neq_0. assert (N2 : INR (Datatypes.S k) <> 0) by (apply not_0_INR; discriminate).
    replace (t ^ k / INR (fact k)) with (/ INR (fact (Datatypes.S k)) * (INR (Datatypes.S k) * t ^ Init.Nat.pred (Datatypes.S k)))
      by (rewrite F; cbn [Init.Nat.pred]; field; auto).
    eapply derivable_pt_lim_ext; [|exact Q]. intros z. unfold mult_real_fct. field. rewrite F. apply Rmult_integral_contrapositive_currified; assumption.
  Qed.
  Lemma deriv_poly g n t : derivable_pt_lim (poly g (Datatypes.S n)) t (poly (fun k => g (Datatypes.S k)) n t).
  Proof.
    unfold poly. induction n as [|n IH].
    - cbn [sum_f_R0]. replace (g 1%nat * t ^ 0 / INR (fact 0)) with (0 + g 1%nat * (t ^ 0 / INR (fact 0))) by (cbn; field).
      apply (derivable_pt_lim_plus (fun s => g 0%nat * s ^ 0 / INR (fact 0)) (fun s => g 1%nat * s ^ 1 / INR (fact 1))).
      + eapply derivable_pt_lim_ext; [|apply (derivable_pt_lim_const (g 0%nat))]. intros z. unfold fct_cte. cbn. field.
      + eapply derivable_pt_lim_ext; [|apply (deriv_scal (g 1%nat) _ _ _ (deriv_pow 0 t))]. intros z. cbn beta. unfold Rdiv. ring.
    - set (m := Datatypes.S n) in *. change (sum_f_R0 (fun k => g (Datatypes.S k) * t ^ k / INR (fact k)) m) with
        (sum_f_R0 (fun k => g (Datatypes.S k) * t ^ k / INR (fact k)) n + g (Datatypes.S m) * t ^ m / INR (fact m)).
      apply (derivable_pt_lim_plus (fun s => sum_f_R0 (fun k => g k * s ^ k / INR (fact k)) m) (fun s => g (Datatypes.S m) * s ^ Datatypes.S m / INR (fact (Datatypes.S m)))); [exact IH|].
      replace (g (Datatypes.S m) * t ^ m / INR (fact m)) with (g (Datatypes.S m) * (t ^ m / INR (fact m))) by (unfold Rdiv; ring).
      eapply derivable_pt_lim_ext; [|apply (deriv_scal (g (Datatypes.S m)) _ _ _ (deriv_pow m t))]. intros z. cbn beta. unfold Rdiv. ring.
  Qed.
  Lemma poly_0 g n : poly g n 0 = g 0%nat.
  Proof.
    unfold poly. induction n as [|n IH]; cbn [sum_f_R0].
    - cbn. field.
    - rewrite IH. cbn [pow]. unfold Rdiv. ring.
  Qed.
  Lemma taylor n C : 0 <= C -> forall (g : nat -> R -> R) t, 0 <= t ->
    (forall k s, (k < Datatypes.S n)%nat -> derivable_pt_lim (g k) s (g (Datatypes.S k) s)) ->
    (forall s, 0 <= s <= t -> g (Datatypes.S n) s <= C) ->
    g 0%nat t <= poly (fun k => g k 0) n t + C * (t ^ Datatypes.S n / INR (fact (Datatypes.S n))).
  Proof.
    intros HC. induction n as [|n IH]; intros g t Ht D H.
    - apply (le_by_deriv (g 0%nat) (fun t => poly (fun k => g k 0) 0 t + C * (t ^ 1 / INR (fact 1))) (g 1%nat) (fun t => 0 + C * (t ^ 0 / INR (fact 0)))); [exact Ht| | | |].
      + rewrite poly_0. cbn. lra.
      + intros s. apply D. lia.
      + intros s. apply (derivable_pt_lim_plus (fun t => poly (fun k => g k 0) 0 t) (fun t => C * (t ^ 1 / INR (fact 1)))).
        * eapply derivable_pt_lim_ext; [|apply (derivable_pt_lim_const (g 0%nat 0))]. intros z. unfold fct_cte, poly. cbn. field.
        * apply deriv_scal, deriv_pow.
      + intros s Hs. pose proof (H s Hs). cbn. lra.
    - apply (le_by_deriv (g 0%nat) (fun t => poly (fun k => g k 0) (Datatypes.S n) t + C * (t ^ Datatypes.S (Datatypes.S n) / INR (fact (Datatypes.S (Datatypes.S n)))))
        (g 1%nat) (fun t => poly (fun k => g (Datatypes.S k) 0) n t + C * (t ^ Datatypes.S n / INR (fact (Datatypes.S n))))); [exact Ht| | | |].
      + rewrite poly_0. cbn [pow]. unfold Rdiv. lra.
      + intros s. apply D. lia.
      + intros s. apply (derivable_pt_lim_plus (fun t => poly (fun k => g k 0) (Datatypes.S n) t) (fun t => C * (t ^ Datatypes.S (Datatypes.S n) / INR (fact (Datatypes.S (Datatypes.S n)))))).
        * apply deriv_poly.
        * apply deriv_scal, deriv_pow.
      + intros s Hs. apply (IH (fun k => g (Datatypes.S k)) s); [lra| |].
        * intros k u Hk. apply D. lia.
        * intros u Hu. apply H. lra.
  Qed.

  (** ** the local and the global error *)
  Lemma local_error y h : solution y -> 0 <= h ->
    nrm (fun i => y h i + -1 * P h (y 0) i) <= (h * B) ^ 5 / 120 * nrm (y 0).
  Proof.
    intros Hy Hh. set (w := fun i => y h i + -1 * P h (y 0) i).
    assert (HB : 0 <= B ^ 5) by (apply pow_le; exact B0).
    set (C := nrm w * (B ^ 5 * nrm (y 0))).
    assert (HC : 0 <= C) by (unfold C; apply Rmult_le_pos; [apply nrm_pos|apply Rmult_le_pos; [exact HB|apply nrm_pos]]).
    pose proof (taylor 4 C HC (fun k t => dot w (apn k (y t))) h Hh) as Q. cbn beta in Q.
    assert (Q' : dot w (y h) <= poly (fun k => dot w (apn k (y 0))) 4 h + C * (h ^ 5 / INR (fact 5))).
    { apply Q.
      - intros k s _. apply (deriv_dot y w k Hy).
      - intros s _. eapply Rle_trans; [apply dot_le|]. unfold C. apply Rmult_le_compat_l; [apply nrm_pos|].
        apply nrm_le; [exact HB|]. rewrite <- (norm_conserved y Hy s). apply schur_n. }
    clear Q.
    assert (E : poly (fun k => dot w (apn k (y 0))) 4 h = dot w (P h (y 0))).
    { unfold poly, P. rewrite !dot_add_r, !dot_mul_r. cbn [sum_f_R0 apn fact]. cbn. field. }
    rewrite E in Q'.
    assert (W : nrm w * nrm w <= C * (h ^ 5 / 120)).
    { rewrite nrm_sq. unfold n2. unfold w at 2. rewrite dot_add_r, dot_mul_r.
      assert (F : INR (fact 5) = 120) by (cbn; ring). rewrite F in Q'. lra. }
    destruct (Req_dec (nrm w) 0) as [Z|Z].
    - fold w. rewrite Z. apply Rmult_le_pos; [|apply nrm_pos]. apply Rmult_le_pos; [apply pow_le, Rmult_le_pos; assumption|lra].
    - pose proof (nrm_pos w). fold w. apply Rmult_le_reg_l with (nrm w); [lra|]. eapply Rle_trans; [exact W|].
      apply Req_le. unfold C. rewrite Rpow_mult_distr. field.
  Qed.
  Lemma solution_shift y a : solution y -> solution (fun t => y (a + t)).
  Proof.
    intros Hy t i Hi. pose proof (Hy (a + t) i Hi) as D.
    pose proof (derivable_pt_lim_comp (fun s => a + s) (fun s => y s i) t 1 (ap (y (a + t)) i)) as Q.
    rewrite Rmult_1_r in Q. apply Q; [|exact D].
    replace 1 with (0 + 1) by ring. apply (derivable_pt_lim_plus (fun _ => a) (fun s => s)); [apply derivable_pt_lim_const|apply derivable_pt_lim_id].
  Qed.
  Lemma global_error y h (u : nat -> T -> R) : solution y -> 0 <= h -> h ^ 2 * B ^ 2 <= 8 ->
    (forall i, In i I -> u 0%nat i = y 0 i) ->
    (forall k i, In i I -> u (Datatypes.S k) i = P h (u k) i) ->
    forall k, nrm (fun i => u k i + -1 * y (INR k * h) i) <= INR k * ((h * B) ^ 5 / 120) * nrm (y 0).
  Proof.
    intros Hy Hh Hs H0 Hu k. induction k as [|k IH].
    - rewrite Rmult_0_l. cbn [INR]. rewrite (nrm_ext _ (fun _ => 0)).
      + unfold nrm, n2, dot. rewrite (SR_ext _ (fun _ => 0)) by (intros; ring). rewrite SR_zero, sqrt_0. lra.
      + intros i Hi. rewrite H0 by exact Hi. ring.
    - set (t := INR k * h) in *. assert (Et : INR (Datatypes.S k) * h = t + h) by (rewrite S_INR; unfold t; ring). rewrite Et.
      pose proof (local_error (fun s => y (t + s)) h (solution_shift y t Hy) Hh) as L. cbn beta in L.
      assert (N0 : nrm (y (t + 0)) = nrm (y 0)) by (unfold nrm; rewrite (norm_conserved y Hy); reflexivity).
      rewrite N0 in L.
      assert (Q : nrm (fun i => u (Datatypes.S k) i + -1 * y (t + h) i) <=
        nrm (P h (fun i => u k i + -1 * y t i)) + nrm (fun i => y (t + h) i + -1 * P h (y (t + 0)) i)).
      { rewrite <- (nrm_neg (fun i => y (t + h) i + _)).
        eapply Rle_trans; [|apply nrm_triangle]. apply Req_le, nrm_ext. intros i Hi. rewrite (Hu k i Hi).
        rewrite (P_add h (u k) (fun i => -1 * y t i) i Hi), (P_mul h (-1) (y t) i Hi), Rplus_0_r. ring. }
      pose proof (nrm_P h (fun i => u k i + -1 * y t i) Hs). rewrite S_INR. lra.
  Qed.
End Gen.
