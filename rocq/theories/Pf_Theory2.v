(** PROOFS for C79: the coefficients of the theory program on the ring of N sites. *)
From Coq Require Import Reals Lra Psatz Lia.
From Verif Require Import Base M_Lattice Spec_Lattice Pf_Lattice M_Matrix Pf_Matrix Pf_Matrix2 M_Dispersion Spec_Matrix Spec_Ode P_Ode Spec_Stability
  Pf_Stability Pf_Stability2 Pf_Stability3 P_Stability Spec_Bessel Pf_Bessel M_Theory Pf_Theory.
Local Open Scope R_scope.
Local Open Scope list_scope.

(** multiplication by -i *)
Definition mi (z : CR) : CR := (snd z, - fst z).
Lemma minus_i_S d : (0 <= d)%Z -> minus_i_power (d + 1) = mi (minus_i_power d).
Proof.
  intros H. unfold minus_i_power. pose proof (Z.mod_pos_bound d 4 ltac:(lia)) as B.
  assert (C : (d mod 4 = 0 \/ d mod 4 = 1 \/ d mod 4 = 2 \/ d mod 4 = 3)%Z) by lia.
  rewrite <- (Zplus_mod_idemp_l d 1 4). destruct C as [C|[C|[C|C]]]; rewrite C; cbn; unfold mi; cbn; f_equal; lra.
Qed.
Definition sc (a : R) (z : CR) : CR := (a * fst z, a * snd z).
Lemma coefficient_A j t : theory_coefficient j t = sc (A (Z.to_nat j) t) (minus_i_power j).
Proof. unfold theory_coefficient, sc. rewrite bessel_A. reflexivity. Qed.
Lemma minus_i_norm d : fst (minus_i_power d) * fst (minus_i_power d) + snd (minus_i_power d) * snd (minus_i_power d) = 1.
Proof. unfold minus_i_power. destruct (d mod 4)%Z as [|[[|[]|]|[]|]|]; cbn; ring. Qed.
Lemma deriv_eq f g t a b : derivable_pt_lim f t a -> (forall s, f s = g s) -> a = b -> derivable_pt_lim g t b.
Proof. intros H E <-. exact (derivable_pt_lim_ext f g t a E H). Qed.
(** z is differentiable at t with derivative w *)
Definition cderiv (z : R -> CR) (t : R) (w : CR) : Prop :=
  derivable_pt_lim (fun s => fst (z s)) t (fst w) /\ derivable_pt_lim (fun s => snd (z s)) t (snd w).
(** derivative of the coefficient at distance d *)
Lemma coefficient_deriv0 t :
  cderiv (theory_coefficient 0) t (mi (radd (theory_coefficient 1 t) (theory_coefficient 1 t))).
Proof.
  split.
  - eapply deriv_eq; [apply (deriv_scal 1), A_deriv0|intros s; rewrite coefficient_A; cbn; ring|].
    rewrite coefficient_A. change (Z.to_nat 1) with 1%nat. cbn [sc minus_i_power mi radd cplx_ring CR fst snd]. cbn. ring.
  - eapply deriv_eq; [apply (derivable_pt_lim_const 0)|intros s; rewrite coefficient_A; cbn; unfold fct_cte; ring|].
    rewrite coefficient_A. cbn. ring.
Qed.
Lemma coefficient_deriv d t : (1 <= d)%Z ->
  cderiv (theory_coefficient d) t (mi (radd (theory_coefficient (d - 1) t) (theory_coefficient (d + 1) t))).
Proof.
  intros H. rewrite !coefficient_A. rewrite minus_i_S by lia. replace d with (d - 1 + 1)%Z at 1 4 by ring.
  replace (minus_i_power d) with (mi (minus_i_power (d - 1))) by (rewrite <- minus_i_S by lia; f_equal; lia).
  assert (E : forall s, theory_coefficient (d - 1 + 1) s = sc (A (S (Z.to_nat (d - 1))) s) (mi (minus_i_power (d - 1)))).
  { intros s. rewrite coefficient_A, minus_i_S by lia. do 2 f_equal. lia. }
  replace (Z.to_nat (d - 1 + 1 + 1)) with (S (S (Z.to_nat (d - 1)))) by lia.
  destruct (minus_i_power (d - 1)) as [p q]. cbn in p, q. set (m := Z.to_nat (d - 1)) in *. split.
  - eapply deriv_eq; [apply (deriv_scal q), (A_deriv m)|intros s; rewrite E; cbn; ring|]. cbn. ring.
  - eapply deriv_eq; [apply (deriv_scal (- p)), (A_deriv m)|intros s; rewrite E; cbn; ring|]. cbn. ring.
Qed.

(** ** The ring *)
Definition residual (N : Z) (t : R) (i : Z) : CR :=
  let M := (N / 2)%Z in let m := Z.to_nat (M - 1) in
  if (chain_distance N 0 i <? M)%Z then (0, 0)
  else if Z.even N then sc (- (A m t + A (S (S m)) t)) (minus_i_power M)
  else radd (sc (- A (S (S m)) t) (minus_i_power M)) (sc (- A (S m) t) (mi (minus_i_power M))).
Section Ring.
  Context (N : Z).
  Hypothesis HN : (3 <= N < two64)%Z.
  Lemma ring_deriv i t : site N i ->
    cderiv (fun s => h_val N s i) t
      (radd (mi (radd (h_val N t ((i - 1) mod N)) (h_val N t ((i + 1) mod N)))) (residual N t i)).
  Proof.
    intros Hi. unfold site in Hi.
    assert (Dd : forall j, (0 <= j < N)%Z -> chain_distance N 0 j = Z.min j (N - j)) by (intros j Hj; rewrite chain_distance_eq by (unfold site; lia); lia).
    rewrite pred_mod, succ_mod by exact Hi. unfold h_val, residual.
    assert (NM : (N = 2 * (N / 2) + N mod 2)%Z) by (apply Z.div_mod; lia). pose proof (Z.mod_pos_bound N 2 ltac:(lia)) as MB.
    assert (Ev : Z.even N = (N mod 2 =? 0)%Z) by (rewrite Zmod_even; destruct (Z.even N); reflexivity). rewrite Ev.
    set (M := (N / 2)%Z) in *. set (e := (N mod 2)%Z) in *. clearbody M e.
    set (a := if (i =? 0)%Z then (N - 1)%Z else (i - 1)%Z) in *. set (b := if (i =? N - 1)%Z then 0%Z else (i + 1)%Z) in *.
    assert (Ha : (0 <= a < N)%Z) by (unfold a; destruct (Z.eqb_spec i 0); lia).
    assert (Hb : (0 <= b < N)%Z) by (unfold b; destruct (Z.eqb_spec i (N - 1)); lia).
    rewrite !Dd by assumption. set (d := Z.min i (N - i)).
    assert (Hd : (0 <= d <= M)%Z) by lia.
    assert (comm : forall x y : CR, radd x y = radd y x) by (intros [x1 x2] [y1 y2]; cbn in *; f_equal; lra).
    assert (ad0 : forall x : CR, radd x (0, 0) = x) by (intros [x1 x2]; cbn in *; f_equal; lra).
    destruct (Z.ltb_spec d M) as [Lt|Ge].
    - rewrite ad0. destruct (Z.eq_dec d 0) as [E0|E0].
      + replace (Z.min a (N - a)) with 1%Z by (unfold a; destruct (Z.eqb_spec i 0); lia).
        replace (Z.min b (N - b)) with 1%Z by (unfold b; destruct (Z.eqb_spec i (N - 1)); lia).
        rewrite E0. apply coefficient_deriv0.
      + assert (C : (Z.min a (N - a) = d - 1 /\ Z.min b (N - b) = d + 1 \/ Z.min a (N - a) = d + 1 /\ Z.min b (N - b) = d - 1)%Z)
          by (unfold a, b; destruct (Z.eqb_spec i 0), (Z.eqb_spec i (N - 1)); lia).
        destruct C as [[-> ->]|[-> ->]]; [|rewrite comm with (x := theory_coefficient (d + 1) t)]; apply coefficient_deriv; lia.
    - assert (Em : d = M) by lia. 
      assert (D0 : cderiv (theory_coefficient d) t (mi (radd (theory_coefficient (d - 1) t) (theory_coefficient (d + 1) t)))) by (apply coefficient_deriv; lia).
      assert (AS : forall n, (0 <= n)%Z -> theory_coefficient n t = sc (A (Z.to_nat n) t) (minus_i_power n)) by (intros; apply coefficient_A).
      assert (Pm : minus_i_power M = mi (minus_i_power (M - 1))) by (rewrite <- minus_i_S by lia; f_equal; lia).
      destruct (Z.eqb_spec e 0) as [Ee|Ee].
      + replace (Z.min a (N - a)) with (d - 1)%Z by (unfold a; destruct (Z.eqb_spec i 0); lia).
        replace (Z.min b (N - b)) with (d - 1)%Z by (unfold b; destruct (Z.eqb_spec i (N - 1)); lia).
        match goal with |- cderiv _ _ ?X => match type of D0 with cderiv _ _ ?Y => replace X with Y; [exact D0|] end end.
        rewrite Em, !coefficient_A, minus_i_S, Pm by lia. replace (Z.to_nat (M + 1)) with (S (S (Z.to_nat (M - 1)))) by lia.
        destruct (minus_i_power (M - 1)) as [p q]. cbn in p, q. apply (injective_projections (A := R) (B := R)); cbn; ring.
      + assert (C : (Z.min a (N - a) = d - 1 /\ Z.min b (N - b) = d \/ Z.min a (N - a) = d /\ Z.min b (N - b) = d - 1)%Z)
          by (unfold a, b; destruct (Z.eqb_spec i 0), (Z.eqb_spec i (N - 1)); lia).
        match goal with |- cderiv _ _ (radd (mi ?X) _) => replace X with (radd (theory_coefficient (d - 1) t) (theory_coefficient d t)) by (destruct C as [[-> ->]|[-> ->]]; [reflexivity|apply comm]) end.
        match goal with |- cderiv _ _ ?X => match type of D0 with cderiv _ _ ?Y => replace X with Y; [exact D0|] end end.
        rewrite Em, !coefficient_A, minus_i_S, Pm by lia. replace (Z.to_nat (M + 1)) with (S (S (Z.to_nat (M - 1)))) by lia.
        replace (Z.to_nat M) with (S (Z.to_nat (M - 1))) by lia.
        destruct (minus_i_power (M - 1)) as [p q]. cbn in p, q. apply (injective_projections (A := R) (B := R)); cbn; ring.
  Qed.
  Lemma h_val_0 i : site N i -> h_val N 0 i = if (i =? 0)%Z then (1, 0) else (0, 0).
  Proof.
    intros Hi. unfold site in Hi. unfold h_val. rewrite chain_distance_eq by (unfold site; lia). rewrite coefficient_A, A_at_0.
    destruct (Z.eqb_spec i 0) as [->|E].
    { replace (Z.min (Z.abs (0 - 0)) (N - Z.abs (0 - 0))) with 0%Z by lia. cbn. unfold sc. cbn. f_equal; ring. }
    destruct (Nat.eqb_spec (Z.to_nat (Z.min (Z.abs (0 - i)) (N - Z.abs (0 - i)))) 0); [lia|]. unfold sc. apply (injective_projections (A := R) (B := R)); cbn; ring.
  Qed.
End Ring.
