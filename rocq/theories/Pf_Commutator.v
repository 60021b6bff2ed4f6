(** Proofs: commutate computes (anti)commutators. *)
From Coq Require Import String Ascii.
From Verif Require Import Base Spec_Fock FockFacts M_Operator Pf_Operator M_Commutator.
Local Open Scope list_scope.

(** ** The 64-bit sign exponent has the right parity *)
Lemma u64_mod2 x : (u64 x mod 2 = x mod 2)%Z.
Proof.
  unfold u64, two64. symmetry. apply Znumtheory.Zmod_div_mod; [lia|lia|].
  exists (2 ^ 63)%Z. reflexivity.
Qed.

Lemma sign_is_minus_odd m n k l : k <= n -> 1 <= l ->
  sign_is_minus (Z.of_nat m) (Z.of_nat n) (Z.of_nat k) (Z.of_nat l) =
  Nat.odd (m * (n - k) + (l - 1)).
Proof.
  intros Hk Hl. unfold sign_is_minus.
  assert (E : (u64 (u64 (u64 (Z.of_nat m * u64 (Z.of_nat n - Z.of_nat k)) + Z.of_nat l) - 1) mod 2
              = (Z.of_nat (m * (n - k) + (l - 1))) mod 2)%Z).
  { rewrite u64_mod2. rewrite Zminus_mod, u64_mod2. rewrite Zplus_mod, u64_mod2.
    rewrite (Zmult_mod (Z.of_nat m)), u64_mod2.
    rewrite <- Zmult_mod, <- Zplus_mod, <- Zminus_mod. f_equal. nia. }
  rewrite E, Zmod_odd.
  assert (H : Z.odd (Z.of_nat (m * (n - k) + (l - 1))) = Nat.odd (m * (n - k) + (l - 1))).
  { generalize (m * (n - k) + (l - 1)). intros x. induction x as [|x IH]; [reflexivity|].
    rewrite Nat2Z.inj_succ, Z.odd_succ, <- Z.negb_odd, IH, Nat.odd_succ, Nat.negb_odd. reflexivity. }
  rewrite H. destruct (Nat.odd _); reflexivity.
Qed.

(** ** Sums over loop indices as sums over list splittings *)
Section Splits.
  Context {K : StarRing} {A : Type}.
  Local Open Scope ring_scope_.
  Add Ring KringS : (rth K).

  (** [Σ over positions l of B] of [G l b_l (before) (after)], l counted from 1. *)
  Definition possum (B : list A) (G : nat -> A -> list A -> list A -> K) : K :=
    sum_over (fun l => match nth_error B (l - 1) with
                       | Some y => G l y (firstn (l - 1) B) (skipn l B)
                       | None => 0 end) (seq 1 (length B)).

  Lemma possum_nil G : possum [] G = 0.
  Proof. reflexivity. Qed.

  Lemma possum_cons x B G :
    possum (x :: B) G = G 1%nat x [] B + possum B (fun l y p q => G (S l) y (x :: p) q).
  Proof.
    unfold possum. cbn [length seq]. rewrite sum_over_cons. f_equal.
    rewrite <- seq_shift, sum_over_map.
    apply sum_over_ext. intros l Hl. apply in_seq in Hl.
    destruct l as [|l]; [lia|].
    replace (S (S l) - 1)%nat with (S l) by lia. replace (S l - 1)%nat with l by lia.
    reflexivity.
  Qed.

  Lemma possum_ext B G G' :
    (forall l y p q, B = p ++ y :: q -> l = S (length p) -> G l y p q = G' l y p q) ->
    possum B G = possum B G'.
  Proof.
    revert G G'. induction B as [|x B IH]; intros G G' H; [reflexivity|].
    rewrite !possum_cons. f_equal.
    - apply H; reflexivity.
    - apply IH. intros l y p q -> ->. apply H; reflexivity.
  Qed.

  Lemma possum_mul B c G : possum B (fun l y p q => c * G l y p q) = c * possum B G.
  Proof.
    revert G. induction B as [|x B IH]; intros G; [rewrite !possum_nil; ring|].
    rewrite !possum_cons, IH. ring.
  Qed.
End Splits.

(** ** The contraction identity for any functional obeying the CAR *)
Section CAR.
  Context {K : StarRing} {O : Type}.
  Local Open Scope ring_scope_.
  Add Ring KringC : (rth K).
  Variable d : O -> O -> K.
  Variable F : list O -> K.
  Hypothesis car_law : forall L R x y, F (L ++ x :: y :: R) + F (L ++ y :: x :: R) = d x y * F (L ++ R).

  Definition par (n : nat) : K := sgn (Nat.odd n).
  Lemma par_S n : par (S n) = - par n.
  Proof. unfold par. rewrite Nat.odd_succ, <- Nat.negb_odd, sgn_negb. reflexivity. Qed.
  Lemma par_add a b : par (a + b) = par a * par b.
  Proof. unfold par. rewrite Nat.odd_add, sgn_mul. reflexivity. Qed.
  Lemma par_0 : par 0 = 1.
  Proof. reflexivity. Qed.

  Lemma move_through x B L R :
    F (L ++ x :: B ++ R) =
    possum B (fun l y p q => par (l - 1) * d x y * F (L ++ p ++ q ++ R))
    + par (length B) * F (L ++ B ++ x :: R).
  Proof.
    revert L. induction B as [|y B IH]; intros L.
    - rewrite possum_nil. cbn [app length]. rewrite par_0. ring.
    - rewrite possum_cons. cbn [app length].
      pose proof (car_law L (B ++ R) x y) as H.
      assert (E : F (L ++ x :: y :: B ++ R) = d x y * F (L ++ B ++ R) - F ((L ++ [y]) ++ x :: B ++ R)).
      { rewrite <- app_assoc. cbn [app]. rewrite <- H. ring. }
      rewrite E, IH. replace (1 - 1)%nat with 0%nat by lia. rewrite par_0, par_S.
      assert (E2 : possum B (fun l z p q => par (S l - 1) * d x z * F (L ++ y :: p ++ q ++ R))
                   = - (1) * possum B (fun l z p q => par (l - 1) * d x z * F ((L ++ [y]) ++ p ++ q ++ R))).
      { rewrite <- possum_mul. apply possum_ext. intros l z p q _ ->.
        replace (S (S (length p)) - 1)%nat with (S (length p)) by lia.
        replace (S (length p) - 1)%nat with (length p) by lia.
        rewrite par_S, <- app_assoc. cbn [app]. ring. }
      rewrite E2. rewrite <- !app_assoc. cbn [app]. ring.
  Qed.

  Lemma contraction A B L R :
    F (L ++ A ++ B ++ R) =
    possum A (fun k x p q => possum B (fun l y p' q' =>
       par (length B * (length A - k) + (l - 1)) * d x y * F (L ++ p ++ p' ++ q' ++ q ++ R)))
    + par (length B * length A) * F (L ++ B ++ A ++ R).
  Proof.
    revert L. induction A as [|x A IH]; intros L.
    - rewrite possum_nil. cbn [app length]. rewrite Nat.mul_0_r, par_0. ring.
    - rewrite possum_cons. cbn [app length].
      replace (L ++ x :: A ++ B ++ R) with ((L ++ [x]) ++ A ++ B ++ R)
        by (rewrite <- app_assoc; reflexivity).
      rewrite IH. rewrite <- (app_assoc L [x]). cbn [app].
      rewrite (move_through x B L (A ++ R)).
      cbn [app].
      assert (E1 : possum B (fun l y p' q' => par (length B * (S (length A) - 1) + (l - 1)) * d x y *
                       F (L ++ p' ++ q' ++ A ++ R))
             = par (length B * length A) *
               possum B (fun l y p q => par (l - 1) * d x y * F (L ++ p ++ q ++ A ++ R))).
      { rewrite <- possum_mul. apply possum_ext. intros l y p q _ _.
        replace (S (length A) - 1)%nat with (length A) by lia. rewrite par_add. ring. }
      rewrite E1. rewrite Nat.mul_succ_r, par_add.
      rewrite (possum_ext A
         (fun l y p q => possum B (fun l0 y0 p' q' =>
            par (length B * (S (length A) - S l) + (l0 - 1)) * d y y0 *
            F (L ++ x :: p ++ p' ++ q' ++ q ++ R)))
         (fun k x0 p q => possum B (fun l y p' q' =>
            par (length B * (length A - k) + (l - 1)) * d x0 y *
            F ((L ++ [x]) ++ p ++ p' ++ q' ++ q ++ R)))).
      + ring.
      + intros l y p q _ _. apply possum_ext. intros l0 y0 p' q' _ _.
        rewrite <- app_assoc. reflexivity.
  Qed.
End CAR.

(** ** commutate_release realises the contraction sum *)
Section Generic.
  Variable T : IndexTuple.
  Variable P : Type.
  Variable pmul : P -> P -> P.
  Variable psign : P -> bool -> P.
  Variable anticomm : op T -> op T -> bool.
  Variable anticommr : op T -> op T -> P -> P.
  Variable K : StarRing.
  Local Open Scope ring_scope_.
  Add Ring KringG : (rth K).
  Variable pv : P -> K.
  Variable d : op T -> op T -> K.
  Variable F : list (op T) -> K.
  (** operators admitted (well-typedness for the symbolic case) *)
  Variable ok : op T -> Prop.
  Hypothesis pv_mul : forall p q, pv (pmul p q) = pv p * pv q.
  Hypothesis pv_sign : forall p b, pv (psign p b) = pv p * sgn b.
  Hypothesis d_true : forall x y, ok x -> ok y -> anticomm x y = true -> d x y = 0.
  Hypothesis d_false : forall x y p, ok x -> ok y -> anticomm x y = false ->
    pv (anticommr x y p) = pv p * d x y.
  Hypothesis car_law : forall L R x y, F (L ++ x :: y :: R) + F (L ++ y :: x :: R) = d x y * F (L ++ R).

  Definition tval (t : term T P) : K := pv (prefactor t) * F (operators t).

  Lemma nth_error_split_at {A} (l p q : list A) y : l = p ++ y :: q -> nth_error l (length p) = Some y.
  Proof. intros ->. rewrite nth_error_app2, Nat.sub_diag by lia. reflexivity. Qed.

  Lemma comm_sum a b :
    Forall ok (operators a) -> Forall ok (operators b) ->
    sum_over tval (commutate_release pmul psign anticomm anticommr a b [])
    = pv (prefactor a) * pv (prefactor b) *
      possum (operators a) (fun k x p q => possum (operators b) (fun l y p' q' =>
        par (length (operators b) * (length (operators a) - k) + (l - 1)) * d x y *
        F (p ++ p' ++ q' ++ q))).
  Proof.
    intros Ha Hb. unfold commutate_release. cbn [app]. rewrite sum_over_flat_map.
    rewrite <- possum_mul. unfold possum at 1. apply sum_over_ext. intros k Hk.
    apply in_seq in Hk. rewrite sum_over_flat_map.
    destruct (nth_error (operators a) (k - 1)) as [x|] eqn:Ex;
      [|apply nth_error_None in Ex; lia].
    rewrite <- possum_mul. unfold possum. apply sum_over_ext. intros l Hl. apply in_seq in Hl.
    unfold comm_body. rewrite Ex.
    destruct (nth_error (operators b) (l - 1)) as [y|] eqn:Ey;
      [|apply nth_error_None in Ey; lia].
    assert (Hx : ok x) by (eapply Forall_forall; [exact Ha|eapply nth_error_In; exact Ex]).
    assert (Hy : ok y) by (eapply Forall_forall; [exact Hb|eapply nth_error_In; exact Ey]).
    destruct (anticomm x y) eqn:Eac.
    - rewrite sum_over_nil, (d_true x y) by assumption. ring.
    - rewrite sum_over_cons, sum_over_nil. unfold tval. cbn [prefactor operators].
      rewrite d_false, pv_sign, pv_mul by assumption.
      rewrite sign_is_minus_odd by lia. fold (par (K := K) (length (operators b) * (length (operators a) - k) + (l - 1))).
      replace (if (1 <? k)%nat then firstn (k - 1) (operators a) else []) with (firstn (k - 1) (operators a))
        by (destruct (Nat.ltb_spec 1 k); [reflexivity|replace (k - 1)%nat with 0%nat by lia; reflexivity]).
      replace (if (1 <? l)%nat then firstn (l - 1) (operators b) else []) with (firstn (l - 1) (operators b))
        by (destruct (Nat.ltb_spec 1 l); [reflexivity|replace (l - 1)%nat with 0%nat by lia; reflexivity]).
      ring.
  Qed.

  Theorem commutate_generic a b :
    Forall ok (operators a) -> Forall ok (operators b) ->
    sum_over tval (commutate_release pmul psign anticomm anticommr a b [])
    = pv (prefactor a) * pv (prefactor b) *
      (F (operators a ++ operators b)
       - sgn (Nat.odd (length (operators a) * length (operators b))) * F (operators b ++ operators a)).
  Proof.
    intros Ha Hb. rewrite comm_sum by assumption.
    pose proof (contraction d F car_law (operators a) (operators b) [] []) as H.
    cbn [app] in H. rewrite !app_nil_r in H. rewrite H.
    rewrite (Nat.mul_comm (length (operators a))). fold (par (K := K) (length (operators b) * length (operators a))).
    rewrite (possum_ext _
      (fun k x p q => possum (operators b) (fun l y p' q' =>
         par (length (operators b) * (length (operators a) - k) + (l - 1)) * d x y * F (p ++ p' ++ q' ++ q ++ [])))
      (fun k x p q => possum (operators b) (fun l y p' q' =>
         par (length (operators b) * (length (operators a) - k) + (l - 1)) * d x y * F (p ++ p' ++ q' ++ q)))).
    - ring.
    - intros l y p q _ _. apply possum_ext. intros. rewrite app_nil_r. reflexivity.
  Qed.
End Generic.

Lemma commutate_release_app {T P} pmul psign ac acr (a b : term T P) c :
  commutate_release pmul psign ac acr a b c = c ++ commutate_release pmul psign ac acr a b [].
Proof. reflexivity. Qed.
