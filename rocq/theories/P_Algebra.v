(** PROPERTY THEOREMS C01-C16: operator algebra. *)
From Coq Require Import String Ascii.
From Verif Require Import Base Spec_Fock FockFacts M_Operator Pf_Operator M_Commutator
  Pf_Commutator Spec_Algebra Pf_Algebra Instances.
Local Open Scope list_scope.

(** ** C01 *)
Theorem C01_operator_equality : forall T, supported T -> forall a b c : op T,
  (op_eqb a b = true <-> creator a = creator b /\ indices a = indices b) /\
  op_neqb a b = negb (op_eqb a b) /\
  op_eqb a a = true /\
  op_eqb a b = op_eqb b a /\
  (op_eqb a b = true -> op_eqb b c = true -> op_eqb a c = true) /\
  (same_indices a b = true <-> indices a = indices b).
Proof.
  intros T HT a b c. apply supported_laws in HT.
  assert (E : forall x y : op T, op_eqb x y = true <-> x = y) by (apply op_eqb_eq, HT).
  split; [rewrite E; split; [intros ->; auto|intros []; apply op_ext; assumption]|].
  split; [apply op_neqb_negb, HT|].
  split; [apply E; reflexivity|].
  split; [apply Bool.eq_true_iff_eq; rewrite !E; split; congruence|].
  split; [rewrite !E; congruence|apply (il_eq _ HT)].
Qed.
Print Assumptions C01_operator_equality.
Example C01_example :
  supported site_spin /\
  op_eqb (T := site_spin) (cr 3 true) (cr 3 true) = true /\
  op_neqb (T := site_spin) (cr 3 true) (cr 3 false) = true.
Proof. repeat split. apply sup2. Qed.

(** ** C02 *)
Theorem C02_operator_conjugation : forall T, supported T -> forall a b : op T,
  creator (op_get_conjugate a) = negb (creator a) /\
  indices (op_get_conjugate a) = indices a /\
  op_get_conjugate (op_get_conjugate a) = a /\
  op_conjugate a = op_get_conjugate a /\
  (op_is_conjugate a b = true <-> op_eqb b (op_get_conjugate a) = true).
Proof.
  intros T HT a b. apply supported_laws in HT.
  split; [reflexivity|split; [reflexivity|split; [apply op_conjugate_inv|split; [reflexivity|]]]].
  rewrite (op_is_conjugate_iff T HT), (op_eqb_eq T HT). reflexivity.
Qed.
Print Assumptions C02_operator_conjugation.

Theorem C02_operator_adjoint : forall (K : StarRing) (T : IndexTuple) (mode : T -> nat) (a : op T) s t,
  elem (K := K) mode [op_get_conjugate a] t s = kconj (elem mode [a] s t).
Proof.
  intros K T mode a s t. rewrite <- (elem_conj T mode K [a]) .
  assert (H : forall ops u w, kconj (elem (K := K) mode ops u w) = elem mode ops u w).
  { intros ops u w. unfold elem, amp. destruct (act _ _) as [[sg t']|]; [|apply conj_0].
    destruct (N.eqb w t'); [apply conj_sgn|apply conj_0]. }
  rewrite H. reflexivity.
Qed.
Print Assumptions C02_operator_adjoint.
Example C02_example : elem (K := Zring) site_spin_mode [op_get_conjugate (cr 1 true)] 7 3 = 1%Z.
Proof. reflexivity. Qed.

(** ** C03 *)
Theorem C03_operator_order : forall T, supported T -> forall a b c : op T,
  op_smaller a a = false /\
  (op_smaller a b = true -> op_smaller b c = true -> op_smaller a c = true) /\
  (op_eqb a b = true \/ op_smaller a b = true \/ op_smaller b a = true) /\
  (creator a = true -> creator b = false -> op_smaller a b = true) /\
  op_greater a b = op_smaller b a.
Proof.
  intros T HT a b c. apply supported_laws in HT.
  split; [apply op_smaller_irr, HT|].
  split; [apply (op_smaller_trans T HT)|].
  split; [rewrite (op_eqb_eq T HT); apply (op_smaller_total T HT)|].
  split; [unfold op_smaller; intros -> ->; reflexivity|apply op_greater_flip, HT].
Qed.
Print Assumptions C03_operator_order.

(** Specification of lexicographic order on tuples. *)
Fixpoint lex_lt (Vs : list OrdType) : tup Vs -> tup Vs -> Prop :=
  match Vs with
  | [] => fun _ _ => False
  | V :: Vs' => fun a b => oltb (fst a) (fst b) = true \/ (fst a = fst b /\ lex_lt Vs' (snd a) (snd b))
  end.
Lemma lex_step {V : OrdType} (x y : V) (t : bool) (Q : Prop) : (t = true <-> Q) ->
  ((if oneb x y then oltb x y else t) = true <-> oltb x y = true \/ (x = y /\ Q)).
Proof.
  intros H. destruct (oneb x y) eqn:E.
  - apply oneb_true in E. split; [auto|]. intros [|[? _]]; [assumption|contradiction].
  - apply oneb_false in E. subst. rewrite oltb_irr, H. split; [auto|]. intros [|[_ ?]]; [discriminate|assumption].
Qed.
Lemma tup_smaller_lex Vs (x y : tup Vs) : tup_smaller Vs x y = true <-> lex_lt Vs x y.
Proof.
  induction Vs as [|V Vs IH]; cbn; [split; [discriminate|contradiction]|].
  apply lex_step, IH.
Qed.
Theorem C03_lexicographic :
  (forall V (x y : idx1 V) c, op_smaller (mkOp c x) (mkOp c y) = true <-> oltb (o := V) x y = true) /\
  (forall V1 V2 (x y : idx2 V1 V2) c, op_smaller (mkOp c x) (mkOp c y) = true <->
     oltb (fst x) (fst y) = true \/ (fst x = fst y /\ oltb (snd x) (snd y) = true)) /\
  (forall Vs (x y : idxN Vs) c, op_smaller (mkOp c x) (mkOp c y) = true <-> lex_lt Vs x y).
Proof.
  unfold op_smaller; split; [|split].
  - intros V x y c. cbn [creator indices]. rewrite xorb_nilpotent. reflexivity.
  - intros V1 V2 x y c. cbn [creator indices]. rewrite xorb_nilpotent. apply lex_step. reflexivity.
  - intros Vs x y c. cbn [creator indices]. rewrite xorb_nilpotent. apply tup_smaller_lex.
Qed.
Print Assumptions C03_lexicographic.
Example C03_example :
  op_smaller (T := site_spin) (cr 9 true) (an 0 false) = true /\
  op_smaller (T := site_spin) (cr 2 true) (cr 3 false) = true.
Proof. split; reflexivity. Qed.

(** ** C04 *)
Theorem C04_monomial_conjugation : forall T, supported T -> forall a b : monomial T,
  mono_get_conjugate (mono_get_conjugate a) = a /\
  mono_get_conjugate (mono_mul a b) = mono_mul (mono_get_conjugate b) (mono_get_conjugate a) /\
  mono_conjugate a = mono_get_conjugate a /\
  (mono_is_conjugate a b = true <-> mono_eqb b (mono_get_conjugate a) = true) /\
  (mono_eqb a b = true <-> a = b) /\
  mono_neqb a b = negb (mono_eqb a b).
Proof.
  intros T HT a b. apply supported_laws in HT.
  split; [apply mono_conj_inv|].
  split; [apply mono_conj_app|].
  split; [reflexivity|].
  split; [rewrite (mono_is_conjugate_iff T HT), (mono_eqb_eq T HT); reflexivity|].
  split; [apply (mono_eqb_eq T HT)|apply mono_neqb_negb].
Qed.
Print Assumptions C04_monomial_conjugation.

(** <s| M^+ |t> = kconj <t| M |s>, for all states. *)
Theorem C04_monomial_adjoint : forall (K : StarRing) (T : IndexTuple) (mode : T -> nat) (m : monomial T) s t,
  elem (K := K) mode (mono_get_conjugate m) t s = kconj (elem mode m s t).
Proof.
  intros K T mode m s t. rewrite elem_conj. unfold elem, amp.
  destruct (act _ _) as [[sg t']|]; [|symmetry; apply conj_0].
  destruct (N.eqb t t'); symmetry; [apply conj_sgn|apply conj_0].
Qed.
Print Assumptions C04_monomial_adjoint.
Example C04_example :
  mono_is_conjugate (T := site_spin) [cr 1 true; an 2 false]
                    [cr 2 false; an 1 true] = true.
Proof. reflexivity. Qed.

(** ** C05: the product acts as "first b, then a". *)
Definition compose (f g : N -> option (bool * N)) (s : N) : option (bool * N) :=
  match g s with
  | None => None
  | Some (sg, s') => match f s' with None => None | Some (sg', s'') => Some (xorb sg sg', s'') end
  end.
Theorem C05_product_is_composition : forall (T : IndexTuple) (mode : T -> nat) (a b c : monomial T),
  (forall s, act (ladders mode (mono_mul a b)) s =
             compose (act (ladders mode a)) (act (ladders mode b)) s) /\
  mono_mul (mono_mul a b) c = mono_mul a (mono_mul b c) /\
  mono_mul [] a = a /\ mono_mul a [] = a /\
  mono_mul_assign a b = mono_mul a b.
Proof.
  intros T mode a b c. split.
  - intros s. unfold ladders, mono_mul, compose. rewrite map_app. apply act_app.
  - unfold mono_mul, mono_mul_assign. rewrite app_assoc, app_nil_r. auto.
Qed.
Print Assumptions C05_product_is_composition.

Theorem C05_term_product : forall (K : StarRing) (T : IndexTuple) (mode : T -> nat) (a b c : term T K),
  (forall s t, term_elem mode (term_mul rmul a b) s t =
     match act (ladders mode (operators b)) s with
     | None => r0
     | Some (sg, s') => rmul (rmul (prefactor b) (sgn sg)) (term_elem mode a s' t)
     end) /\
  term_mul rmul (term_mul rmul a b) c = term_mul rmul a (term_mul rmul b c) /\
  term_mul_assign rmul a b = term_mul rmul a b.
Proof.
  intros K T mode a b c. split; [|split; [|reflexivity]].
  - intros s t. unfold term_elem, elem, term_mul, ladders. cbn [prefactor operators].
    rewrite map_app, amp_app. destruct (act _ s) as [[sg s']|].
    + apply mul_shuffle.
    + apply mul0r.
  - unfold term_mul. cbn [prefactor operators]. rewrite app_assoc, (Rmul_assoc (rth K)). reflexivity.
Qed.
Print Assumptions C05_term_product.
Example C05_example :
  act (ladders site_spin_mode (mono_mul [cr 0 true] [an 1 true])) 4 = Some (false, 1%N).
Proof. reflexivity. Qed.

(** ** C06 *)
Theorem C06_term_adjoint : forall (K : StarRing) (T : IndexTuple) (mode : T -> nat) (x : term T K),
  (forall s t, term_elem mode (term_get_conjugate kconj x) t s = kconj (term_elem mode x s t)) /\
  term_get_conjugate kconj (term_get_conjugate kconj x) = x.
Proof.
  intros K T mode x. split.
  - intros s t. unfold term_elem. cbn [prefactor operators term_get_conjugate].
    rewrite conj_mul. f_equal. apply C04_monomial_adjoint.
  - destruct x as [p ops]. unfold term_get_conjugate. cbn [prefactor operators].
    rewrite conj_inv. f_equal. apply mono_conj_inv.
Qed.
Print Assumptions C06_term_adjoint.
Example C06_example :
  term_get_conjugate kconj (mkTerm (T := site_spin) (P := cplx_ring Zring) (2, 3)%Z
     [cr 0 true; an 1 true])
  = mkTerm (2, -3)%Z [cr 1 true; an 0 true].
Proof. reflexivity. Qed.

(** ** C07 *)
Theorem C07_term_order : forall T, supported T -> forall P (a b c : term T P),
  term_smaller a a = false /\
  (term_smaller a b = true -> term_smaller b c = true -> term_smaller a c = true) /\
  ((term_smaller a b = false /\ term_smaller b a = false) <-> have_same_operators a b = true) /\
  (have_same_operators a b = true <-> operators a = operators b) /\
  (length (operators a) < length (operators b) -> term_smaller a b = true) /\
  term_greater a b = term_smaller b a.
Proof.
  intros T HT P a b c. apply supported_laws in HT.
  split; [apply term_smaller_irr, HT|].
  split; [apply (term_smaller_trans T HT)|].
  split; [rewrite (have_same_operators_iff T HT); apply (term_smaller_ties T HT)|].
  split; [apply (have_same_operators_iff T HT)|].
  split; [|apply term_greater_flip, HT].
  intros H. unfold term_smaller. replace (length (operators a) =? length (operators b)) with false
    by (symmetry; apply Nat.eqb_neq; lia). cbn [negb]. apply Nat.ltb_lt, H.
Qed.
Print Assumptions C07_term_order.
Example C07_example :
  term_smaller (T := site_spin) (mkTerm 5%Z [cr 0 true; an 1 true])
               (mkTerm 7%Z [cr 0 true; an 2 true]) = true.
Proof. reflexivity. Qed.

(** ** C08 *)
Theorem C08_commutate_is_commutator :
  forall T, supported T -> forall (mode : T -> nat), injective mode ->
  forall (K : StarRing) (a b : term T K) (c : list (term T K)),
  Nat.even (length (operators a) * length (operators b)) = true ->
  exists new, commutate a b c = c ++ new /\
  forall s t, terms_elem mode new s t =
    rmul (rmul (prefactor a) (prefactor b))
         (rsub (elem mode (operators a ++ operators b) s t)
               (elem mode (operators b ++ operators a) s t)).
Proof.
  intros T HT mode inj K a b c Hev. exists (commutate a b []). split; [reflexivity|].
  intros s t. unfold terms_elem. rewrite (commutate_sum T (supported_laws T HT) mode inj).
  rewrite <- Nat.negb_even, Hev. cbn [negb sgn]. f_equal. f_equal. apply mul1l.
Qed.
Print Assumptions C08_commutate_is_commutator.

(** With assertions enabled the even case runs, the odd case aborts. *)
Theorem C08_assertion : forall (T : IndexTuple) (K : StarRing) (a b : term T K) c,
  commutate_checked a b c =
  if Nat.even (length (operators a) * length (operators b)) then Some (commutate a b c) else None.
Proof.
  intros T K a b c. unfold commutate_checked, commutate_debug. rewrite u64_mod2.
  rewrite <- Nat2Z.inj_mul, Nat.mul_comm.
  generalize (length (operators a) * length (operators b)). intros n.
  replace (Z.of_nat n mod 2 =? 0)%Z with (Nat.even n); [reflexivity|].
  rewrite Zmod_odd. assert (H : Z.odd (Z.of_nat n) = Nat.odd n).
  { induction n as [|n IH]; [reflexivity|].
    rewrite Nat2Z.inj_succ, Z.odd_succ, <- Z.negb_odd, IH, Nat.odd_succ, Nat.negb_odd. reflexivity. }
  rewrite H, <- Nat.negb_odd. destruct (Nat.odd n); reflexivity.
Qed.
Print Assumptions C08_assertion.

Definition hop (i j : nat) : term site_spin Zring := mkTerm 2%Z [cr i true; an j true].
Example C08_example :
  commutate (hop 0 1) (hop 1 2) [] =
    [mkTerm 4%Z [cr 0 true; an 2 true]] /\
  terms_elem site_spin_mode (commutate (hop 0 1) (hop 1 2) []) 16 1 = 4%Z.
Proof. split; reflexivity. Qed.

(** ** C09 *)
Theorem C09_odd_gives_anticommutator :
  forall T, supported T -> forall (mode : T -> nat), injective mode ->
  forall (K : StarRing) (a b : term T K),
  Nat.odd (length (operators a) * length (operators b)) = true ->
  forall s t, terms_elem mode (commutate a b []) s t =
    rmul (rmul (prefactor a) (prefactor b))
         (radd (elem mode (operators a ++ operators b) s t)
               (elem mode (operators b ++ operators a) s t)).
Proof.
  intros T HT mode inj K a b Hodd s t. unfold terms_elem.
  rewrite (commutate_sum T (supported_laws T HT) mode inj), Hodd. cbn [sgn]. f_equal.
  apply sub_mulN1.
Qed.
Print Assumptions C09_odd_gives_anticommutator.
(** The release build returns 1 = {c, c^+} although [c, c^+] is not 1 on |1>. *)
Example C09_example :
  let c := mkTerm (T := site_spin) (P := Zring) 1%Z [an 0 true] in
  let cd := mkTerm (T := site_spin) (P := Zring) 1%Z [cr 0 true] in
  commutate_checked c cd [] = None /\
  terms_elem site_spin_mode (commutate c cd []) 1 1 = 1%Z /\
  (elem (K := Zring) site_spin_mode (operators c ++ operators cd) 1 1
     - elem (K := Zring) site_spin_mode (operators cd ++ operators c) 1 1 = -1)%Z.
Proof. repeat split. Qed.
