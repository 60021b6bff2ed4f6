(** Proofs: Fock-space meaning of operators, terms and commutators. *)
From Coq Require Import String Ascii.
From Verif Require Import Base Spec_Fock FockFacts M_Operator Pf_Operator M_Commutator Pf_Commutator Spec_Algebra.
Local Open Scope list_scope.

Section Fock.
  Variable T : IndexTuple.
  Hypothesis HT : IndexLaws T.
  Variable mode : T -> nat.
  Hypothesis inj : injective mode.
  Variable K : StarRing.
  Local Open Scope ring_scope_.
  Add Ring KringF : (rth K).

  Definition dF (x y : op T) : K :=
    if (Bool.eqb (creator x) (negb (creator y)) && Nat.eqb (mode (indices x)) (mode (indices y)))%bool
    then 1 else 0.

  Lemma elem_car s t L R x y :
    elem (K := K) mode (L ++ x :: y :: R) s t + elem mode (L ++ y :: x :: R) s t
    = dF x y * elem mode (L ++ R) s t.
  Proof.
    unfold elem, ladders. rewrite !map_app. cbn [map]. rewrite amp_car. unfold dF.
    destruct (_ && _)%bool; ring.
  Qed.

  Lemma mode_eqb (x y : op T) : Nat.eqb (mode (indices x)) (mode (indices y)) = same_indices x y.
  Proof.
    unfold same_indices. destruct (it_eqb T (indices x) (indices y)) eqn:E.
    - apply (il_eq _ HT) in E. rewrite E. apply Nat.eqb_refl.
    - apply Nat.eqb_neq. intros H. apply inj in H. apply (il_eq _ HT) in H. congruence.
  Qed.

  Lemma dF_anticommutates (x y : op T) : dF x y = if anticommutates x y then 0 else 1.
  Proof.
    unfold dF, anticommutates. rewrite mode_eqb.
    destruct (creator x), (creator y), (same_indices x y); reflexivity.
  Qed.

  Lemma commutate_sum a b s t :
    sum_over (fun x => term_elem (K := K) mode x s t) (commutate a b []) =
    prefactor a * prefactor b *
      (elem mode (operators a ++ operators b) s t
       - sgn (Nat.odd (length (operators a) * length (operators b)))
         * elem mode (operators b ++ operators a) s t).
  Proof.
    apply (commutate_generic T K rmul (fun p s => p * sgn s) anticommutates anticommutator K
             (fun p => p) dF (fun ops => elem mode ops s t) (fun _ => True)).
    - reflexivity.
    - reflexivity.
    - intros x y _ _ H. rewrite dF_anticommutates, H. reflexivity.
    - intros x y p _ _ H. rewrite dF_anticommutates, H. unfold anticommutator. ring.
    - intros. apply elem_car.
    - apply Forall_forall; auto.
    - apply Forall_forall; auto.
  Qed.

  Lemma commutate_app a b (c : list (term T K)) : commutate a b c = c ++ commutate a b [].
  Proof. reflexivity. Qed.

  Lemma anticommute_pair (x y : op T) s t :
    elem (K := K) mode [x; y] s t + elem mode [y; x] s t =
    if anticommutates x y then 0 else elem mode [] s t.
  Proof.
    pose proof (elem_car s t [] [] x y) as H. cbn [app] in H. rewrite H, dF_anticommutates.
    destruct (anticommutates x y); ring.
  Qed.

  Lemma elem_conj (m : monomial T) s t :
    elem (K := K) mode (mono_get_conjugate m) t s = elem mode m s t.
  Proof.
    unfold elem. rewrite <- (amp_adj (ladders mode m)). f_equal.
    unfold ladders, adj, mono_get_conjugate. cbn [app]. rewrite <- !map_rev, !map_map. reflexivity.
  Qed.
End Fock.

(** ** Size and quantum numbers of the generated terms *)
Section Quantum.
  Variable T : IndexTuple.
  Hypothesis HT : IndexLaws T.

  (** Every appended term removes one position from each factor, the two removed
      operators being mutually adjoint. *)
  Lemma commutate_shape {K : StarRing} (a b x : term T K) :
    In x (commutate a b []) ->
    exists p u q p' v q',
      operators a = p ++ u :: q /\ operators b = p' ++ v :: q' /\
      v = op_get_conjugate u /\ operators x = p ++ p' ++ q' ++ q.
  Proof.
    unfold commutate, commutate_release. cbn [app]. rewrite in_flat_map. intros (k & Hk & Hx).
    rewrite in_flat_map in Hx. destruct Hx as (l & Hl & Hx).
    apply in_seq in Hk, Hl. unfold comm_body in Hx.
    destruct (nth_error (operators a) (k - 1)) as [u|] eqn:Eu; [|destruct Hx].
    destruct (nth_error (operators b) (l - 1)) as [v|] eqn:Ev; [|destruct Hx].
    destruct (anticommutates u v) eqn:Eac; [destruct Hx|]. destruct Hx as [<-|[]].
    assert (Hsplit : forall (z : op T) L i, 1 <= i -> nth_error L (i - 1) = Some z ->
              L = firstn (i - 1) L ++ z :: skipn i L).
    { intros z L i Hi H. apply nth_error_split in H as (l1 & l2 & -> & Hlen).
      rewrite <- Hlen. rewrite firstn_app, Nat.sub_diag, firstn_all. cbn [firstn]. rewrite app_nil_r.
      f_equal. f_equal. replace i with (length l1 + 1) by lia.
      rewrite skipn_app. rewrite skipn_all2 by lia.
      replace (length l1 + 1 - length l1) with 1 by lia. reflexivity. }
    exists (firstn (k - 1) (operators a)), u, (skipn k (operators a)),
           (firstn (l - 1) (operators b)), v, (skipn l (operators b)).
    repeat split.
    - apply Hsplit; [lia|exact Eu].
    - apply Hsplit; [lia|exact Ev].
    - unfold anticommutates in Eac. apply orb_false_iff in Eac as [E1 E2].
      apply negb_false_iff in E2. unfold same_indices in E2. apply (il_eq _ HT) in E2.
      apply op_ext; cbn; [destruct (creator u), (creator v); try discriminate; reflexivity|auto].
    - cbn [operators].
      destruct (Nat.ltb_spec 1 k) as [H1|H1], (Nat.ltb_spec 1 l) as [H2|H2];
        try (replace (k - 1) with 0 by lia); try (replace (l - 1) with 0 by lia); reflexivity.
  Qed.

  Definition charge_of (f : op T -> Z) (ops : list (op T)) : Z := fold_right (fun o c => (f o + c)%Z) 0%Z ops.
  Lemma charge_app f a b : charge_of f (a ++ b) = (charge_of f a + charge_of f b)%Z.
  Proof. unfold charge_of. induction a as [|o a IH]; cbn [app fold_right]; lia. Qed.

  Lemma fold_charge (g : Z -> op T -> Z) f (Hg : forall c o, g c o = (c + f o)%Z) ops c :
    fold_left g ops c = (c + charge_of f ops)%Z.
  Proof.
    unfold charge_of.
    revert c. induction ops as [|o ops IH]; cbn [fold_left fold_right]; intros c; [lia|].
    rewrite IH, Hg. lia.
  Qed.

  Lemma creations_charge {P} (t : term T P) :
    total_creations t = charge_of (fun o => if creator o then 1 else -1)%Z (operators t).
  Proof.
    unfold total_creations. rewrite (fold_charge _ (fun o => if creator o then 1 else -1)%Z); [lia|].
    intros c o. destruct (creator o); lia.
  Qed.
  Lemma spin_charge {P} spin (t : term T P) :
    total_spin spin t = charge_of (fun o => if creator o then (if spin (indices o) then 1 else -1)
                                            else - (if spin (indices o) then 1 else -1))%Z (operators t).
  Proof.
    unfold total_spin.
    rewrite (fold_charge _ (fun o => if creator o then (if spin (indices o) then 1 else -1)
                                     else - (if spin (indices o) then 1 else -1))%Z); [lia|].
    intros c o. destruct (creator o); lia.
  Qed.

  Lemma commutate_charge {K : StarRing} (f : op T -> Z) (Hf : forall o, (f (op_get_conjugate o) = - f o)%Z)
    (a b x : term T K) : In x (commutate a b []) ->
    charge_of f (operators x) = (charge_of f (operators a) + charge_of f (operators b))%Z.
  Proof.
    intros H. apply commutate_shape in H as (p & u & q & p' & v & q' & Ha & Hb & -> & Hx).
    rewrite Ha, Hb, Hx, !charge_app. unfold charge_of. cbn [fold_right].
    rewrite Hf. lia.
  Qed.
End Quantum.

Section QuantumK.
  Variable T : IndexTuple.
  Hypothesis HT : IndexLaws T.
  Variable K K' : StarRing.
  Local Open Scope ring_scope_.
  Add Ring KringQ : (rth K).
  Variable pos : T -> K.
  Let f (o : op T) : K := if creator o then pos (indices o) else - pos (indices o).
  Lemma momentum_charge {P} (t : term T P) :
    total_momentum pos t = sum_over f (operators t).
  Proof.
    unfold total_momentum.
    assert (H : forall ops m, fold_left (fun m (o : op T) => if creator o then m + pos (indices o)
                            else m - pos (indices o)) ops m = m + sum_over f ops).
    { induction ops as [|o ops IH]; intros m; [rewrite sum_over_nil; cbn [fold_left]; ring|].
      cbn [fold_left]. rewrite IH, sum_over_cons. unfold f. destruct (creator o); ring. }
    rewrite H. ring.
  Qed.
  Lemma commutate_momentum (a b x : term T K') : In x (commutate a b []) ->
    total_momentum pos x = total_momentum pos a + total_momentum pos b.
  Proof.
    intros H. apply (commutate_shape T HT) in H as (p & u & q & p' & v & q' & Ha & Hb & -> & Hx).
    rewrite !momentum_charge, Ha, Hb, Hx, !sum_over_app, !sum_over_cons.
    assert (E : f (op_get_conjugate u) = - f u).
    { unfold f. cbn. destruct (creator u); cbn [negb]; ring. }
    rewrite E. ring.
  Qed.
End QuantumK.

(** ** Symbolic commutators *)
Section Symbolic.
  Variable K : StarRing.
  Local Open Scope ring_scope_.
  Add Ring KringSy : (rth K).
  Variable v : string -> Z.
  Variable mode : list Z -> nat.
  Hypothesis inj : injective mode.
  Variable symne : symbol -> symbol -> bool.
  Hypothesis symne_sound : forall x y, symne x y = false -> sym_name x = sym_name y.

  Lemma krs_val_app a b : krs_val (K := K) v (a ++ b) = krs_val v a * krs_val v b.
  Proof. unfold krs_val. induction a as [|k a IH]; cbn [app fold_right]; [ring|]. rewrite IH. ring. Qed.
  Lemma sp_val_mul p q : sp_val (K := K) v (sp_mul p q) = sp_val v p * sp_val v q.
  Proof. unfold sp_val, sp_mul, sp_mul_assign. cbn [sp_value sp_kr]. rewrite krs_val_app. ring. Qed.
  Lemma sp_val_num p x : sp_val (K := K) v (sp_mul_num p x) = sp_val v p * x.
  Proof. unfold sp_val, sp_mul_num. cbn [sp_value sp_kr]. ring. Qed.
  Lemma sp_val_kr p k : sp_val (K := K) v (sp_mul_kr p k) = sp_val v p * kr_val v k.
  Proof. unfold sp_val, sp_mul_kr. cbn [sp_value sp_kr]. rewrite krs_val_app. cbn [krs_val fold_right]. ring. Qed.
  Lemma sp_val_krs p ks : sp_val (K := K) v (sp_mul_krs p ks) = sp_val v p * krs_val v ks.
  Proof. unfold sp_val, sp_mul_krs. cbn [sp_value sp_kr]. rewrite krs_val_app. ring. Qed.

  Definition ivs_eq (a b : list ival) : bool := if list_eq_dec Z.eq_dec (map (ival_val v) a) (map (ival_val v) b) then true else false.

  Lemma ivs_eq_true a b : ivs_eq a b = true <-> map (ival_val v) a = map (ival_val v) b.
  Proof. unfold ivs_eq. destruct (list_eq_dec Z.eq_dec _ _) as [E|E]; split; congruence. Qed.
  Lemma ivs_eq_cons x a y b :
    ivs_eq (x :: a) (y :: b) = (Z.eqb (ival_val v x) (ival_val v y) && ivs_eq a b)%bool.
  Proof.
    apply Bool.eq_true_iff_eq. rewrite andb_true_iff, !ivs_eq_true, Z.eqb_eq. cbn [map].
    split; [intros [= -> ->]; auto|intros [-> ->]; reflexivity].
  Qed.

  Lemma anticomm_helper_sound a b : map is_sym a = map is_sym b ->
    anticomm_helper a b = true -> ivs_eq a b = false.
  Proof.
    revert b.
    induction a as [|x a IH]; intros [|y b]; cbn [map]; try discriminate.
    intros [= Hk Hks]. rewrite ivs_eq_cons.
    destruct x as [x|x], y as [y|y]; cbn in Hk; try discriminate; cbn [anticomm_helper].
    - intros H. rewrite (IH b Hks H). apply andb_false_r.
    - cbn [ival_val]. destruct (Z.eqb_spec x y) as [->|Hne]; cbn [negb]; [|reflexivity].
      intros H. rewrite (IH b Hks H). reflexivity.
  Qed.

  Lemma anticommutator_helper_val a b : map is_sym a = map is_sym b ->
    anticomm_helper a b = false ->
    forall p, sp_val (K := K) v (anticommutator_helper symne a b p) =
              sp_val v p * (if ivs_eq a b then 1 else 0).
  Proof.
    revert b. induction a as [|x a IH]; intros [|y b]; cbn [map]; try discriminate.
    - intros _ _ p. change (ivs_eq [] []) with true. cbn [anticommutator_helper]. ring.
    - intros [= Hk Hks]. rewrite ivs_eq_cons.
      destruct x as [x|x], y as [y|y]; cbn in Hk; try discriminate;
        cbn [anticomm_helper anticommutator_helper ival_val].
      + intros H p. rewrite (IH b Hks H). destruct (symne x y) eqn:En.
        * rewrite sp_val_kr. unfold kr_val. cbn [kr_a kr_b].
          destruct (Z.eqb _ _); cbn [andb]; destruct (ivs_eq a b); ring.
        * apply symne_sound in En. rewrite En, Z.eqb_refl. cbn [andb]. reflexivity.
      + destruct (Z.eqb_spec x y) as [->|Hne]; cbn [negb]; [|discriminate].
        intros H p. rewrite (IH b Hks H). reflexivity.
  Qed.

  Definition dS (x y : sop) : K :=
    if (Bool.eqb (creator x) (negb (creator y)) &&
        Nat.eqb (mode (map (ival_val v) (indices x))) (mode (map (ival_val v) (indices y))))%bool
    then 1 else 0.

  Lemma dS_ivs x y : dS x y = if (Bool.eqb (creator x) (negb (creator y)) && ivs_eq (indices x) (indices y))%bool then 1 else 0.
  Proof.
    unfold dS. replace (Nat.eqb _ _) with (ivs_eq (indices x) (indices y)); [reflexivity|].
    unfold ivs_eq. destruct (list_eq_dec Z.eq_dec _ _) as [E|E].
    - rewrite E. symmetry. apply Nat.eqb_refl.
    - symmetry. apply Nat.eqb_neq. intros H. apply inj in H. contradiction.
  Qed.

  Lemma sym_car s t L R x y :
    sym_elem (K := K) mode v (L ++ x :: y :: R) s t + sym_elem mode v (L ++ y :: x :: R) s t
    = dS x y * sym_elem mode v (L ++ R) s t.
  Proof.
    unfold sym_elem, sym_ladders. rewrite !map_app. cbn [map]. rewrite amp_car. unfold dS.
    destruct (_ && _)%bool; ring.
  Qed.

  Lemma commutate_sym_sum kinds (a b : term sym_tuple (spre K)) s t :
    ops_typed kinds (operators a) -> ops_typed kinds (operators b) ->
    sym_terms_elem mode v (commutate_sym symne a b []) s t =
    sp_val v (prefactor a) * sp_val v (prefactor b) *
      (sym_elem mode v (operators a ++ operators b) s t
       - sgn (Nat.odd (length (operators a) * length (operators b)))
         * sym_elem mode v (operators b ++ operators a) s t).
  Proof.
    intros Ha Hb.
    apply (commutate_generic sym_tuple (spre K) sp_mul (fun p s => sp_mul_num p (sgn s))
             anticommutates_sym (anticommutator_sym symne) K (sp_val v) dS
             (fun ops => sym_elem mode v ops s t)
             (fun o : sop => map is_sym (indices o) = kinds)).
    - apply sp_val_mul.
    - intros. apply sp_val_num.
    - intros x y Hx Hy H. rewrite dS_ivs. unfold anticommutates_sym in H. apply orb_true_iff in H as [H|H].
      + destruct (creator x), (creator y); try discriminate; reflexivity.
      + rewrite (anticomm_helper_sound (indices x) (indices y)); [|congruence|exact H]. rewrite andb_false_r. reflexivity.
    - intros x y p Hx Hy H. rewrite dS_ivs. unfold anticommutates_sym in H. apply orb_false_iff in H as [H1 H2].
      unfold anticommutator_sym. rewrite anticommutator_helper_val; [|congruence|exact H2].
      destruct (creator x), (creator y); try discriminate; reflexivity.
    - intros. apply sym_car.
    - exact Ha.
    - exact Hb.
  Qed.
End Symbolic.

(** ** Strings and Kronecker deltas *)
Lemma str_eqb_eq a b : String.eqb a b = true <-> a = b.
Proof. apply String.eqb_eq. Qed.
Lemma str_ltb_irr a : str_ltb a a = false.
Proof.
  unfold str_ltb, String.ltb. destruct (String.compare a a) eqn:E; try reflexivity.
  pose proof (String.compare_antisym a a) as H. rewrite E in H. discriminate.
Qed.
Lemma str_compare_refl a : String.compare a a = Eq.
Proof.
  pose proof (String.compare_antisym a a) as H. destruct (String.compare a a); try reflexivity; discriminate.
Qed.
Lemma str_ltb_lt a b : str_ltb a b = true <-> String.compare a b = Lt.
Proof. unfold str_ltb, String.ltb. destruct (String.compare a b); split; congruence. Qed.
Lemma str_ltb_trans a b c : str_ltb a b = true -> str_ltb b c = true -> str_ltb a c = true.
Proof.
  rewrite !str_ltb_lt. revert b c.
  induction a as [|x a IH]; intros [|y b] [|z c]; cbn; try discriminate; try reflexivity.
  unfold Ascii.compare.
  destruct (N.compare_spec (N_of_ascii x) (N_of_ascii y)) as [E1|E1|E1];
  destruct (N.compare_spec (N_of_ascii y) (N_of_ascii z)) as [E2|E2|E2];
  destruct (N.compare_spec (N_of_ascii x) (N_of_ascii z)) as [E3|E3|E3];
    try discriminate; try lia; try reflexivity; eauto.
Qed.
Lemma str_ltb_total a b : a = b \/ str_ltb a b = true \/ str_ltb b a = true.
Proof.
  rewrite !str_ltb_lt. pose proof (String.compare_antisym a b) as H.
  destruct (String.compare a b) eqn:E.
  - left. apply String.compare_eq_iff. exact E.
  - auto.
  - right; right. destruct (String.compare b a); try discriminate; reflexivity.
Qed.
Lemma str_ltb_asym a b : str_ltb a b = true -> str_ltb b a = false.
Proof.
  intros H. destruct (str_ltb b a) eqn:E; [|reflexivity].
  pose proof (str_ltb_trans _ _ _ H E) as H2. rewrite str_ltb_irr in H2. discriminate.
Qed.
Definition string_ord : OrdType := mkOrd string String.eqb str_ltb str_eqb_eq str_ltb_irr str_ltb_trans str_ltb_total.

Lemma kr_eqb_iff x y : kr_eqb x y = true <->
  (kr_a x = kr_a y /\ kr_b x = kr_b y) \/ (kr_a x = kr_b y /\ kr_b x = kr_a y).
Proof. unfold kr_eqb. rewrite orb_true_iff, !andb_true_iff, !str_eqb_eq. reflexivity. Qed.

Lemma kr_order_cases x : kr_order x = x \/ kr_order x = mkKr (kr_b x) (kr_a x).
Proof. unfold kr_order. destruct (str_ltb _ _); auto. Qed.
Lemma kr_order_sorted x : str_ltb (kr_b (kr_order x)) (kr_a (kr_order x)) = false.
Proof.
  unfold kr_order. destruct (str_ltb (kr_b x) (kr_a x)) eqn:E; cbn; [apply str_ltb_asym|]; exact E.
Qed.
Lemma kr_val_order {K : StarRing} v x : kr_val (K := K) v (kr_order x) = kr_val v x.
Proof.
  destruct (kr_order_cases x) as [->| ->]; [reflexivity|]. unfold kr_val; cbn. rewrite Z.eqb_sym. reflexivity.
Qed.
Lemma kr_eqb_order x y : kr_eqb x y = true <-> kr_order x = kr_order y.
Proof.
  rewrite kr_eqb_iff. destruct x as [a b], y as [c d]; unfold kr_order; cbn. split.
  - intros [[-> ->]|[-> ->]]; [reflexivity|].
    destruct (str_ltb d c) eqn:E1, (str_ltb c d) eqn:E2; try reflexivity.
    + apply str_ltb_asym in E1. congruence.
    + destruct (str_ltb_total c d) as [->|[|]]; congruence.
  - destruct (str_ltb b a), (str_ltb d c); intros [= -> ->]; auto.
Qed.

(** comparator on ordered deltas *)
Definition ordered_kr (x : kronecker) : Prop := str_ltb (kr_b x) (kr_a x) = false.
Lemma kr_cmp_char x y : ordered_kr x ->
  kr_cmp x y = true <->
  str_ltb (kr_a x) (kr_a y) = true \/
  (kr_a x = kr_a y /\ kr_a x = kr_b x /\ str_ltb (kr_b x) (kr_b y) = true).
Proof.
  unfold ordered_kr, kr_cmp. intros Ho.
  destruct (str_ltb (kr_a x) (kr_a y)) eqn:E1; [split; auto|].
  destruct (str_ltb (kr_a y) (kr_b x)) eqn:E2.
  - split; [discriminate|]. intros [H|(H1 & H2 & H3)]; [discriminate|].
    rewrite <- H1, <- H2, str_ltb_irr in E2. discriminate.
  - assert (Hxy : kr_a x = kr_a y).
    { destruct (str_ltb_total (kr_a x) (kr_a y)) as [H|[H|H]]; [exact H|congruence|].
      destruct (str_ltb_total (kr_b x) (kr_a y)) as [H'|[H'|H']]; try congruence.
      pose proof (str_ltb_trans _ _ _ H' H). congruence. }
    assert (Hbx : kr_a x = kr_b x).
    { destruct (str_ltb_total (kr_a x) (kr_b x)) as [H|[H|H]]; [exact H| |congruence].
      rewrite Hxy in H. congruence. }
    split; [auto|]. intros [H|(_ & _ & H)]; [discriminate|exact H].
Qed.
