(** PROPERTY THEOREMS C10-C16: symbolic commutators, like terms, deltas. *)
From Coq Require Import String Ascii Sorting.Sorted.
From Verif Require Import Base Spec_Fock FockFacts M_Operator Pf_Operator M_Commutator
  Pf_Commutator Spec_Algebra Pf_Algebra Pf_Algebra2 Instances.
Local Open Scope list_scope.

(** ** C10.  [v] is the substitution; [symne] the index comparison, of which only
    soundness is required (symbols reported equal have equal text). *)
Theorem C10_symbolic_commutator :
  forall (K : StarRing) (v : string -> Z) (mode : list Z -> nat), injective mode ->
  forall symne, (forall x y, symne x y = false -> sym_name x = sym_name y) ->
  forall kinds (a b : term sym_tuple (spre K)) c,
  ops_typed kinds (operators a) -> ops_typed kinds (operators b) ->
  Nat.even (length (operators a) * length (operators b)) = true ->
  exists new, commutate_sym symne a b c = c ++ new /\
  forall s t, sym_terms_elem mode v new s t =
    rmul (rmul (sp_val v (prefactor a)) (sp_val v (prefactor b)))
         (rsub (sym_elem mode v (operators a ++ operators b) s t)
               (sym_elem mode v (operators b ++ operators a) s t)).
Proof.
  intros K v mode inj symne Hs kinds a b c Ha Hb Hev. exists (commutate_sym symne a b []).
  split; [reflexivity|]. intros s t.
  rewrite (commutate_sym_sum K v mode inj symne Hs kinds a b s t Ha Hb).
  rewrite <- Nat.negb_even, Hev. cbn [negb sgn]. f_equal. f_equal. apply mul1l.
Qed.
Print Assumptions C10_symbolic_commutator.
(** Both comparisons the library is used with are sound: by text (std::string) and
    by address (const char* ), provided equal addresses hold equal text. *)
Example C10_comparison_by_text : forall x y,
  negb (String.eqb (sym_name x) (sym_name y)) = false -> sym_name x = sym_name y.
Proof. intros x y H. apply negb_false_iff in H. apply String.eqb_eq, H. Qed.
Example C10_comparison_by_address : forall (mem : Z -> string) x y,
  (forall z, sym_name z = mem (sym_addr z)) ->
  negb (Z.eqb (sym_addr x) (sym_addr y)) = false -> sym_name x = sym_name y.
Proof. intros mem x y H E. apply negb_false_iff, Z.eqb_eq in E. rewrite !H, E. reflexivity. Qed.
Definition sy (n : string) : ival := Sym (mkSym 0 n).
Example C10_example :
  let a := mkTerm (T := sym_tuple) (P := spre Zring) (mkSP 1%Z [])
             [@mkOp sym_tuple true [sy "i"; Con 1]; @mkOp sym_tuple false [sy "j"; Con 1]] in
  let b := mkTerm (T := sym_tuple) (P := spre Zring) (mkSP 3%Z [])
             [@mkOp sym_tuple true [sy "k"; Con 1]; @mkOp sym_tuple false [sy "l"; Con 0]] in
  ops_typed [true; false] (operators a) /\ ops_typed [true; false] (operators b) /\
  commutate_sym (fun x y => negb (String.eqb (sym_name x) (sym_name y))) a b [] =
    [mkTerm (T := sym_tuple) (P := spre Zring) (mkSP 3%Z [mkKr "j" "k"])
       [@mkOp sym_tuple true [sy "i"; Con 1]; @mkOp sym_tuple false [sy "l"; Con 0]]].
Proof. repeat split; repeat constructor. Qed.

(** ** C11 *)
Theorem C11_anticommutates_concrete :
  forall T, supported T -> forall (mode : T -> nat), injective mode ->
  forall (K : StarRing) (x y : op T) (p : K) s t,
  (anticommutates x y = true ->
     radd (elem (K := K) mode [x; y] s t) (elem mode [y; x] s t) = r0) /\
  (anticommutates x y = false ->
     radd (elem (K := K) mode [x; y] s t) (elem mode [y; x] s t) = elem mode [] s t /\
     anticommutator x y p = p).
Proof.
  intros T HT mode inj K x y p s t. rewrite (anticommute_pair T (supported_laws T HT) mode inj).
  split; intros ->; auto.
Qed.
Print Assumptions C11_anticommutates_concrete.
Theorem C11_anticommutates_symbolic :
  forall (K : StarRing) (v : string -> Z) (mode : list Z -> nat), injective mode ->
  forall symne, (forall x y, symne x y = false -> sym_name x = sym_name y) ->
  forall (x y : sop), map is_sym (indices x) = map is_sym (indices y) -> forall s t,
  (anticommutates_sym x y = true ->
     radd (sym_elem (K := K) mode v [x; y] s t) (sym_elem mode v [y; x] s t) = r0) /\
  (anticommutates_sym x y = false -> forall p : spre K,
     rmul (sp_val v p) (radd (sym_elem (K := K) mode v [x; y] s t) (sym_elem mode v [y; x] s t))
     = rmul (sp_val v (anticommutator_sym symne x y p)) (sym_elem mode v [] s t)).
Proof.
  intros K v mode inj symne Hs x y Hk s t.
  pose proof (sym_car K v mode s t [] [] x y) as H. cbn [app] in H.
  rewrite H, (dS_ivs K v mode inj). unfold anticommutates_sym. split.
  - intros E. apply orb_true_iff in E as [E|E].
    + replace (Bool.eqb (creator x) (negb (creator y))) with false
        by (destruct (creator x), (creator y); try discriminate; reflexivity).
      cbn [andb]. apply mul0l.
    + rewrite (anticomm_helper_sound v mode inj (indices x) (indices y) Hk E), andb_false_r. apply mul0l.
  - intros E p. apply orb_false_iff in E as [E1 E2].
    unfold anticommutator_sym. rewrite (anticommutator_helper_val K v mode inj symne Hs (indices x) (indices y) Hk E2).
    replace (Bool.eqb (creator x) (negb (creator y))) with true
      by (destruct (creator x), (creator y); try discriminate; reflexivity).
    cbn [andb]. apply (Rmul_assoc (rth K)).
Qed.
Print Assumptions C11_anticommutates_symbolic.
Example C11_example :
  anticommutates (cr 1 true) (an 1 true) = false /\ anticommutates (cr 1 true) (an 2 true) = true /\
  elem (K := Zring) site_spin_mode [cr 1 true; an 1 true] 4 4 = 1%Z.
Proof. repeat split. Qed.

(** ** C12 *)
Theorem C12_commutator_quantum_numbers :
  forall T, supported T -> forall (K K' : StarRing) (spin : T -> bool) (pos : T -> K')
         (a b x : term T K), In x (commutate a b []) ->
  length (operators x) + 2 = length (operators a) + length (operators b) /\
  total_creations x = (total_creations a + total_creations b)%Z /\
  total_spin spin x = (total_spin spin a + total_spin spin b)%Z /\
  total_momentum pos x = radd (total_momentum pos a) (total_momentum pos b).
Proof.
  intros T HT K K' spin pos a b x H. apply supported_laws in HT.
  split; [|split; [|split]].
  - apply (commutate_shape T HT) in H as (p & u & q & p' & w & q' & -> & -> & _ & ->).
    rewrite !app_length. cbn [length]. lia.
  - rewrite !creations_charge. apply (commutate_charge T HT); [|exact H].
    intros o. cbn. destruct (creator o); reflexivity.
  - rewrite !spin_charge. apply (commutate_charge T HT); [|exact H].
    intros o. cbn. destruct (creator o), (spin (indices o)); reflexivity.
  - apply (commutate_momentum T HT). exact H.
Qed.
Print Assumptions C12_commutator_quantum_numbers.
Example C12_example :
  In (mkTerm (T := site_spin) (P := Zring) 4%Z [cr 0 true; an 2 false])
     (commutate (mkTerm (P := Zring) 2%Z [cr 0 true; an 1 true]) (mkTerm (P := Zring) 2%Z [cr 1 true; an 2 false]) []).
Proof. left. reflexivity. Qed.

(** total_creations really counts creators minus annihilators. *)
Theorem C12_total_creations_counts : forall (T : IndexTuple) P (x : term T P),
  total_creations x =
  (Z.of_nat (length (filter (fun o => creator o) (operators x)))
   - Z.of_nat (length (filter (fun o => negb (creator o)) (operators x))))%Z.
Proof.
  intros T P x. rewrite creations_charge. unfold charge_of.
  induction (operators x) as [|o ops IH]; cbn [fold_right filter length]; [reflexivity|].
  rewrite IH. destruct (creator o); cbn [negb length]; lia.
Qed.
Print Assumptions C12_total_creations_counts.

(** ** C13 *)
Theorem C13_copy_as_unique_terms :
  forall T, supported T -> forall (K : StarRing) (original result : list (term T K)),
  exists out, copy_as_unique_terms radd original result = result ++ out /\
  StronglySorted (fun x y => term_smaller x y = true) out /\
  NoDup (map operators out) /\
  (forall o, In o (map operators out) <-> In o (map operators original)) /\
  (forall x, In x out -> prefactor x =
     sum_over (fun t => if mono_eqb (operators t) (operators x) then prefactor t else r0) original) /\
  (forall mode s t, terms_elem mode out s t = terms_elem mode original s t).
Proof.
  intros T HT K original result. apply supported_laws in HT.
  exists (fold_left (cut_step radd) original []). split; [reflexivity|].
  assert (Hs : ssorted T K (fold_left (cut_step radd) original [])) by (apply fold_cut_sorted; [exact HT|exact I]).
  split; [apply ssorted_strongly, Hs|].
  split; [apply (unique_ops_nodup T HT), Hs|].
  split; [intros o; rewrite (fold_cut_ops T HT); cbn; tauto|].
  split.
  - intros x Hx. rewrite <- (coeff_sorted T HT K _ x Hs Hx), (coeff_fold T HT). apply add0l.
  - intros mode s t. unfold terms_elem.
    transitivity (radd (sum_over (fun x => term_elem mode x s t) []) (sum_over (fun x => term_elem mode x s t) original));
      [|apply add0l].
    apply (fold_cut_weight T HT K radd K (fun p o => rmul p (elem mode o s t))).
    intros p q o. apply (Rdistr_l (rth K)).
Qed.
Print Assumptions C13_copy_as_unique_terms.
Example C13_example :
  copy_as_unique_terms (T := site_spin) (P := Zring) Z.add
    [mkTerm 2%Z [cr 1 true]; mkTerm 5%Z [cr 0 true]; mkTerm 3%Z [cr 1 true]] []
  = [mkTerm 5%Z [cr 0 true]; mkTerm 5%Z [cr 1 true]].
Proof. reflexivity. Qed.

(** ** C14 *)
Theorem C14_kronecker : forall x y z : kronecker,
  kr_eqb x x = true /\ kr_eqb x y = kr_eqb y x /\
  (kr_eqb x y = true -> kr_eqb y z = true -> kr_eqb x z = true) /\
  kr_eqb x (mkKr (kr_b x) (kr_a x)) = true /\
  kr_neqb x y = negb (kr_eqb x y) /\
  (kr_eqb x y = true <-> kr_order x = kr_order y) /\
  kr_order (kr_order x) = kr_order x /\
  (forall (K : StarRing) v, kr_val (K := K) v (kr_order x) = kr_val v x) /\
  (kr_eqb x y = true -> forall (K : StarRing) v, kr_val (K := K) v x = kr_val v y).
Proof.
  intros x y z.
  assert (V : kr_eqb x y = true -> forall (K : StarRing) v, kr_val (K := K) v x = kr_val v y).
  { intros H K v. apply kr_eqb_order in H. rewrite <- (kr_val_order v x), H. apply kr_val_order. }
  split; [apply kr_eqb_order; reflexivity|].
  split; [apply Bool.eq_true_iff_eq; rewrite !kr_eqb_order; split; congruence|].
  split; [rewrite !kr_eqb_order; congruence|].
  split; [apply kr_eqb_iff; cbn; auto|].
  split; [reflexivity|].
  split; [apply kr_eqb_order|].
  split; [|split; [intros; apply kr_val_order|exact V]].
  unfold kr_order at 1. rewrite kr_order_sorted. reflexivity.
Qed.
Print Assumptions C14_kronecker.
Example C14_example : kr_eqb (mkKr "b" "a") (mkKr "a" "b") = true /\ kr_order (mkKr "b" "a") = mkKr "a" "b".
Proof. split; reflexivity. Qed.

(** ** C15 *)
Theorem C15_prefactor_multiplication : forall (K : StarRing) (v : string -> Z) (p q r : spre K) k ks x,
  sp_val v (sp_mul p q) = rmul (sp_val v p) (sp_val v q) /\
  sp_val v (sp_mul_assign p q) = rmul (sp_val v p) (sp_val v q) /\
  sp_val v (sp_mul_kr p k) = rmul (sp_val v p) (kr_val v k) /\
  sp_val v (sp_mul_krs p ks) = rmul (sp_val v p) (krs_val v ks) /\
  sp_val v (sp_mul_num p x) = rmul (sp_val v p) x /\
  sp_val v (sp_mul p q) = sp_val v (sp_mul q p) /\
  sp_mul (sp_mul p q) r = sp_mul p (sp_mul q r).
Proof.
  intros. split; [apply sp_val_mul|]. split; [apply sp_val_mul|]. split; [apply sp_val_kr|].
  split; [apply sp_val_krs|]. split; [apply sp_val_num|].
  split; [rewrite !sp_val_mul; apply (Rmul_comm (rth K))|].
  unfold sp_mul, sp_mul_assign. cbn [sp_value sp_kr]. rewrite app_assoc, (Rmul_assoc (rth K)). reflexivity.
Qed.
Print Assumptions C15_prefactor_multiplication.
Example C15_example :
  sp_val (K := Zring) (fun s => if String.eqb s "i" then 7 else 7)%Z
     (sp_mul (K := Zring) (mkSP 2%Z [mkKr "i" "j"]) (mkSP 3%Z [])) = 6%Z.
Proof. reflexivity. Qed.

(** ** C16 *)
Theorem C16_order_kroneckers_sound : forall (K : StarRing) (p p' : spre K),
  order_kroneckers_result p p' ->
  (forall v, sp_val v p' = sp_val v p) /\
  Permutation (map kr_order (sp_kr p)) (sp_kr p').
Proof.
  intros K p p' H. split; [intros v; apply order_kroneckers_val, H|]. apply H.
Qed.
Print Assumptions C16_order_kroneckers_sound.
(** std::sort's requirement on the comparator, for the deltas it is applied to. *)
Theorem C16_comparator_strict_weak_order : forall x y z,
  let a := kr_order x in let b := kr_order y in let c := kr_order z in
  kr_cmp a a = false /\
  (kr_cmp a b = true -> kr_cmp b c = true -> kr_cmp a c = true) /\
  (kr_cmp a b = false -> kr_cmp b a = false -> kr_cmp b c = false -> kr_cmp c b = false ->
   kr_cmp a c = false /\ kr_cmp c a = false).
Proof.
  intros x y z a b c.
  assert (Ha : ordered_kr a) by apply kr_order_sorted.
  assert (Hb : ordered_kr b) by apply kr_order_sorted.
  assert (Hc : ordered_kr c) by apply kr_order_sorted.
  split; [apply kr_cmp_irr, Ha|]. split; [apply kr_cmp_trans; assumption|].
  intros H1 H2 H3 H4. apply kr_cmp_tie; auto.
  destruct (proj1 (kr_cmp_tie a b Ha Hb) (conj H1 H2)) as [E1 E2].
  destruct (proj1 (kr_cmp_tie b c Hb Hc) (conj H3 H4)) as [E3 E4].
  split; congruence.
Qed.
Print Assumptions C16_comparator_strict_weak_order.
(** The canonical-form claim is false: the comparator ignores the second index. *)
Theorem C16_canonical_form_refuted : exists (p q p' q' : spre Zring),
  sp_value p = sp_value q /\ Permutation (sp_kr p) (sp_kr q) /\
  order_kroneckers_result p p' /\ order_kroneckers_result q q' /\
  sp_kr p' <> sp_kr q'.
Proof.
  exists (mkSP 1%Z [mkKr "a" "b"; mkKr "a" "c"]), (mkSP 1%Z [mkKr "a" "c"; mkKr "a" "b"]),
         (mkSP 1%Z [mkKr "a" "b"; mkKr "a" "c"]), (mkSP 1%Z [mkKr "a" "c"; mkKr "a" "b"]).
  split; [reflexivity|]. split; [constructor|].
  split; [|split; [|cbn; congruence]];
    (split; [reflexivity|]; split; [cbn; reflexivity|repeat constructor]).
Qed.
Print Assumptions C16_canonical_form_refuted.
(** What does hold: the first indices come out in one canonical order, only the
    order of the second indices is open. *)
Theorem C16_canonical_first_index : forall (K : Type) (p q p' q' : spre K),
  Permutation (map kr_order (sp_kr p)) (map kr_order (sp_kr q)) ->
  order_kroneckers_result p p' -> order_kroneckers_result q q' ->
  map kr_a (sp_kr p') = map kr_a (sp_kr q').
Proof.
  intros K p q p' q' Hp (_ & H1 & S1) (_ & H2 & S2).
  assert (O : forall r r' : spre K, Permutation (map kr_order (sp_kr r)) (sp_kr r') -> Forall ordered_kr (sp_kr r')).
  { intros r r' H. apply Forall_forall. intros x Hx. apply (Permutation_in x (Permutation_sym H)) in Hx.
    apply in_map_iff in Hx as (y & <- & _). apply kr_order_sorted. }
  apply sorted_unique.
  - apply sorted_first; [eapply O; exact H1|exact S1].
  - apply sorted_first; [eapply O; exact H2|exact S2].
  - apply Permutation_map. rewrite <- H1, <- H2. exact Hp.
Qed.
Print Assumptions C16_canonical_first_index.
Example C16_example :
  order_kroneckers_result (K := Zring) (mkSP 1%Z [mkKr "d" "c"; mkKr "b" "a"]) (mkSP 1%Z [mkKr "a" "b"; mkKr "c" "d"]).
Proof. split; [reflexivity|]. split; [cbn; constructor|repeat constructor]. Qed.
