(** THEOREMS: C89 (the names of symbolic indices). *)
From Coq Require Import Ascii String.
From Verif Require Import Base M_Operator M_Text M_Io Pf_Io M_Print Spec_Print P_Print M_Index.
Local Open Scope list_scope.

(** SPECIFICATION: an index built without a name: by the default constructor (None) or from an int *)
Definition built (k : index_kind) (c : option Z) : sindex :=
  match c with None => index_default k | Some i => index_int k i end.

Lemma text_eqb_eq : forall a b, text_eqb a b = true <-> a = b.
Proof.
  induction a as [|x a IH]; intros [|y b]; cbn; split; intros H; try reflexivity; try discriminate.
  - apply andb_true_iff in H as [H1 H2]. apply Ascii.eqb_eq in H1. apply IH in H2. congruence.
  - injection H as -> ->. rewrite Ascii.eqb_refl. apply IH. reflexivity.
Qed.
Lemma sdec_nonempty i : sdec i <> [].
Proof. unfold sdec. destruct (i <? 0)%Z; [discriminate|apply dec_nonempty]. Qed.

(** == is equality of the names and != its negation; what is printed is the name; a name given as a string
    is kept *)
Theorem C89_equality : forall a b,
  (index_eq a b = true <-> index_text a = index_text b) /\ index_neq a b = negb (index_eq a b).
Proof. intros a b. split; [apply text_eqb_eq|reflexivity]. Qed.
Print Assumptions C89_equality.
Theorem C89_print : forall out a s, index_print out a = out ++ index_text a /\ index_print out (index_string s) = out ++ s.
Proof. split; reflexivity. Qed.

(** Indices built without a name never clash: neither two of one kind (as compared by ==) nor, in what is
    printed, two of different kinds *)
Theorem C89_no_clash : forall k c c', index_eq (built k c) (built k c') = true <-> c = c'.
Proof.
  intros k c c'. unfold index_eq. rewrite text_eqb_eq. split; [|intros ->; reflexivity].
  destruct k, c as [i|], c' as [j|]; cbn; intros H; try discriminate; try reflexivity; try (injection H as H; apply sdec_inj in H; congruence).
Qed.
Print Assumptions C89_no_clash.
Theorem C89_kinds : forall k k' c c', index_print [] (built k c) = index_print [] (built k' c') <-> k = k' /\ c = c'.
Proof.
  intros k k' c c'. unfold index_print. cbn [app]. split; [|intros [-> ->]; reflexivity].
  intros H. assert (K : k = k') by (destruct k, k', c as [i|], c' as [j|]; cbn in H; try discriminate; reflexivity).
  subst k'. split; [reflexivity|]. apply (C89_no_clash k). unfold index_eq. apply text_eqb_eq, H.
Qed.
Print Assumptions C89_kinds.

(** An operator with two indices of the kinds k and l, as operator<< sees it *)
Definition index_op (k l : index_kind) (o : bool * option Z * option Z) : pop :=
  mkPop (fst (fst o)) [VText (index_text (built k (snd (fst o)))); VText (index_text (built l (snd o)))].
Lemma built_avoids k c x : In x [comma; brace] -> ~ In x (index_text (built k c)).
Proof.
  intros Hx H. assert (Hs : forall i, ~ In x (sdec i)).
  { intros i E. apply sdec_in in E. destruct Hx as [<-|[<-|[]]]; destruct E as [E|E]; try discriminate; unfold digit in E; cbn in E; lia. }
  destruct k, c as [i|]; cbn in H; repeat (destruct H as [H|H]; [destruct Hx as [<-|[<-|[]]]; discriminate|]);
    try contradiction; exact (Hs i H).
Qed.
Lemma index_op_clean k l o : clean [KText; KText] (index_op k l o).
Proof.
  split; [reflexivity|]. intros t H c Hc. cbn in H. destruct H as [H|[H|[]]]; injection H as <-; apply built_avoids; exact Hc.
Qed.
Lemma index_op_inj k l o o' : index_op k l o = index_op k l o' -> o = o'.
Proof.
  destruct o as [[b i] j], o' as [[b' i'] j']. unfold index_op. cbn [fst snd]. intros H. injection H as -> H1 H2.
  apply text_eqb_eq in H1. apply text_eqb_eq in H2.
  apply C89_no_clash in H1. apply C89_no_clash in H2. congruence.
Qed.
(** ... so the printed product of operators with such indices determines the product *)
Theorem C89_monomial : forall arrows k l m m', m <> [] -> m' <> [] ->
  print_monomial arrows (map (index_op k l) m) = print_monomial arrows (map (index_op k l) m') -> m = m'.
Proof.
  intros arrows k l m m' N N' H.
  assert (F : forall s, Forall (clean [KText; KText]) (map (index_op k l) s)).
  { intros s. apply Forall_forall. intros x Hx. apply in_map_iff in Hx as (o & <- & _). apply index_op_clean. }
  destruct (C80_monomial arrows [KText; KText] _ _ ltac:(discriminate) (F m) (F m')) as [_ I].
  specialize (I ltac:(destruct m; [contradiction|discriminate]) ltac:(destruct m'; [contradiction|discriminate]) H).
  clear H N N' F. revert m' I. induction m as [|a m IH]; intros [|b m'] I; try discriminate; [reflexivity|].
  cbn [map] in I. injection I as Ia1 Ia2 Ia3 I. f_equal; [|apply IH, I].
  apply (index_op_inj k l). unfold index_op. congruence.
Qed.
Print Assumptions C89_monomial.

(** DEFECT: the names of numbered indices are not reserved, and a name with a comma makes two different
    operators print alike *)
Theorem C89_reserved_refuted : forall k c,
  (exists s, index_eq (index_string s) (built k c) = true) /\
  exists a b a' b', (index_eq a a' = false) /\ forall arrows cr,
    print_op arrows (mkPop cr [VText (index_text a); VText (index_text b)]) =
    print_op arrows (mkPop cr [VText (index_text a'); VText (index_text b')]).
Proof.
  intros k c. split; [exists (index_text (built k c)); apply text_eqb_eq; reflexivity|].
  exists (index_string (str "a,b")), (index_string (str "c")), (index_string (str "a")), (index_string (str "b,c")).
  split; [reflexivity|]. intros arrows [|]; reflexivity.
Qed.
Print Assumptions C89_reserved_refuted.

(** a concrete case *)
Example index_names : index_text (built Space (Some (-12)%Z)) = str "r_-12" /\ index_text (built Momentum None) = str "k" /\
  index_eq (built Spin (Some 1%Z)) (built Spin (Some 10%Z)) = false /\ index_eq (index_string (str "k_3")) (built Momentum (Some 3%Z)) = true.
Proof. vm_compute. repeat split. Qed.
Example index_products : print_monomial true (map (index_op Space Spin) [(true, Some 1%Z, None); (false, None, Some (-2)%Z)]) <>
  print_monomial true (map (index_op Space Spin) [(true, Some 1%Z, None); (false, None, Some 2%Z)]).
Proof. intros H. apply C89_monomial in H; discriminate. Qed.
