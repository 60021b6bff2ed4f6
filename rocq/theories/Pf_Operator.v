(** Proofs about operators, monomials and terms. *)
From Verif Require Import Base Spec_Fock FockFacts M_Operator.

Record IndexLaws (T : IndexTuple) : Prop := {
  il_eq : forall a b, it_eqb T a b = true <-> a = b;
  il_neq : forall a b, it_neqb T a b = negb (it_eqb T a b);
  il_irr : forall a, it_smaller T a a = false;
  il_trans : forall a b c, it_smaller T a b = true -> it_smaller T b c = true -> it_smaller T a c = true;
  il_total : forall a b, a = b \/ it_smaller T a b = true \/ it_smaller T b a = true;
  il_gt : forall a b, it_greater T a b = it_smaller T b a
}.

Lemma oneb_false {V : OrdType} (a b : V) : oneb a b = false <-> a = b.
Proof. unfold oneb. rewrite negb_false_iff. apply oeqb_eq. Qed.
Lemma oneb_true {V : OrdType} (a b : V) : oneb a b = true <-> a <> b.
Proof.
  destruct (oneb a b) eqn:E.
  - split; [|reflexivity]. intros _ ->. rewrite (proj2 (oneb_false b b) eq_refl) in E. discriminate.
  - apply oneb_false in E. split; [discriminate|congruence].
Qed.
Lemma oneb_sym {V : OrdType} (a b : V) : oneb a b = oneb b a.
Proof.
  destruct (oneb a b) eqn:E, (oneb b a) eqn:E'; try reflexivity;
    [apply oneb_false in E'|apply oneb_false in E]; subst;
    rewrite (proj2 (oneb_false _ _) eq_refl) in *; discriminate.
Qed.
Lemma oeqb_dec {V : OrdType} (a b : V) : a = b \/ a <> b.
Proof.
  destruct (oneb a b) eqn:E; [right; apply oneb_true, E|left; apply oneb_false, E].
Qed.

Lemma laws_idx1 V : IndexLaws (idx1 V).
Proof.
  constructor; cbn; intros.
  - apply oeqb_eq.
  - reflexivity.
  - apply oltb_irr.
  - eapply oltb_trans; eassumption.
  - apply oltb_total.
  - reflexivity.
Qed.

(** Lexicographic step shared by the two-index and the N-index case. *)
Section Lex.
  Variable V : OrdType.
  Variable B : Type.
  Variable lt : B -> B -> bool.
  Let L (a b : V * B) := if oneb (fst a) (fst b) then oltb (fst a) (fst b) else lt (snd a) (snd b).
  Hypothesis irr : forall b, lt b b = false.
  Hypothesis trans : forall a b c, lt a b = true -> lt b c = true -> lt a c = true.
  Hypothesis total : forall a b, a = b \/ lt a b = true \/ lt b a = true.

  Lemma lex_irr a : L a a = false.
  Proof. unfold L. rewrite (proj2 (oneb_false _ _) eq_refl). apply irr. Qed.

  Lemma lex_trans a b c : L a b = true -> L b c = true -> L a c = true.
  Proof.
    unfold L. destruct a as [a1 a2], b as [b1 b2], c as [c1 c2]; cbn.
    destruct (oneb a1 b1) eqn:E1, (oneb b1 c1) eqn:E2; intros H1 H2.
    - pose proof (oltb_trans V _ _ _ H1 H2) as H3.
      destruct (oneb a1 c1) eqn:E3; [exact H3|].
      apply oneb_false in E3. subst. rewrite oltb_irr in H3. discriminate.
    - apply oneb_false in E2. subst. rewrite E1. exact H1.
    - apply oneb_false in E1. subst. rewrite E2. exact H2.
    - apply oneb_false in E1, E2. subst.
      rewrite (proj2 (oneb_false _ _) eq_refl). eapply trans; eassumption.
  Qed.

  Lemma lex_total a b : a = b \/ L a b = true \/ L b a = true.
  Proof.
    unfold L. destruct a as [a1 a2], b as [b1 b2]; cbn. rewrite (oneb_sym b1 a1).
    destruct (oneb a1 b1) eqn:E.
    - apply oneb_true in E. destruct (oltb_total V a1 b1) as [|H]; [contradiction|right; exact H].
    - apply oneb_false in E. subst. destruct (total a2 b2) as [->|H]; [left; reflexivity|right; exact H].
  Qed.
End Lex.

Lemma laws_idx2 V1 V2 : IndexLaws (idx2 V1 V2).
Proof.
  constructor; cbn.
  - intros [a1 a2] [b1 b2]; cbn. rewrite andb_true_iff, !oeqb_eq. split; [intros [-> ->]; reflexivity|intros [= -> ->]; auto].
  - intros a b. unfold oneb. rewrite negb_andb. reflexivity.
  - apply (lex_irr V1 V2 oltb). apply oltb_irr.
  - apply (lex_trans V1 V2 oltb). apply oltb_trans.
  - apply (lex_total V1 V2 oltb). apply oltb_total.
  - intros a b. unfold ogtb. rewrite oneb_sym. reflexivity.
Qed.

Lemma laws_idxN Vs : IndexLaws (idxN Vs).
Proof.
  induction Vs as [|V Vs IH]; constructor; cbn.
  - intros [] []; split; reflexivity.
  - reflexivity.
  - reflexivity.
  - discriminate.
  - intros [] []; left; reflexivity.
  - reflexivity.
  - intros [a1 a2] [b1 b2]; cbn. rewrite andb_true_iff, oeqb_eq.
    rewrite (il_eq _ IH a2 b2). split; [intros [-> ->]; reflexivity|intros [= -> ->]; auto].
  - reflexivity.
  - apply (lex_irr V (tup Vs) (tup_smaller Vs)). apply (il_irr _ IH).
  - apply (lex_trans V (tup Vs) (tup_smaller Vs)). apply (il_trans _ IH).
  - apply (lex_total V (tup Vs) (tup_smaller Vs)). apply (il_total _ IH).
  - intros [a1 a2] [b1 b2]. cbn. unfold ogtb. rewrite (oneb_sym a1 b1).
    destruct (oneb b1 a1); [reflexivity|]. exact (il_gt _ IH a2 b2).
Qed.

Lemma supported_laws T : supported T -> IndexLaws T.
Proof. intros []; [apply laws_idx1|apply laws_idx2|apply laws_idxN]. Qed.

Section Proofs.
  Variable T : IndexTuple.
  Hypothesis HT : IndexLaws T.

  Lemma op_ext (a b : op T) : creator a = creator b -> indices a = indices b -> a = b.
  Proof. destruct a, b; cbn; intros -> ->; reflexivity. Qed.

  Lemma op_eqb_eq (a b : op T) : op_eqb a b = true <-> a = b.
  Proof.
    unfold op_eqb. rewrite andb_true_iff, eqb_true_iff, (il_eq _ HT). split.
    - intros [? ?]; apply op_ext; assumption.
    - intros ->; auto.
  Qed.
  Lemma op_neqb_negb (a b : op T) : op_neqb a b = negb (op_eqb a b).
  Proof.
    unfold op_neqb, op_eqb. rewrite (il_neq _ HT), negb_andb.
    destruct (creator a), (creator b); reflexivity.
  Qed.
  Lemma op_eqb_false (a b : op T) : op_eqb a b = false <-> a <> b.
  Proof.
    destruct (op_eqb a b) eqn:E.
    - apply op_eqb_eq in E. split; [discriminate|congruence].
    - split; [|reflexivity]. intros _ ->. rewrite (proj2 (op_eqb_eq b b) eq_refl) in E. discriminate.
  Qed.
  Lemma op_neqb_true (a b : op T) : op_neqb a b = true <-> a <> b.
  Proof. rewrite op_neqb_negb, negb_true_iff. apply op_eqb_false. Qed.
  Lemma op_neqb_false (a b : op T) : op_neqb a b = false <-> a = b.
  Proof. rewrite op_neqb_negb, negb_false_iff. apply op_eqb_eq. Qed.

  Lemma op_conjugate_inv (a : op T) : op_conjugate (op_conjugate a) = a.
  Proof. apply op_ext; cbn; [apply negb_involutive|reflexivity]. Qed.

  Lemma op_is_conjugate_iff (a b : op T) : op_is_conjugate a b = true <-> b = op_get_conjugate a.
  Proof.
    unfold op_is_conjugate, same_indices. rewrite andb_true_iff, eqb_true_iff, (il_eq _ HT). split.
    - intros [H1 H2]. apply op_ext; cbn; [rewrite H1, negb_involutive|]; auto.
    - intros ->; cbn. rewrite negb_involutive. auto.
  Qed.

  Lemma op_smaller_irr (a : op T) : op_smaller a a = false.
  Proof. unfold op_smaller. rewrite xorb_nilpotent. apply (il_irr _ HT). Qed.
  Lemma op_smaller_trans (a b c : op T) :
    op_smaller a b = true -> op_smaller b c = true -> op_smaller a c = true.
  Proof.
    unfold op_smaller. destruct (creator a) eqn:?, (creator b) eqn:?, (creator c) eqn:?; cbn;
      try discriminate; try reflexivity; apply (il_trans _ HT).
  Qed.
  Lemma op_smaller_total (a b : op T) : a = b \/ op_smaller a b = true \/ op_smaller b a = true.
  Proof.
    unfold op_smaller. rewrite (xorb_comm (creator b)).
    destruct (xorb (creator a) (creator b)) eqn:E.
    - destruct (creator a), (creator b); auto; discriminate.
    - destruct (il_total _ HT (indices a) (indices b)) as [H|H]; [|auto].
      left. apply op_ext; [|exact H]. destruct (creator a), (creator b); auto; discriminate.
  Qed.
  Lemma op_greater_flip (a b : op T) : op_greater a b = op_smaller b a.
  Proof.
    unfold op_greater, op_smaller. rewrite xorb_comm, (il_gt _ HT). reflexivity.
  Qed.

  (** ** Monomials *)
  Lemma mono_conj_app (a b : monomial T) :
    mono_get_conjugate (a ++ b) = mono_get_conjugate b ++ mono_get_conjugate a.
  Proof. unfold mono_get_conjugate. cbn [app]. rewrite rev_app_distr, map_app. reflexivity. Qed.

  Lemma mono_conj_inv (a : monomial T) : mono_get_conjugate (mono_get_conjugate a) = a.
  Proof.
    unfold mono_get_conjugate. cbn [app]. rewrite <- map_rev, map_map, rev_involutive.
    rewrite <- (map_id a) at 2. apply map_ext. intros o. apply op_conjugate_inv.
  Qed.

  Lemma all2_forall {A} (f : A -> A -> bool) (g : A -> A) (Hf : forall x y, f x y = true <-> y = g x) :
    forall a b, length a = length b -> (all2 f a b = true <-> b = map g a).
  Proof.
    induction a as [|x a IH]; intros [|y b] Hl; try discriminate; cbn.
    - split; reflexivity.
    - injection Hl as Hl. destruct (f x y) eqn:E.
      + apply Hf in E. subst y. rewrite (IH b Hl). split; [intros ->; reflexivity|intros [= ->]; reflexivity].
      + split; [discriminate|]. intros [= -> ->]. rewrite (proj2 (Hf x _) eq_refl) in E. discriminate.
  Qed.

  Lemma all2_eq (a b : list (op T)) : length a = length b -> (all2 op_eqb a b = true <-> a = b).
  Proof.
    intros Hl. rewrite (all2_forall op_eqb (fun x => x)); [|intros; rewrite op_eqb_eq; split; congruence|exact Hl].
    rewrite map_id. split; congruence.
  Qed.

  Lemma mono_eqb_eq (a b : monomial T) : mono_eqb a b = true <-> a = b.
  Proof.
    unfold mono_eqb. destruct (Nat.eqb_spec (length a) (length b)) as [E|E]; cbn [negb].
    - apply all2_eq, E.
    - split; [discriminate|intros ->; contradiction].
  Qed.
  Lemma mono_neqb_negb (a b : monomial T) : mono_neqb a b = negb (mono_eqb a b).
  Proof. unfold mono_neqb, mono_eqb. destruct (negb _); reflexivity. Qed.

  Lemma mono_is_conjugate_iff (a b : monomial T) :
    mono_is_conjugate a b = true <-> b = mono_get_conjugate a.
  Proof.
    unfold mono_is_conjugate. destruct (Nat.eqb_spec (length a) (length b)) as [E|E]; cbn [negb].
    - rewrite (all2_forall op_is_conjugate op_get_conjugate op_is_conjugate_iff)
        by (rewrite rev_length; exact E).
      unfold mono_get_conjugate. cbn [app]. rewrite map_rev. fold (op_conjugate (T:=T)).
      split; intros H.
      + rewrite <- (rev_involutive b), H. reflexivity.
      + rewrite H, rev_involutive. reflexivity.
    - split; [discriminate|]. intros ->. exfalso. apply E.
      unfold mono_get_conjugate. rewrite map_length. cbn [app]. rewrite rev_length. reflexivity.
  Qed.

  (** ** Terms *)
  Variable P : Type.

  Lemma have_same_operators_iff (a b : term T P) :
    have_same_operators a b = true <-> operators a = operators b.
  Proof. apply (mono_eqb_eq (operators a) (operators b)). Qed.

  (** [ops_cmp smaller] on lists of equal length. *)
  Lemma ops_cmp_irr (a : list (op T)) : ops_cmp op_smaller a a = false.
  Proof.
    induction a as [|x a IH]; cbn; [reflexivity|].
    rewrite (proj2 (op_neqb_false x x) eq_refl). exact IH.
  Qed.
  Lemma ops_cmp_trans (a b c : list (op T)) :
    ops_cmp op_smaller a b = true -> ops_cmp op_smaller b c = true -> ops_cmp op_smaller a c = true.
  Proof.
    revert b c. induction a as [|x a IH]; intros [|y b] [|z c]; cbn; try discriminate.
    destruct (op_neqb x y) eqn:E1, (op_neqb y z) eqn:E2; intros H1 H2.
    - pose proof (op_smaller_trans _ _ _ H1 H2) as H3.
      destruct (op_neqb x z) eqn:E3; [exact H3|].
      apply op_neqb_false in E3. subst. rewrite op_smaller_irr in H3. discriminate.
    - apply op_neqb_false in E2. subst. rewrite E1. exact H1.
    - apply op_neqb_false in E1. subst. rewrite E2. exact H2.
    - apply op_neqb_false in E1, E2. subst. rewrite (proj2 (op_neqb_false z z) eq_refl).
      eapply IH; eassumption.
  Qed.
  Lemma ops_cmp_total (a b : list (op T)) : length a = length b ->
    a = b \/ ops_cmp op_smaller a b = true \/ ops_cmp op_smaller b a = true.
  Proof.
    revert b. induction a as [|x a IH]; intros [|y b] Hl; try discriminate; [left; reflexivity|].
    injection Hl as Hl. cbn. rewrite !op_neqb_negb.
    destruct (op_eqb x y) eqn:E.
    - apply op_eqb_eq in E. subst. rewrite (proj2 (op_eqb_eq y y) eq_refl). cbn [negb].
      destruct (IH b Hl) as [->|H]; auto.
    - pose proof (proj1 (op_eqb_false _ _) E) as Hne.
      destruct (op_eqb y x) eqn:E'; [apply op_eqb_eq in E'; congruence|]. cbn [negb].
      destruct (op_smaller_total x y) as [|H]; [contradiction|right; exact H].
  Qed.

  Lemma term_smaller_irr (a : term T P) : term_smaller a a = false.
  Proof. unfold term_smaller. rewrite Nat.eqb_refl. apply ops_cmp_irr. Qed.
  Lemma term_smaller_trans (a b c : term T P) :
    term_smaller a b = true -> term_smaller b c = true -> term_smaller a c = true.
  Proof.
    unfold term_smaller.
    destruct (Nat.eqb_spec (length (operators a)) (length (operators b))) as [E1|E1];
    destruct (Nat.eqb_spec (length (operators b)) (length (operators c))) as [E2|E2];
    destruct (Nat.eqb_spec (length (operators a)) (length (operators c))) as [E3|E3]; cbn [negb];
      rewrite ?Nat.ltb_lt; intros H1 H2; try lia.
    eapply ops_cmp_trans; eassumption.
  Qed.
  Lemma term_smaller_ties (a b : term T P) :
    (term_smaller a b = false /\ term_smaller b a = false) <-> operators a = operators b.
  Proof.
    unfold term_smaller. rewrite (Nat.eqb_sym (length (operators b))).
    destruct (Nat.eqb_spec (length (operators a)) (length (operators b))) as [E|E]; cbn [negb].
    - split.
      + intros [H1 H2]. destruct (ops_cmp_total _ _ E) as [|[|]]; congruence.
      + intros ->. rewrite ops_cmp_irr. auto.
    - rewrite !Nat.ltb_ge. split; [lia|]. intros H. rewrite H in E. contradiction.
  Qed.
  Lemma ops_cmp_greater (a b : list (op T)) : ops_cmp op_greater a b = ops_cmp op_smaller b a.
  Proof.
    revert b. induction a as [|x a IH]; intros [|y b]; cbn; try reflexivity.
    rewrite IH, op_greater_flip, !op_neqb_negb.
    destruct (op_eqb x y) eqn:E.
    - apply op_eqb_eq in E. subst. rewrite (proj2 (op_eqb_eq y y) eq_refl). reflexivity.
    - apply op_eqb_false in E. destruct (op_eqb y x) eqn:E'; [apply op_eqb_eq in E'; congruence|reflexivity].
  Qed.
  Lemma term_greater_flip (a b : term T P) : term_greater a b = term_smaller b a.
  Proof.
    unfold term_greater, term_smaller. rewrite (Nat.eqb_sym (length (operators b))), ops_cmp_greater.
    reflexivity.
  Qed.

  (** ** copy_as_unique_terms *)
  Variable padd : P -> P -> P.

  Lemma lower_bound_spec (t : term T P) l pre post :
    lower_bound t l = (pre, post) ->
    l = pre ++ post /\ (forall x, In x pre -> term_smaller x t = true) /\
    (forall y, hd_error post = Some y -> term_smaller y t = false).
  Proof.
    revert pre post. induction l as [|x l IH]; cbn; intros pre post.
    - intros [= <- <-]. repeat split; [intros ? []|discriminate].
    - destruct (term_smaller x t) eqn:E.
      + destruct (lower_bound t l) as [a b]. intros [= <- <-].
        destruct (IH a b eq_refl) as (-> & H1 & H2). repeat split; auto.
        intros y [<-|Hy]; auto.
      + intros [= <- <-]. repeat split; [intros ? []|]. intros y [= <-]. exact E.
  Qed.

  (** strictly sorted *)
  Fixpoint ssorted (l : list (term T P)) : Prop :=
    match l with
    | [] => True
    | x :: l' => (forall y, In y l' -> term_smaller x y = true) /\ ssorted l'
    end.

  Lemma ssorted_app a b :
    ssorted (a ++ b) <-> ssorted a /\ ssorted b /\ (forall x y, In x a -> In y b -> term_smaller x y = true).
  Proof.
    induction a as [|x a IH]; cbn.
    - split; [intros; repeat split; auto; intros ? ? []|tauto].
    - rewrite IH. split.
      + intros (H1 & H2 & H3 & H4). repeat split; auto.
        * intros y Hy. apply H1. apply in_or_app; auto.
        * intros u v [<-|Hu] Hv; [apply H1, in_or_app; auto|auto].
      + intros ((H1 & H2) & H3 & H4). repeat split; auto.
        intros y Hy. apply in_app_or in Hy as [Hy|Hy]; auto.
  Qed.

  Lemma term_smaller_cong_l a a' (b : term T P) : operators a = operators a' ->
    term_smaller a b = term_smaller a' b.
  Proof. intros H. unfold term_smaller. rewrite H. reflexivity. Qed.
  Lemma term_smaller_cong_r (a : term T P) b b' : operators b = operators b' ->
    term_smaller a b = term_smaller a b'.
  Proof. intros H. unfold term_smaller. rewrite H. reflexivity. Qed.

  Lemma cut_step_sorted l t : ssorted l -> ssorted (cut_step padd l t).
  Proof.
    intros Hs. unfold cut_step. destruct (lower_bound t l) as [pre post] eqn:E.
    apply lower_bound_spec in E as (-> & H1 & H2).
    apply ssorted_app in Hs as (S1 & S2 & S3).
    destruct post as [|p post].
    - rewrite app_nil_r. apply ssorted_app. split; [exact S1|split].
      + cbn. split; [intros ? []|exact I].
      + intros x y Hx [<-|[]]. auto.
    - specialize (H2 p eq_refl). destruct S2 as [S2 S2'].
      destruct (have_same_operators p t) eqn:Eo.
      + apply have_same_operators_iff in Eo. apply ssorted_app. split; [exact S1|split; [cbn; auto|]].
        * intros x y Hx [<-|Hy]; [|apply S3; cbn; auto].
          rewrite <- (term_smaller_cong_r x p); [apply S3; cbn; auto|reflexivity].
      + assert (Hlt : term_smaller t p = true).
        { destruct (term_smaller t p) eqn:Et; [reflexivity|].
          assert (Ht : operators p = operators t) by (apply term_smaller_ties; auto).
          apply have_same_operators_iff in Ht. congruence. }
        apply ssorted_app. cbn. split; [exact S1|split; [split|]]; auto.
        * intros y [<-|Hy]; [exact Hlt|]. eapply term_smaller_trans; [exact Hlt|]. auto.
        * intros x y Hx [<-|[<-|Hy]]; auto.
          apply S3; cbn; auto. apply S3; cbn; auto.
  Qed.

  Lemma fold_cut_sorted ts l : ssorted l -> ssorted (fold_left (cut_step padd) ts l).
  Proof. revert l; induction ts as [|t ts IH]; cbn; intros l H; auto using cut_step_sorted. Qed.

  (** set of operator products *)
  Lemma cut_step_ops (l : list (term T P)) t o :
    In o (map operators (cut_step padd l t)) <-> In o (map operators l) \/ o = operators t.
  Proof.
    unfold cut_step. destruct (lower_bound t l) as [pre post] eqn:E.
    apply lower_bound_spec in E as (-> & _ & _). destruct post as [|p post].
    - rewrite app_nil_r, map_app, in_app_iff. cbn. split; intuition auto.
    - destruct (have_same_operators p t) eqn:Eo.
      + apply have_same_operators_iff in Eo. rewrite !map_app, !in_app_iff. cbn.
        rewrite <- Eo. split; [intuition auto|]. intros [[H|[H|H]]|H]; auto.
      + rewrite !map_app, !in_app_iff. cbn. split; intuition auto.
  Qed.
  Lemma fold_cut_ops (ts l : list (term T P)) o :
    In o (map operators (fold_left (cut_step padd) ts l)) <->
    In o (map operators l) \/ In o (map operators ts).
  Proof.
    revert l; induction ts as [|t ts IH]; cbn; intros l; [tauto|].
    rewrite IH, cut_step_ops. split; intuition auto.
  Qed.
End Proofs.

(** Value preserved: for every additive functional of the terms. *)
Section Weight.
  Variable T : IndexTuple.
  Hypothesis HT : IndexLaws T.
  Variable P : Type.
  Variable padd : P -> P -> P.
  Variable K : StarRing.
  Local Open Scope ring_scope_.
  Add Ring KringW : (rth K).
  Variable w : P -> list (op T) -> K.
  Hypothesis w_add : forall p q o, w (padd p q) o = w p o + w q o.

  Let W (t : term T P) := w (prefactor t) (operators t).

  Lemma cut_step_weight l t : sum_over W (cut_step padd l t) = sum_over W l + W t.
  Proof.
    unfold cut_step. destruct (lower_bound t l) as [pre post] eqn:E.
    apply lower_bound_spec in E as (-> & _ & _). destruct post as [|p post].
    - rewrite app_nil_r, sum_over_app, sum_over_cons, sum_over_nil. ring.
    - destruct (have_same_operators p t) eqn:Eo.
      + apply (have_same_operators_iff T HT) in Eo.
        assert (HW : W (mkTerm (padd (prefactor p) (prefactor t)) (operators p)) = W p + W t).
        { unfold W. cbn [prefactor operators]. rewrite w_add, Eo. reflexivity. }
        rewrite !sum_over_app, !sum_over_cons, HW. ring.
      + rewrite !sum_over_app, !sum_over_cons. ring.
  Qed.
  Lemma fold_cut_weight ts l :
    sum_over W (fold_left (cut_step padd) ts l) = sum_over W l + sum_over W ts.
  Proof.
    revert l; induction ts as [|t ts IH]; intros l.
    - rewrite sum_over_nil. cbn [fold_left]. ring.
    - cbn [fold_left]. rewrite IH, cut_step_weight, sum_over_cons. ring.
  Qed.
End Weight.
