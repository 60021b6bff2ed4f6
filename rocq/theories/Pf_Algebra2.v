(** More proofs: copy_as_unique_terms, sorting of deltas. *)
From Coq Require Import String Ascii Sorting.Sorted.
From Verif Require Import Base Spec_Fock FockFacts M_Operator Pf_Operator M_Commutator Pf_Commutator Spec_Algebra Pf_Algebra.
Local Open Scope list_scope.

Lemma ssorted_strongly {T P} (l : list (term T P)) :
  ssorted T P l -> StronglySorted (fun x y => term_smaller x y = true) l.
Proof.
  induction l as [|x l IH]; [constructor|]. intros [H1 H2]. constructor; [auto|].
  apply Forall_forall. exact H1.
Qed.

Section Unique.
  Variable T : IndexTuple.
  Hypothesis HT : IndexLaws T.
  Variable K : StarRing.
  Local Open Scope ring_scope_.
  Add Ring KringU : (rth K).

  (** weight of the operator product [o] in a list of terms *)
  Definition coeff (o : list (op T)) (l : list (term T K)) : K :=
    sum_over (fun t => if mono_eqb (operators t) o then prefactor t else 0) l.

  Lemma coeff_fold o ts l :
    coeff o (fold_left (cut_step radd) ts l) = coeff o l + coeff o ts.
  Proof.
    apply (fold_cut_weight T HT K radd K (fun p o' => if mono_eqb o' o then p else 0)).
    intros p q o'. destruct (mono_eqb o' o); ring.
  Qed.

  Lemma coeff_sorted l x : ssorted T K l -> In x l -> coeff (operators x) l = prefactor x.
  Proof.
    induction l as [|y l IH]; [contradiction|]. intros [H1 H2] [->|Hx].
    - unfold coeff. rewrite sum_over_cons.
      rewrite (proj2 (mono_eqb_eq T HT _ _) eq_refl).
      rewrite sum_over_zero; [ring|]. intros z Hz.
      destruct (mono_eqb (operators z) (operators x)) eqn:E; [|reflexivity].
      apply (mono_eqb_eq T HT) in E. specialize (H1 z Hz).
      rewrite (term_smaller_cong_r T K x z x E), (term_smaller_irr T HT) in H1. discriminate.
    - unfold coeff. rewrite sum_over_cons.
      destruct (mono_eqb (operators y) (operators x)) eqn:E.
      + apply (mono_eqb_eq T HT) in E. specialize (H1 x Hx).
        rewrite (term_smaller_cong_l T K y x x E), (term_smaller_irr T HT) in H1. discriminate.
      + fold (coeff (operators x) l). rewrite IH by assumption. ring.
  Qed.

  Lemma unique_ops_nodup l : ssorted T K l -> NoDup (map operators l).
  Proof.
    induction l as [|y l IH]; cbn; [constructor|]. intros [H1 H2]. constructor; [|auto].
    rewrite in_map_iff. intros (z & E & Hz). specialize (H1 z Hz).
    rewrite (term_smaller_cong_r T K y z y E), (term_smaller_irr T HT) in H1. discriminate.
  Qed.
End Unique.

(** A valid outcome of std::sort with comparator [cmp]. *)
Definition valid_sort {A} (cmp : A -> A -> bool) (l l' : list A) : Prop :=
  Permutation l l' /\ StronglySorted (fun x y => cmp y x = false) l'.

(** order_kroneckers, prefactor.hpp 62-77: order every delta, then std::sort. *)
Definition order_kroneckers_result {K} (p p' : spre K) : Prop :=
  sp_value p' = sp_value p /\ valid_sort kr_cmp (map kr_order (sp_kr p)) (sp_kr p').

Section KrVal.
  Variable K : StarRing.
  Local Open Scope ring_scope_.
  Add Ring KringKV : (rth K).
  Variable v : string -> Z.
  Lemma krs_val_perm l l' : Permutation l l' -> krs_val (K := K) v l = krs_val v l'.
  Proof.
    unfold krs_val.
    induction 1 as [|x l l' _ IH|x y l|l l' l'' _ IH1 _ IH2]; cbn [fold_right]; [reflexivity| | |].
    - rewrite IH. reflexivity.
    - ring.
    - rewrite IH1. exact IH2.
  Qed.
  Lemma krs_val_order l : krs_val (K := K) v (map kr_order l) = krs_val v l.
  Proof. unfold krs_val. induction l as [|k l IH]; cbn [map fold_right]; [reflexivity|]. rewrite IH, kr_val_order. reflexivity. Qed.
  Lemma order_kroneckers_val p p' : order_kroneckers_result p p' -> sp_val (K := K) v p' = sp_val v p.
  Proof.
    intros (E & Hp & _). unfold sp_val. rewrite E, <- (krs_val_perm _ _ Hp), krs_val_order. reflexivity.
  Qed.
End KrVal.

(** the key the comparator really compares, on ordered deltas *)
Definition kr_diag (x : kronecker) : bool := String.eqb (kr_a x) (kr_b x).
Lemma kr_cmp_key x y : ordered_kr x -> ordered_kr y ->
  kr_cmp x y = true <->
  str_ltb (kr_a x) (kr_a y) = true \/ (kr_a x = kr_a y /\ kr_diag x = true /\ kr_diag y = false).
Proof.
  intros Hx Hy. rewrite kr_cmp_char by exact Hx. unfold kr_diag. split.
  - intros [H|(H1 & H2 & H3)]; [auto|right]. split; [exact H1|split; [apply String.eqb_eq; exact H2|]].
    apply String.eqb_neq. intros E. rewrite <- E, <- H2, <- H1, str_ltb_irr in H3. discriminate.
  - intros [H|(H1 & H2 & H3)]; [auto|right]. apply String.eqb_eq in H2. apply String.eqb_neq in H3.
    split; [exact H1|split; [exact H2|]]. rewrite <- H2, H1.
    destruct (str_ltb_total (kr_a y) (kr_b y)) as [|[|]]; [contradiction|assumption|].
    unfold ordered_kr in Hy. congruence.
Qed.

Lemma kr_cmp_irr x : ordered_kr x -> kr_cmp x x = false.
Proof.
  intros Hx. destruct (kr_cmp x x) eqn:E; [|reflexivity]. apply kr_cmp_key in E; auto.
  rewrite str_ltb_irr in E. destruct E as [|(_ & E1 & E2)]; congruence.
Qed.
Lemma kr_cmp_trans x y z : ordered_kr x -> ordered_kr y -> ordered_kr z ->
  kr_cmp x y = true -> kr_cmp y z = true -> kr_cmp x z = true.
Proof.
  intros Hx Hy Hz. rewrite !kr_cmp_key by assumption.
  intros [A|(A1 & A2 & A3)] [B|(B1 & B2 & B3)].
  - left. eapply str_ltb_trans; eassumption.
  - left. rewrite <- B1. exact A.
  - left. rewrite A1. exact B.
  - congruence.
Qed.
(** incomparability = same first index and same "diagonal" flag *)
Lemma kr_cmp_tie x y : ordered_kr x -> ordered_kr y ->
  (kr_cmp x y = false /\ kr_cmp y x = false) <-> (kr_a x = kr_a y /\ kr_diag x = kr_diag y).
Proof.
  intros Hx Hy. pose proof (kr_cmp_key x y Hx Hy) as H1. pose proof (kr_cmp_key y x Hy Hx) as H2.
  split.
  - intros [E1 E2]. rewrite E1 in H1. rewrite E2 in H2.
    assert (Ha : kr_a x = kr_a y).
    { destruct (str_ltb_total (kr_a x) (kr_a y)) as [|[L|L]]; [assumption| |];
        [assert (false = true) by (apply H1; auto)|assert (false = true) by (apply H2; auto)]; discriminate. }
    split; [exact Ha|]. destruct (kr_diag x) eqn:Dx, (kr_diag y) eqn:Dy; try reflexivity.
    + assert (false = true) by (apply H1; auto). discriminate.
    + assert (false = true) by (apply H2; auto). discriminate.
  - intros [Ha Hd]. split.
    + destruct (kr_cmp x y); [|reflexivity]. destruct (proj1 H1 eq_refl) as [L|(_ & D1 & D2)]; [|congruence].
      rewrite Ha, str_ltb_irr in L. discriminate.
    + destruct (kr_cmp y x); [|reflexivity]. destruct (proj1 H2 eq_refl) as [L|(_ & D1 & D2)]; [|congruence].
      rewrite Ha, str_ltb_irr in L. discriminate.
Qed.

(** First components are in canonical (sorted) order in every valid outcome. *)
Lemma sorted_first l : Forall ordered_kr l ->
  StronglySorted (fun x y => kr_cmp y x = false) l ->
  StronglySorted (fun a b => str_ltb b a = false) (map kr_a l).
Proof.
  induction l as [|x l IH]; intros Ho Hs; cbn; [constructor|].
  inversion Ho as [|? ? Hx Hl]; subst. inversion Hs as [|? ? Hs' Hf]; subst.
  constructor; [auto|]. rewrite Forall_map. rewrite Forall_forall in *. intros y Hy.
  specialize (Hf y Hy). destruct (str_ltb (kr_a y) (kr_a x)) eqn:E; [|reflexivity].
  assert (kr_cmp y x = true) by (apply kr_cmp_key; auto). congruence.
Qed.

(** A total order has a unique sorted permutation. *)
Lemma sorted_unique (l l' : list string) :
  StronglySorted (fun a b => str_ltb b a = false) l ->
  StronglySorted (fun a b => str_ltb b a = false) l' ->
  Permutation l l' -> l = l'.
Proof.
  revert l'. induction l as [|x l IH]; intros [|y l'] H1 H2 Hp.
  - reflexivity.
  - apply Permutation_nil in Hp. discriminate.
  - symmetry in Hp. apply Permutation_nil in Hp. discriminate.
  - inversion H1 as [|? ? H1' F1]; subst. inversion H2 as [|? ? H2' F2]; subst.
    rewrite Forall_forall in F1, F2.
    assert (E : x = y).
    { assert (Hx : In x (y :: l')) by (eapply Permutation_in; [exact Hp|left; reflexivity]).
      assert (Hy : In y (x :: l)) by (eapply Permutation_in; [symmetry; exact Hp|left; reflexivity]).
      destruct Hx as [|Hx]; [auto|]. destruct Hy as [|Hy]; [auto|].
      specialize (F1 y Hy). specialize (F2 x Hx).
      destruct (str_ltb_total x y) as [|[|]]; congruence. }
    subst y. f_equal. apply IH; auto. eapply Permutation_cons_inv. exact Hp.
Qed.
