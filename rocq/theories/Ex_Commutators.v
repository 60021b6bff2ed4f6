(** EXAMPLES for C81: the hypotheses can be met: an order_kroneckers(), pooled and unpooled
    literals, a numbering of the orbitals. *)
From Coq Require Import Ascii String Sorting.Sorted.
From Verif Require Import Base M_Operator M_Commutator Spec_Algebra Pf_Algebra2 P_Algebra2 M_Text M_Io M_Print M_Commutators Spec_Commutators P_Commutators.
Local Open Scope list_scope.

Fixpoint kins (x : kronecker) (l : list kronecker) : list kronecker :=
  match l with [] => [x] | y :: l' => if kr_cmp x y then x :: l else y :: kins x l' end.
Fixpoint ksort (l : list kronecker) : list kronecker := match l with [] => [] | x :: l' => kins x (ksort l') end.
Definition le_kr (x y : kronecker) : Prop := kr_cmp y x = false.
Lemma le_trans a b c : le_kr (kr_order a) (kr_order b) -> le_kr (kr_order b) (kr_order c) -> le_kr (kr_order a) (kr_order c).
Proof.
  unfold le_kr. intros H1 H2. destruct (kr_cmp (kr_order c) (kr_order a)) eqn:E; [|reflexivity]. exfalso.
  destruct (C16_comparator_strict_weak_order c a b) as (_ & T1 & _). destruct (C16_comparator_strict_weak_order b c a) as (_ & T2 & _).
  destruct (C16_comparator_strict_weak_order c b a) as (_ & _ & T3).
  destruct (kr_cmp (kr_order a) (kr_order b)) eqn:E1; [rewrite (T1 E eq_refl) in H2; discriminate|].
  destruct (kr_cmp (kr_order b) (kr_order c)) eqn:E2; [rewrite (T2 eq_refl E) in H1; discriminate|].
  destruct (T3 H2 eq_refl H1 eq_refl) as [Q _]. congruence.
Qed.
Lemma kins_perm x l : Permutation (x :: l) (kins x l).
Proof. induction l as [|y l IH]; cbn; [reflexivity|]. destruct (kr_cmp x y); [reflexivity|]. rewrite perm_swap. constructor. exact IH. Qed.
Lemma ksort_perm l : Permutation l (ksort l).
Proof. induction l as [|x l IH]; cbn; [constructor|]. rewrite <- kins_perm. constructor. exact IH. Qed.
Definition is_ord (x : kronecker) : Prop := exists y, x = kr_order y.
Lemma kins_sorted x l : is_ord x -> Forall is_ord l -> StronglySorted le_kr l -> StronglySorted le_kr (kins x l).
Proof.
  intros Ox Ol S. induction S as [|y l S IH F]; cbn; [repeat constructor|]. inversion Ol as [|? ? Oy Ol']; subst. destruct Ox as (x0 & ->). destruct Oy as (y0 & ->).
  destruct (kr_cmp (kr_order x0) (kr_order y0)) eqn:E.
  - assert (L : le_kr (kr_order x0) (kr_order y0)).
    { unfold le_kr. destruct (kr_cmp (kr_order y0) (kr_order x0)) eqn:E'; [|reflexivity]. destruct (C16_comparator_strict_weak_order x0 y0 x0) as (I & T & _). rewrite (T E E') in I. discriminate. }
    constructor; [constructor; assumption|]. constructor; [exact L|]. rewrite Forall_forall in *. intros z Hz. destruct (Ol' z Hz) as (z0 & ->). eapply le_trans; [exact L|]. apply (F _ Hz).
  - constructor; [apply IH, Ol'|]. rewrite Forall_forall in *. intros z Hz. apply (Permutation_in z (Permutation_sym (kins_perm (kr_order x0) l))) in Hz.
    destruct Hz as [<-|Hz]; [exact E|apply F, Hz].
Qed.
Lemma ksort_ok l : Forall is_ord l -> valid_sort kr_cmp l (ksort l).
Proof.
  intros O. split; [apply ksort_perm|]. fold le_kr. induction O as [|x l Ox Ol IH]; cbn; [constructor|]. apply kins_sorted; auto.
  rewrite Forall_forall in *. intros z Hz. apply Ol. apply (Permutation_in z (Permutation_sym (ksort_perm l))), Hz.
Qed.
Definition sort_kroneckers {K : StarRing} (p : spre K) : spre K := mkSP (sp_value p) (ksort (map kr_order (sp_kr p))).
Lemma sort_kroneckers_ok {K : StarRing} (p : spre K) : order_kroneckers_result p (sort_kroneckers p).
Proof. split; [reflexivity|]. apply ksort_ok. apply Forall_forall. intros x Hx. apply in_map_iff in Hx as (y & <- & _). exists y. reflexivity. Qed.

(** no literal pooled, and all equal literals pooled *)
Definition unpooled (n : nat) : Z := Z.of_nat n.
Fixpoint position (s : string) (l : list string) : Z :=
  match l with [] => 0 | x :: l' => if String.eqb x s then 0 else 1 + position s l' end.
Definition pooled (l : list string) (n : nat) : Z := position (nth n l ""%string) l.
Lemma position_inj l : forall a b, In a l -> In b l -> position a l = position b l -> a = b.
Proof.
  induction l as [|x l IH]; intros a b Ha Hb H; [destruct Ha|]. cbn [position] in H.
  assert (N : forall s, (0 <= position s l)%Z) by (intros s; clear; induction l as [|y l IH]; cbn [position]; [lia|]; destruct (String.eqb y s); lia).
  pose proof (N a). pose proof (N b).
  destruct (String.eqb_spec x a), (String.eqb_spec x b); subst; try congruence; try lia.
  destruct Ha as [Ha|Ha]; [congruence|]. destruct Hb as [Hb|Hb]; [congruence|]. apply IH; auto. lia.
Qed.
Example unpooled_sane l : sane l unpooled.
Proof. intros i j _ _ H. unfold unpooled in H. f_equal. lia. Qed.
Example pooled_sane l : sane l (pooled l).
Proof. intros i j Hi Hj H. apply (position_inj l); [apply nth_In, Hi|apply nth_In, Hj|exact H]. Qed.
Example Z_conforming : conforming (K := Zring) Z.eqb sdec.
Proof. split; [exact Z.eqb_eq|]. split; [discriminate|reflexivity]. Qed.
(** the programs print the same text whatever is pooled *)
Example both : real_space_program (K := Zring) Z.eqb sdec true true sort_kroneckers (pooled rs_literals) rs_literals = Ok (str real_space_output) /\
  real_space_program (K := Zring) Z.eqb sdec true true sort_kroneckers unpooled rs_literals = Ok (str real_space_output) /\
  momentum_space_program (K := Zring) Z.eqb sdec true true sort_kroneckers (pooled ms_literals) ms_literals = Ok (str momentum_space_output).
Proof.
  pose proof (fun p => sort_kroneckers_ok (K := Zring) p) as O.
  split; [|split]; apply C81_output; auto using Z_conforming, pooled_sane, unpooled_sane.
Qed.
(** an injective numbering of index lists *)
From Coq Require Import Arith.Cantor.
Definition znat (z : Z) : nat := if (z <? 0)%Z then S (2 * Z.to_nat (- z)) else (2 * Z.to_nat z)%nat.
Fixpoint number (l : list Z) : nat := match l with [] => 0%nat | z :: l' => S (Cantor.to_nat (znat z, number l')) end.
Example number_injective : injective number.
Proof.
  assert (I : forall a b, znat a = znat b -> a = b).
  { intros a b. unfold znat. destruct (Z.ltb_spec a 0), (Z.ltb_spec b 0); intros H'; lia. }
  intros l. induction l as [|z l IH]; intros [|z' l'] H; cbn [number] in H; try discriminate; [reflexivity|].
  apply Nat.succ_inj in H. apply Cantor.to_nat_inj in H. injection H as H1 H2. f_equal; auto.
Qed.
