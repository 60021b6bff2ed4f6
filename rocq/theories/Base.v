(** Shared vocabulary: commutative rings with conjugation (the idealisation of
    the C++ number types), finite sums, 64-bit unsigned wrap-around, and
    outcomes with undefined behaviour. *)
From Coq Require Export List Arith ZArith NArith Bool Lia Permutation Ring.
Export ListNotations.

(** Idealised number type: a commutative ring with an involutive automorphism
    [kconj].  Instances: [int] (identity conjugation), [double] and
    [std::complex<double>] in exact arithmetic (see [Instances.v]).
    Simplification: floating-point rounding is not modelled. *)
Record StarRing := mkStarRing {
  car :> Type;
  r0 : car; r1 : car;
  radd : car -> car -> car;
  rmul : car -> car -> car;
  rsub : car -> car -> car;
  ropp : car -> car;
  kconj : car -> car;
  rth : ring_theory r0 r1 radd rmul rsub ropp (@eq car);
  conj_add : forall x y, kconj (radd x y) = radd (kconj x) (kconj y);
  conj_mul : forall x y, kconj (rmul x y) = rmul (kconj x) (kconj y);
  conj_inv : forall x, kconj (kconj x) = x
}.
Arguments r0 {_}. Arguments r1 {_}. Arguments radd {_}. Arguments rmul {_}.
Arguments rsub {_}. Arguments ropp {_}. Arguments kconj {_}.

Declare Scope ring_scope_.
Delimit Scope ring_scope_ with K.
Notation "0" := r0 : ring_scope_.
Notation "1" := r1 : ring_scope_.
Notation "x + y" := (radd x y) : ring_scope_.
Notation "x * y" := (rmul x y) : ring_scope_.
Notation "x - y" := (rsub x y) : ring_scope_.
Notation "- x" := (ropp x) : ring_scope_.

(** Finite sum of a list. *)
Definition rsum {K : StarRing} (l : list K) : K := fold_right radd r0 l.
(** [Σ_{x in l} f x] *)
Definition sum_over {K : StarRing} {A} (f : A -> K) (l : list A) : K := rsum (map f l).

(** [true] stands for the sign -1. *)
Definition sgn {K : StarRing} (b : bool) : K := if b then ropp r1 else r1.

(** C++ [std::uint64_t]. *)
Definition two64 : Z := (2 ^ 64)%Z.
Definition u64 (z : Z) : Z := (z mod two64)%Z.

(** Outcome of running C++ code. *)
Inductive outcome (A : Type) : Type :=
| Ok (a : A)
| UB.
Arguments Ok {A}. Arguments UB {A}.

(** A strict total order with decidable equality (what [operator<], [operator==]
    of the index types are required to be). *)
Record OrdType := mkOrd {
  oty :> Type;
  oeqb : oty -> oty -> bool;
  oltb : oty -> oty -> bool;
  oeqb_eq : forall x y, oeqb x y = true <-> x = y;
  oltb_irr : forall x, oltb x x = false;
  oltb_trans : forall x y z, oltb x y = true -> oltb y z = true -> oltb x z = true;
  oltb_total : forall x y, x = y \/ oltb x y = true \/ oltb y x = true
}.
Arguments oeqb {_}. Arguments oltb {_}.

Section RingFacts.
  Variable K : StarRing.
  Local Open Scope ring_scope_.
  Add Ring Kring : (rth K).

  Lemma rsum_app (a b : list K) : rsum (a ++ b) = rsum a + rsum b.
  Proof. unfold rsum. induction a as [|x a IH]; cbn [app fold_right]; [ring|]. rewrite IH. ring. Qed.

  Lemma sum_over_app {A} (f : A -> K) (a b : list A) :
    sum_over f (a ++ b) = sum_over f a + sum_over f b.
  Proof. unfold sum_over. rewrite map_app. apply rsum_app. Qed.

  Lemma sum_over_nil {A} (f : A -> K) : sum_over f [] = 0.
  Proof. reflexivity. Qed.

  Lemma sum_over_cons {A} (f : A -> K) x l :
    sum_over f (x :: l) = f x + sum_over f l.
  Proof. reflexivity. Qed.

  Lemma sum_over_ext {A} (f g : A -> K) l :
    (forall x, In x l -> f x = g x) -> sum_over f l = sum_over g l.
  Proof.
    induction l as [|x l IH]; intros H; [reflexivity|].
    rewrite !sum_over_cons, (H x), IH; auto with datatypes.
  Qed.

  Lemma sum_over_add {A} (f g : A -> K) l :
    sum_over (fun x => f x + g x) l = sum_over f l + sum_over g l.
  Proof. induction l as [|x l IH]; [rewrite ?sum_over_nil; ring|]. rewrite !sum_over_cons, IH. ring. Qed.

  Lemma sum_over_mul_l {A} (c : K) (f : A -> K) l :
    sum_over (fun x => c * f x) l = c * sum_over f l.
  Proof. induction l as [|x l IH]; [rewrite ?sum_over_nil; ring|]. rewrite !sum_over_cons, IH. ring. Qed.

  Lemma sum_over_mul_r {A} (c : K) (f : A -> K) l :
    sum_over (fun x => f x * c) l = sum_over f l * c.
  Proof. induction l as [|x l IH]; [rewrite ?sum_over_nil; ring|]. rewrite !sum_over_cons, IH. ring. Qed.

  Lemma sum_over_opp {A} (f : A -> K) l :
    sum_over (fun x => - f x) l = - sum_over f l.
  Proof. induction l as [|x l IH]; [rewrite ?sum_over_nil; ring|]. rewrite !sum_over_cons, IH. ring. Qed.

  Lemma sum_over_sub {A} (f g : A -> K) l :
    sum_over (fun x => f x - g x) l = sum_over f l - sum_over g l.
  Proof. induction l as [|x l IH]; [rewrite ?sum_over_nil; ring|]. rewrite !sum_over_cons, IH. ring. Qed.

  Lemma sum_over_zero {A} (f : A -> K) l :
    (forall x, In x l -> f x = 0) -> sum_over f l = 0.
  Proof.
    induction l as [|x l IH]; intros H; [reflexivity|].
    rewrite sum_over_cons, (H x), IH; auto with datatypes. ring.
  Qed.

  Lemma sum_over_map {A B} (f : B -> K) (g : A -> B) l :
    sum_over f (map g l) = sum_over (fun x => f (g x)) l.
  Proof. unfold sum_over. rewrite map_map. reflexivity. Qed.

  Lemma sum_over_flat_map {A B} (f : B -> K) (g : A -> list B) l :
    sum_over f (flat_map g l) = sum_over (fun x => sum_over f (g x)) l.
  Proof.
    induction l as [|x l IH]; [reflexivity|].
    cbn [flat_map]. rewrite sum_over_app, sum_over_cons, IH. reflexivity.
  Qed.

  Lemma sum_over_swap {A B} (f : A -> B -> K) la lb :
    sum_over (fun a => sum_over (fun b => f a b) lb) la =
    sum_over (fun b => sum_over (fun a => f a b) la) lb.
  Proof.
    induction la as [|a la IH].
    - rewrite sum_over_nil. symmetry. apply sum_over_zero. intros; reflexivity.
    - rewrite sum_over_cons, IH.
      rewrite <- sum_over_add. apply sum_over_ext. intros b _. reflexivity.
  Qed.

  Lemma sum_over_perm {A} (f : A -> K) l l' :
    Permutation l l' -> sum_over f l = sum_over f l'.
  Proof.
    induction 1 as [|x l l' _ IH|x y l|l l' l'' _ IH1 _ IH2]; [reflexivity| | |].
    - rewrite !sum_over_cons, IH. reflexivity.
    - rewrite !sum_over_cons. ring.
    - rewrite IH1. exact IH2.
  Qed.

  Lemma sum_over_filter {A} (p : A -> bool) (f : A -> K) l :
    sum_over f (filter p l) = sum_over (fun x => if p x then f x else 0) l.
  Proof.
    induction l as [|x l IH]; [reflexivity|].
    cbn [filter]. rewrite sum_over_cons, <- IH.
    destruct (p x); [reflexivity|ring].
  Qed.

  Lemma sgn_mul a b : sgn (K := K) (xorb a b) = sgn a * sgn b.
  Proof. destruct a, b; cbn; ring. Qed.
  Lemma sgn_negb a : sgn (K := K) (negb a) = - sgn a.
  Proof. destruct a; cbn; ring. Qed.

  Lemma mul1l (x : K) : 1 * x = x. Proof. ring. Qed.
  Lemma mul0l (x : K) : 0 * x = 0. Proof. ring. Qed.
  Lemma add0l (x : K) : 0 + x = x. Proof. ring. Qed.
  Lemma mul0r (x : K) : x * 0 = 0. Proof. ring. Qed.
  Lemma sub_mulN1 (x y : K) : x - (- (1)) * y = x + y. Proof. ring. Qed.
  Lemma mul_shuffle (a b c d : K) : a * b * (c * d) = b * c * (a * d). Proof. ring. Qed.

  Lemma conj_0 : kconj (s := K) 0 = 0.
  Proof.
    assert (H : kconj (s := K) (0 + 0) = kconj 0 + kconj 0) by apply conj_add.
    replace (0 + 0 : K) with (0 : K) in H by ring.
    transitivity (kconj (s:=K) 0 + kconj 0 - kconj 0); [ring | rewrite <- H; ring].
  Qed.
  Lemma conj_1 : kconj (s := K) 1 = 1.
  Proof.
    assert (H : forall x : K, kconj 1 * x = x).
    { intros x. rewrite <- (conj_inv K x) at 1. rewrite <- conj_mul.
      replace (1 * kconj x) with (kconj x) by ring. apply conj_inv. }
    transitivity (kconj (s := K) 1 * 1); [ring|apply H].
  Qed.
  Lemma conj_opp x : kconj (s := K) (- x) = - kconj x.
  Proof.
    assert (H : kconj (s := K) (x + - x) = kconj x + kconj (- x)) by apply conj_add.
    replace (x + - x) with (0 : K) in H by ring. rewrite conj_0 in H.
    transitivity (kconj x + kconj (- x) - kconj x); [ring | rewrite <- H; ring].
  Qed.
  Lemma conj_sgn b : kconj (s := K) (sgn b) = sgn b.
  Proof. destruct b; cbn; rewrite ?conj_opp, ?conj_1; reflexivity. Qed.
  Lemma conj_sub x y : kconj (s := K) (x - y) = kconj x - kconj y.
  Proof.
    replace (x - y) with (x + - y) by ring. rewrite conj_add, conj_opp. ring.
  Qed.
  Lemma conj_sum_over {A} (f : A -> K) l :
    kconj (sum_over f l) = sum_over (fun x => kconj (f x)) l.
  Proof.
    induction l as [|x l IH]; [apply conj_0|].
    rewrite !sum_over_cons, conj_add, IH. reflexivity.
  Qed.
End RingFacts.

(** The ring of integers with the identity conjugation. *)
Definition Zring : StarRing.
Proof.
  refine (mkStarRing Z 0%Z 1%Z Z.add Z.mul Z.sub Z.opp (fun x => x) _ _ _ _); try reflexivity.
  exact InitialRing.Zth.
Defined.

(** Complex numbers over any commutative ring (pairs re, im), the idealisation of
    [std::complex]. *)
Section Cplx.
  Variable K : StarRing.
  Local Open Scope ring_scope_.
  Add Ring Kring2 : (rth K).
  Definition cplx_ring : StarRing.
  Proof.
    refine (mkStarRing (K * K)%type (0, 0) (1, 0)
      (fun x y => (fst x + fst y, snd x + snd y))
      (fun x y => (fst x * fst y - snd x * snd y, fst x * snd y + snd x * fst y))
      (fun x y => (fst x - fst y, snd x - snd y))
      (fun x => (- fst x, - snd x))
      (fun x => (fst x, - snd x)) _ _ _ _).
    - constructor; intros; repeat match goal with x : (_ * _)%type |- _ => destruct x end; cbn;
        f_equal; ring.
    - intros [a b] [c d]; cbn; f_equal; ring.
    - intros [a b] [c d]; cbn; f_equal; ring.
    - intros [a b]; cbn; f_equal; ring.
  Defined.
End Cplx.
