(** Concrete index types and mode numberings used in the non-vacuity examples. *)
From Coq Require Import String Arith.Cantor.
From Verif Require Import Base M_Operator Spec_Algebra.
Local Open Scope list_scope.

Definition Z_ord : OrdType.
Proof.
  refine (mkOrd Z Z.eqb Z.ltb Z.eqb_eq Z.ltb_irrefl _ _).
  - intros x y z; rewrite !Z.ltb_lt; lia.
  - intros x y; rewrite !Z.ltb_lt; lia.
Defined.
Definition nat_ord : OrdType.
Proof.
  refine (mkOrd nat Nat.eqb Nat.ltb Nat.eqb_eq Nat.ltb_irrefl _ _).
  - intros x y z; rewrite !Nat.ltb_lt; lia.
  - intros x y; rewrite !Nat.ltb_lt; lia.
Defined.
(** [false < true], as in C++ *)
Definition bool_ord : OrdType.
Proof.
  refine (mkOrd bool Bool.eqb (fun a b => negb a && b) _ _ _ _).
  - intros [] []; cbn; split; congruence.
  - intros []; reflexivity.
  - intros [] [] []; cbn; congruence.
  - intros [] []; cbn; auto.
Defined.

(** Site/spin operators: Operator<uint64_t, bool>. *)
Definition site_spin : IndexTuple := idx2 nat_ord bool_ord.
Definition site_spin_mode (i : site_spin) : nat := 2 * fst i + (if snd i then 0 else 1).
Lemma site_spin_inj : injective site_spin_mode.
Proof. intros [a x] [b y]; unfold site_spin_mode; cbn [fst snd]; destruct x, y; intros H; f_equal; lia. Qed.

(** An injective numbering of integer tuples. *)
Definition z2n (z : Z) : nat := if Z.leb 0 z then 2 * Z.to_nat z else 2 * Z.to_nat (- z) + 1.
Lemma z2n_inj : injective z2n.
Proof. intros a b. unfold z2n. destruct (Z.leb_spec 0 a), (Z.leb_spec 0 b); lia. Qed.
Fixpoint tuple_mode (l : list Z) : nat :=
  match l with
  | [] => 0
  | x :: l' => S (Cantor.to_nat (z2n x, tuple_mode l'))
  end.
Lemma tuple_mode_inj : injective tuple_mode.
Proof.
  intros a. induction a as [|x a IH]; intros [|y b]; cbn [tuple_mode]; try discriminate; [reflexivity|].
  intros H. apply eq_add_S in H. apply Cantor.to_nat_inj in H. injection H as H1 H2.
  apply z2n_inj in H1. apply IH in H2. congruence.
Qed.

(** c^+_{i,spin} and c_{i,spin} *)
Definition cr (i : nat) (spin : bool) : op site_spin := @mkOp site_spin true (i, spin).
Definition an (i : nat) (spin : bool) : op site_spin := @mkOp site_spin false (i, spin).
