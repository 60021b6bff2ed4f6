(** MODEL of include/ieompp/algebra/operator/{operator,order}.hpp,
    algebra/monomial/monomial.hpp, algebra/term/{term,order,list,checks}.hpp. *)
From Verif Require Import Base.

(** The index part of an operator type: the operations the C++ code uses on the
    index tuple.  Only operations, no laws. *)
Record IndexTuple := mkIdx {
  it :> Type;
  it_eqb : it -> it -> bool;       (* indices == rhs.indices *)
  it_neqb : it -> it -> bool;      (* indices != rhs.indices *)
  it_smaller : it -> it -> bool;   (* helper [smaller] after the creator test *)
  it_greater : it -> it -> bool    (* helper [greater] after the creator test *)
}.

(** [a != b] and [a > b] of the elementary index types.
    Simplification: the elementary types are required to have [!=] = not [==] and
    [>] = flipped [<] (true for integers, bool, std::string; false for NaN). *)
Definition oneb {V : OrdType} (a b : V) : bool := negb (oeqb a b).
Definition ogtb {V : OrdType} (a b : V) : bool := oltb b a.

(** One index: operator.hpp 59-107 (==: 87-90, !=: 92-95), order.hpp 71-87. *)
Definition idx1 (V : OrdType) : IndexTuple :=
  mkIdx V oeqb oneb oltb ogtb.

(** Two indices: operator.hpp 109-162 (==: 139-142, !=: 144-147, same_indices:
    149-152), order.hpp 89-111. *)
Definition idx2 (V1 V2 : OrdType) : IndexTuple :=
  mkIdx (V1 * V2)
    (fun a b => oeqb (fst a) (fst b) && oeqb (snd a) (snd b))
    (fun a b => oneb (fst a) (fst b) || oneb (snd a) (snd b))
    (fun a b => if oneb (fst a) (fst b) then oltb (fst a) (fst b) else oltb (snd a) (snd b))
    (fun a b => if oneb (fst a) (fst b) then ogtb (fst a) (fst b) else ogtb (snd a) (snd b)).

(** [std::tuple<IndexTs...>]: operator.hpp 10-12. *)
Fixpoint tup (Vs : list OrdType) : Type :=
  match Vs with
  | [] => unit
  | V :: Vs' => (oty V * tup Vs')%type
  end.
(** [std::tuple] comparison ==. *)
Fixpoint tup_eqb (Vs : list OrdType) : tup Vs -> tup Vs -> bool :=
  match Vs with
  | [] => fun _ _ => true
  | V :: Vs' => fun a b => oeqb (fst a) (fst b) && tup_eqb Vs' (snd a) (snd b)
  end.
(** OperatorComparisonHelperRec::smaller, order.hpp 13-23 and base case 36-43. *)
Fixpoint tup_smaller (Vs : list OrdType) : tup Vs -> tup Vs -> bool :=
  match Vs with
  | [] => fun _ _ => false
  | V :: Vs' => fun a b =>
      if oneb (fst a) (fst b) then oltb (fst a) (fst b) else tup_smaller Vs' (snd a) (snd b)
  end.
(** OperatorComparisonHelperRec::greater, order.hpp 25-33 and base case 44-49. *)
Fixpoint tup_greater (Vs : list OrdType) : tup Vs -> tup Vs -> bool :=
  match Vs with
  | [] => fun _ _ => false
  | V :: Vs' => fun a b =>
      if oneb (fst a) (fst b) then ogtb (fst a) (fst b) else tup_greater Vs' (snd a) (snd b)
  end.
(** Any number of indices: operator.hpp 10-57. *)
Definition idxN (Vs : list OrdType) : IndexTuple :=
  mkIdx (tup Vs) (tup_eqb Vs) (fun a b => negb (tup_eqb Vs a b)) (tup_smaller Vs) (tup_greater Vs).

(** The three operator templates the library provides. *)
Inductive supported : IndexTuple -> Prop :=
| sup1 V : supported (idx1 V)
| sup2 V1 V2 : supported (idx2 V1 V2)
| supN Vs : supported (idxN Vs).

Section Op.
  Variable T : IndexTuple.

  (** struct Operator, operator.hpp 34-35, 84-85, 135-137. *)
  Record op := mkOp { creator : bool; indices : T }.

  (** make_creator / make_annihilator, operator.hpp 16-32, 66-82, 117-133. *)
  Definition make_creator (i : T) : op := mkOp true i.
  Definition make_annihilator (i : T) : op := mkOp false i.

  (** operator.hpp 37-40, 87-90, 139-142 *)
  Definition op_eqb (a b : op) : bool :=
    Bool.eqb (creator a) (creator b) && it_eqb T (indices a) (indices b).
  (** operator.hpp 42-45, 92-95, 144-147 *)
  Definition op_neqb (a b : op) : bool :=
    xorb (creator a) (creator b) || it_neqb T (indices a) (indices b).
  (** operator.hpp 47, 97, 149-152 *)
  Definition same_indices (a b : op) : bool := it_eqb T (indices a) (indices b).
  (** in-place conjugate(): operator.hpp 50, 100, 155 (mutation modelled as the
      new value of the object) *)
  Definition op_conjugate (a : op) : op := {| creator := negb (creator a); indices := indices a |}.
  (** get_conjugate(): operator.hpp 51, 101, 156 *)
  Definition op_get_conjugate (a : op) : op := mkOp (negb (creator a)) (indices a).
  (** operator.hpp 53-56, 103-106, 158-161 *)
  Definition op_is_conjugate (a b : op) : bool :=
    Bool.eqb (creator a) (negb (creator b)) && same_indices a b.

  (** OperatorSmaller, order.hpp 52-60, 72-79, 90-98, 114-121 *)
  Definition op_smaller (a b : op) : bool :=
    if xorb (creator a) (creator b) then creator a
    else it_smaller T (indices a) (indices b).
  (** OperatorGreater, order.hpp 61-67, 80-86, 101-109, 123-130 *)
  Definition op_greater (a b : op) : bool :=
    if xorb (creator a) (creator b) then creator b
    else it_greater T (indices a) (indices b).

  (** * Monomials: algebra/monomial/monomial.hpp *)
  Definition monomial := list op.

  (** conjugate(), monomial.hpp 18-24 *)
  Definition mono_conjugate (m : monomial) : monomial := map op_conjugate (rev m).
  (** get_conjugate(), monomial.hpp 26-34 *)
  Definition mono_get_conjugate (m : monomial) : monomial :=
    let conj := [] ++ rev m (* reverse_copy + back_inserter *) in map op_conjugate conj.

  (** std::equal on equally long ranges, and the loop of is_conjugate. *)
  Fixpoint all2 {A} (f : A -> A -> bool) (a b : list A) : bool :=
    match a, b with
    | x :: a', y :: b' => if f x y then all2 f a' b' else false
    | _, _ => true
    end.

  (** is_conjugate, monomial.hpp 36-52: forward over *this, reverse over mon *)
  Definition mono_is_conjugate (a b : monomial) : bool :=
    if negb (Nat.eqb (length a) (length b)) then false
    else all2 op_is_conjugate a (rev b).
  (** ==, monomial.hpp 54-60 *)
  Definition mono_eqb (a b : monomial) : bool :=
    if negb (Nat.eqb (length a) (length b)) then false else all2 op_eqb a b.
  (** !=, monomial.hpp 62-68 *)
  Definition mono_neqb (a b : monomial) : bool :=
    if negb (Nat.eqb (length a) (length b)) then true else negb (all2 op_eqb a b).
  (** *=, monomial.hpp 70-74.  Simplification: [rhs] is a different object (self
      multiplication would invalidate the iterators being copied from). *)
  Definition mono_mul_assign (a b : monomial) : monomial := a ++ b.
  (** *, monomial.hpp 76-81 *)
  Definition mono_mul (a b : monomial) : monomial := let prod := a in prod ++ b.

  (** * Terms: algebra/term/term.hpp, [P] is the prefactor type *)
  Section Term.
    Variable P : Type.
    (** term.hpp 20-21 *)
    Record term := mkTerm { prefactor : P; operators : list op }.

    (** get_conjugate, term.hpp 32-41.  [pconj] is types::conjugate.
        The in-place conjugate() of term.hpp 23-30 iterates over *this, which has no
        begin(); it cannot be instantiated and is not modelled. *)
    Definition term_get_conjugate (pconj : P -> P) (t : term) : term :=
      mkTerm (pconj (prefactor t)) (map op_conjugate (rev (operators t))).
    (** have_same_operators, term.hpp 43-49 *)
    Definition have_same_operators (a b : term) : bool :=
      if negb (Nat.eqb (length (operators a)) (length (operators b))) then false
      else all2 op_eqb (operators a) (operators b).
    (** *=, term.hpp 51-57 (distinct objects) and *, 59-66 *)
    Definition term_mul_assign (pmul : P -> P -> P) (a b : term) : term :=
      let p := pmul (prefactor a) (prefactor b) in
      mkTerm p (operators a ++ operators b).
    Definition term_mul (pmul : P -> P -> P) (a b : term) : term :=
      let ops := operators a ++ operators b in
      mkTerm (pmul (prefactor a) (prefactor b)) ops.

    (** TermSmaller, term/order.hpp 12-28: the loop over both operator lists *)
    Fixpoint ops_cmp (cmp : op -> op -> bool) (a b : list op) : bool :=
      match a, b with
      | x :: a', y :: b' => if op_neqb x y then cmp x y else ops_cmp cmp a' b'
      | _, _ => false
      end.
    Definition term_smaller (a b : term) : bool :=
      let size_a := length (operators a) in
      let size_b := length (operators b) in
      if negb (Nat.eqb size_a size_b) then Nat.ltb size_a size_b
      else ops_cmp op_smaller (operators a) (operators b).
    (** TermGreater, term/order.hpp 33-49 *)
    Definition term_greater (a b : term) : bool :=
      let size_a := length (operators a) in
      let size_b := length (operators b) in
      if negb (Nat.eqb size_a size_b) then Nat.ltb size_b size_a
      else ops_cmp op_greater (operators a) (operators b).

    (** std::lower_bound on a list partitioned by [smaller _ t]: splits at the first
        element that is not smaller than [t].  Simplification: linear instead of
        binary search; equal results on partitioned ranges (the standard's
        precondition, which the proofs establish). *)
    Fixpoint lower_bound (t : term) (l : list term) : list term * list term :=
      match l with
      | [] => ([], [])
      | x :: l' =>
          if term_smaller x t then let (a, b) := lower_bound t l' in (x :: a, b)
          else ([], l)
      end.
    (** Loop body of copy_as_unique_terms, term/list.hpp 21-32.  The code calls
        [pos->same_operators(t)], a member that Term does not have (it is called
        have_same_operators, term.hpp 43); modelled as have_same_operators. *)
    Definition cut_step (padd : P -> P -> P) (lst : list term) (t : term) : list term :=
      let (pre, pos) := lower_bound t lst in
      match pos with
      | [] => lst ++ [t]
      | p :: post =>
          if have_same_operators p t
          then pre ++ mkTerm (padd (prefactor p) (prefactor t)) (operators p) :: post
          else pre ++ t :: p :: post
      end.
    (** copy_as_unique_terms, term/list.hpp 14-34; [result] is the old content of
        the output container. *)
    Definition copy_as_unique_terms (padd : P -> P -> P) (original result : list term)
      : list term :=
      result ++ fold_left (cut_step padd) original [].

    (** total_creations, term/checks.hpp 48-60 ([int] taken as unbounded) *)
    Definition total_creations (t : term) : Z :=
      fold_left (fun c o => if creator o then (c + 1)%Z else (c - 1)%Z) (operators t) 0%Z.
    (** total_spin, term/checks.hpp 30-46; [spin] reads the boolean spin index *)
    Definition total_spin (spin : T -> bool) (t : term) : Z :=
      fold_left (fun s o =>
                   if creator o then (s + (if spin (indices o) then 1 else -1))%Z
                   else (s - (if spin (indices o) then 1 else -1))%Z) (operators t) 0%Z.
    (** total_momentum, term/checks.hpp 14-28; [pos] is momentum_space[index] with
        values in an additive group (here Z-valued components suffice: the theorem
        quantifies over [pos] in any ring) *)
    Definition total_momentum {K : StarRing} (pos : T -> K) (t : term) : K :=
      fold_left (fun m o => if creator o then radd m (pos (indices o))
                            else rsub m (pos (indices o))) (operators t) r0.
  End Term.
End Op.
Arguments mkOp {T}. Arguments creator {T}. Arguments indices {T}.
Arguments op_eqb {T}. Arguments op_neqb {T}. Arguments same_indices {T}.
Arguments op_conjugate {T}. Arguments op_get_conjugate {T}. Arguments op_is_conjugate {T}.
Arguments op_smaller {T}. Arguments op_greater {T}.
Arguments make_creator {T}. Arguments make_annihilator {T}.
Arguments mono_conjugate {T}. Arguments mono_get_conjugate {T}. Arguments mono_is_conjugate {T}.
Arguments mono_eqb {T}. Arguments mono_neqb {T}. Arguments mono_mul {T}. Arguments mono_mul_assign {T}.
Arguments mkTerm {T P}. Arguments prefactor {T P}. Arguments operators {T P}.
Arguments term_get_conjugate {T P}. Arguments have_same_operators {T P}.
Arguments term_mul {T P}. Arguments term_mul_assign {T P}.
Arguments ops_cmp {T}. Arguments term_smaller {T P}. Arguments term_greater {T P}.
Arguments lower_bound {T P}. Arguments cut_step {T P}. Arguments copy_as_unique_terms {T P}.
Arguments total_creations {T P}. Arguments total_spin {T P}. Arguments total_momentum {T P K}.
