(** MODEL: the compound assignments *= of Monomial (algebra/monomial/monomial.hpp 63-67), Term
    (algebra/term/term.hpp 52-58) and symbolic Prefactor (symbolic/prefactor.hpp 32-46), and the
    binary * (monomial.hpp 69-74, term.hpp 60-67, prefactor.hpp 55-61), on objects that may be the
    same.  A std::vector has a capacity, and an iterator is valid as long as the vector has not moved
    its elements.  Iterators are taken as pointers: comparing two of them is always possible,
    reading through one that points into a block already given back is undefined. *)
From Verif Require Import Base.
Local Open Scope list_scope.

Record vec {A} := mkV { items : list A; capacity : nat; moves : nat }.
Arguments vec : clear implicits.
(** the objects of the program, named by their addresses *)
Definition store A := nat -> vec A.
Definition put {A} (s : store A) (o : nat) (v : vec A) : store A := fun q => if Nat.eqb q o then v else s q.
Section Vec.
  Context {A : Type}.
  (** the capacity a full vector of n elements gets: any policy with growth n > n *)
  Variable growth : nat -> nat.
  (** push_back; the argument may be an element of the vector itself *)
  Definition push_back (v : vec A) (x : A) : vec A :=
    if Nat.ltb (length (items v)) (capacity v)
    then mkV _ (items v ++ [x]) (capacity v) (moves v)
    else mkV _ (items v ++ [x]) (growth (length (items v))) (S (moves v)).
  (** std::copy(first, last, std::back_inserter(dst)): [first] and [last] are positions [i], [i + n] in
      the block that object [src] had when it had moved [m] times *)
  Fixpoint copy_back (s : store A) (dst src m i n : nat) : outcome (store A) :=
    match n with
    | O => Ok s
    | S n' =>
        if Nat.eqb (moves (s src)) m
        then match nth_error (items (s src)) i with
             | Some x => copy_back (put s dst (push_back (s dst) x)) dst src m (S i) n'
             | None => UB
             end
        else UB
    end.
  (** std::copy(rhs.begin(), rhs.end(), std::back_inserter( *this)) *)
  Definition append (s : store A) (dst src : nat) : outcome (store A) :=
    copy_back s dst src (moves (s src)) 0 (length (items (s src))).
  (** the copy constructor: a vector whose capacity is its size *)
  Definition copy_of (v : vec A) : vec A := mkV _ (items v) (length (items v)) 0.
  (** Monomial::operator*=: x *= y *)
  Definition mono_mul_assign (s : store A) (x y : nat) : outcome (store A) := append s x y.
  (** Monomial::operator*: the product is the new object [p] *)
  Definition mono_mul_new (s : store A) (x y p : nat) : outcome (store A) := append (put s p (copy_of (s x))) p y.
End Vec.
(** a term with symbolic prefactor: the number, the Kronecker deltas, the operators *)
Record terms {V Kr Op} := mkTs { values : nat -> V; deltas : store Kr; operators : store Op }.
Arguments terms : clear implicits.
Section Term.
  Context {V Kr Op : Type} (mulV : V -> V -> V) (growth : nat -> nat).
  (** Prefactor::operator*=(const Prefactor&), 39-46: the deltas, then the value *)
  Definition prefactor_mul_assign (s : terms V Kr Op) (x y : nat) : outcome (terms V Kr Op) :=
    match append growth (deltas s) x y with
    | UB => UB
    | Ok d => Ok (mkTs _ _ _ (fun q => if Nat.eqb q x then mulV (values s x) (values s y) else values s q) d (operators s))
    end.
  (** Term::operator*=, 52-58 *)
  Definition term_mul_assign (s : terms V Kr Op) (x y : nat) : outcome (terms V Kr Op) :=
    match prefactor_mul_assign s x y with
    | UB => UB
    | Ok s' => match append growth (operators s') x y with
               | UB => UB
               | Ok o => Ok (mkTs _ _ _ (values s') (deltas s') o)
               end
    end.
  (** Term::operator*, 60-67: a copy, its operators, its prefactor *)
  Definition term_mul_new (s : terms V Kr Op) (x y p : nat) : outcome (terms V Kr Op) :=
    let s1 := mkTs _ _ _ (fun q => if Nat.eqb q p then values s x else values s q) (put (deltas s) p (copy_of (deltas s x))) (put (operators s) p (copy_of (operators s x))) in
    match append growth (operators s1) p y with
    | UB => UB
    | Ok o => prefactor_mul_assign (mkTs _ _ _ (values s1) (deltas s1) o) p y
    end.
End Term.
