(** MODEL of algebra/anticommutator.hpp, algebra/commutator.hpp,
    algebra/kronecker.hpp and symbolic/prefactor.hpp. *)
From Coq Require Import String Ascii.
From Verif Require Import Base M_Operator.
Local Open Scope list_scope.

(** The sign exponent of commutator.hpp 47, in 64-bit unsigned arithmetic:
    [(m * (n - k) + l - 1) % 2 ? -1 : 1]; [true] means -1. *)
Definition sign_is_minus (m n k l : Z) : bool :=
  Z.eqb (u64 (u64 (u64 (m * u64 (n - k)) + l) - 1) mod 2) 1.

Section Commutate.
  Variable T : IndexTuple.
  Variable P : Type.
  Variable pmul : P -> P -> P.                      (* Prefactor * Prefactor *)
  Variable psign : P -> bool -> P.                  (* prefactor *= sign *)
  Variable anticommutates : op T -> op T -> bool.
  Variable anticommutator : op T -> op T -> P -> P. (* updates the prefactor *)

  (** Body of the double loop, commutator.hpp 43-68.  The [None] branches are
      out-of-range accesses; they cannot happen for 1 <= k <= n, 1 <= l <= m. *)
  Definition comm_body (a b : term T P) (k l : nat) : list (term T P) :=
    let a_ops := operators a in
    let b_ops := operators b in
    let n := length a_ops in
    let m := length b_ops in
    let pre := pmul (prefactor a) (prefactor b) in
    match nth_error a_ops (k - 1), nth_error b_ops (l - 1) with
    | Some x, Some y =>
        if anticommutates x y then []
        else
          let sign := sign_is_minus (Z.of_nat m) (Z.of_nat n) (Z.of_nat k) (Z.of_nat l) in
          let p := anticommutator x y (psign pre sign) in
          let ops := (if Nat.ltb 1 k then firstn (k - 1) a_ops else [])
                       ++ (if Nat.ltb 1 l then firstn (l - 1) b_ops else [])
                       ++ skipn l b_ops ++ skipn k a_ops in
          [mkTerm p ops]
    | _, _ => []
    end.

  (** commutate with assertions compiled out (NDEBUG), commutator.hpp 18-71.
      [c] is the container passed by reference, the result its new content. *)
  Definition commutate_release (a b : term T P) (c : list (term T P)) : list (term T P) :=
    c ++ flat_map (fun k => flat_map (fun l => comm_body a b k l)
                                     (seq 1 (length (operators b))))
                  (seq 1 (length (operators a))).

  (** commutate with assertions enabled: [None] is an abort (commutator.hpp 35). *)
  Definition commutate_debug (a b : term T P) (c : list (term T P)) : option (list (term T P)) :=
    if Z.eqb (u64 (Z.of_nat (length (operators b)) * Z.of_nat (length (operators a))) mod 2) 0
    then Some (commutate_release a b c) else None.
End Commutate.
Arguments comm_body {T P}. Arguments commutate_release {T P}. Arguments commutate_debug {T P}.

(** ** Concrete (non-symbolic) indices *)
Section Concrete.
  Variable T : IndexTuple.
  (** anticommutator.hpp 75-80 *)
  Definition anticommutates (x y : op T) : bool :=
    Bool.eqb (creator x) (creator y) || negb (same_indices x y).
  (** anticommutator.hpp 101-109: leaves the prefactor alone *)
  Definition anticommutator {P : Type} (x y : op T) (p : P) : P := p.

  Definition commutate {K : StarRing} : term T K -> term T K -> list (term T K) -> list (term T K) :=
    commutate_release rmul (fun p s => rmul p (sgn s)) anticommutates anticommutator.
  Definition commutate_checked {K : StarRing}
    : term T K -> term T K -> list (term T K) -> option (list (term T K)) :=
    commutate_debug rmul (fun p s => rmul p (sgn s)) anticommutates anticommutator.
End Concrete.
Arguments anticommutates {T}. Arguments anticommutator {T P}.
Arguments commutate {T K}. Arguments commutate_checked {T K}.

(** ** Kronecker deltas: algebra/kronecker.hpp *)
Record kronecker := mkKr { kr_a : string; kr_b : string }.
(** ==, kronecker.hpp 16-19 *)
Definition kr_eqb (x y : kronecker) : bool :=
  (String.eqb (kr_a x) (kr_a y) && String.eqb (kr_b x) (kr_b y))
  || (String.eqb (kr_a x) (kr_b y) && String.eqb (kr_b x) (kr_a y)).
(** !=, kronecker.hpp 20-24 *)
Definition kr_neqb (x y : kronecker) : bool := negb (kr_eqb x y).
(** std::string operator<; byte-wise lexicographic (std::char_traits<char>
    compares as unsigned char). *)
Definition str_ltb (a b : string) : bool := String.ltb a b.
(** order(), kronecker.hpp 26-31 *)
Definition kr_order (x : kronecker) : kronecker :=
  if str_ltb (kr_b x) (kr_a x) then mkKr (kr_b x) (kr_a x) else x.

(** ** symbolic::Prefactor, symbolic/prefactor.hpp 17-23 *)
Record spre (K : Type) := mkSP { sp_value : K; sp_kr : list kronecker }.
Arguments mkSP {K}. Arguments sp_value {K}. Arguments sp_kr {K}.
Section Prefactor.
  Context {K : StarRing}.
  (** *= Kronecker, prefactor.hpp 25-29 *)
  Definition sp_mul_kr (p : spre K) (k : kronecker) : spre K := mkSP (sp_value p) (sp_kr p ++ [k]).
  (** *= std::vector<Kronecker>, prefactor.hpp 31-35 *)
  Definition sp_mul_krs (p : spre K) (ks : list kronecker) : spre K := mkSP (sp_value p) (sp_kr p ++ ks).
  (** *= Prefactor, prefactor.hpp 37-45 (distinct objects) *)
  Definition sp_mul_assign (p q : spre K) : spre K :=
    let krs := sp_kr p ++ sp_kr q in mkSP (rmul (sp_value p) (sp_value q)) krs.
  (** *= Number, prefactor.hpp 47-52 *)
  Definition sp_mul_num (p : spre K) (x : K) : spre K := mkSP (rmul (sp_value p) x) (sp_kr p).
  (** *, prefactor.hpp 54-60 *)
  Definition sp_mul (p q : spre K) : spre K := let copy := p in sp_mul_assign copy q.
End Prefactor.
(** comparator of order_kroneckers, prefactor.hpp 68-76 *)
Definition kr_cmp (a b : kronecker) : bool :=
  if str_ltb (kr_a a) (kr_a b) then true
  else if str_ltb (kr_a b) (kr_b a) then false
  else str_ltb (kr_b a) (kr_b b).

(** ** Symbolic operators *)
(** An index is a symbol (any non-arithmetic index type, is_symbolic.hpp) or an
    arithmetic value.  A symbol carries the text that make_kronecker prints and
    the address that [!=] compares when the index type is [const char*]. *)
Record symbol := mkSym { sym_addr : Z; sym_name : string }.
Inductive ival := Sym (s : symbol) | Con (z : Z).
(** The tuple of indices; slot i is symbolic or not by its C++ type, i.e. the
    constructors of slot i agree in all operators of one type. *)
Definition sym_tuple : IndexTuple :=
  mkIdx (list ival) (fun _ _ => false) (fun _ _ => false) (fun _ _ => false) (fun _ _ => false).
Definition sop := op sym_tuple.
Section Symbolic.
  Variable symne : symbol -> symbol -> bool.   (* operator!= of the symbolic index type *)

  (** AnticommutatesHelper, anticommutator.hpp 19-42: true as soon as some
      arithmetic index differs; symbolic slots are skipped. *)
  Fixpoint anticomm_helper (a b : list ival) : bool :=
    match a, b with
    | Sym _ :: a', _ :: b' => anticomm_helper a' b'
    | Con x :: a', Con y :: b' => if negb (Z.eqb x y) then true else anticomm_helper a' b'
    | _, _ => false
    end.
  (** anticommutator.hpp 82-89 *)
  Definition anticommutates_sym (x y : sop) : bool :=
    Bool.eqb (creator x) (creator y) || anticomm_helper (indices x) (indices y).
  (** AnticommutatorHelper, anticommutator.hpp 44-72 *)
  Fixpoint anticommutator_helper {K : StarRing} (a b : list ival) (p : spre K) : spre K :=
    match a, b with
    | Sym x :: a', Sym y :: b' =>
        anticommutator_helper a' b'
          (if symne x y then sp_mul_kr p (mkKr (sym_name x) (sym_name y)) else p)
    | _ :: a', _ :: b' => anticommutator_helper a' b' p
    | _, _ => p
    end.
  (** anticommutator.hpp 91-99 *)
  Definition anticommutator_sym {K : StarRing} (x y : sop) (p : spre K) : spre K :=
    anticommutator_helper (indices x) (indices y) p.

  Definition commutate_sym {K : StarRing}
    : term sym_tuple (spre K) -> term sym_tuple (spre K) -> list (term sym_tuple (spre K))
      -> list (term sym_tuple (spre K)) :=
    commutate_release sp_mul (fun p s => sp_mul_num p (sgn s)) anticommutates_sym anticommutator_sym.
End Symbolic.
