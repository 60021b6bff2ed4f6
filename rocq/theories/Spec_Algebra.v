(** SPECIFICATION vocabulary: what operators, terms, deltas mean, in terms of the
    Fock space of Spec_Fock.v.  [mode] numbers the index tuples injectively. *)
From Coq Require Import String.
From Verif Require Import Base Spec_Fock M_Operator M_Commutator.
Local Open Scope list_scope.

Definition injective {A B} (f : A -> B) : Prop := forall x y, f x = f y -> x = y.

(** A list of operators as ladder operators on numbered modes. *)
Definition ladders {T : IndexTuple} (mode : T -> nat) (ops : list (op T)) : list (bool * nat) :=
  map (fun o => (creator o, mode (indices o))) ops.

(** <t'| ops |s> *)
Definition elem {K : StarRing} {T : IndexTuple} (mode : T -> nat) (ops : list (op T)) (s t : N) : K :=
  amp (ladders mode ops) s t.

(** <t'| prefactor * ops |s> *)
Definition term_elem {K : StarRing} {T : IndexTuple} (mode : T -> nat) (x : term T K) (s t : N) : K :=
  rmul (prefactor x) (elem mode (operators x) s t).

(** Matrix element of a sum of terms. *)
Definition terms_elem {K : StarRing} {T : IndexTuple} (mode : T -> nat) (l : list (term T K)) (s t : N) : K :=
  sum_over (fun x => term_elem mode x s t) l.

(** Value of a Kronecker delta, of a symbolic prefactor, and of a symbolic operator
    when the symbols are replaced by integers. *)
Definition kr_val {K : StarRing} (v : string -> Z) (k : kronecker) : K :=
  if Z.eqb (v (kr_a k)) (v (kr_b k)) then r1 else r0.
Definition krs_val {K : StarRing} (v : string -> Z) (ks : list kronecker) : K :=
  fold_right (fun k acc => rmul (kr_val v k) acc) r1 ks.
Definition sp_val {K : StarRing} (v : string -> Z) (p : spre K) : K :=
  rmul (sp_value p) (krs_val v (sp_kr p)).
Definition ival_val (v : string -> Z) (i : ival) : Z :=
  match i with Sym x => v (sym_name x) | Con z => z end.
Definition sym_ladders (mode : list Z -> nat) (v : string -> Z) (ops : list sop) : list (bool * nat) :=
  map (fun o : sop => (creator o, mode (map (ival_val v) (indices o)))) ops.
Definition sym_elem {K : StarRing} (mode : list Z -> nat) (v : string -> Z) (ops : list sop) (s t : N) : K :=
  amp (sym_ladders mode v ops) s t.
Definition sym_terms_elem {K : StarRing} (mode : list Z -> nat) (v : string -> Z)
  (l : list (term sym_tuple (spre K))) (s t : N) : K :=
  sum_over (fun x => rmul (sp_val v (prefactor x)) (sym_elem mode v (operators x) s t)) l.

(** All operators of one C++ type: slot i is symbolic in all of them or in none. *)
Definition is_sym (i : ival) : bool := match i with Sym _ => true | Con _ => false end.
Definition well_typed (kinds : list bool) (x : term sym_tuple (spre Zring)) : Prop :=
  Forall (fun o : sop => map is_sym (indices o) = kinds) (operators x).
Definition ops_typed (kinds : list bool) (ops : list sop) : Prop :=
  Forall (fun o : sop => map is_sym (indices o) = kinds) ops.
