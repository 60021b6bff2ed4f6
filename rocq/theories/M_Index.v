(** MODEL: symbolic::Index (symbolic/index.hpp): the names of symbolic space, momentum and spin
    indices, their comparison and operator<<. *)
From Coq Require Import Ascii String.
From Verif Require Import Base M_Text M_Io M_Print.
Local Open Scope list_scope.

(** IndexTypeSpace, IndexTypeMomentum, IndexTypeSpin; symbolic/index.hpp 11-16.  IndexTypeUnspecified has
    no default and no int constructor (link error), so it is left out. *)
Inductive index_kind := Space | Momentum | Spin.
(** the member [index] (21) of an Index of a kind: Index<A> and Index<B> are different types, so the kind
    is a parameter of the operations and not a field *)
Record sindex := mkIndex { index_text : text }.
(** the default constructors, symbolic/index.hpp 31-44: "r", "k" and the two bytes of the UTF-8 sigma *)
Definition index_default (k : index_kind) : sindex :=
  mkIndex (match k with Space => str "r" | Momentum => str "k" | Spin => bytes [207; 131]%nat end).
(** Index(const std::string&), symbolic/index.hpp 46-49 *)
Definition index_string (s : text) : sindex := mkIndex s.
(** Index(int), symbolic/index.hpp 51-64 *)
Definition index_int (k : index_kind) (i : Z) : sindex :=
  mkIndex (match k with Space => str "r_" | Momentum => str "k_" | Spin => bytes [207; 131; 95]%nat end ++ sdec i).
(** == of two std::strings *)
Fixpoint text_eqb (a b : text) : bool :=
  match a, b with
  | [], [] => true
  | x :: a', y :: b' => Ascii.eqb x y && text_eqb a' b'
  | _, _ => false
  end.
(** operator== and operator!=, symbolic/index.hpp 27-28 *)
Definition index_eq (a b : sindex) : bool := text_eqb (index_text a) (index_text b).
Definition index_neq (a b : sindex) : bool := negb (text_eqb (index_text a) (index_text b)).
(** operator<<, symbolic/index.hpp 70-74 *)
Definition index_print (out : text) (a : sindex) : text := out ++ index_text a.
