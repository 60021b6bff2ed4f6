(** SPECIFICATION vocabulary for the text form of sparse matrices. *)
From Coq Require Import Ascii String.
From Verif Require Import Base M_Text Spec_Text.
Local Open Scope Z_scope.
Local Open Scope list_scope.

(** the lines that are neither blank nor comments *)
Inductive content : list text -> list text -> Prop :=
| content_nil : content [] []
| content_skip l ls cs : blank_or_comment l -> content ls cs -> content (l :: ls) cs
| content_keep l ls cs : ~ blank_or_comment l -> content ls cs -> content (l :: ls) (l :: cs).
Definition holds_lines (t : text) (cs : list text) : Prop :=
  exists complete last, t = file complete last /\ lines_ok complete last /\ content (complete ++ [last]) cs.
(** what a stream still has to offer *)
Definition still_holds (s : istream) (cs : list text) : Prop :=
  (exists t, s = open_text t /\ holds_lines t cs) \/ (eofbit s = true /\ cs = []).

(** ** numbers *)
Definition digit (c : ascii) : Prop := (48 <= nat_of_ascii c <= 57)%nat.
Fixpoint number (d : text) : Z :=
  match d with [] => 0 | c :: d' => (Z.of_nat (nat_of_ascii c) - 48) * 10 ^ Z.of_nat (length d') + number d' end.
Definition numeral (d : text) (n : Z) : Prop := d <> [] /\ Forall digit d /\ number d = n.

(** ** the lines of a matrix file *)
(** rows x cols, white space allowed around the three tokens *)
Definition dimension_line (l : text) (rows cols : Z) : Prop :=
  exists w1 d1 w2 w3 d2 w4, l = w1 ++ d1 ++ w2 ++ ["x"%char] ++ w3 ++ d2 ++ w4 /\
    Forall space w1 /\ Forall space w2 /\ Forall space w3 /\ Forall space w4 /\ numeral d1 rows /\ numeral d2 cols.
(** a number, not followed by another digit *)
Definition count_line (l : text) (n : Z) : Prop :=
  exists w d t, l = w ++ d ++ t /\ Forall space w /\ numeral d n /\ (forall c u, t = c :: u -> ~ digit c).
(** row, column and value separated by white space; [rd]: operator>> of the value *)
Definition entry_line {S} (rd : text -> option (S * text)) (l : text) (i j : Z) (v : S) : Prop :=
  exists w1 d1 w2 d2 w3 t u, l = w1 ++ d1 ++ w2 ++ d2 ++ w3 ++ t /\
    Forall space w1 /\ Forall space w2 /\ Forall space w3 /\ w2 <> [] /\ w3 <> [] /\
    numeral d1 i /\ numeral d2 j /\ (forall c t', t = c :: t' -> ~ space c) /\ rd t = Some (v, u).

(** ** compressed storage: the k-th inner vector belongs to row k (row-major) or column k *)
Definition stored {S} (row_major : bool) (outer : list (list (Z * S))) (i j : Z) (v : S) : Prop :=
  exists k inner, nth_error outer k = Some inner /\
    (if row_major then i = Z.of_nat k /\ In (j, v) inner else j = Z.of_nat k /\ In (i, v) inner).
Definition valid_storage {S} (row_major : bool) (rows cols : Z) (outer : list (list (Z * S))) : Prop :=
  Z.of_nat (length outer) = (if row_major then rows else cols) /\
  Forall (fun inner => NoDup (map fst inner) /\ Forall (fun e => 0 <= fst e < (if row_major then cols else rows)) inner) outer.
