(** SPECIFICATION vocabulary for text files. *)
From Coq Require Import Ascii String.
From Verif Require Import Base M_Text.
Local Open Scope list_scope.

Definition space (c : ascii) : Prop := In (nat_of_ascii c) [32; 9; 10; 11; 12; 13].
Definition no_newline (s : text) : Prop := ~ In (ascii_of_nat 10) s.
Definition no_cr (s : text) : Prop := ~ In (ascii_of_nat 13) s.
(** white space, optionally followed by # and a text without line terminators *)
Definition blank_or_comment (s : text) : Prop :=
  exists w t, s = w ++ t /\ Forall space w /\ (t = [] \/ exists u, t = "#"%char :: u /\ no_newline u /\ no_cr u).
(** a file: complete lines, and perhaps a last line without a newline character *)
Definition file (complete : list text) (last : text) : text := flat_map (fun l => l ++ [ascii_of_nat 10]) complete ++ last.
Definition lines_ok (complete : list text) (last : text) : Prop := Forall no_newline complete /\ no_newline last.
(** the language of a regular expression *)
Inductive in_language : regex -> text -> Prop :=
| L_eps : in_language REps []
| L_class p c : p c = true -> in_language (RClass p) [c]
| L_seq a b s t : in_language a s -> in_language b t -> in_language (RSeq a b) (s ++ t)
| L_left a b s : in_language a s -> in_language (RAlt a b) s
| L_right a b s : in_language b s -> in_language (RAlt a b) s
| L_star0 a : in_language (RStar a) []
| L_star a s t : in_language a s -> in_language (RStar a) t -> in_language (RStar a) (s ++ t).
