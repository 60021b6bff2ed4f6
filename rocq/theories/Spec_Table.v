(** SPECIFICATION for C122: a reader of tables of numbers.  Lines end with a newline character; those that start with # are
    comments; the others hold numbers separated by single tab characters. *)
From Coq Require Import Reals Ascii String List.
From Verif Require Import M_Text Spec_Numeral.
Import ListNotations.
Local Open Scope list_scope.

(** the pieces of l between the characters c *)
Fixpoint pieces (c : ascii) (l : text) : list text :=
  match l with
  | [] => [[]]
  | a :: r => match pieces c r with
              | p :: ps => if Ascii.eqb a c then [] :: p :: ps else (a :: p) :: ps
              | [] => []
              end
  end.
Fixpoint all_some {A} (l : list (option A)) : option (list A) :=
  match l with
  | [] => Some []
  | None :: _ => None
  | Some a :: r => match all_some r with Some s => Some (a :: s) | None => None end
  end.
Definition comment (l : text) : bool := match l with c :: _ => Ascii.eqb c "#" | [] => false end.
Definition row (l : text) : option (list R) := all_some (map numeral (pieces (ascii_of_nat 9) l)).
(** the rows of a text whose last character is a newline; None if some text is not a number *)
Definition table (t : text) : option (list (list R)) :=
  all_some (map row (filter (fun l => negb (comment l)) (removelast (pieces (ascii_of_nat 10) t)))).
(** y is x to six significant digits *)
Definition near6 (x y : R) : Prop := (Rabs (y - x) <= 5 / 1000000 * Rabs x)%R.
(** real and imaginary parts one after the other *)
Definition parts (h : list (R * R)) : list R := flat_map (fun z => [fst z; snd z]) h.
