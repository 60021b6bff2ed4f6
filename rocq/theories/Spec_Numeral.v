(** SPECIFICATION for C121: what number a decimal numeral is, as every reader of a table of numbers understands it:
    an optional minus sign, digits with an optional point, an optional power of ten. *)
From Coq Require Import Reals Ascii String List ZArith.
From Verif Require Import Base M_Text.
Import ListNotations.
Local Open Scope list_scope.

Definition digit_value (c : ascii) : option Z :=
  let n := nat_of_ascii c in if (48 <=? n)%nat && (n <=? 57)%nat then Some (Z.of_nat n - 48)%Z else None.
(** the number written by a row of digits behind a number already read *)
Fixpoint read_digits (acc : Z) (l : text) : option Z :=
  match l with
  | [] => Some acc
  | c :: r => match digit_value c with Some d => read_digits (10 * acc + d)%Z r | None => None end
  end.
(** the text up to the first c, and the text behind it if there is one *)
Fixpoint cut (c : ascii) (l : text) : text * option text :=
  match l with
  | [] => ([], None)
  | a :: r => if Ascii.eqb a c then ([], Some r) else let p := cut c r in (a :: fst p, snd p)
  end.
Definition read_exponent (l : option text) : option Z :=
  match l with
  | None => Some 0%Z
  | Some [] => None
  | Some (c :: r) =>
      if Ascii.eqb c "-" then option_map Z.opp (read_digits 0 r)
      else if Ascii.eqb c "+" then read_digits 0 r else read_digits 0 (c :: r)
  end.
(** digits before and behind the point, and the exponent *)
Definition unsigned (l : text) : option R :=
  let (mantissa, e) := cut "e" l in
  let (whole, part) := cut "." mantissa in
  let part := match part with Some p => p | None => [] end in
  match whole, read_digits 0 (whole ++ part), read_exponent e with
  | _ :: _, Some m, Some x => Some (IZR m * powerRZ 10 (x - Z.of_nat (length part)))%R
  | _, _, _ => None
  end.
Definition numeral (l : text) : option R :=
  match l with
  | c :: r => if Ascii.eqb c "-" then option_map Ropp (unsigned r) else unsigned l
  | [] => None
  end.
