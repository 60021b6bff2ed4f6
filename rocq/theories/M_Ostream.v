(** MODEL: operator<< of a double into the output files.  No program sets a precision or a format on its stream
    (src/hubbard/hubbard_real_1d_rk4.cpp 59, 71, 87, hubbard_real_1d_rk4_coefficients.cpp 51-55, 65-69, 83-87 and
    the same lines of the other programs, hubbard_dispersion_1d.cpp 16, hubbard_trivial.cpp 44-50), so the standard
    library prints as printf("%.6g"): at most six significant digits, rounded from the exact binary value, to nearest
    and to even in a tie.  The number is a real number; minus zero, infinities and NaN are left out. *)
From Coq Require Import Reals Ascii String List ZArith.
From Flocq Require Import Core.
From Verif Require Import Base M_Text M_Io.
Import ListNotations.
Local Open Scope R_scope.
Local Open Scope list_scope.

Definition ten : radix := Build_radix 10 (eq_refl true).
(** the character of a decimal digit *)
Definition digit (d : Z) : ascii := ascii_of_nat (48 + Z.to_nat d).
(** the last k decimal digits of m, most significant first *)
Fixpoint digits (k : nat) (m : Z) : text :=
  match k with O => [] | S k' => digits k' (m / 10) ++ [digit (m mod 10)] end.
(** %g without '#': trailing zeros of the fraction are not printed, nor is a point without a fraction *)
Fixpoint drop_zeros (l : text) : text :=
  match l with c :: r => if Ascii.eqb c (digit 0) then drop_zeros r else l | [] => [] end.
Definition fraction (l : text) : text :=
  match rev (drop_zeros (rev l)) with [] => [] | s => str "." ++ s end.
(** the six significant digits, as a number with six digits, and the exponent of the first: style e with precision 5 *)
Definition six (x : R) : Z * Z :=
  let e := (mag ten x - 1)%Z in
  let m := ZnearestE (Rabs x * bpow ten (5 - e)) in
  if (m =? 1000000)%Z then (100000, e + 1)%Z else (m, e).
(** the exponent, with at least two digits *)
Definition exponent (e : Z) : text :=
  str "e" ++ (if (e <? 0)%Z then str "-" else str "+") ++ digits (Z.to_nat (Z.max 2 (Zdigits ten (Z.abs e)))) (Z.abs e).
(** style e if the exponent is less than -4 or at least 6, style f otherwise *)
Definition show_digits (m e : Z) : text :=
  let ds := digits 6 m in
  if ((-4 <=? e) && (e <? 6))%Z%bool then
    if (0 <=? e)%Z then firstn (Z.to_nat (e + 1)) ds ++ fraction (skipn (Z.to_nat (e + 1)) ds)
    else digit 0 :: fraction (repeat (digit 0) (Z.to_nat (- e - 1)) ++ ds)
  else firstn 1 ds ++ fraction (skipn 1 ds) ++ exponent e.
Definition show6 (x : R) : text :=
  if Req_bool x 0 then [digit 0] else
  (if Rlt_bool x 0 then str "-" else []) ++ show_digits (fst (six x)) (snd (six x)).
