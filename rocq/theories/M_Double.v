(** MODEL: the arithmetic of double (IEEE 754 binary64, round to nearest, ties to even, gradual underflow),
    with the rounding function of Flocq.  What an overflow yields is left open ([garbage]). *)
From Coq Require Import Reals ZArith.
From Flocq Require Import Core.
From Verif Require Import M_Rounding.
Local Open Scope R_scope.

(** the double nearest to x if the exponent were not bounded from above *)
Definition round_double (x : R) : R := round radix2 (FLT_exp (-1074) 53) ZnearestE x.
Definition to_double (garbage : R -> R) (x : R) : R :=
  if Rlt_dec (Rabs (round_double x)) (bpow radix2 1024) then round_double x else garbage x.
(** +, * and / of doubles (Float in ode/rk4.hpp 14, std::complex<double> in src/hubbard/include/vector.hpp 13
    and src/hubbard/real_space/matrix.hpp 12, 28) *)
Definition double_arith (garbage : R -> R) : arith :=
  mkArith (fun a b => to_double garbage (a + b)) (fun a b => to_double garbage (a * b)) (fun a b => to_double garbage (a / b)).
(** x is a double (apart from the upper bound of the exponent) *)
Definition is_double (x : R) : Prop := generic_format radix2 (FLT_exp (-1074) 53) x.
