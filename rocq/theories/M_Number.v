(** MODEL of types/number/{complex,is_equal,is_zero}.hpp.
    Floating point numbers are idealised as real numbers; [eps] stands for
    std::numeric_limits<T>::epsilon() (any positive number in the theorems). *)
From Coq Require Import Reals.
From Verif Require Import Base.
Local Open Scope R_scope.

Definition Rltb (a b : R) : bool := if Rlt_dec a b then true else false.

(** IsEqual / IsZero for integral types: is_equal.hpp 12-17, is_zero.hpp 12-16 *)
Definition is_equal_int (a b : Z) : bool := Z.eqb a b.
Definition is_zero_int (a : Z) : bool := Z.eqb a 0.

Section Fl.
  Variable eps : R.
  (** is_equal.hpp 19-25 and 27-33 *)
  Definition is_equal_fl (a b : R) : bool := Rltb (Rabs (a - b)) eps.
  Definition is_equal_fl_dev (a b max_dev : R) : bool := Rltb (Rabs (a - b)) (max_dev + eps).
  (** is_zero.hpp 18-23 and 25-31 *)
  Definition is_zero_fl (a : R) : bool := Rltb (Rabs a) eps.
  Definition is_zero_fl_dev (a max_dev : R) : bool := Rltb (Rabs a) (max_dev + eps).
  (** std::complex<Float> as pairs (real, imag): is_equal.hpp 35-40 and 42-49 *)
  Definition is_equal_cx (a b : R * R) : bool := is_equal_fl (fst a) (fst b) && is_equal_fl (snd a) (snd b).
  Definition is_equal_cx_dev (a b : R * R) (d : R) : bool :=
    is_equal_fl_dev (fst a) (fst b) d && is_equal_fl_dev (snd a) (snd b) d.
  (** is_zero.hpp 33-38 and 40-46 *)
  Definition is_zero_cx (a : R * R) : bool := is_zero_fl (fst a) && is_zero_fl (snd a).
  Definition is_zero_cx_dev (a : R * R) (d : R) : bool := is_zero_fl_dev (fst a) d && is_zero_fl_dev (snd a) d.
End Fl.

(** Complex arithmetic over any (commutative) real scalar type. *)
Section Cx.
  Context {K : StarRing}.
  Local Open Scope ring_scope_.
  (** conjugate for std::complex, complex.hpp 42-47: only the imaginary part changes sign *)
  Definition conjugate_cx (z : K * K) : K * K := (fst z, - snd z).
  (** conjugate for other types, complex.hpp 49-53 *)
  Definition conjugate_re (z : K) : K := z.
  (** multiply_with_conjugate, complex.hpp 55-61 *)
  Definition multiply_with_conjugate (a b : K * K) : K * K :=
    (fst a * fst b + snd a * snd b, - fst a * snd b + fst b * snd a).
  (** add_conjugate_products, complex.hpp 63-67 *)
  Definition add_conjugate_products (a b : K * K) : K := (1 + 1) * (fst a * fst b + snd a * snd b).
End Cx.
