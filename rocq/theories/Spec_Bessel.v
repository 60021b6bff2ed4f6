(** SPECIFICATION for C79: the Bessel function of the first kind (boost::math::cyl_bessel_j). *)
From Coq Require Import Reals.
From Coquelicot Require Import Coquelicot.
Local Open Scope R_scope.
(** J_n(x) = sum_k (-1)^k / (k! (n+k)!) (x/2)^(2k+n) *)
Definition bessel_j (n : nat) (x : R) : R :=
  Series (fun k => (-1) ^ k / (INR (fact k) * INR (fact (k + n))) * (x / 2) ^ (2 * k + n)).
