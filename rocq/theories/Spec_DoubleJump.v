(** SPECIFICATION for C96. *)
From Coq Require Import Reals List ZArith.
From Verif Require Import Spec_RoundedJump.
Local Open Scope R_scope.
(** N phase factors e^{i phi_a}, at most eps away from the exact ones in each part, and no part above 1 *)
Definition phases_near (eps : R) (coef : list (R * R)) (N : Z) (phi : Z -> R) : Prop :=
  Z.of_nat (length coef) = N /\ phases coef /\
  forall a, (0 <= a < N)%Z -> Rabs (fst (nth (Z.to_nat a) coef (0, 0)) - cos (phi a)) <= eps /\ Rabs (snd (nth (Z.to_nat a) coef (0, 0)) - sin (phi a)) <= eps.
(** the error of a printed Fermi jump after k steps of length dt: [L] bounds the matrix, n is the number of
    coefficients, [roundings] the number of roundings of the measurement, [delta] and [eps] are the errors of the tables *)
Definition printed_error (n : Z) (L dt delta eps : R) (k : nat) (roundings : Z) : R :=
  3 * IZR n * (INR k * dt * dt ^ 4 * L ^ 5 / 120 + INR k / 2 ^ 40) + 144 * IZR n * (delta + eps) + IZR roundings * IZR n / 2 ^ 43.
