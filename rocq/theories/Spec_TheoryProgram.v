(** SPECIFICATION for C105: what hubbard_real_1d_kinetic_theory should write. *)
From Coq Require Import Reals ZArith List.
From Verif Require Import Base M_Matrix M_Dispersion M_Double Spec_Programs Spec_Bessel.
Local Open Scope R_scope.

(** distance of site i and site 0 on the ring *)
Definition from_origin (N i : Z) : Z := ring_distance N 0 i.
(** the averages the constructed object is meant to hold (C79): 1 at distance 0, sin(d/2)/(pi d) at distance d *)
Definition object_average (d : Z) : R := if (d =? 0)%Z then 1 else sin (IZR d / 2) / (PI * IZR d).
(** sum_ij avg(|i-j|) h_i(t) conj(h_j(t)) with h_i = (-i)^d J_d(2t), d the distance of i and 0.  The sum is real:
    the factor is (-i)^(d_i - d_j), and the imaginary part changes its sign when i and j are exchanged. *)
Definition theory_exact (N : Z) (t : R) : R :=
  sum_over (K := Rring) (fun i => sum_over (K := Rring) (fun j => object_average (ring_distance N i j) *
        (bessel_j (Z.to_nat (from_origin N i)) (2 * t) * bessel_j (Z.to_nat (from_origin N j)) (2 * t) *
         cos (PI / 2 * IZR (from_origin N i - from_origin N j)))) (zrange 0 N)) (zrange 0 N).
(** [bessel] returns doubles with an absolute error of at most [b] *)
Definition accurate_bessel (b : R) (bessel : Z -> R -> R) : Prop :=
  forall n x, (0 <= n)%Z -> 0 <= x -> is_double (bessel n x) /\ Rabs (bessel n x - bessel_j (Z.to_nat n) x) <= b.
(** the table of averages, with an absolute error of at most [d] *)
Definition accurate_table (d : R) (N : Z) (table : list R) : Prop :=
  Z.of_nat (length table) = (N / 2 + 1)%Z /\
  forall k, (0 <= k <= N / 2)%Z -> exists x, nth_error table (Z.to_nat k) = Some x /\ Rabs (x - object_average k) <= d.
