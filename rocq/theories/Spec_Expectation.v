(** SPECIFICATION: <c+_0 c_x> in the Fermi sea of the infinite lattice. *)
From Coq Require Import Reals.
From Coquelicot Require Import Coquelicot.
Local Open Scope R_scope.
(** one dimension: all momenta with |k| <= k_F, density 1/(2 pi) *)
Definition fermi_sea_1d (k_F x : R) : R := / (2 * PI) * RInt (fun k => cos (k * x)) (- k_F) k_F.
(** square lattice at half filling: all momenta with |kx| + |ky| <= pi, density 1/(2 pi)^2 *)
Definition fermi_sea_2d (x y : R) : R :=
  / (2 * PI * (2 * PI)) *
  RInt (fun kx => RInt (fun ky => cos (kx * x + ky * y)) (- (PI - Rabs kx)) (PI - Rabs kx)) (- PI) PI.
