(** MODEL: models/hubbard_real_space/expectation_value.hpp.  Float is the real numbers; the
    parallel loops write every element once, so the schedule does not matter. *)
From Coq Require Import Reals.
From Verif Require Import Base M_Lattice M_LatticeReal M_Matrix M_Dispersion.
Local Open Scope R_scope.
Local Open Scope list_scope.

(** ** ExpectationValue1DHalfFilled *)
(** constructor, 31-48: values[0] = filling, values[d] = sin(k_F d dx)/(pi d dx) for 1 <= d <= N/2 *)
Definition ev1_table (N : Z) (dx filling k_F : R) : list R :=
  map (fun d => if (d =? 0)%Z then filling else sin (k_F * IZR d * dx) / (PI * IZR d * dx)) (zrange 0 (N / 2 + 1)).
(** operator(), 50-53 *)
Definition ev1 (N : Z) (table : list R) (a b : Z) : outcome R := vread table (chain_distance N a b).
(** init_expectation_value, src/hubbard/real_space/expectation_value_1d.hpp 9-18 *)
Definition init_ev1 (N : Z) (dx filling : R) : list R := ev1_table N dx filling (calculate_fermi_momentum_1d filling).

(** ** ExpectationValue2DHalfFilled, 76-124 *)
Definition ev2_value (dist_x dist_y : Z) : R :=
  let sum := u64 (dist_x + dist_y) in
  let diff := if (dist_y <? dist_x)%Z then u64 (dist_x - dist_y) else u64 (dist_y - dist_x) in
  if (dist_x =? dist_y)%Z then
    if (dist_x =? 0)%Z then 1 / 2 else 1 / PI * sin (PI / 2 * IZR sum) / IZR sum
  else 2 / (PI * PI) * (sin (PI / 2 * IZR sum) / IZR sum) * (sin (PI / 2 * IZR diff) / IZR diff).
(** the vector has (max_x+1)(max_y+1) elements; the element with number (max_y+1) dx + dy is
    written by the loop iteration (dx, dy) *)
Definition ev2_table (Nx Ny : Z) : list R :=
  map (fun i => ev2_value (i / (Ny / 2 + 1)) (i mod (Ny / 2 + 1))) (zrange 0 ((Nx / 2 + 1) * (Ny / 2 + 1))).
(** operator(), 118-123 *)
Definition ev2 (Nx Ny : Z) (table : list R) (a b : Z) : outcome R :=
  vread table (u64 ((Ny / 2 + 1) * sq_distance_x Nx a b + sq_distance_y Nx Ny a b)).
