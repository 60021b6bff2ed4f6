(** MODEL: the tables of averages of include/ieompp/models/hubbard_real_space/expectation_value.hpp as computed in
    double precision.  [fsin] is std::sin, which neither C++ nor IEEE 754 specifies further.  The elements are
    written by one iteration of the parallel loop each, so the number of threads does not matter. *)
From Coq Require Import Reals List ZArith.
From Verif Require Import Base M_Lattice M_Matrix M_Rounding M_Double M_LatticeDouble.
Local Open Scope R_scope.

Section Tables.
  Context (garbage fsin : R -> R).
  Notation ar := (double_arith garbage).
  Notation int := (to_double_int garbage).
  (** ExpectationValue1DHalfFilled, constructor, 28-46; the products are formed from left to right *)
  Definition f_ev1_value (dx k_F : R) (dist : Z) : R :=
    let pi := round_double PI in
    f_div ar (fsin (f_mul ar (f_mul ar k_F (int dist)) dx)) (f_mul ar (f_mul ar pi (int dist)) dx).
  Definition f_ev1_table (N : Z) (dx filling k_F : R) : list R :=
    map (fun d => if (d =? 0)%Z then filling else f_ev1_value dx k_F d) (zrange 0 (N / 2 + 1)).
  (** calculate_fermi_momentum_1d, include/ieompp/models/hubbard/dispersion.hpp 17-21 *)
  Definition f_fermi_momentum (filling : R) : R := f_mul ar filling (round_double PI).
  (** init_expectation_value, src/hubbard/real_space/expectation_value_1d.hpp 9-18 *)
  Definition f_init_ev1 (N : Z) (dx filling : R) : list R := f_ev1_table N dx filling (f_fermi_momentum filling).

  (** ExpectationValue2DHalfFilled, constructor, 71-102 *)
  Definition f_ev2_value (dist_x dist_y : Z) : R :=
    let pi := round_double PI in
    let prefactor1 := f_div ar 2 (f_mul ar pi pi) in
    let prefactor2 := f_div ar 1 pi in
    let pi_half := round_double (PI / 2) in
    let sum := u64 (dist_x + dist_y) in
    let diff := if (dist_y <? dist_x)%Z then u64 (dist_x - dist_y) else u64 (dist_y - dist_x) in
    if (dist_x =? dist_y)%Z then
      if (dist_x =? 0)%Z then 1 / 2 else f_div ar (f_mul ar prefactor2 (fsin (f_mul ar pi_half (int sum)))) (int sum)
    else
      f_mul ar (f_mul ar prefactor1 (f_div ar (fsin (f_mul ar pi_half (int sum))) (int sum)))
               (f_div ar (fsin (f_mul ar pi_half (int diff))) (int diff)).
  Definition f_ev2_table (Nx Ny : Z) : list R :=
    map (fun i => f_ev2_value (i / (Ny / 2 + 1)) (i mod (Ny / 2 + 1))) (zrange 0 ((Nx / 2 + 1) * (Ny / 2 + 1))).
End Tables.
