(** MODEL: the programs src/hubbard/hubbard_real_1d_kinetic_rk4.cpp, hubbard_real_1d_rk4.cpp, hubbard_real_1d_rk4_jump.cpp
    and hubbard_real_2d_rk4_jump.cpp in double precision (M_DoublePrograms, M_DoubleJumpPrograms) together with the
    tables they compute for themselves: the averages (M_DoubleExpectation) and the Fourier factors.  Only the values of
    std::cos ([fcos]) and std::sin ([fsin]), which neither C++ nor IEEE 754 specifies further, stay open.  Simplified:
    no contraction of a * b + c * d to a fused operation. *)
From Coq Require Import Reals List ZArith.
From Verif Require Import Base M_Operator M_Lattice M_LatticeReal M_Basis M_Matrix M_Dispersion M_OpenMP M_SiteOccupation M_FermiJump M_Programs
  Spec_Stability M_Rounding M_Double M_LatticeDouble M_DoublePrograms M_DoubleJumpPrograms M_DoubleExpectation.
Local Open Scope R_scope.
Local Open Scope list_scope.

Section Main.
  Context (garbage fcos fsin : R -> R).
  Notation ar := (double_arith garbage).
  Notation int := (to_double_int garbage).
  (** FermiJump1D<Float, Basis3Operator>, constructor, fermi_jump/1d.hpp 101-115, on init_lattice(N, 1.)
      (hubbard_real_1d_rk4_jump.cpp 45); lattice[i] is periodic_chain.hpp 233-240 *)
  Definition f_factors_1d (N : Z) (s : schedule) (k_F : R) : option (outcome (list (R * R))) :=
    fill (F := Rring) fcos fsin s (fun i => Ok (f_mul ar k_F (f_pos ar int (f_real_chain ar int N 1) i))) (zeros (F := Rring) (Z.to_nat N)).
  (** PeriodicSquareLattice(Nx, Ny, dx, dy), operator[], periodic_square_lattice.hpp 105-119, 352-359 *)
  Definition f_sq_pos (Nx : Z) (dx dy : R) (idx : Z) : R * R :=
    (f_add ar 0 (f_mul ar (int (idx / Nx)) dx), f_add ar 0 (f_mul ar (int (idx mod Nx)) dy)).
  (** types::dot_product of two StaticVector<double, 2>, types/blaze/dot_product.hpp 10-16 *)
  Definition f_dot (a b : R * R) : R := f_add ar (f_mul ar (fst a) (fst b)) (f_mul ar (snd a) (snd b)).
  (** FermiJump2D<Float, Basis3Operator>, constructor, fermi_jump/2d.hpp 41-55, on init_lattice(Nx, Ny)
      (src/hubbard/real_space/periodic_square_lattice.hpp 8-14: dx = dy = 1) *)
  Definition f_factors_2d (basis : list (monomial hub)) (Nx N : Z) (s : schedule) (k_F : R * R) : option (outcome (list (R * R))) :=
    fill (F := Rring) fcos fsin s (fun i => obind (front basis i) (fun o => Ok (f_dot k_F (f_sq_pos Nx 1 1 (index1 o))))) (zeros (F := Rring) (Z.to_nat N)).

  Context (sort : list (triplet CR) -> list (triplet CR)).
  (** hubbard_real_1d_kinetic_rk4.cpp and hubbard_real_1d_rk4.cpp: init_expectation_value(lattice, filling_factor)
      comes before the time evolution *)
  Definition f_main_kinetic order sched N J filling dt t_end interval :=
    f_occupation_kinetic garbage sort order sched N J (f_init_ev1 garbage fsin N 1 filling) dt t_end interval.
  Definition f_main_full order sched N J U filling dt t_end interval :=
    f_occupation_full garbage sort order sched N J U (f_init_ev1 garbage fsin N 1 filling) dt t_end interval.
  (** a program whose first parallel loop, filling the table of factors, runs with its own schedule; None if that
      schedule is not complete *)
  Definition with_factors {A : Type} (factors : option (outcome (list (R * R)))) (run : list (R * R) -> nat -> option (outcome (option A))) (fuel : nat)
    : option (outcome (option A)) :=
    match factors with
    | None => Some (Ok None)
    | Some UB => Some UB
    | Some (Ok coef) => run coef fuel
    end.
  (** hubbard_real_1d_rk4_jump.cpp 45-52; init_fermi_jump, src/hubbard/real_space/fermi_jump.hpp 9-22 *)
  Definition f_main_jump_1d (s : schedule) sched N J U filling dt t_end interval :=
    with_factors (f_factors_1d N s (f_fermi_momentum garbage filling))
      (fun coef => f_jump_1d garbage sort sched N J U (f_init_ev1 garbage fsin N 1 filling) coef dt t_end interval).
  (** hubbard_real_2d_rk4_jump.cpp 49-62 *)
  Definition f_main_jump_2d (s : schedule) sched Nx Ny J U kx ky dt t_end interval :=
    with_factors (f_factors_2d (basis3 (square_lattice Nx Ny)) Nx (Nx * Ny) s (kx, ky))
      (fun coef => f_jump_2d garbage sort sched Nx Ny J U (f_ev2_table garbage fsin Nx Ny) coef dt t_end interval).
End Main.
