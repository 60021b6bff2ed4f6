(** MODEL: the real-space programs of M_Programs with every double rounded: the time variables, the
    matrix times 1i, the Runge-Kutta steps and the measurement.  The table of expectation values is a
    parameter (its elements come from std::sin, whose rounding is not specified).  The assertion of a
    vanishing imaginary part is left out, as in a build with NDEBUG (C93_assert_refuted: it may fail).
    The static buffers of RK4::step (C37) are left out: frk_step does not read them. *)
From Coq Require Import Reals List ZArith.
From Verif Require Import Base M_Operator M_Lattice M_Basis M_Matrix M_Ode M_Dispersion M_OpenMP M_Expectation M_SiteOccupation M_TimeLoop M_Programs Spec_Stability
  M_Rounding M_Double M_RoundedMeasurement.
Local Open Scope R_scope.
Local Open Scope list_scope.

Section Programs.
  Context (garbage : R -> R).
  Notation ar := (double_arith garbage).
  (** src/hubbard/real_space/matrix.hpp 9-21 and 23-37 *)
  Definition f_compute_full (sort : list (triplet CR) -> list (triplet CR)) (N : Z) (J U : R) : outcome (bmat CR) :=
    obind (init_matrix sort (real J : CR) (real U) (real (1/2)) (chain_lattice N)) (fun m => Ok (fbm_scale ar imag_unit m)).
  Definition f_compute_kinetic (sort : list (triplet CR) -> list (triplet CR)) (N : Z) (J : R) : outcome (bmat CR) :=
    obind (init_kinetic_matrix sort (real J : CR) (chain_lattice N)) (fun m => Ok (fbm_scale ar imag_unit m)).
  (** h, and the number of steps done (not a variable of the program) *)
  Record f_progress := mkFP { f_steps_done : nat; f_coefficients : list CR }.
  (** integrator.step(M, h) *)
  Definition f_integrate (dt : R) (M : bmat CR) (s : f_progress) : f_progress :=
    mkFP (S (f_steps_done s)) (frk_step ar dt M (f_coefficients s)).
  (** main after the set-up, as run_main in M_Programs *)
  Definition f_run_main {O} (n : Z) (dt t_end : R) (interval : Z) (matrix : outcome (bmat CR)) (obs : f_progress -> O) (fuel : nat)
    : option (outcome (list (R * O))) :=
    match matrix, init_vector (K := CR) n with
    | Ok M, Ok h =>
        match program (to_double garbage) (f_integrate dt M) obs dt t_end interval (mkFP 0 h) fuel with
        | None => None
        | Some UB => Some UB
        | Some (Ok s) => Some (Ok (ls_out s))
        end
    | _, _ => Some UB
    end.
  (** the lambda of init_site_occupation: the element of the table for the distance of the two sites *)
  Definition f_program_ev (N : Z) (table : list R) (a b : op hub) : R :=
    match ev1 N table (index1 a) (index1 b) with Ok x => x | UB => 0 end.
  (** return result.real() *)
  Definition f_real_result (r : option (outcome CR)) : option (outcome R) :=
    match r with
    | None => None
    | Some UB => Some UB
    | Some (Ok z) => Some (Ok (fst z))
    end.
  (** hubbard_real_1d_rk4_coefficients.cpp 32-92, hubbard_real_1d_kinetic_rk4_coefficients.cpp 31-90 *)
  Definition f_coefficients_full sort N J U dt t_end interval :=
    f_run_main (Z.of_nat (length (basis3 (chain_lattice N)))) dt t_end interval (f_compute_full sort N J U) f_coefficients.
  Definition f_coefficients_kinetic sort N J dt t_end interval :=
    f_run_main (Z.of_nat (length (basis1 (chain_lattice N)))) dt t_end interval (f_compute_kinetic sort N J) f_coefficients.
  (** hubbard_real_1d_rk4.cpp 34-92, hubbard_real_1d_kinetic_rk4.cpp 32-88 *)
  Definition f_occupation_full sort (order : list nat) (sched : nat -> measurement) N J U table dt t_end interval :=
    let b := basis3 (chain_lattice N) in
    f_run_main (Z.of_nat (length b)) dt t_end interval (f_compute_full sort N J U)
      (fun s => let c := sched (f_steps_done s) in
         f_real_result (f_site_occupation3 ar (f_program_ev N table) b (basis_get_conjugate order b) (f_coefficients s)
           true N (threads c) (loop1 c) (loop2 c) (loop3 c))).
  Definition f_occupation_kinetic sort (order : list nat) (sched : nat -> measurement) N J table dt t_end interval :=
    let b := basis1 (chain_lattice N) in
    f_run_main (Z.of_nat (length b)) dt t_end interval (f_compute_kinetic sort N J)
      (fun s => let c := sched (f_steps_done s) in
         f_real_result (f_site_occupation1 ar (f_program_ev N table) b (basis_get_conjugate order b) (f_coefficients s)
           (threads c) (loop1 c))).
End Programs.
