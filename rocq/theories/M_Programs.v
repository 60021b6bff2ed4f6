(** MODEL: the real-space programs src/hubbard/hubbard_real_1d_rk4.cpp, hubbard_real_1d_kinetic_rk4.cpp,
    hubbard_real_1d_rk4_coefficients.cpp and hubbard_real_1d_kinetic_rk4_coefficients.cpp (main), with
    compute_matrix and compute_kinetic_matrix of src/hubbard/real_space/matrix.hpp 9-21 and 23-37,
    init_expectation_value of real_space/expectation_value_1d.hpp, init_site_occupation of
    real_space/site_occupation.hpp, init_lattice(N, 1.) of real_space/periodic_chain.hpp.
    double is the real numbers for the coefficients; the arithmetic of the time variables is followed by
    an arbitrary rounding [rnd] (M_TimeLoop).  Reading the options (C57), logging and the formatting of
    the printed numbers are not modelled. *)
From Coq Require Import Reals.
From Verif Require Import Base M_Operator M_Lattice M_Basis M_Matrix M_Ode M_Dispersion M_OpenMP M_Expectation M_SiteOccupation M_TimeLoop Spec_Stability.
Local Open Scope R_scope.
Local Open Scope list_scope.

(** compute_matrix / compute_kinetic_matrix: the matrix times 1i; make_liouvillian(J, U) *)
Definition compute_full (sort : list (triplet CR) -> list (triplet CR)) (N : Z) (J U : R) : outcome (bmat CR) :=
  obind (init_matrix sort (real J : CR) (real U) (real (1/2)) (chain_lattice N)) (fun m => Ok (bm_scale imag_unit m)).
Definition compute_kinetic (sort : list (triplet CR) -> list (triplet CR)) (N : Z) (J : R) : outcome (bmat CR) :=
  obind (init_kinetic_matrix sort (real J : CR) (chain_lattice N)) (fun m => Ok (bm_scale imag_unit m)).

(** the variables changed by integrator.step(M, h): the vector h and the static buffers.  The
    number of steps done so far is not a variable of the program; it is used to let every
    measurement have its own thread schedule. *)
Record progress := mkProgress { steps_done : nat; buffers : statics CR; coefficients : list CR }.
(** integrator.step(M, h), with integrator = init_rk4(basis.size(), dt) *)
Definition integrate (n : Z) (dt : R) (M : bmat CR) (s : progress) : progress :=
  let r := rk_step (real (1/2)) (real (1/6)) (mkRk4 (K := CR) n (real dt)) (sp_vec M) (buffers s) (coefficients s) in
  mkProgress (S (steps_done s)) (fst r) (snd r).

Section Main.
  Context {O : Type} (rnd : R -> R) (st : statics CR) (n : Z) (dt t_end : R) (interval : Z).
  (** the part of main after the set-up: h = init_vector(basis), the measurement at t = 0, the loop
      and the last measurement; the result is the lines written to the output file.  [st]: contents
      of the static buffers when the first step starts; [fuel]: bound for the number of iterations *)
  Definition run_main (matrix : outcome (bmat CR)) (obs : progress -> O) (fuel : nat) : option (outcome (list (R * O))) :=
    match matrix, init_vector (K := CR) n with
    | Ok M, Ok h =>
        match program rnd (integrate n dt M) obs dt t_end interval (mkProgress 0 st h) fuel with
        | None => None
        | Some UB => Some UB
        | Some (Ok s) => Some (Ok (ls_out s))
        end
    | _, _ => Some UB
    end.
End Main.

(** hubbard_real_1d_rk4_coefficients.cpp 32-92: every line is t and all elements of h *)
Definition coefficients_full sort rnd st N J U dt t_end interval :=
  run_main rnd st (Z.of_nat (length (basis3 (chain_lattice N)))) dt t_end interval (compute_full sort N J U) coefficients.
(** hubbard_real_1d_kinetic_rk4_coefficients.cpp 31-90; init_liouvillian(J, 0.) *)
Definition coefficients_kinetic sort rnd st N J dt t_end interval :=
  run_main rnd st (Z.of_nat (length (basis1 (chain_lattice N)))) dt t_end interval (compute_kinetic sort N J) coefficients.

(** the lambda of init_site_occupation: ev(a.index1, b.index1) with the table of
    init_expectation_value(lattice, filling_factor), lattice spacing 1; the indices are below N,
    so the value for an undefined access is never used (C41_chain) *)
Definition program_ev (N : Z) (filling : R) (a b : op hub) : R :=
  match ev1 N (init_ev1 N 1 filling) (index1 a) (index1 b) with Ok x => x | UB => 0 end.
(** operator() of SiteOccupation: assert(types::IsZero(result.imag())), return result.real();
    the assert is modelled without its tolerance *)
Definition real_result (r : option (outcome (R * R))) : option (outcome R) :=
  match r with
  | None => None
  | Some UB => Some UB
  | Some (Ok z) => Some (if Req_EM_T (snd z) 0 then Ok (fst z) else UB)
  end.
(** thread count and the schedules of the three parallel loops of one measurement *)
Record measurement := mkMeasurement { threads : nat; loop1 : schedule; loop2 : schedule; loop3 : schedule }.

(** hubbard_real_1d_rk4.cpp 34-92; [order]: the order in which get_conjugate() visits the basis;
    [sched k]: the schedules used by a measurement after k steps; an observable [None] means that the
    interleaving in [sched] ends before the loop is finished.  exploit_inversion_symmetry has its
    default value true (site_occupation.hpp 83) unless it is changed, and the program does not. *)
Definition occupation_full sort rnd st (order : list nat) (sched : nat -> measurement) N J U filling dt t_end interval :=
  let b := basis3 (chain_lattice N) in
  run_main rnd st (Z.of_nat (length b)) dt t_end interval (compute_full sort N J U)
    (fun s => let c := sched (steps_done s) in
       real_result (site_occupation3 (F := Rring) (1/2) (program_ev N filling) b (basis_get_conjugate order b) (coefficients s)
         true N (threads c) (loop1 c) (loop2 c) (loop3 c))).
(** hubbard_real_1d_kinetic_rk4.cpp 32-88; init_liouvillian(J) *)
Definition occupation_kinetic sort rnd st (order : list nat) (sched : nat -> measurement) N J filling dt t_end interval :=
  let b := basis1 (chain_lattice N) in
  run_main rnd st (Z.of_nat (length b)) dt t_end interval (compute_kinetic sort N J)
    (fun s => let c := sched (steps_done s) in
       real_result (site_occupation1 (F := Rring) (1/2) (program_ev N filling) b (basis_get_conjugate order b) (coefficients s)
         (threads c) (loop1 c))).
