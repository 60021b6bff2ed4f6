(** MODEL: the programs src/hubbard/hubbard_real_1d_rk4_jump.cpp and hubbard_real_2d_rk4_jump.cpp (M_JumpPrograms)
    with every double rounded: the time variables, the matrix times 1i, the Runge-Kutta steps and the
    measurements (M_RoundedJump).  The table of expectation values and the table of Fourier coefficients
    are parameters: their elements come from std::sin and std::cos, whose rounding is not specified.
    The static buffers of RK4::step (C37) are left out: frk_step does not read them. *)
From Coq Require Import Reals List ZArith.
From Verif Require Import Base M_Operator M_Lattice M_Basis M_Matrix M_Ode M_Dispersion M_OpenMP M_Expectation M_SiteOccupation M_FermiJump M_TimeLoop M_Programs Spec_Stability
  M_Rounding M_Double M_RoundedMeasurement M_RoundedJump M_DoublePrograms.
Local Open Scope R_scope.
Local Open Scope list_scope.

Section Jump.
  Context (garbage : R -> R).
  Notation ar := (double_arith garbage).
  (** compute_matrix (real_space/matrix.hpp 9-21) for any lattice *)
  Definition f_compute_lattice (sort : list (triplet CR) -> list (triplet CR)) (lat : lattice) (J U : R) : outcome (bmat CR) :=
    obind (init_matrix sort (real J : CR) (real U) (real (1/2)) lat) (fun m => Ok (fbm_scale ar imag_unit m)).
  (** calls of operator() one after another, with the static local of the previous ones (as M_FermiJump.evaluations) *)
  Fixpoint f_evaluations (cs : list (call Rring)) (st : option (list CR)) : option (outcome (list R)) :=
    match cs with
    | [] => Some (Ok [])
    | c :: cs' =>
        pbind (f_fermi_jump3 ar (c_ev c) (c_basis c) (c_N c) (c_coefficients c) (c_h c) (c_threads c) (c_s1 c) (c_s2 c) st) (fun p =>
        pbind (f_evaluations cs' (Some (snd p))) (fun rs => Some (Ok (fst p :: rs))))
    end.
  Context (dt t_end : R) (interval : Z).
  Context (ev : op hub -> op hub -> R) (basis : list (monomial hub)) (N : Z) (sched : nat -> measurement) (coef : list (R * R)).
  (** one call jump(h) (hubbard_real_1d_rk4_jump.cpp 82-86) after [f_steps_done] steps *)
  Definition f_measure (s : f_progress) : call Rring :=
    let c := sched (f_steps_done s) in
    mkCall (F := Rring) ev basis N coef (f_coefficients s) (threads c) (loop1 c) (loop2 c).
  (** the printed lines (as M_JumpPrograms.jump_main) *)
  Definition f_jump_main (matrix : outcome (bmat CR)) (fuel : nat) : option (outcome (option (outcome (list (R * R))))) :=
    match f_run_main garbage (Z.of_nat (length basis)) dt t_end interval matrix (fun s => s) fuel with
    | None => None
    | Some UB => Some UB
    | Some (Ok lines) => Some (Ok
        (pbind (f_evaluations (map (fun l => f_measure (snd l)) lines) None) (fun values =>
         Some (Ok (combine (map fst lines) values)))))
    end.
End Jump.
(** hubbard_real_1d_rk4_jump.cpp 36-92 *)
Definition f_jump_1d garbage sort sched N J U table coef dt t_end interval :=
  f_jump_main garbage dt t_end interval (f_program_ev N table) (basis3 (chain_lattice N)) N sched coef (f_compute_lattice garbage sort (chain_lattice N) J U).
(** the lambda in hubbard_real_2d_rk4_jump.cpp 55-56 *)
Definition f_program_ev_2d (Nx Ny : Z) (table : list R) (a b : op hub) : R :=
  match ev2 Nx Ny table (index1 a) (index1 b) with Ok x => x | UB => 0 end.
(** hubbard_real_2d_rk4_jump.cpp 37-107 *)
Definition f_jump_2d garbage sort sched Nx Ny J U table coef dt t_end interval :=
  f_jump_main garbage dt t_end interval (f_program_ev_2d Nx Ny table) (basis3 (square_lattice Nx Ny)) (Nx * Ny)%Z sched coef (f_compute_lattice garbage sort (square_lattice Nx Ny) J U).
