(** MODEL: the programs src/hubbard/hubbard_real_1d_rk4_jump.cpp and hubbard_real_2d_rk4_jump.cpp (main),
    with init_fermi_jump of real_space/fermi_jump.hpp 9-22, init_lattice of
    real_space/periodic_square_lattice.hpp and init_expectation_value of
    real_space/expectation_value_2d.hpp.  The simplifications are those of M_Programs. *)
From Coq Require Import Reals.
From Verif Require Import Base M_Operator M_Lattice M_LatticeReal M_Basis M_Matrix M_Ode M_Dispersion M_OpenMP M_Expectation M_SiteOccupation M_FermiJump M_TimeLoop Spec_Stability M_Programs.
Local Open Scope R_scope.
Local Open Scope list_scope.

(** compute_matrix (real_space/matrix.hpp 9-21) for any lattice *)
Definition compute_lattice (sort : list (triplet CR) -> list (triplet CR)) (lat : lattice) (J U : R) : outcome (bmat CR) :=
  obind (init_matrix sort (real J : CR) (real U) (real (1/2)) lat) (fun m => Ok (bm_scale imag_unit m)).

Section Jump.
  Context (rnd : R -> R) (st : statics CR) (dt t_end : R) (interval : Z).
  Context (ev : op hub -> op hub -> R) (basis : list (monomial hub)) (N : Z) (sched : nat -> measurement).
  (** one call jump(h), after [steps_done] steps; [coef]: the member _fourier_coefficients *)
  Definition measure (coef : list (R * R)) (s : progress) : call Rring :=
    let c := sched (steps_done s) in
    mkCall (F := Rring) ev basis N coef (coefficients s) (threads c) (loop1 c) (loop2 c).
  (** the printed lines; [table]: the result of the constructor of the observable.  The calls of
      operator() only change its static local h_NO, which nothing else reads, so they are
      evaluated one after another on the coefficients at the measurement times, the first one
      with the static local not yet constructed.  Outer option: [fuel] ends before the loop over the
      times; inner option: the interleaving in [sched] ends before a parallel loop is finished. *)
  Definition jump_main (matrix : outcome (bmat CR)) (table : option (outcome (list (R * R)))) (fuel : nat)
    : option (outcome (option (outcome (list (R * R))))) :=
    match run_main rnd st (Z.of_nat (length basis)) dt t_end interval matrix (fun s => s) fuel with
    | None => None
    | Some UB => Some UB
    | Some (Ok lines) => Some (Ok
        (pbind table (fun coef =>
         pbind (evaluations (map (fun l => measure coef (snd l)) lines) None) (fun values =>
         Some (Ok (combine (map fst lines) values))))))
    end.
End Jump.

(** hubbard_real_1d_rk4_jump.cpp 36-92; [s0]: the schedule of the loop in the constructor *)
Definition jump_1d sort rnd st s0 sched N J U filling dt t_end interval :=
  jump_main rnd st dt t_end interval (program_ev N filling) (basis3 (chain_lattice N)) N sched (compute_lattice sort (chain_lattice N) J U)
    (ctor_1d (F := Rring) cos sin N s0 (calculate_fermi_momentum_1d filling) (ch_pos (real_chain N 1))).

(** the lambda in hubbard_real_2d_rk4_jump.cpp 55-56; an access outside of the table is not used
    for square lattices (C41_square) *)
Definition program_ev_2d (Nx Ny : Z) (a b : op hub) : R :=
  match ev2 Nx Ny (ev2_table Nx Ny) (index1 a) (index1 b) with Ok x => x | UB => 0 end.
(** hubbard_real_2d_rk4_jump.cpp 37-107; basis.N = lattice.size() = Nx Ny; lattice spacings 1 *)
Definition jump_2d sort rnd st s0 sched Nx Ny J U k_F dt t_end interval :=
  jump_main rnd st dt t_end interval (program_ev_2d Nx Ny) (basis3 (square_lattice Nx Ny)) (Nx * Ny)%Z sched (compute_lattice sort (square_lattice Nx Ny) J U)
    (ctor_2d (F := Rring) cos sin (basis3 (square_lattice Nx Ny)) (Nx * Ny)%Z s0 k_F (s_pos (real_square Nx Ny 1 1))).
