(** MODEL: src/hubbard/hubbard_momentum_1d_rk4.cpp with compute_matrix of
    src/hubbard/momentum_space/momentum_space.hpp.  double is the real numbers; reading the
    options, logging, writing the matrix file (C60, C61) and formatting the printed numbers are
    not modelled here.  t_end and measurement_interval are read from the options and never used. *)
From Coq Require Import Reals.
From Verif Require Import Base M_Operator M_Lattice M_LatticeReal M_Basis M_Matrix M_Ode M_Dispersion M_OpenMP M_SiteOccupation M_FermiSea M_NonVanishing Spec_Ode Spec_Stability.
Local Open Scope R_scope.
Local Open Scope list_scope.

(** operator< of double *)
Definition rlt (x y : R) : bool := if Rlt_dec x y then true else false.
(** L.dispersion: the table of BrillouinZone(N) and Lattice(N, 1.), 42-49 *)
Definition program_table (N : Z) (J : R) : list R := chain_dispersion (momentum_chain N) (real_chain N 1) J.
(** L.dispersion(i); the indices are below N *)
Definition program_eps (N : Z) (J : R) (i : Z) : R := match vread (program_table N J) i with Ok x => x | UB => 0 end.
(** compute_matrix, momentum_space.hpp 9-26: init_matrix with U / 2 and U / (2 N), times i *)
Definition compute_matrix (N : Z) (J U : R) (b : list (monomial hub)) : outcome (bmat CR) :=
  obind (mom_init_matrix (K := CR) b N (fun i => real (program_eps N J i)) (real (U / 2)) (real (U / (2 * IZR N)))) (fun m =>
  Ok (bm_scale imag_unit m)).
(** integrator.step(M, h), [k] times in a row; the static buffers keep the values of the previous
    step *)
Fixpoint steps (k : nat) (rk : rk4 CR) (mul : list CR -> list CR) (st : statics CR) (u : list CR) : list CR :=
  match k with
  | O => u
  | S k => let '(st', u') := rk_step (real (1/2)) (real (1/6)) rk mul st u in steps k rk mul st' u'
  end.
(** main, 39-70: k_idx = N / 2; the basis, its conjugate and the matrix; the initial vector; the
    particle number of the Fermi sea with Fermi energy 0; one line before and one after eight
    Runge-Kutta steps.  [fuel]: for loops over the iterators of the Brillouin zone (M_Basis);
    [order]: the order in which the threads conjugate the basis elements; [sort]: std::sort;
    [st]: contents of the static buffers when the first step starts. *)
Definition momentum_program (sort : list (Z * bool) -> list (Z * bool)) (order : list nat) (st : statics CR)
    (N : Z) (J U dt t_end measurement_interval : R) (fuel : nat) : option (outcome (R * R)) :=
  let k_idx := (N / 2)%Z in
  match mom_basis fuel (momentum_chain N) k_idx with
  | None => None
  | Some UB => Some UB
  | Some (Ok basis) => Some (
      let n := Z.of_nat (length basis) in
      let conjugate_basis := basis_get_conjugate order basis in
      obind (compute_matrix N J U basis) (fun M =>
      obind (init_vector (K := CR) n) (fun h0 =>
      obind (non_vanishing (K := Rring) rlt sort (program_eps N J) 0 basis conjugate_basis) (fun values =>
      obind (pn_result values h0) (fun before =>
      let h8 := steps 8 (mkRk4 (K := CR) n (real dt)) (sp_vec M) st h0 in
      obind (pn_result values h8) (fun after =>
      Ok (fst before, fst after)))))))
  end.
