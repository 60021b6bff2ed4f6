(** MODEL: src/hubbard/hubbard_momentum_1d_rk4.cpp as in M_MomentumProgram, in double precision: every
    operation on double rounds (M_Double); std::cos is any function [fcos] (C98). *)
From Coq Require Import Reals List ZArith.
From Verif Require Import Base M_Operator M_Lattice M_LatticeReal M_Basis M_Matrix M_Ode M_Dispersion M_OpenMP M_SiteOccupation M_FermiSea M_NonVanishing Spec_Ode Spec_Stability
  M_MomentumProgram M_Rounding M_RoundedMeasurement M_Double M_LatticeDouble M_DoubleDispersion.
Local Open Scope R_scope.
Local Open Scope list_scope.

Section Rounded.
  Context (ar : arith).
  (** init_matrix, models/hubbard_momentum_space/blaze_sparse.hpp 22-62: [disp] is liouvillian.dispersion,
      [size] is lattice.size() converted to double; the matrix has complex elements *)
  Definition f_mom_init_matrix (b : list (monomial hub)) (n : Z) (disp : Z -> R) (U size : R) : outcome (bmat CR) :=
    let sz := Z.of_nat (length b) in
    let interaction1 := f_div ar U 2 in
    let interaction2 := f_div ar U (f_mul ar 2 size) in
    match b with
    | (op :: _) :: _ =>
        obind (bm_append (bm_new sz (mom_number_of_elements n)) 0 0 (real (f_add ar (disp (index1 op)) interaction1) : CR)) (fun m =>
        obind (ofold (fun m i => bm_append m 0 i (real interaction2 : CR)) (zrange 1 sz) m) (fun m =>
        obind (bm_finalize m 0) (fun m =>
        ofold (fun m row =>
          match nth_error b (Z.to_nat row) with
          | Some [o0; o1; o2] =>
              obind (bm_append m row 0 (real interaction2 : CR)) (fun m =>
              obind (bm_append m row row
                       (real (f_add ar (f_add ar (f_add ar (disp (index1 o0)) (disp (index1 o1))) (- disp (index1 o2))) interaction1) : CR)) (fun m =>
              bm_finalize m row))
          | _ => UB
          end) (zrange 1 sz) m)))
    | _ => UB
    end.
  (** compute_matrix, src/hubbard/momentum_space/momentum_space.hpp 9-26 *)
  Definition f_compute_matrix (b : list (monomial hub)) (n : Z) (disp : Z -> R) (U size : R) : outcome (bmat CR) :=
    obind (f_mom_init_matrix b n disp U size) (fun m => Ok (fbm_scale ar imag_unit m)).
  (** ParticleNumber::operator(), particle_number.hpp 39-60: the accumulated complex [result] *)
  Definition f_pn_result (l : list (contribution (K := Rring))) (vec : list CR) : outcome CR :=
    ofold (fun result e =>
        let '(i, j, value) := e in
        if (i =? j)%Z
        then obind (vread vec i) (fun x => Ok (f_add ar (fst result) (f_mul ar (f_norm ar x) value), snd result))
        else obind (vread vec i) (fun x => obind (vread vec j) (fun y =>
               Ok (cf_add ar result (cf_scale ar value (f_multiply_with_conjugate ar x y))))))
      l ((0, 0) : CR).
End Rounded.

(** L.dispersion(i); the indices are below N *)
Definition table_at (t : list R) (i : Z) : R := match vread t i with Ok x => x | UB => 0 end.
(** main, 39-70; see momentum_program.  The matrix elements 1, 2, ... of the expectation values are small
    integers (C50), exact in double precision; so are the coefficients of the initial vector.  The static
    buffers of the integrator are overwritten before they are read (C51) and left out here. *)
Definition double_momentum_program (garbage fcos : R -> R) (sort : list (Z * bool) -> list (Z * bool)) (order : list nat)
    (N : Z) (J U dt t_end measurement_interval : R) (fuel : nat) : option (outcome (R * R)) :=
  let ar := double_arith garbage in
  let conv := to_double_int garbage in
  let k_idx := (N / 2)%Z in
  let disp := table_at (double_table garbage fcos N J) in
  match f_mom_basis ar conv fuel (double_momentum_chain garbage N) k_idx with
  | None => None
  | Some UB => Some UB
  | Some (Ok basis) => Some (
      let n := Z.of_nat (length basis) in
      let conjugate_basis := basis_get_conjugate order basis in
      obind (f_compute_matrix ar basis N disp U (conv N)) (fun M =>
      obind (init_vector (K := CR) n) (fun h0 =>
      obind (non_vanishing (K := Rring) rlt sort disp 0 basis conjugate_basis) (fun values =>
      obind (f_pn_result ar values h0) (fun before =>
      let h8 := frun ar dt M 8 h0 in
      obind (f_pn_result ar values h8) (fun after =>
      Ok (fst before, fst after)))))))
  end.
