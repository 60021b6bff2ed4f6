(** MODEL: src/hubbard/hubbard_real_1d_kinetic_theory.cpp (exact coefficients of the
    non-interacting chain).  double is the real numbers, boost::math::cyl_bessel_j the Bessel
    function of Spec_Bessel.  The hard-coded N = 128, dt = 0.01, steps = 10000 (38-44) are
    parameters of the model. *)
From Coq Require Import Reals.
From Verif Require Import Base M_Lattice M_Matrix M_Dispersion M_Expectation M_OpenMP Spec_Stability Spec_Bessel.
Local Open Scope R_scope.
Local Open Scope list_scope.

(** minus_i_power, 22-34 *)
Definition minus_i_power (power : Z) : CR :=
  match (power mod 4)%Z with
  | 0%Z => (1, 0)
  | 1%Z => (0, -1)
  | 2%Z => (-1, 0)
  | _ => (0, 1)
  end.
(** bess * prefactor with bess = cyl_bessel_j(j, 2t), 51-56 *)
Definition theory_coefficient (j : Z) (t : R) : CR :=
  let bess := bessel_j (Z.to_nat j) (2 * t) in
  let prefactor := minus_i_power j in
  (bess * fst prefactor, bess * snd prefactor).
(** h_vals[i][step] with t = step * dt, 48-58; lattice_distance(0, i) *)
Definition h_val (N : Z) (t : R) (i : Z) : CR := theory_coefficient (chain_distance N 0 i) t.
(** h_vals_conj[i][step]: bess * std::conj(prefactor), 57 *)
Definition h_val_conj (N : Z) (t : R) (i : Z) : CR :=
  let j := chain_distance N 0 i in
  let bess := bessel_j (Z.to_nat j) (2 * t) in
  let prefactor := minus_i_power j in
  (bess * fst prefactor, bess * - snd prefactor).
(** one time step of the parallel double loop and the sum over the threads, 64-91; the loop over
    the steps is innermost in the program, every step has its own accumulator.  basis[i] is the
    operator of site i (C27).  The object of line 61 is constructed as (lattice, 1., 0.5), and the
    constructor takes (lattice, filling_factor, k_F).  [T] threads, any distribution and interleaving. *)
Definition theory_value (N : Z) (t : R) (T : nat) (s : schedule) : option (outcome CR) :=
  let table := ev1_table N 1 1 (1 / 2) in
  pbind (par_reduce s (fun i => omap (fun j => obind (ev1 N table i j)
                         (fun e => Ok (rmul (real e) (rmul (h_val N t i) (h_val_conj N t j)) : CR))) (zrange 0 N))
           (repeat (@r0 CR) T))
        (fun results => Some (Ok (accumulate results))).
