(** MODEL: src/hubbard/hubbard_real_1d_kinetic_theory.cpp (main) in double precision, with interleaving
    threads.  The hard-coded N = 128, dt = 0.01 and steps = 10000 (38-44) are parameters.  Not specified by
    the code and therefore parameters too: [bessel] is boost::math::cyl_bessel_j(order, x), [table] the
    elements of the ExpectationValue1DHalfFilled of line 61 (they come from std::sin), [show] is operator<<
    of a double, [garbage] what an overflowing operation gives. *)
From Coq Require Import Reals Ascii String List ZArith.
From Verif Require Import Base M_Operator M_Lattice M_Basis M_Matrix M_Ode M_Dispersion M_Expectation M_OpenMP M_SiteOccupation Spec_Stability
  M_Text M_Io M_Rounding M_Double M_RoundedMeasurement M_Theory M_DispersionProgram.
Local Open Scope R_scope.
Local Open Scope list_scope.

Section Program.
  Context (garbage : R -> R) (bessel : Z -> R -> R) (table : list R) (N : Z) (dt : R) (steps : Z).
  Notation ar := (double_arith garbage).
  (** 2 * step * dt, 54: the first product is one of uint64_t, the result is converted to double *)
  Definition th_argument (step : Z) : R := f_mul ar (to_double garbage (IZR (u64 (2 * step)))) dt.
  (** h_vals[i][step] and h_vals_conj[i][step], 46-58.  The iterations of the parallel loop only touch
      their own h_vals[i] and h_vals_conj[i]; both are complete when the loop has ended. *)
  Definition th_h_val (i step : Z) : CR :=
    let j := chain_distance N 0 i in
    let prefactor := minus_i_power j in
    cf_scale ar (bessel j (th_argument step)) prefactor.
  Definition th_h_val_conj (i step : Z) : CR :=
    let j := chain_distance N 0 i in
    let prefactor := minus_i_power j in
    cf_scale ar (bessel j (th_argument step)) (fst prefactor, - snd prefactor).
  (** basis[i].front().index1, 75 *)
  Definition th_front (i : Z) : outcome Z :=
    obind (vread (basis1 (chain_lattice N)) i) (fun m => match m with x :: _ => Ok (index1 x) | [] => UB end).
  (** one iteration of the loop over i in thread t, 73-81: one load and one store per "+=".  Element [step] of
      results[t] is element t * steps + step of the memory. *)
  Definition th_iteration (t : nat) (i : Z) : outcome (list (rop summand)) :=
    oconcat (fun j =>
      obind (th_front i) (fun a => obind (th_front j) (fun b => obind (ev1 N table a b) (fun e =>
        Ok (flat_map (fun step =>
              rplus_assign (t * Z.to_nat steps + Z.to_nat step)
                (CSum (cf_scale ar e (cf_mul ar (th_h_val i step) (th_h_val_conj j step)))))
            (zrange 0 steps)))))) (zrange 0 N).
  (** 64-82: [T0] threads each append a vector of zeros; the threads of the schedule run the loop *)
  Definition th_results (T0 : nat) (s : schedule) : option (outcome (list CR)) :=
    match omap (fun p => oconcat (th_iteration (fst p)) (snd p)) (combine (seq 0 (length (who s))) (who s)) with
    | Ok progs => rrun ((0, 0) : CR) (fplus ar) progs (trace s) (repeat ((0, 0) : CR) (T0 * Z.to_nat steps))
    | UB => Some UB
    end.
  (** val, 86-89 *)
  Definition th_val (T0 : nat) (results : list CR) (step : Z) : CR :=
    fold_left (cf_add ar) (map (fun t => nth (t * Z.to_nat steps + Z.to_nat step) results ((0, 0) : CR)) (seq 0 T0)) ((0, 0) : CR).
  (** step * dt, 90 *)
  Definition th_time (step : Z) : R := f_mul ar (to_double garbage (IZR step)) dt.
  (** 90 *)
  Definition th_line (show : R -> text) (T0 : nat) (results : list CR) (step : Z) : text :=
    let val := th_val T0 results step in
    show (th_time step) ++ [tab] ++ show (fst val) ++ [tab] ++ show (snd val) ++ [newline].
  (** main, 36-93; [writable] says whether theory.txt can be opened *)
  Definition theory_main (show : R -> text) (T0 : nat) (s : schedule) (writable : bool) (f : fs) : option (outcome (fs * Z)) :=
    pbind (th_results T0 s) (fun results => Some (Ok
      (if writable then set_file f (str "theory.txt") (Some (flat_map (th_line show T0 results) (zrange 0 steps))) else f, 0%Z))).
End Program.
