(** MODEL: the same code as M_Ode (ode/rk4.hpp 32-48), with operations that may round.  An arithmetic is
    a set of operations on the numbers a double can hold; no law is assumed. *)
From Coq Require Import Reals List ZArith.
From Verif Require Import Base M_Matrix M_Dispersion Spec_Stability M_Ode.
Local Open Scope R_scope.
Local Open Scope list_scope.

Record arith := mkArith { f_add : R -> R -> R; f_mul : R -> R -> R; f_div : R -> R -> R }.
(** exact arithmetic *)
Definition exact_arith : arith := mkArith Rplus Rmult Rdiv.

Section Rounded.
  Context (ar : arith).
  (** std::complex<double>: operator+, operator* of two complex numbers (real part a c - b d, imaginary
      part a d + b c; the NaN recovery of Annex G is left out: no infinity occurs) and operator* of a
      double and a complex number *)
  Definition cf_add (x y : CR) : CR := (f_add ar (fst x) (fst y), f_add ar (snd x) (snd y)).
  Definition cf_mul (x y : CR) : CR :=
    (f_add ar (f_mul ar (fst x) (fst y)) (- f_mul ar (snd x) (snd y)),
     f_add ar (f_mul ar (fst x) (snd y)) (f_mul ar (snd x) (fst y))).
  Definition cf_scale (c : R) (x : CR) : CR := (f_mul ar c (fst x), f_mul ar c (snd x)).
  (** blaze vector expressions, evaluated element by element *)
  Definition fv_add (u v : list CR) : list CR := map (fun p => cf_add (fst p) (snd p)) (combine u v).
  Definition fv_scale (c : R) (u : list CR) : list CR := map (cf_scale c) u.
  (** blaze: product of a row-major sparse matrix and a vector; every row is summed in the order of the
      stored elements *)
  Definition fsp_vec (m : bmat CR) (u : list CR) : list CR :=
    map (fun row => fold_left (fun acc e => cf_add acc (cf_mul (snd e) (vget u (fst e)))) row ((0, 0) : CR)) (bm_done m).
  (** RK4::step, rk4.hpp 43-47 *)
  Definition frk_step (h : R) (m : bmat CR) (u : list CR) : list CR :=
    let k1 := fsp_vec m u in
    let k2 := fsp_vec m (fv_add u (fv_scale (f_div ar h 2) k1)) in
    let k3 := fsp_vec m (fv_add u (fv_scale (f_div ar h 2) k2)) in
    let k4 := fsp_vec m (fv_add u (fv_scale h k3)) in
    fv_add u (fv_scale (f_div ar h 6) (fv_add (fv_add (fv_add k1 (fv_scale 2 k2)) (fv_scale 2 k3)) k4)).
  (** n calls *)
  Fixpoint frun (h : R) (m : bmat CR) (n : nat) (u : list CR) : list CR :=
    match n with O => u | S k => frun h m k (frk_step h m u) end.
  (** M *= std::complex<double>(0, 1), src/hubbard/real_space/matrix.hpp 19, 35 *)
  Definition fbm_scale (c : CR) (m : bmat CR) : bmat CR :=
    mkB (bm_size m) (bm_cap m) (map (map (fun e => (fst e, cf_mul c (snd e)))) (bm_done m))
      (map (fun e => (fst e, cf_mul c (snd e))) (bm_cur m)).
  (** the time evolution of the programs: multiply the matrix by i, then n steps *)
  Definition fprogram_run (h : R) (m : bmat CR) (n : nat) (u : list CR) : list CR :=
    frun h (fbm_scale imag_unit m) n u.
End Rounded.
