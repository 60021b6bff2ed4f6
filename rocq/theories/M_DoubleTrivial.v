(** MODEL: src/hubbard/hubbard_trivial.cpp as in M_Trivial, in an arithmetic that may round.  [conv] converts a
    uint64_t to double, [pi] is Pi<double>::value.  A line of trivial.txt is the tuple (t, h, particle
    number); its text form is not modelled. *)
From Coq Require Import Reals List ZArith.
From Verif Require Import Base M_Matrix M_MatrixCheck M_Ode M_Dispersion Spec_Stability M_Rounding M_Double M_LatticeDouble.
Local Open Scope R_scope.
Local Open Scope list_scope.

Section Rounded.
  Context (ar : arith) (conv : Z -> R) (pi : R).
  (** std::norm: x*x + y*y *)
  Definition f_cnorm (z : CR) : R := f_add ar (f_mul ar (fst z) (fst z)) (f_mul ar (snd z) (snd z)).
  (** complex += double, hubbard_trivial.cpp 19, 21: the imaginary part stays *)
  Definition cf_add_real (z : CR) (x : R) : CR := (f_add ar (fst z) x, snd z).
  (** one pass of the loop body, 16-35; operator* of a complex and a double multiplies both parts *)
  Definition f_ev_step (h : list CR) (ev : CR) (i j : Z) : CR :=
    let pi_inv := f_div ar 1 pi in
    if (i =? j)%Z then
      (if (i <? 3)%Z then cf_add_real ev (f_mul ar (f_cnorm (vget h i)) (1/2)) else cf_add_real ev (f_mul ar (f_cnorm (vget h i)) (1/4)))
    else if ((i <? 3)%Z && (j <? 3)%Z)%bool then cf_add ar ev (cf_scale ar pi_inv (cf_mul ar (vget h i) (vget h j)))
    else if ((i =? 0)%Z || (j =? 0)%Z)%bool then cf_add ar ev (cf_scale ar (1/4) (cf_mul ar (vget h i) (vget h j)))
    else cf_add ar ev (cf_scale ar pi_inv (cf_scale ar (1/2) (cf_mul ar (vget h i) (vget h j)))).
  (** particle_number, 10-38 *)
  Definition f_particle_number (h : list CR) : CR :=
    fold_left (fun ev i => fold_left (fun ev j => f_ev_step h ev i j) (zrange 0 4) ev) (zrange 0 4) ((0, 0) : CR).
  (** M, 60-64 *)
  Definition f_trivial_matrix (J U : R) : matrix CR :=
    let U2 := f_div ar U 2 in
    mkMat 4 4 (fun i j => nth (Z.to_nat j) (nth (Z.to_nat i)
      [[real U2; real (- J); real (- J); real U2];
       [real (- J); real U2; real 0; real 0];
       [real (- J); real 0; real U2; real 0];
       [real U2; real 0; real 0; real U2]] []) (real 0)).
  (** M *= complex<double>(0., 1.), 64 *)
  Definition f_scaled (c : CR) (m : matrix CR) : matrix CR := mkMat (m_rows m) (m_cols m) (fun i j => cf_mul ar c (m_at m i j)).
  (** blaze: product of a dense matrix and a vector; the terms of a row are added from left to right
      (simplification: blaze may use another order) *)
  Definition f_mat_vec (m : matrix CR) (u : list CR) : list CR :=
    map (fun i => fold_left (fun acc j => cf_add ar acc (cf_mul ar (m_at m i j) (vget u j))) (zrange 0 (m_cols m)) ((0, 0) : CR)) (zrange 0 (m_rows m)).
  (** RK4::step for a dense matrix, rk4.hpp 43-47 *)
  Definition f_dense_step (dt : R) (m : matrix CR) (u : list CR) : list CR :=
    let k1 := f_mat_vec m u in
    let k2 := f_mat_vec m (fv_add ar u (fv_scale ar (f_div ar dt 2) k1)) in
    let k3 := f_mat_vec m (fv_add ar u (fv_scale ar (f_div ar dt 2) k2)) in
    let k4 := f_mat_vec m (fv_add ar u (fv_scale ar dt k3)) in
    fv_add ar u (fv_scale ar (f_div ar dt 6) (fv_add ar (fv_add ar (fv_add ar k1 (fv_scale ar 2 k2)) (fv_scale ar 2 k3)) k4)).
  (** the loop and the final write, 71-76 *)
  Fixpoint f_trivial_lines (dt : R) (m : matrix CR) (i : Z) (k : nat) (h : list CR) : list (R * list CR * CR) :=
    (f_mul ar (conv i) dt, h, f_particle_number h) ::
    match k with O => [] | S k => f_trivial_lines dt m (i + 1)%Z k (f_dense_step dt m h) end.
  (** main, 53-79 *)
  Definition f_trivial_program (J U dt : R) (steps : nat) : list (R * list CR * CR) :=
    f_trivial_lines dt (f_scaled imag_unit (f_trivial_matrix J U)) 0 steps [real 1; real 0; real 0; real 0].
End Rounded.
(** with doubles *)
Definition double_trivial (garbage : R -> R) : R -> R -> R -> nat -> list (R * list CR * CR) :=
  f_trivial_program (double_arith garbage) (to_double_int garbage) (round_double PI).
(** dt = 0.01 is the nearest double, 57 *)
Definition trivial_dt : R := round_double (1 / 100).
