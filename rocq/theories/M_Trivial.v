(** MODEL: src/hubbard/hubbard_trivial.cpp.  double is the real numbers.  The hard-coded J = U = 1,
    dt = 0.01 and steps = 2000 (55-58) are parameters.  A line of trivial.txt is the tuple
    (t, h, particle number); its text form is modelled in M_OutputFile.v. *)
From Coq Require Import Reals.
From Verif Require Import Base M_Matrix M_MatrixCheck M_Ode M_Dispersion Spec_Stability.
Local Open Scope R_scope.
Local Open Scope list_scope.

(** std::norm *)
Definition cnorm (z : CR) : R := fst z * fst z + snd z * snd z.
(** one pass of the loop body, 16-35: what is added to ev for i and j *)
Definition ev_term (h : list CR) (i j : Z) : CR :=
  let pi_inv := 1 / PI in
  if (i =? j)%Z then (if (i <? 3)%Z then real (cnorm (vget h i) * (1/2)) else real (cnorm (vget h i) * (1/4)))
  else if ((i <? 3)%Z && (j <? 3)%Z)%bool then rmul (rmul (vget h i) (vget h j)) (real pi_inv)
  else if ((i =? 0)%Z || (j =? 0)%Z)%bool then rmul (rmul (vget h i) (vget h j)) (real (1/4))
  else rmul (rmul (rmul (vget h i) (vget h j)) (real (1/2))) (real pi_inv).
(** particle_number, 10-38 *)
Definition trivial_particle_number (h : list CR) : CR :=
  fold_left (fun ev i => fold_left (fun ev j => radd ev (ev_term h i j)) (zrange 0 4) ev) (zrange 0 4) (@r0 CR).
(** M, 60-64; the initialiser lists name every element *)
Definition trivial_matrix (J U : R) : matrix CR :=
  mkMat 4 4 (fun i j => nth (Z.to_nat j) (nth (Z.to_nat i)
    [[real (U/2); real (- J); real (- J); real (U/2)];
     [real (- J); real (U/2); real 0; real 0];
     [real (- J); real 0; real (U/2); real 0];
     [real (U/2); real 0; real 0; real (U/2)]] []) (real 0)).
(** M *= i *)
Definition scaled (c : CR) (m : matrix CR) : matrix CR := mkMat (m_rows m) (m_cols m) (fun i j => rmul c (m_at m i j)).
(** h, 66-67: the elements of DynamicVector<complex<double>> are default constructed *)
Definition trivial_start : list CR := [real 1; real 0; real 0; real 0].
(** the loop and the final write, 71-76: lines for t = i dt, i = 0, ..., steps.  [st]: the static
    buffers of step() *)
Fixpoint trivial_lines (rk : rk4 CR) (mul : list CR -> list CR) (dt : R) (i k : nat) (st : statics CR) (h : list CR) : list (R * list CR * CR) :=
  (INR i * dt, h, trivial_particle_number h) ::
  match k with
  | O => []
  | S k => let '(st', h') := rk_step (real (1/2)) (real (1/6)) rk mul st h in trivial_lines rk mul dt (S i) k st' h'
  end.
Definition trivial_program (J U dt : R) (steps : nat) (st : statics CR) : list (R * list CR * CR) :=
  trivial_lines (mkRk4 (K := CR) 4 (real dt)) (mat_vec (scaled imag_unit (trivial_matrix J U))) dt 0 steps st trivial_start.
