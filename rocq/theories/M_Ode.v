(** MODEL of ode/rk4.hpp, types/blaze/multiply_assign.hpp (eigen/multiply_assign.hpp is the
    same algorithm), src/hubbard/include/vector.hpp and src/hubbard/real_space/matrix.hpp. *)
From Verif Require Import Base M_Matrix M_MatrixCheck.
Local Open Scope Z_scope.
Local Open Scope list_scope.

(** v[i] = x *)
Fixpoint list_set {A} (l : list A) (i : nat) (x : A) : list A :=
  match l, i with
  | [], _ => []
  | _ :: l', O => x :: l'
  | y :: l', S i' => y :: list_set l' i' x
  end.

(** ** multiply_assign for function matrices, blaze/multiply_assign.hpp 14-38.
    Only the operations the code performs are used, no law of arithmetic: [zero], [add] and
    [mul] may be rounded floating point operations. *)
Section MA.
  Context {T : Type} (zero : T) (add mul : T -> T -> T).
  (** resize(n, false), line 24: old contents are not kept; what new elements hold is
      unspecified ([garbage]) *)
  Definition vec_resize (garbage : Z -> T) (temp : list T) (n : Z) : list T :=
    map (fun i => nth (Z.to_nat i) temp (garbage i)) (zrange 0 n).
  (** reset(), line 25 *)
  Definition vec_reset (v : list T) : list T := map (fun _ => zero) v.
  (** one execution of line 33: element += matrix(row, col) * vector(col) *)
  Definition ma_op (m : matrix T) (v : list T) (temp : list T) (rc : Z * Z) : list T :=
    let (row, col) := rc in
    list_set temp (Z.to_nat row)
      (add (nth (Z.to_nat row) temp zero) (mul (m_at m row col) (nth (Z.to_nat col) v zero))).
  (** The parallel loop of lines 27-35: [sched] is the global order in which the executions
      of line 33 take place, for whatever number of threads. *)
  Definition ma_sequential (rows : Z) : list (Z * Z) :=
    flat_map (fun row => map (fun col => (row, col)) (zrange 0 rows)) (zrange 0 rows).
  (** Returns (static temp after the call, vector after the call); line 37 swaps them. *)
  Definition multiply_assign (garbage : Z -> T) (sched : list (Z * Z)) (m : matrix T) (temp v : list T)
    : list T * list T :=
    let temp := vec_resize garbage temp (m_rows m) in
    let temp := vec_reset temp in
    let temp := fold_left (ma_op m v) sched temp in
    (v, temp).
End MA.

Section Rk.
  Context {K : StarRing}.
  Local Open Scope ring_scope_.
  (** blaze vector expressions: u + v, c * u (trusted library arithmetic, exact here) *)
  Definition vadd (u v : list K) : list K := map (fun p => fst p + snd p) (combine u v).
  Definition vscale (c : K) (u : list K) : list K := map (rmul c) u.
  Definition vget (u : list K) (i : Z) : K := nth (Z.to_nat i) u 0.
  (** matrix * vector for a dense matrix and for a row-major sparse matrix (trusted library
      arithmetic, exact here) *)
  Definition mat_vec (m : matrix K) (u : list K) : list K :=
    map (fun i => sum_over (fun j => m_at m i j * vget u j) (zrange 0 (m_cols m))) (zrange 0 (m_rows m)).
  Definition sp_vec (m : bmat K) (u : list K) : list K :=
    map (fun row => sum_over (fun e => snd e * vget u (fst e)) row) (bm_done m).

  (** RK4 objects, rk4.hpp 19-30.  The step size enters as h, h/2 and h/6, written with
      [half] = 1/2 and [sixth] = 1/6. *)
  Record rk4 := mkRk4 { rk_dimension : Z; rk_step_size : K }.
  (** the function-local static vectors of lines 41 and 59 *)
  Record statics := mkSt { s_k1 : list K; s_k2 : list K; s_k3 : list K; s_k4 : list K }.
  (** the final update, lines 47 and 73 *)
  Definition rk_combine (h sixth : K) (k : statics) (u : list K) : list K :=
    vadd u (vscale (h * sixth)
      (vadd (vadd (vadd (s_k1 k) (vscale (1 + 1) (s_k2 k))) (vscale (1 + 1) (s_k3 k))) (s_k4 k))).
  (** step for ordinary matrices, lines 32-48; [mul] is the product with m, [st] the static
      vectors left behind by earlier calls *)
  Definition rk_step (half sixth : K) (rk : rk4) (mul : list K -> list K) (st : statics) (u : list K)
    : statics * list K :=
    let h := rk_step_size rk in
    let st := mkSt (mul u) (s_k2 st) (s_k3 st) (s_k4 st) in
    let st := mkSt (s_k1 st) (mul (vadd u (vscale (h * half) (s_k1 st)))) (s_k3 st) (s_k4 st) in
    let st := mkSt (s_k1 st) (s_k2 st) (mul (vadd u (vscale (h * half) (s_k2 st)))) (s_k4 st) in
    let st := mkSt (s_k1 st) (s_k2 st) (s_k3 st) (mul (vadd u (vscale h (s_k3 st)))) in
    (st, rk_combine h sixth st u).
  (** step for function matrices, lines 50-74.  State: the static vectors and the static
      [temp] of multiply_assign; [scheds] are the four schedules of the parallel loops. *)
  Definition rk_step_fm (half sixth : K) (rk : rk4) (garbage : Z -> K)
    (scheds : list (Z * Z) * list (Z * Z) * list (Z * Z) * list (Z * Z))
    (m : matrix K) (st : statics) (temp u : list K) : statics * list K * list K :=
    let h := rk_step_size rk in
    let '(c1, c2, c3, c4) := scheds in
    let (temp, k1) := multiply_assign 0 radd rmul garbage c1 m temp u in
    let (temp, k2) := multiply_assign 0 radd rmul garbage c2 m temp (vadd u (vscale (h * half) k1)) in
    let (temp, k3) := multiply_assign 0 radd rmul garbage c3 m temp (vadd u (vscale (h * half) k2)) in
    let (temp, k4) := multiply_assign 0 radd rmul garbage c4 m temp (vadd u (vscale h k3)) in
    let st := mkSt k1 k2 k3 k4 in
    (st, temp, rk_combine h sixth st u).

  (** M *= c, src/hubbard/real_space/matrix.hpp 19 and 35 *)
  Definition bm_scale (c : K) (m : bmat K) : bmat K :=
    mkB (bm_size m) (bm_cap m) (map (map (fun e => (fst e, c * snd e))) (bm_done m)) (map (fun e => (fst e, c * snd e)) (bm_cur m)).
  (** init_vector, src/hubbard/include/vector.hpp 8-18: zeros, then vec[0] = 1; writing
      element 0 of an empty vector is undefined *)
  Definition init_vector (n : Z) : outcome (list K) :=
    if n <=? 0 then UB else Ok (list_set (map (fun _ => 0) (zrange 0 n)) 0 1).
End Rk.
Arguments rk4 : clear implicits. Arguments statics : clear implicits.
