(** MODEL of types/matrix_check.hpp, types/function_matrix.hpp, types/eigen/triplet_list.hpp
    and types/eigen/init.hpp (dense versions).
    A matrix is what these functions can observe of it: its dimensions and its entries.
    The scalar type is arbitrary; [is_equal] is types::IsEqual and [conj] types::conjugate. *)
From Verif Require Import Base M_Matrix.
Local Open Scope Z_scope.

(** FunctionMatrix, function_matrix.hpp 14-34 (for other matrix types: rows(), columns() and
    operator() through MatrixDimensionInfo) *)
Record matrix (S : Type) := mkMat { m_rows : Z; m_cols : Z; m_at : Z -> Z -> S }.
Arguments mkMat {S}. Arguments m_rows {S}. Arguments m_cols {S}. Arguments m_at {S}.

(** for(i = 0; i < hi; ++i) if(!body(i)) return false; *)
Definition all_below (hi : Z) (body : Z -> bool) : bool := forallb body (zrange 0 hi).
(** the same with "return true" in the middle: some i has a body that asks to return *)
Definition some_below (hi : Z) (body : Z -> bool) : bool := existsb body (zrange 0 hi).

Section Check.
  Context {S : Type} (is_equal : S -> S -> bool) (conj : S -> S).

  (** is_quadratic, matrix_check.hpp 12-16, function_matrix.hpp 92-96 *)
  Definition is_quadratic (m : matrix S) : bool := m_rows m =? m_cols m.
  (** is_symmetric, matrix_check.hpp 18-37 *)
  Definition is_symmetric (m : matrix S) : bool :=
    if negb (is_quadratic m) then false
    else all_below (m_rows m) (fun i => all_below i (fun j => is_equal (m_at m i j) (m_at m j i))).
  (** is_hermitian, matrix_check.hpp 39-58; line 51 reads m(i, j) twice *)
  Definition is_hermitian (m : matrix S) : bool :=
    if negb (is_quadratic m) then false
    else all_below (m_rows m) (fun i => all_below (i + 1) (fun j => is_equal (m_at m i j) (conj (m_at m i j)))).
  (** FunctionMatrix overloads: is_symmetric 98-115, is_hermitian 117-134 *)
  Definition fm_is_symmetric (m : matrix S) : bool :=
    if negb (is_quadratic m) then false
    else all_below (m_rows m) (fun row => all_below row (fun col => is_equal (m_at m row col) (m_at m col row))).
  Definition fm_is_hermitian (m : matrix S) : bool :=
    if negb (is_quadratic m) then false
    else all_below (m_rows m) (fun row => all_below (row + 1) (fun col => is_equal (m_at m row col) (conj (m_at m col row)))).
  (** FunctionMatrix::operator==, function_matrix.hpp 36-50 *)
  Definition fm_eq (a b : matrix S) : bool :=
    if negb (m_rows a =? m_rows b) || negb (m_cols a =? m_cols b) then false
    else all_below (m_rows a) (fun row => all_below (m_cols a) (fun col => is_equal (m_at a row col) (m_at b row col))).
  (** FunctionMatrix::operator!=, function_matrix.hpp 52-66 *)
  Definition fm_neq (a b : matrix S) : bool :=
    if negb (m_rows a =? m_rows b) || negb (m_cols a =? m_cols b) then true
    else some_below (m_rows a) (fun row => some_below (m_cols a) (fun col => negb (is_equal (m_at a row col) (m_at b row col)))).
End Check.

(** assignment m(i, j) = v *)
Definition m_set {S} (m : matrix S) (i j : Z) (v : S) : matrix S :=
  mkMat (m_rows m) (m_cols m) (fun a b => if (a =? i) && (b =? j) then v else m_at m a b).
(** Matrix::Zero(rows, cols) *)
Definition m_zero {S} (zero : S) (rows cols : Z) : matrix S := mkMat rows cols (fun _ _ => zero).
(** init for dense matrices, eigen/init.hpp 52-68 *)
Definition init_dense {S} (zero : S) (rows cols : Z) (f : Z -> Z -> S) : matrix S :=
  fold_left (fun m i => fold_left (fun m j => m_set m i j (f i j)) (zrange 0 cols) m) (zrange 0 rows) (m_zero zero rows cols).
(** init_symmetric for dense matrices, eigen/init.hpp 70-88 *)
Definition init_symmetric_dense {S} (zero : S) (rows : Z) (f : Z -> Z -> S) : matrix S :=
  fold_left (fun m i =>
    let m := fold_left (fun m j => m_set (m_set m i j (f i j)) j i (f i j)) (zrange 0 i) m in
    m_set m i i (f i i)) (zrange 0 rows) (m_zero zero rows rows).

(** ** eigen TripletList, eigen/triplet_list.hpp 29-59.  [sort] is std::sort with the given
    comparison.  The const members _rows, _cols are set by the constructor (line 41). *)
Section ETrip.
  Context {K : StarRing}.
  Record etriplets := mkE { e_rows : Z; e_cols : Z; e_list : list (triplet K) }.
  Definition e_new (rows cols : Z) : etriplets := mkE rows cols [].
  (** rows(), line 43; cols(), line 44 returns _rows *)
  Definition e_rows_call (l : etriplets) : Z := e_rows l.
  Definition e_cols_call (l : etriplets) : Z := e_rows l.
  (** matrix_insert, lines 61-66 *)
  Definition e_insert (l : etriplets) (row col : Z) (v : K) : etriplets :=
    mkE (e_rows l) (e_cols l) (e_list l ++ [mkT row col v]).
  (** sort_column_major, lines 46-51: compares rows; sort_row_major, lines 53-58: compares columns *)
  Definition e_sort_column_major (sort : (triplet K -> triplet K -> bool) -> list (triplet K) -> list (triplet K)) (l : etriplets) : etriplets :=
    mkE (e_rows l) (e_cols l) (sort (fun a b => t_row a <? t_row b) (e_list l)).
  Definition e_sort_row_major (sort : (triplet K -> triplet K -> bool) -> list (triplet K) -> list (triplet K)) (l : etriplets) : etriplets :=
    mkE (e_rows l) (e_cols l) (sort (fun a b => t_col a <? t_col b) (e_list l)).
End ETrip.
Arguments etriplets : clear implicits.
