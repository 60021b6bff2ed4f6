(** MODEL: the log lines of compute_matrix and compute_kinetic_matrix (src/hubbard/real_space/matrix.hpp,
    matrix_no.hpp, momentum_space/momentum_space.hpp): texts passed to the logger, without time stamps. *)
From Coq Require Import Ascii String Reals.
From Verif Require Import Base M_Matrix M_Text M_Io.
Local Open Scope list_scope.
Local Open Scope Z_scope.

Section Log.
  Context {K : StarRing}.
  (** how {fmt} writes the double: "{}" or "{:.5f}"; the division is taken as exact *)
  Variable show : R -> text.
  (** M.nonZeros() is the number of stored elements, whatever their values; M.rows() * M.columns() is a
      size_t product.  A matrix of [n] = basis.size() rows and columns.  real_space/matrix.hpp 12-21 and 28-37,
      matrix_no.hpp 13-22 and 29-38, momentum_space.hpp 12-21. *)
  Definition elements (m : bmat K) : Z := u64 (bm_size m * bm_size m).
  Definition filling (m : bmat K) : R := (IZR (bm_nonzeros m) / IZR (elements m))%R.
  Definition matrix_log (m : bmat K) : list text :=
    [ str "Creating " ++ dec (bm_size m) ++ str "x" ++ dec (bm_size m) ++ str " complex sparse matrix";
      str "Computing matrix elements";
      str "  " ++ dec (bm_nonzeros m) ++ str " out of " ++ dec (elements m) ++ str " matrix elements are non-zero ("
        ++ show (filling m) ++ str "% filling)";
      str "Multiply matrix with prefactor 1i";
      str "Finished matrix initialization" ].
End Log.
