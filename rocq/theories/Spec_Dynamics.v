(** SPECIFICATION: the operator a coefficient vector stands for. *)
From Verif Require Import Base M_Operator M_Basis Spec_Algebra Spec_Matrix.
Local Open Scope list_scope.
Section D.
  Context {K : StarRing}.
  Local Open Scope ring_scope_.
  (** A(h) = sum_j h_j B_j *)
  Definition vec_op (basis : list (monomial hub)) (h : list K) : list (term hub K) :=
    flat_map (fun p => map (fun t => mkTerm (fst p * prefactor t) (operators t)) (basis_op (snd p))) (combine h basis).
End D.
