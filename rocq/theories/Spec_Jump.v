(** SPECIFICATION: expectation values of operators in a state, anticommutators. *)
From Verif Require Import Base Spec_Fock M_Operator M_Basis Spec_Lattice Spec_Algebra Spec_Matrix Spec_Slater.
Local Open Scope list_scope.
Section S.
  Context {K : StarRing}.
  Local Open Scope ring_scope_.
  Variables (M : nat) (mode : hub -> nat).
  (** <f| A |f> *)
  Definition expect (A : list (term hub K)) (f : vec (K := K)) : K :=
    braket M f (fun t => sum_over (fun s => terms_elem mode A s t * f s) (basis_states M)).
  (** {A, B} *)
  Definition anticommutator (A B : list (term hub K)) : list (term hub K) := op_mul A B ++ op_mul B A.
End S.
