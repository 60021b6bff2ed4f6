(** SPECIFICATION for the expectation values <FS| A B^+ |FS> of the momentum-space basis. *)
From Verif Require Import Base Spec_Fock M_Operator M_Basis Spec_Lattice Spec_Algebra Spec_Matrix.
Local Open Scope list_scope.
Section S.
  Context {K : StarRing}.
  Local Open Scope ring_scope_.
  (** A^+ *)
  Definition dagger (A : list (term hub K)) : list (term hub K) :=
    map (fun t => mkTerm (kconj (prefactor t)) (map op_conjugate (rev (operators t)))) A.
  (** <s| A B^+ |s> *)
  Definition expectation_in (mode : hub -> nat) (s : N) (A B : list (term hub K)) : K :=
    terms_elem mode (op_mul A (dagger B)) s s.
  (** c+_1 (2 c+_2 c_3 + c delta_23); basis_op (C35, C45) is the case c = -1 *)
  Definition shifted_op (c : K) (m : monomial hub) : list (term hub K) :=
    match m with
    | [a] => [mkTerm 1 [hop true (index1 a) true]]
    | [a1; a2; a3] => [mkTerm (1 + 1) [hop true (index1 a1) true; hop true (index1 a2) false; hop false (index1 a3) false];
                       mkTerm (c * delta (index1 a2) (index1 a3)) [hop true (index1 a1) true]]
    | _ => []
    end.
End S.
