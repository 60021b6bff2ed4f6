(** SPECIFICATION: states of electrons on a lattice.  A state is a vector over the
    occupation-number basis states of [M] modes; [mode (i, spin)] is the number of the mode
    "site i with that spin". *)
From Verif Require Import Base Spec_Fock M_Operator M_Basis Spec_Lattice Spec_Algebra.
Local Open Scope list_scope.

Section S.
  Context {K : StarRing}.
  Local Open Scope ring_scope_.
  Variable M : nat.
  Definition basis_states : list N := map N.of_nat (seq 0 (2 ^ M)).
  Definition vec := N -> K.
  (** <f|g> *)
  Definition braket (f g : vec) : K := sum_over (fun s => kconj (f s) * g s) basis_states.
  (** a product of ladder operators applied to a vector *)
  Definition apply (ops : list (bool * nat)) (f : vec) : vec :=
    fun t => sum_over (fun s => amp ops s t * f s) basis_states.
  Definition vacuum : vec := fun s => if N.eqb s 0 then 1 else 0.

  Variables (mode : hub -> nat) (N : Z).
  (** sum_i phi(i) c+_{i,spin} applied to a vector *)
  Definition create (phi : Z -> K) (spin : bool) (f : vec) : vec :=
    fun t => sum_over (fun i => phi i * apply [(true, mode (i, spin))] f t) (Zseq N).
  (** every orbital filled with an up and a down electron *)
  Fixpoint slater (phis : list (Z -> K)) : vec :=
    match phis with
    | [] => vacuum
    | phi :: phis' => create phi true (create phi false (slater phis'))
    end.
  Definition orthonormal (phis : list (Z -> K)) : Prop :=
    forall a b f g, nth_error phis a = Some f -> nth_error phis b = Some g ->
      sum_over (fun i => kconj (f i) * g i) (Zseq N) = if Nat.eqb a b then 1 else 0.
  (** one-particle density matrix <c+_{i,spin} c_{j,spin}> of that determinant (either spin) *)
  Definition density (phis : list (Z -> K)) (i j : Z) : K := sum_over (fun f => kconj (f i) * f j) phis.
  (** A^dagger f for an operator A *)
  Definition adjoint_apply (A : list (term hub K)) (f : vec) : vec :=
    fun u => sum_over (fun s => kconj (terms_elem mode A u s) * f s) basis_states.
End S.
