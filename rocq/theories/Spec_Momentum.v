(** SPECIFICATION: the Hubbard Hamiltonian of a chain in momentum space.  Momenta are
    numbered 0..N-1 with k_i = -pi + 2 pi i / N, so that momentum conservation modulo a
    reciprocal lattice vector is index arithmetic modulo N (see C28). *)
From Verif Require Import Base Spec_Fock M_Operator M_Lattice Spec_Lattice M_Basis Spec_Algebra Spec_Matrix.
Local Open Scope list_scope.

Section Mom.
  Context {K : StarRing}.
  Local Open Scope ring_scope_.
  (** H_disp = sum_k sum_spin eps_k c+_{k,spin} c_{k,spin} *)
  Definition H_disp (N : Z) (eps : Z -> K) : list (term hub K) :=
    flat_map (fun k => map (fun spin => mkTerm (eps k) [hop true k spin; hop false k spin]) [true; false]) (Zseq N).
  (** H_sc = sum_{a,b,c} g c+_{a,up} c_{b,up} c+_{c,down} c_{d,down} with d = a - b + c (mod N);
      the Hubbard interaction has g = U / N *)
  Definition H_sc (N : Z) (g : K) : list (term hub K) :=
    flat_map (fun a => flat_map (fun b => map (fun c =>
      mkTerm g [hop true a true; hop false b true; hop true c false; hop false ((a - b + c) mod N)%Z false])
      (Zseq N)) (Zseq N)) (Zseq N).
  (** N * g = U *)
  Definition per_site (N : Z) (g U : K) : Prop := sum_over (fun _ => g) (Zseq N) = U.
End Mom.
