(** SPECIFICATION for C81: commutators of sums of terms with symbolic indices, the lattice operators
    they stand for, and the text the two programs print. *)
From Coq Require Import Ascii String.
From Verif Require Import Base Spec_Fock M_Operator M_Commutator Spec_Algebra M_Basis M_Lattice Spec_Matrix M_Print M_Commutators.
Local Open Scope list_scope.

Section Comm.
  Context {K : StarRing}.
  Local Open Scope ring_scope_.
  (** <t| [sum of the products in hs, ops] |s> if the symbols have the values [v] *)
  Definition sym_comm_elem (mode : list Z -> nat) (v : string -> Z) (hs : list (list sop)) (ops : list sop) (s t : N) : K :=
    sum_over (fun h => sym_elem mode v (h ++ ops) s t - sym_elem mode v (ops ++ h) s t) hs.
  (** sum over bonds (i,j) and spins of c+_i c_j + c+_j c_i *)
  Definition bond_terms (bonds : list (Z * Z)) : list (term hub K) :=
    flat_map (fun b => flat_map (fun spin =>
      [mkTerm 1 [hop true (fst b) spin; hop false (snd b) spin]; mkTerm 1 [hop true (snd b) spin; hop false (fst b) spin]])
      [true; false]) bonds.
  (** sum over sites of n_up n_down *)
  Definition site_terms (sites : list Z) : list (term hub K) :=
    map (fun i => mkTerm 1 [hop true i true; hop false i true; hop true i false; hop false i false]) sites.
  (** sum over momenta and spins of n_{k,spin} *)
  Definition number_terms (ks : list Z) : list (term hub K) :=
    flat_map (fun k => map (fun spin => mkTerm 1 [hop true k spin; hop false k spin]) [true; false]) ks.
  (** sum of c+_{k1,up} c_{k2,up} c+_{k3,down} c_{k4,down} *)
  Definition scattering_terms (qs : list (Z * Z * Z * Z)) : list (term hub K) :=
    map (fun q => let '(k1, k2, k3, k4) := q in mkTerm 1 [hop true k1 true; hop false k2 true; hop true k3 false; hop false k4 false]) qs.
End Comm.
(** [mode] as a numbering of the spin orbitals *)
Definition orbital_of (mode : list Z -> nat) (x : hub) : nat := mode [fst x; if snd x then 1%Z else 0%Z].
(** r_i is i, r_i + delta_j is j, everything else as in w *)
Definition at_bond (w : string -> Z) (b : Z * Z) (n : string) : Z :=
  if String.eqb n "r_i" then fst b else if String.eqb n "r_i+δ_j" then snd b else w n.
Definition at_momentum (w : string -> Z) (k : Z) (n : string) : Z := if String.eqb n "k" then k else w n.
Definition at_momenta (w : string -> Z) (q : Z * Z * Z * Z) (n : string) : Z :=
  let '(k1, k2, k3, k4) := q in
  if String.eqb n "k_1" then k1 else if String.eqb n "k_2" then k2 else if String.eqb n "k_3" then k3
  else if String.eqb n "k_4" then k4 else w n.

(** A conforming build: operator== of the value type decides equality, the value type is signed,
    1 and -1 differ, 1 is printed "1", and order_kroneckers() sorts. *)
Definition conforming {K : StarRing} (eqK : K -> K -> bool) (show : K -> M_Text.text) : Prop :=
  (forall x y, eqK x y = true <-> x = y) /\ ropp r1 <> (r1 : K) /\ show r1 = M_Text.str "1".

Definition real_space_output : string := "Kinetic terms in Hamiltonian
	1 ⋅ c^†_{r_i,↑} c_{r_i+δ_j,↑}
	1 ⋅ c^†_{r_i+δ_j,↑} c_{r_i,↑}
	1 ⋅ c^†_{r_i,↓} c_{r_i+δ_j,↓}
	1 ⋅ c^†_{r_i+δ_j,↓} c_{r_i,↓}

Interaction terms in Hamiltonian
	1 ⋅ c^†_{r_i,↑} c_{r_i,↑} c^†_{r_i,↓} c_{r_i,↓}

One operator:
	Kinetic terms:
		δ_{r_i+δ_j,ρ} ⋅ c^†_{r_i,↑}
		δ_{r_i,ρ} ⋅ c^†_{r_i+δ_j,↑}

	Interaction terms:
		δ_{r_i,ρ} ⋅ c^†_{r_i,↑} c^†_{r_i,↓} c_{r_i,↓}


Three operators:
	Kinetic terms:
		δ_{r_i+δ_j,ρ_1} ⋅ c^†_{r_i,↑} c^†_{ρ_2,↓} c_{ρ_3,↓}
		δ_{r_i,ρ_1} ⋅ c^†_{r_i+δ_j,↑} c^†_{ρ_2,↓} c_{ρ_3,↓}
		-δ_{r_i,ρ_3} ⋅ c^†_{ρ_1,↑} c^†_{ρ_2,↓} c_{r_i+δ_j,↓}
		-δ_{r_i+δ_j,ρ_2} ⋅ c^†_{r_i,↓} c^†_{ρ_1,↑} c_{ρ_3,↓}
		-δ_{r_i+δ_j,ρ_3} ⋅ c^†_{ρ_1,↑} c^†_{ρ_2,↓} c_{r_i,↓}
		-δ_{r_i,ρ_2} ⋅ c^†_{r_i+δ_j,↓} c^†_{ρ_1,↑} c_{ρ_3,↓}

	Interaction terms:
		δ_{r_i,ρ_1} ⋅ c^†_{r_i,↑} c^†_{ρ_2,↓} c_{ρ_3,↓} c^†_{r_i,↓} c_{r_i,↓}
		-δ_{r_i,ρ_3} ⋅ c^†_{r_i,↑} c_{r_i,↑} c^†_{ρ_1,↑} c^†_{ρ_2,↓} c_{r_i,↓}
		-δ_{r_i,ρ_2} ⋅ c^†_{r_i,↑} c_{r_i,↑} c^†_{r_i,↓} c^†_{ρ_1,↑} c_{ρ_3,↓}
"%string.
Definition momentum_space_output : string := "One operator:
	[ 1 ⋅ c^†_{k,↑} c_{k,↑} + 1 ⋅ c^†_{k,↓} c_{k,↓}  ,  1 ⋅ c^†_{q,↑} ]=
		δ_{k,q} ⋅ c^†_{k,↑}

	[ 1 ⋅ c^†_{k_1,↑} c_{k_2,↑} c^†_{k_3,↓} c_{k_4,↓}  ,  1 ⋅ c^†_{q,↑} ]=
		δ_{k_2,q} ⋅ c^†_{k_1,↑} c^†_{k_3,↓} c_{k_4,↓}


Three operators:
	[ 1 ⋅ c^†_{k,↑} c_{k,↑} + 1 ⋅ c^†_{k,↓} c_{k,↓}  ,  1 ⋅ c^†_{q_1,↑} c^†_{q_2,↓} c_{q_3,↓} ]=
		δ_{k,q_1} ⋅ c^†_{k,↑} c^†_{q_2,↓} c_{q_3,↓}
		-δ_{k,q_3} ⋅ c^†_{q_1,↑} c^†_{q_2,↓} c_{k,↓}
		-δ_{k,q_2} ⋅ c^†_{k,↓} c^†_{q_1,↑} c_{q_3,↓}

	[ 1 ⋅ c^†_{k_1,↑} c_{k_2,↑} c^†_{k_3,↓} c_{k_4,↓}  ,  1 ⋅ c^†_{q_1,↑} c^†_{q_2,↓} c_{q_3,↓} ]=
		δ_{k_2,q_1} ⋅ c^†_{k_1,↑} c^†_{q_2,↓} c_{q_3,↓} c^†_{k_3,↓} c_{k_4,↓}
		-δ_{k_3,q_3} ⋅ c^†_{k_1,↑} c_{k_2,↑} c^†_{q_1,↑} c^†_{q_2,↓} c_{k_4,↓}
		-δ_{k_4,q_2} ⋅ c^†_{k_1,↑} c_{k_2,↑} c^†_{k_3,↓} c^†_{q_1,↑} c_{q_3,↓}
"%string.
