(** SPECIFICATION vocabulary for the Liouvillian matrices: sorting, well-formed
    sparse matrices, matrix entries, the Hubbard Hamiltonian, commutators and the
    Frobenius inner product on Fock space.  No reference to how the matrix is built. *)
From Coq Require Import Sorting.Sorted.
From Verif Require Import Base Spec_Fock M_Operator M_Lattice Spec_Lattice M_Basis M_Matrix Spec_Algebra.
Local Open Scope Z_scope.
Local Open Scope list_scope.

(** What std::sort with the column comparison guarantees. *)
Definition sorts_by_column {K : StarRing} (sort : list (triplet K) -> list (triplet K)) : Prop :=
  forall l, Permutation (sort l) l /\ StronglySorted (fun a b => t_col a <= t_col b) (sort l).

(** The row with number [i] of a finished matrix, and the entry M(i,j). *)
Definition row_of {K : StarRing} (m : bmat K) (i : Z) : list (Z * K) := nth (Z.to_nat i) (bm_done m) [].
Definition entry {K : StarRing} (m : bmat K) (i j : Z) : K :=
  sum_over snd (filter (fun e => fst e =? j) (row_of m i)).

(** A finished n x n sparse matrix: n rows, strictly increasing legal columns, within capacity. *)
Definition well_formed {K : StarRing} (m : bmat K) (n : Z) : Prop :=
  bm_size m = n /\ Z.of_nat (length (bm_done m)) = n /\ bm_cur m = [] /\
  Forall (fun r => StronglySorted Z.lt (map fst r) /\ Forall (fun e => site n (fst e)) r) (bm_done m) /\
  bm_nonzeros m <= bm_cap m.

(** The lattices shipped with the library, at least three sites wide (square lattices only
    with equal sides, see C23-C25). *)
Inductive shipped3 : lattice -> Z -> Prop :=
| shipped3_chain N : 3 <= N < two64 -> shipped3 (chain_lattice N) N
| shipped3_square N : 3 <= N -> N * N < two64 -> shipped3 (square_lattice N N) (N * N).

(** ** Operators as sums of terms *)
Section Ham.
  Context {K : StarRing}.
  Local Open Scope ring_scope_.
  (** product of two operators *)
  Definition op_mul (A B : list (term hub K)) : list (term hub K) :=
    flat_map (fun a => map (fun b => mkTerm (prefactor a * prefactor b) (operators a ++ operators b)) B) A.
  (** <t| [A, B] |s> *)
  Definition comm_elem (mode : hub -> nat) (A B : list (term hub K)) (s t : N) : K :=
    terms_elem mode (op_mul A B) s t - terms_elem mode (op_mul B A) s t.

  (** H_kin = -J sum_i sum_{j next to i} sum_spin c+_{i,spin} c_{j,spin} *)
  Definition H_kin (lat : lattice) (J : K) : list (term hub K) :=
    flat_map (fun i => flat_map (fun j => map (fun spin =>
      mkTerm (- J) [hop true i spin; hop false j spin]) [true; false]) (lat_neighbors lat i))
      (Zseq (lat_size lat)).
  (** H_int = U sum_i n_{i,up} n_{i,down} *)
  Definition H_int (lat : lattice) (U : K) : list (term hub K) :=
    map (fun i => mkTerm U [hop true i true; hop false i true; hop true i false; hop false i false])
      (Zseq (lat_size lat)).
  Definition delta (a b : Z) : K := if a =? b then 1 else 0.
  (** The operators the three-operator basis stands for in the matrices and observables:
      c+_i  and  c+_{i1,up} (2 c+_{i2,down} c_{i3,down} - delta_{i2,i3}). *)
  Definition B1 (i : Z) : list (term hub K) := [mkTerm 1 [hop true i true]].
  Definition B3 (i1 i2 i3 : Z) : list (term hub K) :=
    [mkTerm (1 + 1) [hop true i1 true; hop true i2 false; hop false i3 false];
     mkTerm (- delta i2 i3) [hop true i1 true]].
  (** The operator for a basis monomial. *)
  Definition basis_op (m : monomial hub) : list (term hub K) :=
    match m with
    | [a] => B1 (index1 a)
    | [a; b; c] => B3 (index1 a) (index1 b) (index1 c)
    | _ => []
    end.
  (** sum_col M(row,col) * basis element number col *)
  Definition combination (mode : hub -> nat) (el : monomial hub -> list (term hub K))
    (basis : list (monomial hub)) (row : list (Z * K)) (s t : N) : K :=
    sum_over (fun e => snd e * match nth_error basis (Z.to_nat (fst e)) with
                               | Some m => terms_elem mode (el m) s t
                               | None => 0
                               end) row.

  (** Frobenius inner product  sum_{s,t} conj(A_{ts}) B_{ts}  of two matrices on the Fock
      space of [M] modes. *)
  Definition frobenius (M : nat) (A B : N -> N -> K) : K :=
    sum_over (fun s => sum_over (fun t => kconj (A s t) * B s t) (map N.of_nat (seq 0 (2 ^ M))))
      (map N.of_nat (seq 0 (2 ^ M))).
  (** 2 ^ n in the ring *)
  Fixpoint two_pow (n : nat) : K := match n with O => 1 | S n' => (1 + 1) * two_pow n' end.
End Ham.

(** [mode] gives different numbers to the spin orbitals of sites 0..N-1; all below [M]. *)
Definition numbers_orbitals (mode : hub -> nat) (N : Z) : Prop :=
  forall i sp j sp', site N i -> site N j -> mode (i, sp) = mode (j, sp') -> i = j /\ sp = sp'.
Definition orbitals_below (mode : hub -> nat) (N : Z) (M : nat) : Prop :=
  forall i sp, site N i -> (mode (i, sp) < M)%nat.
