(** MODEL of models/hubbard_real_space/basis.hpp and
    models/hubbard_momentum_space/basis.hpp.  Site and basis indices are uint64_t. *)
From Coq Require Import Reals.
From Verif Require Import Base M_Operator M_Lattice M_LatticeReal Instances.
Local Open Scope Z_scope.
Local Open Scope list_scope.

(** Hubbard operators: Operator<uint64_t, bool>, index1 = site, index2 = spin (true = up). *)
Definition hub : IndexTuple := idx2 Z_ord bool_ord.
Definition hop (c : bool) (i : Z) (up : bool) : op hub := @mkOp hub c (i, up).
Definition index1 (o : op hub) : Z := fst (indices o).

(** What the constructors and matrix builders use of a lattice: size(), the range-for
    sequence, neighbors(), and the constant coordination_number. *)
Record lattice := mkLat { lat_size : Z; lat_sites : list Z; lat_neighbors : Z -> list Z;
                          lat_coordination : Z }.
(** range-for over begin()..end(); the default is unreachable (C19_chain_iteration) *)
Definition visited (b e : Z) (n : Z) : list Z :=
  match range_for (Z.to_nat n) b e with Some l => l | None => [] end.
(** lattices::PeriodicChain; coordination_number: periodic_chain.hpp 27 *)
Definition chain_lattice (N : Z) : lattice :=
  mkLat N (visited chain_begin (chain_end N) N) (chain_neighbors N) 2.
(** lattices::PeriodicSquareLattice; coordination_number: periodic_square_lattice.hpp 29 *)
Definition square_lattice (Nx Ny : Z) : lattice :=
  mkLat (sq_size Nx Ny) (visited sq_begin (sq_end Nx Ny) (sq_size Nx Ny)) (sq_neighbors Nx Ny) 4.

(** Basis1Operator(lattice), hubbard_real_space/basis.hpp 21-32 *)
Definition basis1 (lat : lattice) : list (monomial hub) :=
  map (fun i => [hop true i true]) (lat_sites lat).
(** Basis3Operator(lattice), hubbard_real_space/basis.hpp 56-75 *)
Definition basis3 (lat : lattice) : list (monomial hub) :=
  map (fun i => [hop true i true]) (lat_sites lat) ++
  flat_map (fun i1 =>
    flat_map (fun i2 =>
      map (fun i3 => [hop true i1 true; hop true i2 false; hop false i3 false]) (lat_sites lat))
      (lat_sites lat)) (lat_sites lat).
(** get_3op_index, hubbard_real_space/basis.hpp 77-80 with N_squared of line 56 *)
Definition get_3op_index (N i1 i2 i3 : Z) : Z :=
  let N_squared := u64 (N * N) in
  u64 (u64 (u64 (N + u64 (N_squared * i1)) + u64 (N * i2)) + i3).

(** get_conjugate, hubbard_real_space/basis.hpp 34-45, 82-93 and
    hubbard_momentum_space/basis.hpp 59-70; conjugate, 49-56.
    [conj_basis] is a copy; the parallel loop conjugates element i in place, the
    iterations executed in the order [order] (any interleaving of whole iterations;
    iterations touch different elements). *)
Fixpoint update_nth {A} (f : A -> A) (n : nat) (l : list A) : list A :=
  match l, n with
  | [], _ => []
  | x :: l', O => f x :: l'
  | x :: l', S n' => x :: update_nth f n' l'
  end.
Definition basis_get_conjugate (order : list nat) (b : list (monomial hub)) : list (monomial hub) :=
  fold_left (fun conj_basis i => update_nth mono_conjugate i conj_basis) order b.

(** Momentum space: Basis3Operator(q_idx, momentum_space), hubbard_momentum_space/basis.hpp
    22-43.  [momentum_space(k1 + k2 - q)] is operator() of PeriodicChain, which may run
    out of fuel (None) or be undefined (UB). *)
Definition mom_i3 (fuel : nat) (ms : chain) (q_idx i1 i2 : Z) : option (outcome Z) :=
  ch_call fuel ms (ch_pos ms i1 + ch_pos ms i2 - ch_pos ms q_idx)%R.
Fixpoint mapM {A B} (f : A -> option (outcome B)) (l : list A) : option (outcome (list B)) :=
  match l with
  | [] => Some (Ok [])
  | x :: l' =>
      match f x with
      | None => None
      | Some UB => Some UB
      | Some (Ok y) =>
          match mapM f l' with
          | None => None
          | Some UB => Some UB
          | Some (Ok ys) => Some (Ok (y :: ys))
          end
      end
  end.
Definition mom_basis (fuel : nat) (ms : chain) (q_idx : Z) : option (outcome (list (monomial hub))) :=
  let sites := visited chain_begin (chain_end (ch_size ms)) (ch_size ms) in
  match mapM (fun i1 => mapM (fun i2 =>
                match mom_i3 fuel ms q_idx i1 i2 with
                | None => None
                | Some UB => Some UB
                | Some (Ok i3) => Some (Ok [hop true i1 true; hop true i2 false; hop false i3 false])
                end) sites) sites with
  | None => None
  | Some UB => Some UB
  | Some (Ok rows) => Some (Ok ([hop true q_idx true] :: List.concat rows))
  end.
(** get_3op_index, hubbard_momentum_space/basis.hpp 45-48 *)
Definition mom_get_3op_index (N i1 i2 : Z) : Z := u64 (u64 (1 + u64 (i1 * N)) + i2).
