(** MODEL of lattices/periodic_chain.hpp, lattices/periodic_square_lattice.hpp (index
    part, std::uint64_t arithmetic with explicit wrap-around) and
    iterators/integer_iterator.hpp. *)
From Verif Require Import Base.
Local Open Scope Z_scope.

(** ** IntegerIterator<T, c>, T = uint64_t: the state is [_val] *)
Definition it_plus_assign (v d : Z) : Z := u64 (v + d).   (* integer_iterator.hpp 140-146 *)
Definition it_minus_assign (v d : Z) : Z := u64 (v + d).  (* integer_iterator.hpp 148-154: [_val += diff] *)
Definition it_plus (v d : Z) : Z := u64 (v + d).          (* 156-161 *)
Definition it_minus (v d : Z) : Z := u64 (v - d).         (* 163-168 *)
Definition it_diff (a b : Z) : Z := u64 (a - b).          (* 170-176; difference_type = uint64_t *)
Definition it_at (v d : Z) : Z := u64 (v + d).            (* operator[], 104-110 *)
Definition it_incr (v : Z) : Z := u64 (v + 1).            (* prefix ++, 112-117 *)
Definition it_decr (v : Z) : Z := u64 (v - 1).            (* prefix --, 126-131 *)
Definition it_lt (a b : Z) : bool := a <? b.              (* 178-183 *)
Definition it_gt (a b : Z) : bool := b <? a.              (* 185-190 *)
Definition it_le (a b : Z) : bool := a <=? b.             (* 192-197 *)
Definition it_ge (a b : Z) : bool := b <=? a.             (* 199-204 *)
Definition it_eq (a b : Z) : bool := a =? b.              (* 206-211 *)
Definition it_ne (a b : Z) : bool := negb (a =? b).       (* 213-218 *)

(** range-for: [for(it = b; it != e; ++it)]; [None] if not finished within [fuel]
    iterations. *)
Fixpoint range_for (fuel : nat) (b e : Z) : option (list Z) :=
  if it_ne b e then
    match fuel with
    | O => None
    | S f => match range_for f (it_incr b) e with
             | None => None
             | Some l => Some (b :: l)
             end
    end
  else Some [].

(** ** PeriodicChain: [N] is [_size] *)
Definition chain_first : Z := 0.                             (* periodic_chain.hpp 76, 85 *)
Definition chain_last (N : Z) : Z := u64 (N - 1).            (* periodic_chain.hpp 76, 85 *)
(** neighbors, periodic_chain.hpp 91-97 *)
Definition chain_neighbors (N idx : Z) : list Z :=
  [ (if 0 <? idx then u64 (idx - 1) else chain_last N);
    (if idx <? chain_last N then u64 (idx + 1) else chain_first) ].
(** unique_neighbors, periodic_chain.hpp 99-104 *)
Definition chain_unique_neighbors (N idx : Z) : list Z :=
  [ (if idx <? chain_last N then u64 (idx + 1) else chain_first) ].
(** lattice_distance, periodic_chain.hpp 177-183 *)
Definition chain_distance (N a b : Z) : Z :=
  let dist := if a <? b then u64 (b - a) else u64 (a - b) in
  Z.min dist (u64 (N - dist)).
(** neighboring, periodic_chain.hpp 186-191 *)
Definition chain_neighboring (N a b : Z) : bool :=
  ((u64 (a + 1)) mod N =? b) || ((u64 (b + 1)) mod N =? a).
(** begin()/end(), periodic_chain.hpp 193-231 *)
Definition chain_begin : Z := chain_first.
Definition chain_end (N : Z) : Z := u64 (chain_last N + 1).

(** ** PeriodicSquareLattice: [Nx], [Ny] are [_size_x], [_size_y] *)
Definition sq_size (Nx Ny : Z) : Z := u64 (Nx * Ny).         (* periodic_square_lattice.hpp 90 *)
Definition sq_last (Nx Ny : Z) : Z := u64 (sq_size Nx Ny - 1).
(** index, 114-118 *)
Definition sq_index (Nx x y : Z) : Z := u64 (u64 (x * Nx) + y).
(** x_index, 120-124; y_index, 126-130 *)
Definition sq_x (Nx i : Z) : Z := i / Nx.
Definition sq_y (Nx i : Z) : Z := i mod Nx.
(** neighbors, 132-141 *)
Definition sq_neighbors (Nx Ny idx : Z) : list Z :=
  let i := idx / Ny in
  let j := idx mod Nx in
  [ sq_index Nx (if i =? 0 then u64 (Nx - 1) else u64 (i - 1)) j;
    sq_index Nx i (if j =? 0 then u64 (Ny - 1) else u64 (j - 1));
    sq_index Nx (if i =? u64 (Nx - 1) then 0 else u64 (i + 1)) j;
    sq_index Nx i (if j =? u64 (Ny - 1) then 0 else u64 (j + 1)) ].
(** unique_neighbors, 143-151 *)
Definition sq_unique_neighbors (Nx Ny idx : Z) : list Z :=
  let i := idx / Ny in
  let j := idx mod Nx in
  [ sq_index Nx (if i =? u64 (Nx - 1) then 0 else u64 (i + 1)) j;
    sq_index Nx i (if j =? u64 (Ny - 1) then 0 else u64 (j + 1)) ].
(** lattice_distance_x, 269-277 *)
Definition sq_distance_x (Nx a b : Z) : Z :=
  let a_x := sq_x Nx a in
  let b_x := sq_x Nx b in
  let dist := if b_x <? a_x then u64 (a_x - b_x) else u64 (b_x - a_x) in
  Z.min dist (u64 (Nx - dist)).
(** lattice_distance_y, 279-287 *)
Definition sq_distance_y (Nx Ny a b : Z) : Z :=
  let a_y := sq_y Nx a in
  let b_y := sq_y Nx b in
  let dist := if b_y <? a_y then u64 (a_y - b_y) else u64 (b_y - a_y) in
  Z.min dist (u64 (Ny - dist)).
(** neighboring, 289-306 *)
Definition sq_neighboring (Nx Ny a b : Z) : bool :=
  let x_a := sq_x Nx a in let y_a := sq_y Nx a in
  let x_b := sq_x Nx b in let y_b := sq_y Nx b in
  if x_a =? x_b then ((u64 (y_a + 1)) mod Ny =? y_b) || ((u64 (y_b + 1)) mod Ny =? y_a)
  else if y_a =? y_b then ((u64 (x_a + 1)) mod Nx =? x_b) || ((u64 (x_b + 1)) mod Nx =? x_a)
  else false.
(** begin()/end(), 308-348 *)
Definition sq_begin : Z := 0.
Definition sq_end (Nx Ny : Z) : Z := u64 (sq_last Nx Ny + 1).
