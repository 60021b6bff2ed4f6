(** MODEL of the position part of lattices/periodic_chain.hpp and
    lattices/periodic_square_lattice.hpp.
    Simplification: [Float] is the real numbers (no rounding, no overflow), so the
    wrapping loops are modelled exactly; they carry fuel and give [None] when it runs out. *)
From Coq Require Import Reals.
From Verif Require Import Base M_Lattice.
Local Open Scope R_scope.

(** Members of PeriodicChain, periodic_chain.hpp 28-36. *)
Record chain := mkChain { ch_size : Z; ch_x_min : R; ch_x_max : R; ch_length : R; ch_dx : R }.
(** PeriodicChain(N), momentum space, periodic_chain.hpp 74-81 *)
Definition momentum_chain (N : Z) : chain :=
  mkChain N (- PI) PI (2 * PI) (2 * PI / IZR N).
(** PeriodicChain(N, dx), real space, periodic_chain.hpp 83-90.  [_size - 1] is unsigned. *)
Definition real_chain (N : Z) (dx : R) : chain :=
  mkChain N 0 (dx * IZR (u64 (N - 1))) (IZR N * dx) dx.

(** operator[], periodic_chain.hpp 233-240 *)
Definition ch_pos (c : chain) (i : Z) : R := ch_x_min c + IZR i * ch_dx c.

(** while(v < lo) v += len; *)
Fixpoint while_below (fuel : nat) (lo len v : R) : option R :=
  if Rlt_dec v lo then
    match fuel with O => None | S f => while_below f lo len (v + len) end
  else Some v.
(** while(v > hi) v -= len; *)
Fixpoint while_above (fuel : nat) (hi len v : R) : option R :=
  if Rlt_dec hi v then
    match fuel with O => None | S f => while_above f hi len (v - len) end
  else Some v.
Definition wrap (fuel : nat) (lo hi len v : R) : option R :=
  match while_below fuel lo len v with
  | None => None
  | Some w => while_above fuel hi len w
  end.

(** std::round: to the nearest integer, half away from zero *)
Definition round_away (x : R) : Z :=
  if Rle_dec 0 x then Int_part (x + / 2) else (- Int_part (- x + / 2))%Z.
(** conversion of an integral floating-point value to uint64_t: undefined when the value
    is not representable ([conv.fpint]) *)
Definition to_u64 (z : Z) : outcome Z :=
  if (0 <=? z)%Z && (z <? two64)%Z then Ok z else UB.

(** operator(), periodic_chain.hpp 242-256; outer [None]: out of fuel *)
Definition ch_call (fuel : nat) (c : chain) (v : R) : option (outcome Z) :=
  match wrap fuel (ch_x_min c) (ch_x_max c) (ch_length c) v with
  | None => None
  | Some w =>
      Some (match to_u64 (round_away ((w - ch_x_min c) / ch_dx c)) with
            | Ok z => Ok (z mod ch_size c)%Z
            | UB => UB
            end)
  end.

(** closest, periodic_chain.hpp 106-126; the loop over [*this] visits [Zseq]
    (theorem C19_chain_iteration), here [idxs]. *)
Definition closest_step (c : chain) (v : R) (acc : R * Z) (idx : Z) : R * Z :=
  let dist := (ch_pos c idx - v) * (ch_pos c idx - v) in
  if Rlt_dec dist (fst acc) then (dist, idx) else acc.
Definition ch_closest (fuel : nat) (c : chain) (v : R) : option Z :=
  let dx2 := ch_dx c / 2 in
  match wrap fuel (ch_x_min c - dx2) (ch_x_max c + dx2) (ch_length c) v with
  | None => None
  | Some w =>
      match range_for (Z.to_nat (ch_size c)) chain_begin (chain_end (ch_size c)) with
      | None => None
      | Some idxs =>
          Some (snd (fold_left (closest_step c w) idxs
                       ((ch_pos c 0 - w) * (ch_pos c 0 - w), 0%Z)))
      end
  end.

(** Members of PeriodicSquareLattice, periodic_square_lattice.hpp 28-43. *)
Record square := mkSquare { s_size_x : Z; s_size_y : Z;
  s_x_min : R; s_x_max : R; s_x_length : R; s_dx : R;
  s_y_min : R; s_y_max : R; s_y_length : R; s_dy : R }.
(** momentum space, periodic_square_lattice.hpp 87-98 *)
Definition momentum_square (Nx Ny : Z) : square :=
  mkSquare Nx Ny (- PI) PI (2 * PI) (2 * PI / IZR Nx) (- PI) PI (2 * PI) (2 * PI / IZR Ny).
(** real space, periodic_square_lattice.hpp 100-112 *)
Definition real_square (Nx Ny : Z) (dx dy : R) : square :=
  mkSquare Nx Ny 0 (IZR (u64 (Nx - 1)) * dx) (IZR Nx * dx) dx
                 0 (IZR (u64 (Ny - 1)) * dy) (IZR Ny * dy) dy.
(** operator[], periodic_square_lattice.hpp 350-359 *)
Definition s_pos (s : square) (idx : Z) : R * R :=
  let i := (idx / s_size_x s)%Z in
  let j := (idx mod s_size_x s)%Z in
  (s_x_min s + IZR i * s_dx s, s_y_min s + IZR j * s_dy s).
(** operator(), periodic_square_lattice.hpp 361-380 *)
Definition s_call (fuel : nat) (s : square) (v : R * R) : option (outcome Z) :=
  match wrap fuel (s_x_min s) (s_x_max s) (s_x_length s) (fst v),
        wrap fuel (s_y_min s) (s_y_max s) (s_y_length s) (snd v) with
  | Some wx, Some wy =>
      Some (match to_u64 (round_away ((wx - s_x_min s) / s_dx s)),
                  to_u64 (round_away ((wy - s_y_min s) / s_dy s)) with
            | Ok i, Ok j => Ok (u64 (u64 (i * s_size_x s) + j))
            | _, _ => UB
            end)
  | _, _ => None
  end.
