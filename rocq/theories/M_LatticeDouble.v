(** MODEL of the position part of lattices/periodic_chain.hpp and of the momentum-space basis
    (models/hubbard_momentum_space/basis.hpp) in an arithmetic that may round: the same code as
    M_LatticeReal and M_Basis, every operation on Float replaced by one of [ar].  [conv] converts a
    uint64_t to Float. *)
From Coq Require Import Reals List ZArith.
From Flocq Require Import Core.
From Verif Require Import Base M_Operator M_Lattice M_LatticeReal M_Basis M_Rounding M_Double.
Local Open Scope R_scope.
Local Open Scope list_scope.

Section Rounded.
  Context (ar : arith) (conv : Z -> R).
  (** subtraction is addition of the negative number, which is exact *)
  Definition f_sub (a b : R) : R := f_add ar a (- b).
  (** PeriodicChain(N), momentum space, periodic_chain.hpp 74-81; [pi] and [two_pi] are the constants of
      constants.hpp 25-31 *)
  Definition f_momentum_chain (pi two_pi : R) (N : Z) : chain :=
    mkChain N (- pi) pi two_pi (f_div ar two_pi (conv N)).
  (** PeriodicChain(N, dx), real space, periodic_chain.hpp 83-90 *)
  Definition f_real_chain (N : Z) (dx : R) : chain :=
    mkChain N 0 (f_mul ar dx (conv (u64 (N - 1)))) (f_mul ar (conv N) dx) dx.
  (** operator[], periodic_chain.hpp 233-240 *)
  Definition f_pos (c : chain) (i : Z) : R := f_add ar (ch_x_min c) (f_mul ar (conv i) (ch_dx c)).
  (** while(v < lo) v += len; while(v > hi) v -= len; *)
  Fixpoint f_while_below (fuel : nat) (lo len v : R) : option R :=
    if Rlt_dec v lo then match fuel with O => None | S f => f_while_below f lo len (f_add ar v len) end else Some v.
  Fixpoint f_while_above (fuel : nat) (hi len v : R) : option R :=
    if Rlt_dec hi v then match fuel with O => None | S f => f_while_above f hi len (f_sub v len) end else Some v.
  (** operator(), periodic_chain.hpp 242-256; std::round is exact *)
  Definition f_call (fuel : nat) (c : chain) (v : R) : option (outcome Z) :=
    match f_while_below fuel (ch_x_min c) (ch_length c) v with
    | None => None
    | Some w =>
        match f_while_above fuel (ch_x_max c) (ch_length c) w with
        | None => None
        | Some w =>
            Some (match to_u64 (round_away (f_div ar (f_sub w (ch_x_min c)) (ch_dx c))) with
                  | Ok z => Ok (z mod ch_size c)%Z
                  | UB => UB
                  end)
        end
    end.
  (** momentum_space(k1 + momentum_space[i2] - q), hubbard_momentum_space/basis.hpp 36 *)
  Definition f_mom_i3 (fuel : nat) (ms : chain) (q_idx i1 i2 : Z) : option (outcome Z) :=
    f_call fuel ms (f_sub (f_add ar (f_pos ms i1) (f_pos ms i2)) (f_pos ms q_idx)).
  (** Basis3Operator(q_idx, momentum_space), hubbard_momentum_space/basis.hpp 22-43 *)
  Definition f_mom_basis (fuel : nat) (ms : chain) (q_idx : Z) : option (outcome (list (monomial hub))) :=
    let sites := visited chain_begin (chain_end (ch_size ms)) (ch_size ms) in
    match mapM (fun i1 => mapM (fun i2 =>
                  match f_mom_i3 fuel ms q_idx i1 i2 with
                  | None => None
                  | Some UB => Some UB
                  | Some (Ok i3) => Some (Ok [hop true i1 true; hop true i2 false; hop false i3 false])
                  end) sites) sites with
    | None => None
    | Some UB => Some UB
    | Some (Ok rows) => Some (Ok ([hop true q_idx true] :: List.concat rows))
    end.
End Rounded.
(** the conversion of uint64_t to double *)
Definition to_double_int (garbage : R -> R) (k : Z) : R := to_double garbage (IZR k).
(** PeriodicChain<double, uint64_t>: the constants are the doubles nearest to pi and 2 pi *)
Definition double_momentum_chain (garbage : R -> R) (N : Z) : chain :=
  f_momentum_chain (double_arith garbage) (to_double_int garbage) (round_double PI) (round_double (2 * PI)) N.
Definition double_real_chain (garbage : R -> R) (N : Z) (dx : R) : chain :=
  f_real_chain (double_arith garbage) (to_double_int garbage) N dx.
