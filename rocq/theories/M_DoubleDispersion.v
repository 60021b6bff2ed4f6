(** MODEL: models/hubbard/dispersion.hpp for the chain as in M_Dispersion, in an arithmetic that may round.
    [fcos] is std::cos. *)
From Coq Require Import Reals List ZArith.
From Verif Require Import Base M_LatticeReal M_Matrix M_Dispersion M_Rounding M_Double M_LatticeDouble.
Local Open Scope R_scope.
Local Open Scope list_scope.

Section Rounded.
  Context (ar : arith) (conv : Z -> R) (fcos : R -> R).
  (** the body of the loop, 43-48: types::dot_product of two numbers is their product; "-2. * J * val" is
      evaluated from the left *)
  Definition f_dispersion_value (bz : chain) (vectors : list R) (J : R) (i : Z) : R :=
    let momentum := f_pos ar conv bz i in
    let val := fold_left (fun val vec => f_add ar val (fcos (f_mul ar momentum vec))) vectors 0 in
    f_mul ar (f_mul ar (-2) J) val.
  (** Dispersion(momentum_space, lattice, J), 33-50; the iterations write different elements *)
  Definition f_dispersion (bz lat : chain) (J : R) : list R :=
    map (f_dispersion_value bz (chain_vectors lat) J) (zrange 0 (ch_size bz)).
End Rounded.
(** the table of the program hubbard_momentum_1d_rk4.cpp 42-49: BrillouinZone(N) and Lattice(N, 1.) *)
Definition double_table (garbage fcos : R -> R) (N : Z) (J : R) : list R :=
  f_dispersion (double_arith garbage) (to_double_int garbage) fcos (double_momentum_chain garbage N) (double_real_chain garbage N 1) J.
