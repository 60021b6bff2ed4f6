(** MODEL: src/hubbard/hubbard_dispersion_1d.cpp as in M_DispersionProgram, in double precision.  [show] is
    operator<< of a double, [fcos] is std::cos, [garbage] what an overflowing operation gives. *)
From Coq Require Import Reals Ascii String List ZArith.
From Verif Require Import Base M_Lattice M_LatticeReal M_Matrix M_Dispersion M_Text M_Io M_Rounding M_Double M_LatticeDouble M_DoubleDispersion M_DispersionProgram.
Local Open Scope R_scope.
Local Open Scope list_scope.

Section Double.
  Context (garbage fcos : R -> R) (show : R -> text).
  (** brillouin_zone[site], periodic_chain.hpp 233-240 *)
  Definition double_momentum (N site : Z) : R :=
    f_pos (double_arith garbage) (to_double_int garbage) (double_momentum_chain garbage N) site.
  (** one pass of the loop, 16 *)
  Definition double_dispersion_line (N : Z) (eps : list R) (site : Z) : outcome text :=
    match vread eps site with
    | Ok e => Ok (show (double_momentum N site) ++ [tab] ++ show e ++ [newline])
    | UB => UB
    end.
  (** the range-for, 15-17 *)
  Fixpoint double_dispersion_lines (N : Z) (eps : list R) (sites : list Z) : outcome text :=
    match sites with
    | [] => Ok []
    | i :: rest =>
        match double_dispersion_line N eps i with
        | UB => UB
        | Ok l => match double_dispersion_lines N eps rest with Ok t => Ok (l ++ t) | UB => UB end
        end
    end.
  (** main, 8-19, with the constant N (10) as a parameter; [double_table] builds BrillouinZone(N), Lattice(N, 1.)
      and the dispersion with J = 1 (11-13) *)
  Definition double_dispersion_main (fuel : nat) (N : Z) (writable : bool) (f : fs) : option (outcome (fs * Z)) :=
    let eps := double_table garbage fcos N 1 in
    match range_for fuel chain_begin (chain_end (ch_size (double_momentum_chain garbage N))) with
    | None => None
    | Some sites =>
        match double_dispersion_lines N eps sites with
        | UB => Some UB
        | Ok t => Some (Ok (if writable then set_file f (str "dispersion.txt") (Some t) else f, 0%Z))
        end
    end.
End Double.
