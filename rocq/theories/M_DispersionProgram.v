(** MODEL: src/hubbard/hubbard_dispersion_1d.cpp.  Float is the real numbers; [show] is operator<< of a double. *)
From Coq Require Import Reals Ascii String.
From Verif Require Import Base M_Lattice M_LatticeReal M_Matrix M_Dispersion M_Text M_Io.
Local Open Scope R_scope.
Local Open Scope list_scope.

Definition tab : ascii := ascii_of_nat 9.
(** one pass of the loop, 16: brillouin_zone[site], a tab, dispersion(site), a line break; the read past
    the end of the table is undefined *)
Definition dispersion_line (show : R -> text) (bz : chain) (eps : list R) (site : Z) : outcome text :=
  match vread eps site with
  | Ok e => Ok (show (ch_pos bz site) ++ [tab] ++ show e ++ [newline])
  | UB => UB
  end.
(** the range-for, 15-17: the text written so far grows by one line per site *)
Fixpoint dispersion_lines (show : R -> text) (bz : chain) (eps : list R) (sites : list Z) : outcome text :=
  match sites with
  | [] => Ok []
  | i :: rest =>
      match dispersion_line show bz eps i with
      | UB => UB
      | Ok l => match dispersion_lines show bz eps rest with Ok t => Ok (l ++ t) | UB => UB end
      end
  end.
(** main, 8-19, with the constant N (10) as a parameter: [writable] says whether the file can be opened for
    writing; a stream that failed to open discards what is written and nothing is reported.  The result is
    the file system and the exit code, or None if the range-for is not finished within [fuel] iterations. *)
Definition dispersion_main (fuel : nat) (show : R -> text) (N : Z) (writable : bool) (f : fs) : option (outcome (fs * Z)) :=
  let brillouin_zone := momentum_chain N in
  let lattice := real_chain N 1 in
  let eps := chain_dispersion brillouin_zone lattice 1 in
  match range_for fuel chain_begin (chain_end (ch_size brillouin_zone)) with
  | None => None
  | Some sites =>
      match dispersion_lines show brillouin_zone eps sites with
      | UB => Some UB
      | Ok t => Some (Ok (if writable then set_file f (str "dispersion.txt") (Some t) else f, 0%Z))
      end
  end.
(** the constant N, 10 *)
Definition dispersion_size : Z := 1024.
