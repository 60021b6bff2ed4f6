(** INDEPENDENT SPECIFICATION: fermionic Fock space in the occupation-number
    (Jordan-Wigner) representation.  Nothing here refers to the library.

    A many-particle basis state is a bit mask [s : N]; bit [k] says whether mode
    [k] is occupied.  A ladder operator maps a basis state to zero ([None]) or to
    plus/minus another basis state. *)
From Verif Require Import Base.

Definition occ (s : N) (k : nat) : bool := N.testbit s (N.of_nat k).

(** Parity of the number of occupied modes below [k]. *)
Fixpoint parity_below (s : N) (k : nat) : bool :=
  match k with
  | O => false
  | S k' => xorb (occ s k') (parity_below s k')
  end.

(** [ladder cr k s]: apply c^+_k (if [cr]) or c_k to |s>. [Some (true, t)] is -|t>. *)
Definition ladder (cr : bool) (k : nat) (s : N) : option (bool * N) :=
  if cr
  then if occ s k then None else Some (parity_below s k, N.setbit s (N.of_nat k))
  else if occ s k then Some (parity_below s k, N.clearbit s (N.of_nat k)) else None.

(** A product of ladder operators; the rightmost acts first. *)
Fixpoint act (ops : list (bool * nat)) (s : N) : option (bool * N) :=
  match ops with
  | [] => Some (false, s)
  | (cr, k) :: ops' =>
      match act ops' s with
      | None => None
      | Some (sg, s') =>
          match ladder cr k s' with
          | None => None
          | Some (sg', s'') => Some (xorb sg sg', s'')
          end
      end
  end.

(** Matrix element <t| ops |s>. *)
Definition amp {K : StarRing} (ops : list (bool * nat)) (s t : N) : K :=
  match act ops s with
  | None => r0
  | Some (sg, t') => if N.eqb t t' then sgn sg else r0
  end.
