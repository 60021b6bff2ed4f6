(** MODEL: models/hubbard_momentum_space/excited_fermi_sea.hpp.  [Fl] is Dispersion::Float with its
    operator<, [dispersion] the table's operator() (defined for every index), [sort] is
    std::list::sort. *)
From Verif Require Import Base M_Operator M_Basis.
Local Open Scope list_scope.

(** operator== of std::tuple<Index, bool> *)
Definition idx_eqb (a b : Z * bool) : bool := (Z.eqb (fst a) (fst b) && Bool.eqb (snd a) (snd b))%bool.

Section EFS.
  Context {Fl : Type} (lt : Fl -> Fl -> bool) (sort : list (Z * bool) -> list (Z * bool)).
  Variables (dispersion : Z -> Fl) (fermi_energy : Fl).

  (** struct ExcitedFermiSea, 17-27 *)
  Record sea := mkSea { vanishes : bool; created : list (Z * bool); annihilated : list (Z * bool) }.
  Definition fermi_sea : sea := mkSea false [] [].

  (** is_initially_occupied, 74-80 *)
  Definition is_initially_occupied (i : Z * bool) : bool := lt (dispersion (fst i)) fermi_energy.
  (** std::find(l.begin(), l.end(), i) != l.end(), and l.erase of the position found *)
  Definition found (i : Z * bool) (l : list (Z * bool)) : bool := existsb (idx_eqb i) l.
  Fixpoint erase (i : Z * bool) (l : list (Z * bool)) : list (Z * bool) :=
    match l with
    | [] => []
    | x :: l' => if idx_eqb i x then l' else x :: erase i l'
    end.

  (** create_particle, 82-113: the return value and the new state *)
  Definition create_particle (i : Z * bool) (s : sea) : bool * sea :=
    if vanishes s then (false, s)
    else if is_initially_occupied i then
      if found i (annihilated s)
      then (true, mkSea false (created s) (erase i (annihilated s)))
      else (false, mkSea true (created s) (annihilated s))
    else if found i (created s)
      then (false, mkSea true (created s) (annihilated s))
      else (true, mkSea false (created s ++ [i]) (annihilated s)).
  (** annihilate_particle, 115-146 *)
  Definition annihilate_particle (i : Z * bool) (s : sea) : bool * sea :=
    if vanishes s then (false, s)
    else if is_initially_occupied i then
      if found i (annihilated s)
      then (false, mkSea true (created s) (annihilated s))
      else (true, mkSea false (created s) (annihilated s ++ [i]))
    else if found i (created s)
      then (true, mkSea false (erase i (created s)) (annihilated s))
      else (false, mkSea true (created s) (annihilated s)).
  Definition step_op (o : op hub) (s : sea) : sea :=
    if creator o then snd (create_particle (indices o) s) else snd (annihilate_particle (indices o) s).
  (** the two sort() calls, 48-51 and 68-71 *)
  Definition sorted (s : sea) : sea :=
    if vanishes s then s else mkSea false (sort (created s)) (sort (annihilated s)).

  (** the loop 35-46, over the reversed monomial with break *)
  Fixpoint apply_loop (ops : list (op hub)) (s : sea) : sea :=
    match ops with
    | [] => s
    | o :: ops' => let s' := step_op o s in if vanishes s' then s' else apply_loop ops' s'
    end.
  (** apply_monomial, 28-54 *)
  Definition apply_monomial (m : monomial hub) (s : sea) : bool * sea :=
    if vanishes s then (false, s)
    else let s' := sorted (apply_loop (rev m) s) in (vanishes s', s').
  (** apply_operator, 56-72 *)
  Definition apply_operator (o : op hub) (s : sea) : bool * sea :=
    if vanishes s then (false, s)
    else let s' := sorted (step_op o s) in (vanishes s', s').
  (** is_initial_fermi_sea, 148-151 *)
  Definition is_initial_fermi_sea (s : sea) : bool :=
    (negb (vanishes s) && match created s with [] => true | _ => false end
       && match annihilated s with [] => true | _ => false end)%bool.
End EFS.
