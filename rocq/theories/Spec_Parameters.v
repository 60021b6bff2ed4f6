(** SPECIFICATION for C112: the staggered sign of a basis element. *)
From Coq Require Import Reals.
From Verif Require Import Base M_Lattice Spec_Lattice M_Basis Spec_Programs Spec_ParticleHole.
Local Open Scope R_scope.

(** the product of the shades of the sites of a basis element *)
Definition stagger (N : Z) (white : Z -> bool) (i : Z) : R :=
  if (i <? N)%Z then shade white i else shade white (site_a N i) * shade white (site_b N i) * shade white (site_c N i).
(** the lines of an output file: the times and the measured values (which are undefined, or not all
    computed, when a measurement is) *)
Definition with_times {T V} (times : list T) (values : option (outcome (list V))) : option (outcome (list (T * V))) :=
  match values with Some (Ok v) => Some (Ok (combine times v)) | Some UB => Some UB | None => None end.
