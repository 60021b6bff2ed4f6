(** SPECIFICATION for C82: the equation of motion integrated by the momentum-space program. *)
From Coq Require Import Reals.
From Verif Require Import Base M_Matrix M_Dispersion Spec_Stability.
Local Open Scope R_scope.

(** energy of momentum k of N *)
Definition band (N : Z) (J : R) (k : Z) : R := - 2 * J * cos (- PI + 2 * PI * IZR k / IZR N).
(** the central momentum *)
Definition center (N : Z) : Z := (N / 2)%Z.
Definition below_fermi (N : Z) (J : R) (k : Z) : bool := if Rlt_dec (band N J k) 0 then true else false.
(** energy of basis element r: c+_q for r = 0, c+_k1 c+_k2 c_(k1+k2-q) for r = 1 + k1 N + k2 *)
Definition energy (N : Z) (J U : R) (r : Z) : R :=
  if Z.eqb r 0 then band N J (center N) + U / 2
  else let k1 := ((r - 1) / N)%Z in let k2 := ((r - 1) mod N)%Z in
       band N J k1 + band N J k2 - band N J ((k1 + k2 - center N) mod N)%Z + U / 2.
(** energies on the diagonal, U / (2N) between element 0 and every other element *)
Definition coupling (N : Z) (J U : R) (r c : Z) : R :=
  if Z.eqb r c then energy N J U r else if (Z.eqb r 0 || Z.eqb c 0)%bool then U / (2 * IZR N) else 0.
Definition generator (N : Z) (J U : R) (r c : Z) : CR := (0, coupling N J U r c).
