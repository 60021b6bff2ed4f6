(** SPECIFICATION for C119: the same basis element on square lattices of different size. *)
From Coq Require Import Reals ZArith List.
From Verif Require Import Base M_Matrix Spec_Stability Spec_Window.
Import ListNotations.
Local Open Scope Z_scope.

(** a displacement: first and second coordinate *)
Definition shift := (Z * Z)%type.
Definition hops (o : shift) : Z := Z.abs (fst o) + Z.abs (snd o).
(** the site displaced by o from site 0 on the torus of L x L sites, and its index *)
Definition at_shift (L : Z) (o : shift) : Z := at_offset L (fst o) * L + at_offset L (snd o).
(** index of c+_a, and of c+_a c+_b c_c, in the basis of the torus *)
Definition square1 (L : Z) (a : shift) : Z := at_shift L a.
Definition square3 (L : Z) (a b c : shift) : Z := L * L + L * L * (L * L) * at_shift L a + L * L * at_shift L b + at_shift L c.
(** all displacements of at most D hops *)
Definition within (D : Z) : list shift :=
  filter (fun o => hops o <=? D) (list_prod (zrange (- D) (D + 1)) (zrange (- D) (D + 1))).
(** v(c+_a) - v'(c+_a) and v(c+_a c+_b c_c) - v'(c+_a c+_b c_c) for all a, b, c of at most D hops *)
Definition square_differences (L L' D : Z) (v v' : Z -> CR) : list CR :=
  map (fun a => rsub (v (square1 L a)) (v' (square1 L' a))) (within D) ++
  map (fun p => rsub (v (square3 L (fst p) (fst (snd p)) (snd (snd p)))) (v' (square3 L' (fst p) (fst (snd p)) (snd (snd p)))))
    (list_prod (within D) (list_prod (within D) (within D))).
