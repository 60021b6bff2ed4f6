(** SPECIFICATION: positions on a ring of circumference [len] carrying N equidistant
    sites x0, x0 + dx, ..., x0 + (N-1) dx. *)
From Coq Require Import Reals.
From Verif Require Import Base Spec_Lattice.
Local Open Scope R_scope.

(** distance of [v] to the image of site [i] after [m] turns *)
Definition image_dist (x0 dx len : R) (v : R) (i m : Z) : R :=
  Rabs (v - (x0 + IZR i * dx + IZR m * len)).
(** site [r] has an image that no image of any site beats *)
Definition ring_nearest (N : Z) (x0 dx len : R) (v : R) (r : Z) : Prop :=
  site N r /\ exists m, forall j m', site N j ->
    image_dist x0 dx len v r m <= image_dist x0 dx len v j m'.
(** a fuelled computation terminates with result [x] *)
Definition terminates_with {A} (run : nat -> option A) (x : A) : Prop :=
  exists n, forall fuel, (n <= fuel)%nat -> run fuel = Some x.
