(** SPECIFICATION for the integrator. *)
From Verif Require Import Base M_Matrix M_MatrixCheck M_Ode.
Local Open Scope Z_scope.
Local Open Scope list_scope.
Section O.
  Context {K : StarRing}.
  Local Open Scope ring_scope_.
  (** M applied k times *)
  Fixpoint mpow (mul : list K -> list K) (k : nat) (u : list K) : list K :=
    match k with O => u | S k' => mul (mpow mul k' u) end.
  (** the natural number n and the power h^n in the ring *)
  Fixpoint num (n : nat) : K := match n with O => 0 | S n' => 1 + num n' end.
  Fixpoint hpow (h : K) (n : nat) : K := match n with O => 1 | S n' => h * hpow h n' end.
  (** (M u)_i for vectors of dimension n is what a matrix does *)
  Definition linear_on (n : Z) (mul : list K -> list K) : Prop :=
    exists A : Z -> Z -> K, forall u, Z.of_nat (length u) = n ->
      Z.of_nat (length (mul u)) = n /\
      forall i, (0 <= i < n)%Z -> vget (mul u) i = sum_over (fun j => A i j * vget u j) (zrange 0 n).
  (** hermitian scalar product *)
  Definition inner (u v : list K) : K := sum_over (fun i => kconj (vget u i) * vget v i) (zrange 0 (Z.of_nat (length u))).
End O.
(** A schedule of the parallel loop over rows: every row's column loop is executed, in
    program order, and nothing else; rows interleave in any way. *)
Definition legal_schedule (rows : Z) (sched : list (Z * Z)) : Prop :=
  (forall rc, In rc sched -> (0 <= fst rc < rows)%Z) /\
  forall row, (0 <= row < rows)%Z ->
    map snd (filter (fun rc => (fst rc =? row)%Z) sched) = zrange 0 rows.
