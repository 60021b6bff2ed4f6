(** SPECIFICATION for C86, C87: the initial coefficients and the site occupation as a quadratic form
    of the coefficients. *)
From Coq Require Import Reals.
From Verif Require Import Base M_Dispersion M_Matrix Spec_Stability Spec_Expectation Spec_TimeLoop.
Local Open Scope R_scope.

(** (1, 0, 0, ...) *)
Definition first_unit (i : Z) : CR := if Z.eqb i 0 then real 1 else real 0.
Definition kron (a b : Z) : R := if Z.eqb a b then 1 else 0.
(** basis element r: c+_r for r < N, else c+_a (2 c+_b c_c - delta_bc) with r = N + a N^2 + b N + c *)
Definition site_a (N r : Z) : Z := ((r - N) / (N * N))%Z.
Definition site_b (N r : Z) : Z := ((r - N) / N mod N)%Z.
Definition site_c (N r : Z) : Z := ((r - N) mod N)%Z.

Section Occupation.
  (** rho a b = <c+_a c_b>, the same for both spins *)
  Context (N : Z) (rho : Z -> Z -> R).
  (** <2 c+_b c_c - delta_bc> *)
  Definition pair_average (b c : Z) : R := 2 * rho b c - kron b c.
  (** <B_r B_s^+> by Wick's theorem *)
  Definition overlap (r s : Z) : R :=
    if Z.ltb r N then
      if Z.ltb s N then rho r s
      else pair_average (site_c N s) (site_b N s) * rho r (site_a N s)
    else
      if Z.ltb s N then pair_average (site_b N r) (site_c N r) * rho (site_a N r) s
      else rho (site_a N r) (site_a N s) *
           (pair_average (site_b N r) (site_c N r) * pair_average (site_c N s) (site_b N s)
            + 4 * rho (site_b N r) (site_b N s) * (kron (site_c N r) (site_c N s) - rho (site_c N s) (site_c N r))).
  (** sum_rs <B_r B_s^+> Re (v_r v_s^* ) over the first n basis elements *)
  Definition occupation (n : Z) (v : Z -> CR) : R :=
    sum_over (K := Rring) (fun r => sum_over (K := Rring) (fun s =>
      overlap r s * (fst (v r) * fst (v s) + snd (v r) * snd (v s))) (zrange 0 n)) (zrange 0 n).
End Occupation.
(** distance on a ring of N sites *)
Definition ring_distance (N a b : Z) : Z := Z.min (Z.abs (a - b)) (N - Z.abs (a - b)).
(** <c+_a c_b> in the Fermi sea with the given filling, lattice spacing 1 *)
Definition sea (N : Z) (filling : R) (a b : Z) : R := fermi_sea_1d (filling * PI) (IZR (ring_distance N a b)).
(** what the time variables of the programs have to satisfy (C53): positive step size, rounding
    with relative error u, the number of steps until the end time *)
Definition times_ok (rnd : R -> R) (u dt t_end : R) (interval : Z) (steps : nat) : Prop :=
  0 < dt /\ 0 <= u /\ relative_rounding rnd u /\ 32 * u * INR steps * INR steps <= 1 /\
  (Z.of_nat steps < two64)%Z /\ (0 <= interval)%Z /\ steps_until rnd dt t_end steps.
(** the steps after which a line is written *)
Definition written (interval : Z) (steps : nat) : list nat := schedule (Z.to_nat (Z.max 1 interval)) steps.
(** y solves dy/dt = E y with y(0) = (1, 0, 0, ...), and is the only one *)
Definition the_solution (n : Z) (E : Z -> Z -> CR) (y : R -> Z -> CR) : Prop :=
  exact_solution n E y /\ (forall i, (0 <= i < n)%Z -> y 0 i = first_unit i) /\
  forall y', exact_solution n E y' -> (forall i, (0 <= i < n)%Z -> y' 0 i = first_unit i) ->
    forall t i, (0 <= i < n)%Z -> y' t i = y t i.
