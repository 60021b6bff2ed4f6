(** MODEL: models/hubbard_real_space/site_occupation.hpp.  [F] is Float (exact), std::complex are
    pairs; [half] is the literal 0.5 (and "/ 2." is a multiplication with it).  A failing assert
    and a monomial that is too short are both [UB]. *)
From Verif Require Import Base M_Operator M_Basis M_Matrix M_Ode M_Number M_Dispersion M_OpenMP.
Local Open Scope list_scope.

Definition index2 (o : op hub) : bool := snd (indices o).

Section SO.
  Context {F : StarRing} (half : F).
  Local Open Scope ring_scope_.
  (** expectation_value_function: std::function<Float(const Operator&, const Operator&)> *)
  Variable ev : op hub -> op hub -> F.
  Definition two : F := 1 + 1.
  Definition four : F := two * two.
  Definition eight : F := two * four.

  (** ** SiteOccupation<Float, Basis1Operator> *)
  (** expectation_value, 36-42 *)
  Definition so1_ev (a b : monomial hub) : outcome F :=
    match a, b with
    | [x], [y] => Ok (two * ev x y)
    | _, _ => UB
    end.

  (** ** SiteOccupation<Float, Basis3Operator> *)
  (** expectation_value_1_1, 85-98 *)
  Definition so_1_1 (a b : monomial hub) : outcome F :=
    match a, b with
    | [a0], [b0] =>
        if creator a0 && negb (creator b0) && index2 a0 && index2 b0
        then Ok (two * ev a0 b0) else UB
    | _, _ => UB
    end%bool.
  (** expectation_value_1_3, 100-130 *)
  Definition so_1_3 (a b : monomial hub) : outcome F :=
    match a, b with
    | [a0], [b0; b1; b2] =>
        if creator a0 && creator b0 && negb (creator b1) && negb (creator b2)
           && index2 a0 && negb (index2 b0) && negb (index2 b1) && index2 b2
        then
          let ret := ev b0 b1 in
          let ret := if (index1 b0 =? index1 b1)%Z then ret - half else ret in
          let ret := ret * ev a0 b2 in
          Ok (four * ret)
        else UB
    | _, _ => UB
    end%bool.
  (** expectation_value_3_1, 132-161 *)
  Definition so_3_1 (a b : monomial hub) : outcome F :=
    match a, b with
    | [a0; a1; a2], [b0] =>
        if creator a0 && creator a1 && negb (creator a2) && negb (creator b0)
           && index2 a0 && negb (index2 a1) && negb (index2 a2) && index2 b0
        then
          let ret := ev a1 a2 in
          let ret := if (index1 a1 =? index1 a2)%Z then ret - half else ret in
          let ret := ret * ev a0 b0 in
          Ok (four * ret)
        else UB
    | _, _ => UB
    end%bool.
  (** expectation_value_3_3, 163-226 *)
  Definition so_3_3 (a b : monomial hub) : outcome F :=
    match a, b with
    | [a0; a1; a2], [b0; b1; b2] =>
        if creator a0 && creator a1 && negb (creator a2) && creator b0 && negb (creator b1) && negb (creator b2)
           && index2 a0 && negb (index2 a1) && negb (index2 a2) && negb (index2 b0) && negb (index2 b1) && index2 b2
        then
          let ev_6 := eight * ev a0 b2 * ev a1 a2 * ev b0 b1 in
          let ev_6 := ev_6 + eight * ev a0 b2 * ev a1 b1
                        * ((if (index1 a2 =? index1 b0)%Z then 1 else 0) - ev b0 a2) in
          let kronecker1 := (index1 a1 =? index1 a2)%Z in
          let kronecker2 := (index1 b0 =? index1 b1)%Z in
          let ev_4 := 0 in
          let ev_4 := if kronecker1 then ev_4 - four * ev a0 b2 * ev b0 b1 else ev_4 in
          let ev_4 := if kronecker2 then ev_4 - four * ev a0 b2 * ev a1 a2 else ev_4 in
          let ev_2 := 0 in
          let ev_2 := if kronecker1 && kronecker2 then ev_2 + two * ev a0 b2 else ev_2 in
          Ok (ev_6 + ev_4 + ev_2)
        else UB
    | _, _ => UB
    end%bool.
  (** expectation_value, 228-238, is not modelled: it calls expectation_value_3_3() without
      arguments, so it does not compile when it is used (it never is). *)

  (** Float * complex, complex / 2. *)
  Definition fmul (x : F) (z : F * F) : F * F := (x * fst z, x * snd z).
  Definition halve (z : F * F) : F * F := (fst z * half, snd z * half).
  (** a Float added to a complex number *)
  Definition of_real (x : F) : F * F := (x, 0).
  (** std::norm *)
  Definition norm (z : F * F) : F := fst z * fst z + snd z * snd z.

  Variables (basis conjugate_basis : list (monomial hub)) (vector : list (F * F)).
  (** [e(basis[i], conjugate_basis[j]) * mult(vector[i], vector[j]) / 2.] *)
  Definition product (e : monomial hub -> monomial hub -> outcome F) (mult : F -> F * F -> F * F -> F * F)
    (i j : Z) : outcome (F * F) :=
    obind (vread basis i) (fun a => obind (vread conjugate_basis j) (fun b => obind (e a b) (fun x =>
      obind (vread vector i) (fun p => obind (vread vector j) (fun q => Ok (mult x p q)))))).
  (** with multiply_with_conjugate, with add_conjugate_products and with std::norm(vector[i]) (j = i) *)
  Definition with_conjugate (x : F) (p q : F * F) : F * F := halve (fmul x (multiply_with_conjugate p q)).
  Definition with_products (x : F) (p q : F * F) : F * F := of_real (x * add_conjugate_products p q * half).
  Definition with_norm (x : F) (p q : F * F) : F * F := of_real (x * norm p * half).

  (** an additional "+ expectation_value_3_1(basis[j], conjugate_basis[i]) * ..." in one statement *)
  Definition oplus (x y : outcome (F * F)) : outcome (F * F) :=
    obind x (fun a => obind y (fun b => Ok (fst a + fst b, snd a + snd b))).

  Let CF := cplx_ring F.
  Definition zeros (T : nat) : list CF := repeat (0 : CF) T.
  Definition size : Z := Z.of_nat (length basis).

  (** Basis1 operator(), 44-68, before "return result.real()"; T = omp_get_max_threads() *)
  Definition site_occupation1 (T : nat) (s : schedule) : option (outcome CF) :=
    pbind (par_reduce (K := CF) s (fun i => omap (fun j => product so1_ev with_conjugate i j) (zrange 0 size)) (zeros T))
      (fun results => Some (Ok (accumulate results))).

  (** Basis3 operator(), 240-326; N = basis.N; one schedule per parallel loop *)
  Definition symmetric_1_1 (i : Z) : outcome (list CF) :=
    obind (omap (product so_1_1 with_products i) (zrange 0 i)) (fun xs =>
      obind (product so_1_1 with_norm i i) (fun x => Ok (xs ++ [x]))).
  Definition symmetric_1_3 (N i : Z) : outcome (list CF) :=
    omap (product so_1_3 with_products i) (zrange N size).
  Definition symmetric_3_3 (N i : Z) : outcome (list CF) :=
    obind (omap (product so_3_3 with_products i) (zrange N i)) (fun xs =>
      obind (product so_3_3 with_norm i i) (fun x => Ok (xs ++ [x]))).
  Definition full_1_1 (N i : Z) : outcome (list CF) := omap (product so_1_1 with_conjugate i) (zrange 0 N).
  Definition full_1_3 (N i : Z) : outcome (list CF) :=
    omap (fun j => oplus (product so_1_3 with_conjugate i j) (product so_3_1 with_conjugate j i)) (zrange N size).
  Definition full_3_3 (N i : Z) : outcome (list CF) := omap (product so_3_3 with_conjugate i) (zrange N size).

  Definition site_occupation3 (exploit_inversion_symmetry : bool) (N : Z) (T : nat) (s1 s2 s3 : schedule)
    : option (outcome CF) :=
    pbind (par_reduce (K := CF) s1 (if exploit_inversion_symmetry then symmetric_1_1 else full_1_1 N) (zeros T)) (fun results =>
    pbind (par_reduce (K := CF) s2 (if exploit_inversion_symmetry then symmetric_1_3 N else full_1_3 N) results) (fun results =>
    pbind (par_reduce (K := CF) s3 (if exploit_inversion_symmetry then symmetric_3_3 N else full_3_3 N) results) (fun results =>
      Some (Ok (accumulate results))))).
End SO.
(** the returned number: result.real(); the assert is result.imag() == 0 *)
