(** MODEL: models/hubbard_real_space/site_occupation.hpp as in M_SiteOccupation, with operations that may
    round (M_Rounding) and with the interleaving threads of M_OpenMP.  Rounded addition is neither
    associative nor exact, so that the order in which the threads add matters. *)
From Coq Require Import Reals List ZArith.
From Verif Require Import Base M_Operator M_Basis M_Matrix M_Ode M_Dispersion M_Number M_OpenMP M_SiteOccupation Spec_Stability M_Rounding.
Local Open Scope R_scope.
Local Open Scope list_scope.

(** ** Threads that share an array of [V] (as M_OpenMP, for an arbitrary "element += summand") *)
Section Threads.
  Context {V X : Type} (zero : V) (add : V -> X -> V).
  (** read element c into the register; element c = register + x *)
  Inductive rop := RLoad (c : nat) | RAdd (c : nat) (x : X).
  Definition rcell (o : rop) : nat := match o with RLoad c => c | RAdd c _ => c end.
  Definition rplus_assign (c : nat) (x : X) : list rop := [RLoad c; RAdd c x].
  Definition rexec1 (o : rop) (reg : V) (mem : list V) : V * list V :=
    match o with
    | RLoad c => (nth c mem zero, mem)
    | RAdd c x => (reg, list_set mem c (add reg x))
    end.
  Definition rthread : Type := (V * list rop)%type.
  Definition rstep (c : list rthread * list V) (t : nat) : list rthread * list V :=
    match nth_error (fst c) t with
    | Some (reg, o :: p) => let (reg', mem') := rexec1 o reg (snd c) in (list_set (fst c) t (reg', p), mem')
    | _ => c
    end.
  Definition rstart (progs : list (list rop)) : list rthread := map (fun p => (zero, p)) progs.
  Definition rfinished (ths : list rthread) : bool :=
    forallb (fun th => match snd th with [] => true | _ => false end) ths.
  (** None: [trace] ends before the threads do; an access outside of the array is undefined *)
  Definition rrun (progs : list (list rop)) (trace : list nat) (mem : list V) : option (outcome (list V)) :=
    if forallb (fun p => forallb (fun o => Nat.ltb (rcell o) (length mem)) p) progs then
      let (ths, mem') := fold_left rstep trace (rstart progs, mem) in
      if rfinished ths then Some (Ok mem') else None
    else Some UB.
  (** #pragma omp parallel for whose iterations do [results[omp_get_thread_num()] += x] for a list of x *)
  Definition rpar_reduce (s : schedule) (adds : Z -> outcome (list X)) (results : list V) : option (outcome (list V)) :=
    match omap (fun p => oconcat (fun i => obind (adds i) (fun xs => Ok (flat_map (rplus_assign (fst p)) xs))) (snd p))
        (combine (seq 0 (length (who s))) (who s)) with
    | Ok progs => rrun progs (trace s) results
    | UB => Some UB
    end.
End Threads.
Arguments rop X : clear implicits.
Arguments rthread V X : clear implicits.

(** ** The site occupation *)
Section Occupation.
  Context (ar : arith).
  Notation "a [+] b" := (f_add ar a b) (at level 50, left associativity).
  Notation "a [-] b" := (f_add ar a (- b)) (at level 50, left associativity).
  Notation "a [*] b" := (f_mul ar a b) (at level 40, left associativity).
  Notation "a [/] b" := (f_div ar a b) (at level 40, left associativity).
  (** what is added to results[thread]: a std::complex<Float> or a Float *)
  Inductive summand := CSum (z : CR) | RSum (x : R).
  (** std::complex<Float>::operator+=, with a complex and with a real right-hand side *)
  Definition fplus (z : CR) (s : summand) : CR :=
    match s with CSum w => cf_add ar z w | RSum x => (fst z [+] x, snd z) end.
  (** types/number/complex.hpp 55-68 *)
  Definition f_multiply_with_conjugate (a b : CR) : CR :=
    ((fst a [*] fst b) [+] (snd a [*] snd b), ((- fst a) [*] snd b) [+] (fst b [*] snd a)).
  Definition f_add_conjugate_products (a b : CR) : R := 2 [*] ((fst a [*] fst b) [+] (snd a [*] snd b)).
  (** std::norm of libstdc++: real part squared plus imaginary part squared *)
  Definition f_norm (a : CR) : R := (fst a [*] fst a) [+] (snd a [*] snd a).
  (** "x * z / 2." for a Float x and a complex z, and for a Float z *)
  Definition f_conjugate_product (x : R) (p q : CR) : CR :=
    let w := cf_scale ar x (f_multiply_with_conjugate p q) in (fst w [/] 2, snd w [/] 2).
  Definition f_with_conjugate (x : R) (p q : CR) : summand := CSum (f_conjugate_product x p q).
  Definition f_with_products (x : R) (p q : CR) : summand := RSum ((x [*] f_add_conjugate_products p q) [/] 2).
  Definition f_with_norm (x : R) (p q : CR) : summand := RSum ((x [*] f_norm p) [/] 2).

  Variable ev : op hub -> op hub -> R.
  (** SiteOccupation<Float, Basis1Operator>::expectation_value, 36-42 *)
  Definition f_so1 (a b : monomial hub) : outcome R :=
    match a, b with
    | [x], [y] => Ok (2 [*] ev x y)
    | _, _ => UB
    end.
  (** SiteOccupation<Float, Basis3Operator>::expectation_value_1_1, 85-98 *)
  Definition f_so_1_1 (a b : monomial hub) : outcome R :=
    match a, b with
    | [a0], [b0] =>
        if (creator a0 && negb (creator b0) && index2 a0 && index2 b0)%bool then Ok (2 [*] ev a0 b0) else UB
    | _, _ => UB
    end.
  (** expectation_value_1_3, 100-130 *)
  Definition f_so_1_3 (a b : monomial hub) : outcome R :=
    match a, b with
    | [a0], [b0; b1; b2] =>
        if (creator a0 && creator b0 && negb (creator b1) && negb (creator b2)
           && index2 a0 && negb (index2 b0) && negb (index2 b1) && index2 b2)%bool
        then
          let ret := ev b0 b1 in
          let ret := if (index1 b0 =? index1 b1)%Z then ret [-] (1 / 2) else ret in
          let ret := ret [*] ev a0 b2 in
          Ok (4 [*] ret)
        else UB
    | _, _ => UB
    end.
  (** expectation_value_3_1, 132-161 *)
  Definition f_so_3_1 (a b : monomial hub) : outcome R :=
    match a, b with
    | [a0; a1; a2], [b0] =>
        if (creator a0 && creator a1 && negb (creator a2) && negb (creator b0)
           && index2 a0 && negb (index2 a1) && negb (index2 a2) && index2 b0)%bool
        then
          let ret := ev a1 a2 in
          let ret := if (index1 a1 =? index1 a2)%Z then ret [-] (1 / 2) else ret in
          let ret := ret [*] ev a0 b0 in
          Ok (4 [*] ret)
        else UB
    | _, _ => UB
    end.
  (** expectation_value_3_3, 163-226 *)
  Definition f_so_3_3 (a b : monomial hub) : outcome R :=
    match a, b with
    | [a0; a1; a2], [b0; b1; b2] =>
        if (creator a0 && creator a1 && negb (creator a2) && creator b0 && negb (creator b1) && negb (creator b2)
           && index2 a0 && negb (index2 a1) && negb (index2 a2) && negb (index2 b0) && negb (index2 b1) && index2 b2)%bool
        then
          let ev_6 := 8 [*] ev a0 b2 [*] ev a1 a2 [*] ev b0 b1 in
          let ev_6 := ev_6 [+] (8 [*] ev a0 b2 [*] ev a1 b1
                        [*] ((if (index1 a2 =? index1 b0)%Z then 1 else 0) [-] ev b0 a2)) in
          let kronecker1 := (index1 a1 =? index1 a2)%Z in
          let kronecker2 := (index1 b0 =? index1 b1)%Z in
          let ev_4 := 0 in
          let ev_4 := if kronecker1 then ev_4 [-] (4 [*] ev a0 b2 [*] ev b0 b1) else ev_4 in
          let ev_4 := if kronecker2 then ev_4 [-] (4 [*] ev a0 b2 [*] ev a1 a2) else ev_4 in
          let ev_2 := 0 in
          let ev_2 := if (kronecker1 && kronecker2)%bool then ev_2 [+] (2 [*] ev a0 b2) else ev_2 in
          Ok (ev_6 [+] ev_4 [+] ev_2)
        else UB
    | _, _ => UB
    end.

  Variables (basis conjugate_basis : list (monomial hub)) (vector : list CR).
  (** [e(basis[i], conjugate_basis[j]) * mult(vector[i], vector[j]) / 2.] *)
  Definition f_product {A} (e : monomial hub -> monomial hub -> outcome R) (mult : R -> CR -> CR -> A)
    (i j : Z) : outcome A :=
    obind (vread basis i) (fun a => obind (vread conjugate_basis j) (fun b => obind (e a b) (fun x =>
      obind (vread vector i) (fun p => obind (vread vector j) (fun q => Ok (mult x p q)))))).
  (** the sum of two complex products in one statement, 304-309 *)
  Definition f_oplus (x y : outcome CR) : outcome summand :=
    obind x (fun a => obind y (fun b => Ok (CSum (cf_add ar a b)))).

  Definition f_zeros (T : nat) : list CR := repeat ((0, 0) : CR) T.
  Definition f_size : Z := Z.of_nat (length basis).
  Definition f_reduce : schedule -> (Z -> outcome (list summand)) -> list CR -> option (outcome (list CR)) :=
    rpar_reduce ((0, 0) : CR) fplus.
  (** std::accumulate(results.begin(), results.end(), std::complex<Float>(0.)) *)
  Definition f_accumulate (results : list CR) : CR := fold_left (cf_add ar) results ((0, 0) : CR).

  (** Basis1 operator(), 44-68, before "return result.real()"; T = omp_get_max_threads() *)
  Definition f_site_occupation1 (T : nat) (s : schedule) : option (outcome CR) :=
    pbind (f_reduce s (fun i => omap (fun j => f_product f_so1 f_with_conjugate i j) (zrange 0 f_size)) (f_zeros T))
      (fun results => Some (Ok (f_accumulate results))).

  (** Basis3 operator(), 240-326; N = basis.N; one schedule per parallel loop *)
  Definition f_symmetric_1_1 (i : Z) : outcome (list summand) :=
    obind (omap (f_product f_so_1_1 f_with_products i) (zrange 0 i)) (fun xs =>
      obind (f_product f_so_1_1 f_with_norm i i) (fun x => Ok (xs ++ [x]))).
  Definition f_symmetric_1_3 (N i : Z) : outcome (list summand) :=
    omap (f_product f_so_1_3 f_with_products i) (zrange N f_size).
  Definition f_symmetric_3_3 (N i : Z) : outcome (list summand) :=
    obind (omap (f_product f_so_3_3 f_with_products i) (zrange N i)) (fun xs =>
      obind (f_product f_so_3_3 f_with_norm i i) (fun x => Ok (xs ++ [x]))).
  Definition f_full_1_1 (N i : Z) : outcome (list summand) := omap (f_product f_so_1_1 f_with_conjugate i) (zrange 0 N).
  Definition f_full_1_3 (N i : Z) : outcome (list summand) :=
    omap (fun j => f_oplus (f_product f_so_1_3 f_conjugate_product i j) (f_product f_so_3_1 f_conjugate_product j i)) (zrange N f_size).
  Definition f_full_3_3 (N i : Z) : outcome (list summand) := omap (f_product f_so_3_3 f_with_conjugate i) (zrange N f_size).

  Definition f_site_occupation3 (exploit_inversion_symmetry : bool) (N : Z) (T : nat) (s1 s2 s3 : schedule)
    : option (outcome CR) :=
    pbind (f_reduce s1 (if exploit_inversion_symmetry then f_symmetric_1_1 else f_full_1_1 N) (f_zeros T)) (fun results =>
    pbind (f_reduce s2 (if exploit_inversion_symmetry then f_symmetric_1_3 N else f_full_1_3 N) results) (fun results =>
    pbind (f_reduce s3 (if exploit_inversion_symmetry then f_symmetric_3_3 N else f_full_3_3 N) results) (fun results =>
      Some (Ok (f_accumulate results))))).
End Occupation.
