(** MODEL: operator() of the Fermi jumps of the three-operator basis, models/hubbard_real_space/
    fermi_jump/1d.hpp 121-154 and fermi_jump/2d.hpp 61-94 (identical), as in M_FermiJump, with operations
    that may round (M_Rounding) and the threads of M_RoundedMeasurement. *)
From Coq Require Import Reals List ZArith.
From Verif Require Import Base M_Operator M_Basis M_Matrix M_Ode M_Dispersion M_OpenMP M_SiteOccupation M_FermiJump
  Spec_Stability M_Rounding M_RoundedMeasurement.
Local Open Scope R_scope.
Local Open Scope list_scope.

Section Jump.
  Context (ar : arith).
  Notation "a [+] b" := (f_add ar a b) (at level 50, left associativity).
  Notation "a [-] b" := (f_add ar a (- b)) (at level 50, left associativity).
  Notation "a [*] b" := (f_mul ar a b) (at level 40, left associativity).
  (** what an iteration does with h_NO[i]: "=" (1d.hpp 129, 2d.hpp 69) or "+=" (1d.hpp 142, 2d.hpp 82) *)
  Inductive jsum := JPut (z : CR) | JAdd (z : CR).
  Definition jplus (z : CR) (s : jsum) : CR := match s with JPut w => w | JAdd w => cf_add ar z w end.

  (** #pragma omp parallel for over iterations that access elements of a shared array (as par_for) *)
  Definition rpar_for {V X} (zero : V) (add : V -> X -> V) (s : schedule) (body : Z -> outcome (list (rop X))) (mem : list V)
    : option (outcome (list V)) :=
    match omap (fun its => oconcat body its) (who s) with
    | Ok progs => rrun zero add progs (trace s) mem
    | UB => Some UB
    end.

  Variable ev : op hub -> op hub -> R.
  (** one iteration of the first loop, 1d.hpp 127-145; 2d.hpp 67-85 *)
  Definition f_body (basis : list (monomial hub)) (N : Z) (h : list CR) (i : Z) : outcome (list (rop jsum)) :=
    obind (vread h i) (fun hi =>
    obind (oconcat (fun j => oconcat (fun k =>
        obind (front basis j) (fun a => obind (front basis k) (fun b =>
          let prefactor := 2 [*] ev a b in
          let prefactor := if (j =? k)%Z then prefactor [-] 1 else prefactor in
          obind (vread h (get_3op_index N i j k)) (fun x => Ok [cf_scale ar prefactor x]))))
        (zrange 0 N)) (zrange 0 N)) (fun adds =>
      Ok (RAdd (Z.to_nat i) (JPut hi) :: flat_map (fun x => rplus_assign (Z.to_nat i) (JAdd x)) adds))).
  (** the second loop and the returned std::norm, 1d.hpp 147-153; 2d.hpp 87-93 *)
  Definition f_jump_sum (coefficients h : list CR) (T : nat) (s : schedule) : option (outcome R) :=
    pbind (rpar_reduce ((0, 0) : CR) (fplus ar) s (fun i =>
        obind (vread coefficients i) (fun c => obind (vread h i) (fun x => Ok [CSum (cf_mul ar c x)]))) (repeat ((0, 0) : CR) T))
      (fun results => Some (Ok (f_norm ar (f_accumulate ar results)))).
  (** operator(); [st] is the static local h_NO as in M_FermiJump *)
  Definition f_fermi_jump3 (basis : list (monomial hub)) (N : Z) (coefficients h : list CR) (T : nat)
    (s1 s2 : schedule) (st : option (list CR)) : option (outcome (R * list CR)) :=
    let h_NO := match st with None => repeat ((0, 0) : CR) (Z.to_nat N) | Some l => l end in
    pbind (rpar_for ((0, 0) : CR) jplus s1 (f_body basis N h) h_NO) (fun h_NO' =>
    pbind (f_jump_sum coefficients h_NO' T s2) (fun r => Some (Ok (r, h_NO')))).
End Jump.
