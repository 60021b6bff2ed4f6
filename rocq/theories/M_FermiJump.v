(** MODEL: models/hubbard_real_space/fermi_jump/1d.hpp, fermi_jump/2d.hpp and fermi_jump_no.hpp.
    [F] is Float (exact), std::complex are pairs; [cs] and [sn] are std::cos and std::sin.
    std::vector::operator[] and the vectors' operator[] outside of the size are undefined. *)
From Verif Require Import Base M_Operator M_Basis M_Matrix M_Ode M_Dispersion M_OpenMP M_SiteOccupation.
Local Open Scope list_scope.

Section FJ.
  Context {F : StarRing}.
  Local Open Scope ring_scope_.
  Let CF := cplx_ring F.
  Variables cs sn : F -> F.

  (** the loop filling _fourier_coefficients: 1d.hpp 50-54, 105-111; 2d.hpp 45-51; fermi_jump_no.hpp
      54-58, 112-116; [phase i] is [prod] *)
  Definition fill (s : schedule) (phase : Z -> outcome F) (table : list CF) : option (outcome (list CF)) :=
    par_for (K := CF) s (fun _ i => obind (phase i) (fun x => Ok [Put (Z.to_nat i) ((cs x, sn x) : CF)])) table.

  (** FermiJump1D<Float, Basis1Operator> (1d.hpp 45-55) and both FermiJump1D_NO (fermi_jump_no.hpp
      47-59, 105-117): the table only gets a capacity (reserve), its size stays 0 *)
  Definition ctor_reserve (s : schedule) (k_F : F) (pos : Z -> F) : option (outcome (list CF)) :=
    fill s (fun i => Ok (k_F * pos i)) [].
  (** FermiJump1D<Float, Basis3Operator>, 1d.hpp 99-112; N = basis.N *)
  Definition ctor_1d (N : Z) (s : schedule) (k_F : F) (pos : Z -> F) : option (outcome (list CF)) :=
    fill s (fun i => Ok (k_F * pos i)) (zeros (Z.to_nat N)).
  (** basis[i].front() *)
  Definition front (basis : list (monomial hub)) (i : Z) : outcome (op hub) :=
    obind (vread basis i) (fun m => match m with o :: _ => Ok o | [] => UB end).
  (** FermiJump2D<Float, Basis3Operator>, 2d.hpp 39-52 *)
  Definition ctor_2d (basis : list (monomial hub)) (N : Z) (s : schedule) (k_F : F * F) (pos : Z -> F * F)
    : option (outcome (list CF)) :=
    fill s (fun i => obind (front basis i) (fun o =>
      Ok (fst k_F * fst (pos (index1 o)) + snd k_F * snd (pos (index1 o))))) (zeros (Z.to_nat N)).

  (** the second loop and the returned std::norm: 1d.hpp 62-70, 146-152; 2d.hpp 84-90;
      fermi_jump_no.hpp 65-72, 124-132.  T = omp_get_max_threads() *)
  Definition jump_sum (coefficients h : list CF) (T : nat) (s : schedule) : option (outcome F) :=
    pbind (par_reduce (K := CF) s (fun i =>
        obind (vread coefficients i) (fun c => obind (vread h i) (fun x => Ok [(c : CF) * x]))) (zeros T))
      (fun results => Some (Ok (norm (accumulate (K := CF) results)))).

  (** operator() of the three-operator classes, 1d.hpp 117-153 and 2d.hpp 57-91 (identical).
      [st] is the static local h_NO: None before the first call, afterwards its content; the
      returned list is its new content.  [ev] is _expectation_value. *)
  Variable ev : op hub -> op hub -> F.
  Definition body (basis : list (monomial hub)) (N : Z) (h : list CF) (i : Z) : outcome (list (mop CF)) :=
    obind (vread h i) (fun hi =>
    obind (oconcat (fun j => oconcat (fun k =>
        obind (front basis j) (fun a => obind (front basis k) (fun b =>
          let prefactor := two * ev a b in
          let prefactor := if (j =? k)%Z then prefactor - 1 else prefactor in
          obind (vread h (get_3op_index N i j k)) (fun x => Ok [fmul prefactor x : CF]))))
        (zrange 0 N)) (zrange 0 N)) (fun adds =>
      Ok (Put (Z.to_nat i) (hi : CF) :: flat_map (plus_assign (Z.to_nat i)) adds))).
  Definition fermi_jump3 (basis : list (monomial hub)) (N : Z) (coefficients h : list CF) (T : nat)
    (s1 s2 : schedule) (st : option (list CF)) : option (outcome (F * list CF)) :=
    let h_NO := match st with None => zeros (Z.to_nat N) | Some l => l end in
    pbind (par_for (K := CF) s1 (fun _ => body basis N h) h_NO) (fun h_NO' =>
    pbind (jump_sum coefficients h_NO' T s2) (fun r => Some (Ok (r, h_NO')))).
End FJ.

(** a program evaluating the Fermi jump of several objects (with vectors of one type) one after
    another: they share the static local *)
Section Calls.
  Context {F : StarRing}.
  Record call := mkCall {
    c_ev : op hub -> op hub -> F; c_basis : list (monomial hub); c_N : Z; c_coefficients : list (F * F);
    c_h : list (F * F); c_threads : nat; c_s1 : schedule; c_s2 : schedule }.
  Definition evaluate (c : call) (st : option (list (cplx_ring F))) : option (outcome (F * list (cplx_ring F))) :=
    fermi_jump3 (c_ev c) (c_basis c) (c_N c) (c_coefficients c) (c_h c) (c_threads c) (c_s1 c) (c_s2 c) st.
  Fixpoint evaluations (cs : list call) (st : option (list (cplx_ring F))) : option (outcome (list F)) :=
    match cs with
    | [] => Some (Ok [])
    | c :: cs' => pbind (evaluate c st) (fun p => pbind (evaluations cs' (Some (snd p))) (fun rs => Some (Ok (fst p :: rs))))
    end.
End Calls.
Arguments call F : clear implicits.
