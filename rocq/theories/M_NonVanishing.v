(** MODEL: models/hubbard_momentum_space/non_vanishing_expectation_values.hpp and particle_number.hpp.
    [K] is Float (exact).  basis[i], conjugate_basis[i][k] and states[i] outside of the size are
    undefined.  The assert comparing the two basis sizes is not modelled. *)
From Verif Require Import Base M_Operator M_Basis M_Matrix M_Dispersion M_Number M_OpenMP M_SiteOccupation M_FermiSea.
Local Open Scope list_scope.

Section NV.
  Context {Fl : Type} (lt : Fl -> Fl -> bool) (sort : list (Z * bool) -> list (Z * bool)).
  Variables (dispersion : Z -> Fl) (fermi_energy : Fl).
  Context {K : StarRing}.
  Local Open Scope ring_scope_.
  Variables basis conjugate_basis : list (monomial hub).

  (** struct NonVanishingExpectationValue, 17-24: left_index, right_index, value *)
  Definition contribution : Type := (Z * Z * K)%type.
  Let am (m : monomial hub) (s : sea) : sea := snd (apply_monomial lt sort dispersion fermi_energy m s).
  Let ao (o : op hub) (s : sea) : sea := snd (apply_operator lt sort dispersion fermi_energy o s).
  (** value += c; vanishes = false, if the state is the Fermi sea.  [acc] is (vanishes, value). *)
  Definition bump (c : K) (s : sea) (acc : bool * K) : bool * K :=
    if is_initial_fermi_sea s then (false, snd acc + c) else acc.
  (** value = c; vanishes = false *)
  Definition assign (c : K) (s : sea) (acc : bool * K) : bool * K :=
    if is_initial_fermi_sea s then (false, c) else acc.
  (** if(!vanishes) emplace_back(Contribution{i, j, value}) *)
  Definition emplace (i j : Z) (acc : bool * K) : list contribution :=
    if fst acc then [] else [(i, j, snd acc)].
  (** m[a].index1 == m[b].index1 *)
  Definition kron (m : monomial hub) (a b : Z) : outcome bool :=
    obind (vread m a) (fun x => obind (vread m b) (fun y => Ok (Z.eqb (index1 x) (index1 y)))).

  (** b_i^+ |FS>, 45-49 *)
  Definition nv_states : outcome (list sea) :=
    oconcat (fun i => obind (vread conjugate_basis i) (fun m => Ok [am m fermi_sea]))
      (zrange 0 (Z.of_nat (length basis))).
  (** b_0 b_0^+ |FS>, 51-56 *)
  Definition nv_00 (states : list sea) : outcome (list contribution) :=
    obind (vread states 0) (fun s => obind (vread basis 0) (fun b0 =>
      Ok (if is_initial_fermi_sea (am b0 s) then [(0%Z, 0%Z, 1)] else []))).
  (** b_i b_0^+ |FS>, 58-84, one i *)
  Definition nv_i0 (states : list sea) (i : Z) : outcome (list contribution) :=
    obind (vread states 0) (fun s0 => obind (vread basis i) (fun b =>
    let acc := assign (1 + 1) (am b s0) (true, 0) in
    obind (kron b 1 2) (fun kronecker =>
    if kronecker then
      obind (vread conjugate_basis 0) (fun c0 => obind (vread c0 0) (fun o0 => obind (vread b 0) (fun ob =>
        Ok (emplace i 0 (bump 1 (ao ob (ao o0 fermi_sea)) acc)))))
    else Ok (emplace i 0 acc)))).
  (** b_0 b_i^+ |FS>, 86-113, one i *)
  Definition nv_0i (states : list sea) (i : Z) : outcome (list contribution) :=
    obind (vread states i) (fun si => obind (vread basis 0) (fun b0 =>
    let acc := assign (1 + 1) (am b0 si) (true, 0) in
    obind (vread conjugate_basis i) (fun c => obind (kron c 0 1) (fun kronecker =>
    if kronecker then
      obind (vread c 2) (fun oc => obind (vread b0 0) (fun ob =>
        Ok (emplace 0 i (bump 1 (ao ob (ao oc fermi_sea)) acc))))
    else Ok (emplace 0 i acc))))).
  (** b_i b_j^+ |FS>, 115-165, one i and j *)
  Definition nv_ij (states : list sea) (i j : Z) : outcome (list contribution) :=
    obind (vread states j) (fun sj => obind (vread basis i) (fun b =>
    let acc := assign (1 + 1 + (1 + 1)) (am b sj) (true, 0) in
    obind (kron b 1 2) (fun kronecker1 =>
    obind (vread conjugate_basis j) (fun c => obind (kron c 0 1) (fun kronecker2 =>
    obind (if kronecker1 then
             obind (vread basis 0) (fun b0 => obind (vread b0 0) (fun o0 => Ok (bump (1 + 1) (ao o0 sj) acc)))
           else Ok acc) (fun acc =>
    obind (if kronecker2 then
             obind (vread states 0) (fun s0 => Ok (bump (1 + 1) (am b s0) acc))
           else Ok acc) (fun acc =>
    obind (if (kronecker1 && kronecker2)%bool then
             obind (vread c 2) (fun oc => obind (vread b 0) (fun ob =>
               Ok (bump 1 (ao ob (ao oc fermi_sea)) acc)))
           else Ok acc) (fun acc =>
    Ok (emplace i j acc))))))))).
  (** the constructor, 33-166 *)
  Definition non_vanishing : outcome (list contribution) :=
    let n := Z.of_nat (length basis) in
    obind nv_states (fun states =>
    obind (nv_00 states) (fun l1 =>
    obind (oconcat (nv_i0 states) (zrange 1 n)) (fun l2 =>
    obind (oconcat (nv_0i states) (zrange 1 n)) (fun l3 =>
    obind (oconcat (fun i => oconcat (nv_ij states i) (zrange 1 n)) (zrange 1 n)) (fun l4 =>
    Ok (l1 ++ l2 ++ l3 ++ l4)))))).

  (** the comparison of sort(), 168-180 *)
  Definition nv_less (a b : contribution) : bool :=
    (if fst (fst a) <? fst (fst b) then true
     else if fst (fst a) =? fst (fst b) then snd (fst a) <? snd (fst b)
     else false)%Z.

  (** ParticleNumber::operator(), particle_number.hpp 39-60: the accumulated complex [result];
      the returned value is its real part.  The assert on the imaginary part is not modelled. *)
  Definition pn_result (l : list contribution) (vec : list (K * K)) : outcome (K * K) :=
    ofold (fun result e =>
        let '(i, j, value) := e in
        if (i =? j)%Z
        then obind (vread vec i) (fun x => Ok (fst result + norm x * value, snd result))
        else obind (vread vec i) (fun x => obind (vread vec j) (fun y =>
               let p := multiply_with_conjugate x y in
               Ok (fst result + fst p * value, snd result + snd p * value))))
      l ((0, 0) : K * K).
End NV.
