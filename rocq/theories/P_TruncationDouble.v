(** PROPERTY C118, in double precision: the lines of the shipped coefficient program for the full model, against the true motion of the operator. *)
From Coq Require Import Reals Lra Psatz Permutation.
From Verif Require Import Base Spec_Fock M_Operator M_Lattice Spec_Lattice Pf_Lattice P_Lattice M_Basis Pf_Basis P_Basis M_Matrix M_Ode M_Dispersion M_OpenMP M_TimeLoop Spec_TimeLoop Spec_Ode Spec_Algebra Spec_Dynamics
  Pf_Matrix Spec_Matrix Pf_Matrix2 P_Matrix Spec_LatticeReal Pf_Ode Spec_Stability Pf_Stability2 P_Stability Spec_Programs M_Programs Pf_Programs P_TimeLoop P_Programs Pf_MatrixEntry P_OccupationFree Pf_Symmetry
  M_Rounding M_Double P_Rounding M_RoundedMeasurement M_DoublePrograms Spec_DoublePrograms Pf_DoublePrograms P_DoublePrograms P_ParticleHoleDouble P_DoublePrograms2 Ex_Matrix Ex_Programs Spec_Truncation Pf_Truncation P_Truncation.
Local Open Scope R_scope.
Local Open Scope list_scope.
Local Notation len u := (Z.of_nat (length u)).

Theorem C118_coefficients_double : forall sort garbage N J U dt t_end interval steps mode M X,
  sorts_by_column sort -> (3 <= N)%Z -> fits3 (chain_lattice N) N -> is_double J -> is_double (U / 2) -> double_times garbage dt t_end interval steps ->
  numbers_orbitals mode N -> orbitals_below mode N M ->
  let L := 6 * Rabs J + Rabs U in L <= 2 ^ 500 -> dt ^ 2 * L ^ 2 <= 8 ->
  heisenberg M (terms_elem mode (H_kin (chain_lattice N) (real J : CR) ++ H_int (chain_lattice N) (real U))) X ->
  (forall s u, In s (fock M) -> In u (fock M) -> X 0 s u = terms_elem mode (B1 0) s u) ->
  exists h, terminates_with (f_coefficients_full garbage sort N J U dt t_end interval)
      (Ok (map (fun k => (time_at (to_double garbage) dt k, h k)) (written interval steps))) /\
    forall k, (k <= steps)%nat -> let t := INR k * dt in
      hilbert_schmidt M (fun s u => @rsub CR (terms_elem mode (vec_op (basis3 (chain_lattice N)) (h k)) s u) (X t s u))
      <= (3 / 2 * U ^ 2 * Rabs J * t ^ 3 + t * dt ^ 4 * L ^ 5 / 120 + INR k / 2 ^ 40) * hilbert_schmidt M (terms_elem mode (B1 0)).
Proof.
  intros sort garbage N J U dt t_end interval steps mode M X Hs HN Hf HJ HU Ht Hm Hb L HL Hd HX X0.
  assert (Hf' := Hf). unfold fits3 in Hf'. cbn [lat_coordination chain_lattice] in Hf'. assert (Hl : shipped3 (chain_lattice N) N) by (constructor; nia).
  destruct (C94_coefficients_full sort garbage N J U dt t_end interval steps Hs HN Hf HJ HU Ht HL Hd) as (m & y & h & Em & Y & Te & _ & S1). exists h. split; [exact Te|].
  intros k Hk t. destruct (S1 k Hk) as (_ & Lk & D). fold t in D. fold L in D.
  assert (Hdt : 0 <= dt) by (destruct Ht; lra).
  assert (H0 : 0 <= t) by (apply Rmult_le_pos; [apply pos_INR|exact Hdt]).
  eapply Rle_trans; [apply (hs_triangle M _ (Am (K := CR) mode (basis3 (chain_lattice N)) (N + N * N * N) (y t)))|].
  pose proof (hs_of_coefficients _ N mode M Hl Hf Hm Hb _ (y t) Lk) as HC. rewrite HC, (start_length _ N mode M Hl Hf Hm Hb).
  pose proof (motion_bound sort J U _ N mode M Hs Hl Hf Hm Hb m Em y Y X HX X0 t H0) as MB.
  assert (Z : neighbours (chain_lattice N) = 2) by reflexivity. rewrite Z in MB.
  pose proof (Rmult_le_compat_l _ _ _ (sqrt_pos (c2r M)) D) as Q'.
  match type of MB with ?a <= _ => match goal with |- _ + ?b <= _ => change b with a end end. lra.
Qed.

(** the chain of four sites, J = 1, U = 2, 4 steps of 1/64 *)
Example C118_double_example : forall garbage, exists X h,
  heisenberg 8 (terms_elem orbital (H_kin (chain_lattice 4) (real 1 : CR) ++ H_int (chain_lattice 4) (real 2))) X /\
  terminates_with (f_coefficients_full garbage isort 4 1 2 (/ 64) (1 / 16) 2) (Ok (map (fun k => (time_at (to_double garbage) (/ 64) k, h k)) (written 2 4))) /\
  hilbert_schmidt 8 (fun s u => @rsub CR (terms_elem orbital (vec_op (basis3 (chain_lattice 4)) (h 4%nat)) s u) (X (1 / 16) s u)) <= 16 / 10000 * hilbert_schmidt 8 (terms_elem orbital (B1 0)).
Proof.
  intros garbage. assert (T : (4 < two64)%Z) by reflexivity. assert (Hl : shipped3 (chain_lattice 4) 4) by (constructor; lia). assert (Hf : fits3 (chain_lattice 4) 4) by (unfold fits3; apply big; reflexivity).
  destruct (C118_motion 1 2 _ 4 orbital 8 (terms_elem orbital (B1 0)) Hl (orbital_below 4)) as (X & HX & X0 & _).
  destruct (C118_coefficients_double isort garbage 4 1 2 (/ 64) (1 / 16) 2 4 orbital 8 X isort_ok ltac:(lia) Hf) as (h & Te & Q); try assumption.
  - change 1 with (IZR 1). apply double_int. lia.
  - replace (2 / 2) with (IZR 1) by (cbn; field). apply double_int. lia.
  - apply example_times.
  - apply orbital_numbers.
  - apply (orbital_below 4).
  - rewrite Rabs_R1, Rabs_pos_eq by lra. pose proof (Rle_pow 2 4 500 ltac:(lra) ltac:(lia)). lra.
  - rewrite Rabs_R1, Rabs_pos_eq by lra. lra.
  - exists X, h. split; [exact HX|]. split; [exact Te|]. specialize (Q 4%nat ltac:(lia)). cbv zeta in Q. replace (INR 4 * / 64) with (1 / 16) in Q by (cbn; lra).
    eapply Rle_trans; [exact Q|]. apply Rmult_le_compat_r; [apply sqrt_pos|]. rewrite Rabs_R1, (Rabs_pos_eq 2) by lra. cbn [INR]. lra.
Qed.
