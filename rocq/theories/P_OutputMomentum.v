(** PROPERTY C122, continued: the output of hubbard_momentum_1d_rk4. *)
From Coq Require Import Reals Lra Psatz List ZArith Lia Ascii String.
From Flocq Require Import Core.
From Verif Require Import Base M_Operator M_Lattice Spec_Lattice Pf_Lattice M_LatticeReal Spec_LatticeReal M_Basis Pf_Basis M_Matrix M_Ode M_Dispersion M_OpenMP M_SiteOccupation M_FermiSea M_NonVanishing Spec_Ode
  Pf_Matrix Pf_Matrix2 Pf_MatrixEntry P_Dispersion Spec_Matrix Pf_Ode P_Ode Pf_NonVanishing P_NonVanishing P_Momentum Spec_ParticleNumber P_ParticleNumber P_Dynamics
  Spec_Stability Pf_Stability Pf_Stability2 Pf_Stability3 Pf_Solution P_Stability Pf_Arrow Spec_MomentumProgram M_MomentumProgram Pf_MomentumProgram P_MomentumProgram
  M_Rounding M_RoundedMeasurement Spec_Rounding Pf_Rounding4 Pf_Rounding5 P_Rounding M_Double Pf_Double M_LatticeDouble P_LatticeDouble M_DoubleDispersion Spec_DoubleDispersion P_DoubleDispersion M_DoubleMomentum
  Pf_DoubleMomentum4 Pf_DoubleMomentum6 Pf_DoubleMomentum7 Pf_DoubleMomentum8 P_DoubleMomentum.
From Verif Require Import M_Text M_Io Spec_Text M_Ostream Spec_Numeral P_Ostream M_OutputFile Spec_Table P_OutputFile P_OutputPrograms.
Import ListNotations.
Local Open Scope R_scope.
Local Open Scope list_scope.

(** The two lines the program prints are read back as two numbers, the first of them without any error *)
Lemma momentum_read (p0 p8 : R) : p0 = 0 \/ p0 = 1 -> exists b, table (momentum_output (p0, p8)) = Some [[p0]; [b]] /\ near6 p8 b.
Proof.
  intros H0. destruct (table_read [] [(p0, []); (p8, [])] ltac:(constructor)) as (t & Et & Ft).
  inversion Ft as [|? r ? t1 Hr Ft1]; subst. inversion Ft1 as [|? r' ? t2 Hr' Ft2]; subst. inversion Ft2; subst. cbn [fst snd] in Hr, Hr'.
  inversion Hr as [|? a ? u Ha Hu]; subst. inversion Hu; subst. inversion Hr' as [|? b ? u Hb Hu']; subst. inversion Hu'; subst.
  assert (Ea : a = p0).
  { unfold shown in Ha. destruct H0 as [-> | ->].
    - pose proof (C121_exact 0 0 ltac:(lia)) as Q. replace (0 * powerRZ 10 0) with 0 in Q by (cbn; ring). rewrite Ha in Q. injection Q as ->. reflexivity.
    - pose proof (C121_exact 1 0 ltac:(lia)) as Q. replace (1 * powerRZ 10 0) with 1 in Q by (cbn; ring). rewrite Ha in Q. injection Q as ->. reflexivity. }
  subst a. exists b. split.
  - rewrite <- Et. f_equal. unfold momentum_output, file, number_row. cbn [flat_map map app fst snd]. rewrite !app_nil_r. rewrite <- !app_assoc. reflexivity.
  - destruct (C121_error p8) as (z & E & N). unfold shown in Hb. rewrite Hb in E. injection E as <-. exact N.
Qed.
Theorem C122_momentum : forall garbage fcos sort order N J U dt t_end measurement_interval occ,
  accurate_cosine fcos -> (forall l, Permutation (sort l) l) -> Permutation order (seq 0 (Z.to_nat (1 + N * N))) ->
  (0 < N <= 2 ^ 12)%Z -> Rabs J <= 2 ^ 400 -> Rabs U <= 2 ^ 400 -> / 2 ^ 1000 <= dt <= 2 ^ 100 ->
  dt ^ 2 * (7 * Rabs J + (IZR N + 2) * Rabs U / 2 + / 2 ^ 1000) ^ 2 <= 8 ->
  (forall k, (0 <= k < N)%Z -> exists energy, vread (double_table garbage fcos N J) k = Ok energy /\ (occ k = true <-> energy < 0)) ->
  let E := 3 * (1 + 9 * IZR N) * (8 * ((dt * (6 * Rabs J + Rabs U)) ^ 5 / 120)) + IZR N * IZR N * IZR N / 2 ^ 30 in
  exists y p a b,
    exact_solution (1 + N * N) (generator N J U) y /\
    (forall i, (0 <= i < 1 + N * N)%Z -> y 0 i = if Z.eqb i 0 then real 1 else real 0) /\
    terminates_with (double_momentum_program garbage fcos sort order N J U dt t_end measurement_interval) (Ok p) /\
    table (momentum_output p) = Some [[a]; [b]] /\ a = (if occ (center N) then 1 else 0) /\
    let exact := particle_number_form (K := Rring) N (center N) occ (y (8 * dt)) in Rabs (b - exact) <= E + 5 / 1000000 * (Rabs exact + E).
Proof.
  intros garbage fcos sort order N J U dt t_end mi occ H1 H2 H3 H4 H5 H6 H7 H8 H9 E.
  destruct (C99_program garbage fcos sort order N J U dt t_end mi occ H1 H2 H3 H4 H5 H6 H7 H8 H9) as (y & p0 & p8 & Y1 & Y2 & _ & T & E0 & E8).
  destruct (momentum_read p0 p8) as (b & Et & Nb); [destruct (occ (center N)); [right|left]; exact E0|].
  exists y, (p0, p8), p0, b. split; [exact Y1|]. split; [exact Y2|]. split; [exact T|]. split; [exact Et|]. split; [exact E0|]. exact (near6_close _ _ _ _ Nb E8).
Qed.
(** 16 momenta, the sea computed with rounded energies: the hypotheses are those of C99_example *)
Example C122_momentum_example : forall garbage, exists y p b, exact_solution 257 (generator 16 1 1) y /\
  terminates_with (double_momentum_program garbage rounded_cosine (fun l => l) (seq 0 257) 16 1 1 (/ 100) 1 1) (Ok p) /\
  table (momentum_output p) = Some [[1]; [b]] /\
  Rabs (b - particle_number_form (K := Rring) 16 8 (fun i => (4 <=? i)%Z && (i <=? 12)%Z)%bool (y (8 * / 100))) <= / 10000 + 5 / 1000000 * (Rabs (particle_number_form (K := Rring) 16 8 (fun i => (4 <=? i)%Z && (i <=? 12)%Z)%bool (y (8 * / 100))) + / 10000).
Proof.
  intros garbage. destruct (C99_example garbage) as (y & p8 & Y & T & E). destruct (momentum_read 1 p8 (or_intror eq_refl)) as (b & Et & Nb).
  exists y, (1, p8), b. split; [exact Y|]. split; [exact T|]. split; [exact Et|]. exact (near6_close _ _ _ _ Nb E).
Qed.
