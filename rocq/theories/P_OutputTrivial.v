(** PROPERTY C122, continued: trivial.txt. *)
From Coq Require Import Reals Lra Psatz Permutation Ascii String Sorted.
From Flocq Require Import Core.
From Verif Require Import Base M_Operator M_Lattice Spec_Lattice Pf_Lattice Spec_LatticeReal M_Basis Pf_Basis P_Basis M_Matrix M_Ode M_Dispersion M_OpenMP Spec_OpenMP M_Expectation P_Expectation M_SiteOccupation Pf_SiteOccupation P_SiteOccupation
  M_TimeLoop Spec_TimeLoop Pf_Matrix Spec_Matrix Pf_Matrix2 P_Matrix Spec_Stability Pf_Stability Pf_Stability2 Pf_Stability3 P_Stability Spec_Programs M_Programs Pf_Programs Pf_Programs2 P_Programs
  M_Rounding M_Double P_Rounding M_RoundedMeasurement Pf_RoundedMeasurement5 P_RoundedMeasurement P_RoundedMeasurement2 P_RoundedMeasurement4 M_DoublePrograms Pf_DoubleTime Spec_DoublePrograms Pf_DoublePrograms P_DoublePrograms.
From Verif Require Import M_Text M_Io Spec_Text M_Cli P_Io P_Cli M_Ostream Spec_Numeral P_Ostream M_OutputFile Spec_Table P_OutputFile P_DoublePrograms2 P_OutputPrograms.
From Verif Require Import M_LatticeReal P_DispersionProgram Spec_MomentumProgram M_DispersionProgram M_DoubleDispersion Spec_DoubleDispersion M_DoubleDispersionProgram P_DoubleDispersionProgram Ex_Matrix Ex_Io.
From Verif Require Import Spec_RoundedMeasurement Spec_Bessel M_Theory Spec_TheoryProgram M_TheoryProgram P_Theory P_Checkpoint P_TheoryProgram P_OutputPrograms2.
From Verif Require Import Spec_Trivial M_Trivial P_Trivial M_DoubleTrivial P_DoubleTrivial.
Import ListNotations.
Local Open Scope R_scope.
Local Open Scope list_scope.
Local Notation len u := (Z.of_nat (length u)).

(** ** hubbard_trivial with its shipped parameters: 2001 rows of eleven numbers; row k holds the time k/100 and the exact coefficients at that
    time, to six digits *)
Theorem C122_trivial : forall garbage, exists t y, table (flat_map trivial_line (double_trivial garbage 1 1 trivial_dt 2000)) = Some t /\ length t = 2001%nat /\
  exact_solution 4 (small_generator 1 1) y /\ (forall i, (0 <= i < 4)%Z -> y 0 i = if Z.eqb i 0 then real 1 else real 0) /\
  forall k, (k <= 2000)%nat -> let r := nth k t [] in length r = 11%nat /\
    Rabs (nth 0 r 0 - INR k / 100) <= / 10 ^ 13 + 5 / 1000000 * (Rabs (INR k / 100) + / 10 ^ 13) /\
    forall i, (0 <= i < 4)%Z -> let v := y (INR k * trivial_dt) i in
      Rabs (nth (Z.to_nat (1 + 2 * i)) r 0 - fst v) <= / 10 ^ 6 + 5 / 1000000 * (Rabs (fst v) + / 10 ^ 6) /\
      Rabs (nth (Z.to_nat (2 + 2 * i)) r 0 - snd v) <= / 10 ^ 6 + 5 / 1000000 * (Rabs (snd v) + / 10 ^ 6).
Proof.
  intros garbage. destruct (C104_shipped garbage) as (Len & y & Hy & Y0 & H). cbv zeta in Len, H. set (out := double_trivial garbage 1 1 trivial_dt 2000) in *.
  destruct (C122_trivial_read_back out) as (t & Et & Ft). exists t, y. split; [exact Et|]. split; [rewrite <- (same_length Ft); exact Len|]. split; [exact Hy|]. split; [exact Y0|].
  intros k Hk r. destruct (H k Hk) as (tm & h & n & E & L4 & Tm & Dm).
  assert (F : Forall2 near6 (tm :: parts (h ++ [n])) r).
  { unfold r. clear -Ft E. revert k E. induction Ft as [|m r t1 t2 Hr _ IH]; intros k E; [destruct k; discriminate|]. destruct k as [|k]; [injection E as ->; exact Hr|]. exact (IH k E). }
  assert (Lp : length (parts (h ++ [n])) = 10%nat) by (rewrite parts_length, app_length; refine (eq_trans (f_equal (fun a => (2 * (a + length [n]))%nat) L4) _); reflexivity).
  split; [rewrite <- (same_length F); cbn [length]; rewrite Lp; reflexivity|]. split.
  - pose proof (near_nth _ _ 0 F ltac:(cbn [length]; lia)) as Q. exact (near6_close _ _ _ _ Q Tm).
  - intros i Hi v. assert (Hi' : (0 <= i < len h)%Z) by (rewrite L4; exact Hi). destruct (part_close h (y (INR k * trivial_dt)) i Hi') as [C1 C2].
    destruct (parts_nth (h ++ [n]) (Z.to_nat i)) as [P1 P2]. rewrite app_nth1 in P1, P2 by lia.
    assert (G : forall j x w, (j < length (tm :: parts (h ++ [n])))%nat -> nth j (tm :: parts (h ++ [n])) 0 = x -> Rabs (x - w) <= distance2 h (y (INR k * trivial_dt)) -> Rabs (nth j r 0 - w) <= / 10 ^ 6 + 5 / 1000000 * (Rabs w + / 10 ^ 6)).
    { intros j x w Hj Ex Cx. pose proof (near_nth _ _ j F Hj) as Q. rewrite Ex in Q. apply (near6_close x); [exact Q|]. eapply Rle_trans; [exact Cx|exact Dm]. }
    split.
    + apply (G _ (fst (vget h i))); [cbn [length]; rewrite Lp; lia| |exact C1]. replace (Z.to_nat (1 + 2 * i)) with (S (2 * Z.to_nat i)) by lia. exact P1.
    + apply (G _ (snd (vget h i))); [cbn [length]; rewrite Lp; lia| |exact C2]. replace (Z.to_nat (2 + 2 * i)) with (S (2 * Z.to_nat i + 1)) by lia. exact P2.
Qed.
