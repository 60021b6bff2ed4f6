(** EXAMPLES for C50 and C82: the default parameters of the program. *)
From Coq Require Import Reals Lra.
From Verif Require Import Base M_Operator M_Lattice Spec_Lattice M_LatticeReal Spec_LatticeReal M_Basis Pf_Basis M_Matrix M_Ode M_Dispersion M_FermiSea M_NonVanishing
  Spec_Stability P_Momentum Spec_ParticleNumber P_ParticleNumber Spec_MomentumProgram M_MomentumProgram Pf_MomentumProgram P_MomentumProgram.
Local Open Scope R_scope.
Local Open Scope list_scope.

Definition same (l : list (Z * bool)) := l.
(** N = 16, J = U = 1, dt = 0.01 *)
Example C82_hypotheses : (forall l : list (Z * bool), Permutation (same l) l) /\ (0 < 16)%Z /\ (16 * (1 + 3 * 16) < two64)%Z /\
  Permutation (seq 0 (Z.to_nat (1 + 16 * 16))) (seq 0 (Z.to_nat (1 + 16 * 16))) /\
  0 <= / 100 /\ (/ 100) ^ 2 * (6 * Rabs 1 + Rabs 1) ^ 2 <= 8.
Proof. split; [reflexivity|]. split; [lia|]. split; [reflexivity|]. split; [reflexivity|]. split; [lra|]. rewrite Rabs_R1. lra. Qed.
(** the first number printed is one; the second is the particle number of the exact solution at
    t = 0.08 with an error below 0.0001 *)
Example C82_default : forall t_end measurement_interval, exists y p8,
  exact_solution 257 (generator 16 1 1) y /\
  terminates_with (momentum_program same (seq 0 257) (mkSt (K := CR) [] [] [] []) 16 1 1 (/ 100) t_end measurement_interval) (Ok (1, p8)) /\
  Rabs (p8 - particle_number_form (K := Rring) 16 8 (below_fermi 16 1) (y (8 * / 100))) <= / 10000.
Proof.
  intros t_end mi. destruct C82_hypotheses as (H1 & H2 & H3 & H4 & H5 & H6).
  destruct (C82_convergence same (seq 0 257) (mkSt (K := CR) [] [] [] []) 16 1 1 (/ 100) t_end mi H1 H2 H3 H4 H5 H6) as (y & p0 & p8 & Ey & _ & _ & Ht & _ & Er).
  destruct (C82_completes same (seq 0 257) (mkSt (K := CR) [] [] [] []) 16 1 1 (/ 100) t_end mi H1 H2 H3 H4) as (p0' & p8' & Ht' & E0 & _).
  assert (Q : p0' = p0 /\ p8' = p8).
  { destruct Ht as (a & Ht), Ht' as (b & Ht'). specialize (Ht (a + b)%nat ltac:(lia)). specialize (Ht' (a + b)%nat ltac:(lia)). rewrite Ht in Ht'. injection Ht' as -> ->. split; reflexivity. }
  destruct Q as [-> ->]. exists y, p8. split; [exact Ey|].
  assert (B : band 16 1 (center 16) = -2 * 1) by apply (C82_center 8 1 ltac:(lia)). rewrite B in E0.
  destruct (Rlt_dec (-2 * 1) 0) as [_|C]; [|lra]. subst p0. split; [exact Ht|]. eapply Rle_trans; [exact Er|]. rewrite Rabs_R1. cbn. lra.
Qed.
(** two momenta, momentum 0 occupied: the values for the coefficients (1, i) of elements 0 and 1 *)
Example C50_form_example : particle_number_form (K := Rring) 2 0 (fun k => Z.eqb k 0) (fun i => if Z.eqb i 0 then (1, 0) else if Z.eqb i 1 then (0, 1) else (0, 0)) = 10 :> R.
Proof. cbv -[Rplus Rmult IZR Ropp Rminus]. ring. Qed.
