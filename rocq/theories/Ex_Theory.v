(** NON-VACUITY for C79: the hypotheses hold for the 128 sites and dt = 0.01 of the program, and
    the bounds are useful: up to t = 2 a chain of 16 sites is within 1/100. *)
From Coq Require Import Reals Lra.
From Verif Require Import Base M_Operator M_Lattice M_Basis M_Matrix M_Ode M_Dispersion M_OpenMP Spec_OpenMP Spec_Matrix
  Spec_Stability P_Stability Spec_Theory M_Theory P_Theory Ex_Matrix Ex_SiteOccupation.
Local Open Scope R_scope.
Example C79_hypotheses :
  sorts_by_column (@isort CR) /\ (3 <= 128)%Z /\ (128 * 2 < two64)%Z /\ (1/100) ^ 2 <= 2 /\
  (exists u, init_vector (K := CR) 128 = Ok u) /\ (forall t, shares 2 0 128 (mkSch (two_threads 0 50 128) t)).
Proof.
  split; [apply isort_ok|]. split; [lia|]. split; [vm_compute; reflexivity|]. split; [lra|]. split; [eexists; reflexivity|].
  intros t. apply two_shares. lia.
Qed.
Example C79_bound_16 : ring_bound 16 2 <= 1 / 100.
Proof. unfold ring_bound. change (Z.to_nat (16 / 2)) with 8%nat. cbn [Z.even]. rewrite !fact_simpl, !mult_INR, !INR_IZR_INZ. cbn [Z.of_nat Pos.of_succ_nat Pos.succ fact]. lra. Qed.
Example C79_run : exists m, init_kinetic_matrix (@isort CR) (real 1 : CR) (chain_lattice 16) = Ok m /\
  exists u, init_vector (K := CR) 16 = Ok u /\
  forall sts, length sts = 200%nat -> distance2 (program_run 16 (1/100) m sts u) (h_val 16 2) <= 2 / 100.
Proof.
  destruct C79_hypotheses as (H1 & _). assert (Hu : exists u, init_vector (K := CR) 16 = Ok u) by (eexists; reflexivity). destruct Hu as (u & Hu).
  destruct (C79_programs (@isort CR) 16 16 (1/100) u H1 ltac:(lia) ltac:(vm_compute; reflexivity) ltac:(lra) ltac:(lra) Hu) as (m & Em & Q).
  exists m. split; [exact Em|]. exists u. split; [exact Hu|]. intros sts L. specialize (Q sts). rewrite L in Q. cbv zeta in Q.
  replace (INR 200 * (1 / 100)) with 2 in Q by (replace (INR 200) with 200 by (rewrite INR_IZR_INZ; reflexivity); lra).
  eapply Rle_trans; [exact Q|]. pose proof C79_bound_16. lra.
Qed.
