(** NON-VACUITY for C77, C78: a chain of three sites with J = 1, U = 4 and dt = 1/100 (the default
    parameters of the shipped programs are of this kind) meets all hypotheses; the step size 2 does
    not satisfy the stability condition of the non-interacting system. *)
From Coq Require Import Reals Lra Sorting.Sorted.
From Verif Require Import Base M_Operator M_Lattice Spec_Lattice M_Basis M_Matrix M_MatrixCheck M_Ode M_Dispersion Spec_Matrix P_Matrix
  Spec_Stability P_Stability Ex_Matrix.
Local Open Scope R_scope.
Example C77_78_hypotheses :
  sorts_by_column (@isort CR) /\ shipped3 (chain_lattice 3) 3 /\ fits3 (chain_lattice 3) 3 /\
  (3 * lat_coordination (chain_lattice 3) < two64)%Z /\
  (1/100) ^ 2 * (3 * neighbours (chain_lattice 3) * Rabs 1 + Rabs 4) ^ 2 <= 8 /\
  ~ (2 ^ 2 * (neighbours (chain_lattice 3) * 1) ^ 2 <= 8).
Proof.
  split; [apply isort_ok|]. split; [constructor; split; [lia|apply big; lia]|].
  split; [vm_compute; reflexivity|]. split; [vm_compute; reflexivity|].
  unfold neighbours. cbn [lat_coordination chain_lattice]. rewrite !Rabs_pos_eq by lra. split; lra.
Qed.
(** With dt = 2 the integration of the non-interacting chain blows up for some start vector. *)
Example C77_unstable : exists m, init_kinetic_matrix (@isort CR) (real 1 : CR) (chain_lattice 3) = Ok m /\
  ~ (forall sts u, Z.of_nat (length u) = 3%Z -> norm2 (program_run 3 2 m sts u) <= norm2 u).
Proof.
  destruct C77_78_hypotheses as (H1 & H2 & _ & H3 & _ & H4).
  destruct (C77_kinetic (@isort CR) 1 (chain_lattice 3) 3 3 2 H1 H2 H3) as (m & Em & Q). exists m. split; [exact Em|]. intros C. apply H4, Q, C.
Qed.
(** An exact solution exists for the initial vector of the programs. *)
Example C78_nonvacuous : exists m y, init_matrix (@isort CR) (real 1 : CR) (real 4) (real (1/2)) (chain_lattice 3) = Ok m /\
  exact_solution 30 (entry (bm_scale imag_unit m)) y /\ y 0 0%Z = r1.
Proof.
  destruct C77_78_hypotheses as (H1 & H2 & H3 & _).
  destruct (C78_solution (@isort CR) 1 4 (chain_lattice 3) 3 [@r1 CR] H1 H2 H3) as (m & Em & y & Hy & H0 & _).
  exists m, y. split; [exact Em|]. split; [exact Hy|]. apply H0. lia.
Qed.
