(** EXAMPLES for C88: the chain with N = 4 and the square with 3 x 3 sites, J = U = 1, dt = 1/10,
    t_end = 1, a measurement every 5 steps. *)
From Coq Require Import Reals Lra.
From Verif Require Import Base M_Operator M_Lattice Spec_Lattice M_LatticeReal Spec_LatticeReal M_Basis Pf_Basis M_Matrix M_Ode M_Dispersion M_OpenMP Spec_OpenMP M_SiteOccupation Spec_Matrix P_Matrix Spec_Stability Spec_TimeLoop P_TimeLoop Spec_Programs M_Programs P_Programs
  M_JumpPrograms Spec_JumpPrograms P_JumpPrograms Ex_Matrix Ex_SiteOccupation Ex_Programs.
Local Open Scope R_scope.
Local Open Scope list_scope.

Example C88_hypotheses : fits3 (square_lattice 3 3) (3 * 3) /\ (/ 10) ^ 2 * (12 * Rabs 1 + Rabs 1) ^ 2 <= 8 /\
  shares 2 0 9 (mkSch (two_threads 0 5 9) [1]%nat) /\
  shared_jump 9 (fun k => mkMeasurement 2 (mkSch (two_threads 0 4 9) [k]) (mkSch (two_threads 0 2 9) []) (mkSch (two_threads 0 4 9) [])).
Proof.
  split; [unfold fits3; apply big; reflexivity|]. split; [rewrite Rabs_R1; lra|]. split; [apply two_shares; lia|].
  intros k. cbn [threads loop1 loop2]. split; apply two_shares; lia.
Qed.
(** the three lines of the 2d program; the first value is 1 *)
Example C88_example : forall st,
  exists m y o, init_matrix isort (real 1 : CR) (real 1) (real (1/2)) (square_lattice 3 3) = Ok m /\
    the_solution 738 (entry (bm_scale imag_unit m)) y /\
    terminates_with (jump_2d isort (fun x => x) st (mkSch (two_threads 0 5 9) [1]%nat)
      (fun k => mkMeasurement 2 (mkSch (two_threads 0 4 9) [k]) (mkSch (two_threads 0 2 9) []) (mkSch (two_threads 0 4 9) []))
      3 3 1 1 (PI / 2, PI / 2) (/ 10) 1 5) (Ok o) /\
    (forall r, o = Some r -> exists x5 x10, r = Ok [(0, 1); (1/2, x5); (1, x10)] /\ 0 <= x5 /\ 0 <= x10).
Proof.
  intros st. destruct C86_hypotheses as (H1 & _). destruct C88_hypotheses as (H2 & H3 & H4 & H5).
  destruct (C88_square isort (fun x => x) 0 st 2 _ _ 3 1 1 (PI / 2) (PI / 2) (/ 10) 1 5 10 isort_ok ltac:(lia) H2 H1 H4 H5 H3) as (m & y & o & Em & Y & Te & O).
  exists m, y, o. split; [exact Em|]. split; [exact Y|]. split; [exact Te|].
  intros r Er. destruct (O r Er) as (x & -> & X0 & X). exists (x 5%nat), (x 10%nat). split; [|split; apply X].
  rewrite C86_lines. cbn [map]. rewrite !exact_time, X0.
  replace (INR 0 * / 10) with 0 by (cbn; lra). replace (INR 5 * / 10) with (1/2) by (cbn; lra). replace (INR 10 * / 10) with 1 by (cbn; lra). reflexivity.
Qed.
