(** EXAMPLES for C86 and C87: N = 4, J = U = 1, dt = 1/10, t_end = 1, a measurement every 5 steps. *)
From Coq Require Import Reals Lra.
From Verif Require Import Base M_Operator M_Lattice Spec_Lattice M_LatticeReal Spec_LatticeReal M_Basis Pf_Basis M_Matrix M_Ode M_Dispersion M_OpenMP Spec_OpenMP M_SiteOccupation Spec_Matrix P_Matrix Spec_Stability Spec_TimeLoop P_TimeLoop Spec_Programs M_Programs P_Programs
  Ex_Matrix Ex_SiteOccupation.
Local Open Scope R_scope.
Local Open Scope list_scope.

Example C86_hypotheses : times_ok (fun x => x) 0 (/ 10) 1 5 10 /\ fits3 (chain_lattice 4) 4 /\ (4 * 2 < two64)%Z /\
  (/ 10) ^ 2 * (6 * Rabs 1 + Rabs 1) ^ 2 <= 8 /\ (/ 10) ^ 2 * (2 * Rabs 1) ^ 2 <= 8 /\
  shared_full 4 (fun k => mkMeasurement 2 (mkSch (two_threads 0 1 4) [k]) (mkSch (two_threads 0 2 4) []) (mkSch (two_threads 4 30 68) [])).
Proof.
  split; [|split; [unfold fits3; apply big; reflexivity|split; [apply big; reflexivity|split; [rewrite Rabs_R1; lra|split; [rewrite Rabs_R1; lra|]]]]].
  - split; [lra|]. split; [lra|]. split; [exact exact_rounding|]. split; [lra|]. split; [apply big; reflexivity|]. split; [lia|]. split.
    + rewrite exact_time. cbn. lra.
    + intros k Hk. rewrite exact_time. assert (INR k <= 9) by (replace 9 with (INR 9) by (cbn; lra); apply le_INR; lia). lra.
  - intros k. cbn [threads loop1 loop2 loop3]. split; [apply two_shares; lia|]. split; apply two_shares; lia.
Qed.
(** three lines: t = 0, 0.5, 1 *)
Example C86_lines : written 5 10 = [0; 5; 10]%nat.
Proof. reflexivity. Qed.
(** with two threads: the lines of the program; the first value is the filling *)
Example C87_example : forall st (order : list nat), Permutation order (seq 0 68) ->
  exists m y o, init_matrix isort (real 1 : CR) (real 1) (real (1/2)) (chain_lattice 4) = Ok m /\
    the_solution 68 (entry (bm_scale imag_unit m)) y /\
    terminates_with (occupation_full isort (fun x => x) st order
      (fun k => mkMeasurement 2 (mkSch (two_threads 0 1 4) [k]) (mkSch (two_threads 0 2 4) []) (mkSch (two_threads 4 30 68) []))
      4 1 1 (1/2) (/ 10) 1 5) (Ok [(0, o 0%nat); (1/2, o 5%nat); (1, o 10%nat)]) /\
    (forall r, o 0%nat = Some r -> r = Ok (1/2)).
Proof.
  intros st order Ho. destruct C86_hypotheses as (H1 & H2 & _ & H3 & _ & H4).
  destruct (C87_full isort (fun x => x) 0 st order _ 4 1 1 (1/2) (/ 10) 1 5 10 isort_ok ltac:(lia) H2 H1 Ho H4 ltac:(lra) H3) as (m & y & o & Em & Y & Te & O0 & _).
  exists m, y, o. split; [exact Em|]. split; [exact Y|]. split; [|exact O0].
  destruct Te as (f & Te). exists f. intros fuel Hf. rewrite (Te fuel Hf). rewrite C86_lines. cbn [map]. rewrite !exact_time.
  replace (INR 0 * / 10) with 0 by (cbn; lra). replace (INR 5 * / 10) with (1/2) by (cbn; lra). replace (INR 10 * / 10) with 1 by (cbn; lra). reflexivity.
Qed.
