(** NON-VACUITY for the normal-ordered rows of C36: three sites, half filling and
    <c+_a c_b> = 1/4 between different sites; the row of :c+_0 c+_0 c_1: is wrong there. *)
From Coq Require Import Sorting.Sorted QArith Qcanon Lia.
From Verif Require Import Base Spec_Fock M_Operator M_Lattice Spec_Lattice Pf_Lattice M_Basis M_Matrix
  Spec_Algebra Spec_Matrix Pf_Basis P_Matrix Pf_Triplet P_Triplet Spec_NormalOrder Pf_NormalOrder P_NormalOrder Ex_Matrix.
Local Open Scope Z_scope.
Local Open Scope list_scope.
Definition quarter_ev (a b : Z) : Qcring := if a =? b then qhalf else Q2Qc (1 # 4).
Definition q_zero (x : Qcring) : bool := if Qc_eq_dec x 0%Qc then true else false.
Lemma q_zero_ok x : q_zero x = true -> x = @r0 Qcring.
Proof. unfold q_zero. destruct (Qc_eq_dec x 0%Qc); [trivial|discriminate]. Qed.
Lemma quarter_stationary : stationary quarter_ev (chain_lattice 3) 3.
Proof.
  intros a b [Ha1 Ha2] [Hb1 Hb2]. assert (Ca : a = 0 \/ a = 1 \/ a = 2) by lia. assert (Cb : b = 0 \/ b = 1 \/ b = 2) by lia.
  destruct Ca as [->|[->| ->]], Cb as [->|[->| ->]]; apply Qc_is_canon; reflexivity.
Qed.
Example ex_C36_normal_order : exists m, init_matrix_no isort (@r1 Qcring) (@r1 Qcring) (chain_lattice 3) q_zero quarter_ev = Ok m /\
  let err s t := rsub (radd (combination orbital (normal_op quarter_ev) (basis3 (chain_lattice 3)) (row_of m (3 + 3 * 3 * 0 + 3 * 0 + 1)) s t)
                            (rmul r1 (terms_elem orbital (outside quarter_ev 0 0 1) s t)))
        (comm_elem orbital (H_kin (chain_lattice 3) r1 ++ H_int (chain_lattice 3) r1) (normal quarter_ev [cu 0; cd 0; ad 1]) s t) in
  exists s t, err s t <> @r0 Qcring.
Proof.
  assert (S3 : shipped3 (chain_lattice 3) 3) by (constructor; split; [lia|apply big; lia]).
  assert (Hf : fits_no (chain_lattice 3) 3) by (unfold fits_no; apply big; reflexivity).
  destruct (C36_three_operator_rows_refuted Qcring isort r1 r1 (chain_lattice 3) 3 orbital q_zero quarter_ev 0 1 isort_ok S3 Hf (orbital_numbers 3) q_zero_ok
    quarter_stationary ltac:(split; lia) ltac:(split; lia) ltac:(lia)) as (m & Em & s & t & t' & p & p' & _ & E).
  exists m. split; [exact Em|]. exists s, t'. cbv zeta in *. intros Z0. rewrite Z0 in E.
  destruct p'; apply (f_equal (fun x : Qc => this x)) in E; vm_compute in E; discriminate.
Qed.
Print Assumptions ex_C36_normal_order.
