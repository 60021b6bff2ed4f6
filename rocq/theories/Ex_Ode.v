(** NON-VACUITY for C51, C52, C65: rational and complex rational scalars. *)
From Coq Require Import QArith Qcanon.
From Verif Require Import Base M_Matrix M_MatrixCheck M_Ode Spec_Ode Pf_Ode P_Ode Ex_Matrix.
Local Open Scope Z_scope.

Definition qsixth : Qcring := Q2Qc (1 # 6).
Lemma qsixth_ok : radd (radd (radd (radd (radd qsixth qsixth) qsixth) qsixth) qsixth) qsixth = @r1 Qcring.
Proof. apply Qc_is_canon. reflexivity. Qed.
Definition Ci := cplx_ring Qcring.
Definition chalf : Ci := (qhalf, @r0 Qcring).
Definition csixth : Ci := (qsixth, @r0 Qcring).
(** i * ((0,1),(1,0)) *)
Definition hop2 : matrix Ci := mkMat 2 2 (fun i j => if Z.eqb i j then (@r0 Qcring, @r0 Qcring) else (@r0 Qcring, @r1 Qcring)).
Example ode_hypotheses :
  radd chalf chalf = @r1 Ci /\
  radd (radd (radd (radd (radd csixth csixth) csixth) csixth) csixth) csixth = @r1 Ci /\
  acts_as Ci 2 (m_at hop2) (mat_vec hop2) /\ linear_on 2 (mat_vec hop2) /\ anti_hermitian Ci 2 (m_at hop2) /\
  kconj (chalf : Ci) = chalf.
Proof.
  split; [cbn; f_equal; apply Qc_is_canon; reflexivity|]. split; [cbn; f_equal; apply Qc_is_canon; reflexivity|].
  split.
  - intros u Lu. unfold mat_vec. rewrite map_length. split; [reflexivity|]. intros i Hi. unfold vget at 1. rewrite nth_zrange_map by exact Hi. reflexivity.
  - split; [apply dense_linear; try reflexivity; lia|]. split.
    + intros i j Hi Hj. assert (i = 0 \/ i = 1) as [-> | ->] by lia; assert (j = 0 \/ j = 1) as [-> | ->] by lia; cbn; f_equal; apply Qc_is_canon; reflexivity.
    + unfold chalf. cbn. f_equal; apply Qc_is_canon; reflexivity.
Qed.
