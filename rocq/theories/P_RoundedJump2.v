(** C95, continued: the physical meaning of the double, and an example. *)
From Coq Require Import Reals List ZArith Permutation Lia Lra.
From Verif Require Import Base Instances M_Dispersion Spec_Dynamics M_Ode Spec_Fock M_Operator M_Lattice Spec_Lattice M_Basis Pf_Basis P_Basis M_Matrix Pf_Matrix Spec_Algebra Spec_Matrix
  M_OpenMP Spec_OpenMP M_SiteOccupation Pf_SiteOccupation P_SiteOccupation Spec_Slater Spec_Jump Spec_Stability M_FermiJump Pf_FermiJump P_FermiJump
  M_Rounding Spec_Rounding M_Double P_RoundedMeasurement2 P_RoundedMeasurement4 M_RoundedMeasurement M_RoundedJump Pf_JumpError Spec_RoundedJump P_RoundedJump Ex_Matrix Ex_SiteOccupation.
Local Open Scope R_scope.
Local Open Scope list_scope.

(** in a Slater determinant: the double is the square of the momentum-space amplitude of
    <{A(t), c_i}>, up to the error *)
Theorem C95_state : forall garbage M mode N phis (rho : Z -> Z -> R) lat (coef v : list (R * R)) T s1 s2 st r,
  numbers_orbitals mode N -> orbitals_below mode N M ->
  orthonormal (K := cplx_ring Rring) N phis -> (forall i j, site N i -> site N j -> density phis i j = ((rho i j, 0) : cplx_ring Rring)) ->
  (forall i j, site N i -> site N j -> Rabs (rho i j) <= 1) -> shipped lat N -> (N + N * N * N < two64)%Z ->
  Z.of_nat (length coef) = N -> Z.of_nat (length v) = (N + N * N * N)%Z -> phases coef -> magnitudes v <= 2 ^ 400 ->
  shares T 0 N s1 -> shares T 0 N s2 -> room N st ->
  let k := (Z.to_nat (N * N) + Z.to_nat N + T + 6)%nat in INR k <= 2 ^ 50 ->
  f_fermi_jump3 (double_arith garbage) (by_site (F := Rring) rho) (basis3 lat) N coef v T s1 s2 st = Some r ->
  let A := vec_op (K := cplx_ring Rring) (basis3 lat) v in
  let amplitude := sum_over (K := cplx_ring Rring) (fun i => rmul (vget (K := cplx_ring Rring) coef i)
    (expect M mode (anticommutator A [mkTerm r1 [hop false i true]]) (slater M mode N phis))) (zrange 0 N) in
  exists y l, r = Ok (y, l) /\ Rabs (y - (fst amplitude * fst amplitude + snd amplitude * snd amplitude)) <= jump_error k (magnitudes v).
Proof.
  intros garbage M mode N phis rho lat coef v T s1 s2 st r Hm Hl Ho Hr Hrho HL HS Hc Hv C1 M1 S1 S2 Rm k Hk HY A amplitude.
  destruct (C45_completes Rring (by_site (F := Rring) rho) (basis3 lat) N coef v 1 [zrange 0 N] [zrange 0 N] None) as (t1 & t2 & Q).
  destruct (fermi_jump3 (F := Rring) (by_site (F := Rring) rho) (basis3 lat) N coef v 1 (mkSch [zrange 0 N] t1) (mkSch [zrange 0 N] t2) None) as [x|] eqn:HX; [|congruence].
  pose proof (C69_fermi_jump Rring (1 / 2) ltac:(cbn; lra) M mode N Hm Hl phis rho Ho Hr lat coef v 1 _ _ None x HL HS Hc Hv (one_share 0 N t1) (one_share 0 N t2) I HX) as (l & ->).
  exact (C95_jump garbage lat N rho coef v T s1 s2 st 1 (mkSch [zrange 0 N] t1) (mkSch [zrange 0 N] t2) None _ l r HL HS Hv Hc Hrho C1 M1 Hk S1 S2 Rm (one_share 0 N t1) (one_share 0 N t2) I HX HY).
Qed.

(** four sites, two threads, one particle that is spread over all sites: an evaluation finishes, and its error is
    below 10^-11 *)
Example C95_example : forall garbage, let coef := repeat ((1 / 2, 1 / 2) : R * R) 4 in let v := start 67 in let rho := fun _ _ : Z => 1 / 4 in
  shipped (chain_lattice 4) 4 /\ Z.of_nat (length coef) = 4%Z /\ Z.of_nat (length v) = (4 + 4 * 4 * 4)%Z /\ (4 + 4 * 4 * 4 < two64)%Z /\
  phases coef /\ magnitudes v = 1 /\ (forall t, shares 2 0 4 (mkSch (two_threads 0 1 4) t)) /\
  (exists t1 t2 y l, f_fermi_jump3 (double_arith garbage) (by_site (F := Rring) rho) (basis3 (chain_lattice 4)) 4 coef v 2
     (mkSch (two_threads 0 1 4) t1) (mkSch (two_threads 0 1 4) t2) None = Some (Ok (y, l))) /\
  jump_error (Z.to_nat (4 * 4) + Z.to_nat 4 + 2 + 6) (magnitudes v) <= 1 / 1000000000000.
Proof.
  intros garbage coef v rho.
  assert (A1 : shipped (chain_lattice 4) 4) by (constructor; split; [lia|apply big; lia]).
  assert (A2 : Z.of_nat (length coef) = 4%Z) by reflexivity. assert (A3 : Z.of_nat (length v) = (4 + 4 * 4 * 4)%Z) by reflexivity.
  assert (A4 : (4 + 4 * 4 * 4 < two64)%Z) by (apply big; reflexivity).
  assert (H2 : Rabs (1 / 2) <= 1) by (rewrite Rabs_pos_eq; lra).
  assert (A5 : phases coef) by (unfold phases, coef; cbn [repeat]; repeat (constructor; [split; exact H2|]); constructor).
  assert (A6 : magnitudes v = 1).
  { unfold v, start, magnitudes. cbn [fold_right fst snd]. rewrite Rabs_R0, Rabs_R1.
    assert (Z0 : forall n, fold_right (fun (z : R * R) s => Rabs (fst z) + Rabs (snd z) + s) 0 (repeat (0, 0) n) = 0).
    { induction n as [|n IH]; [reflexivity|]. cbn [repeat fold_right fst snd]. rewrite IH, Rabs_R0. ring. }
    etransitivity; [apply f_equal, Z0|]. ring. }
  assert (A7 : forall t, shares 2 0 4 (mkSch (two_threads 0 1 4) t)) by (intros t; apply two_shares; lia).
  split; [exact A1|]. split; [exact A2|]. split; [exact A3|]. split; [exact A4|]. split; [exact A5|]. split; [exact A6|]. split; [exact A7|]. split.
  - destruct (C95_completes (double_arith garbage) (by_site (F := Rring) rho) (basis3 (chain_lattice 4)) 4 coef v 2 (two_threads 0 1 4) (two_threads 0 1 4) None) as (t1 & t2 & Q).
    exists t1, t2. destruct (f_fermi_jump3 _ _ _ _ _ _ _ _ _ _) as [r|] eqn:HY; [|congruence].
    apply (f_jump_value (double_arith garbage) rho (chain_lattice 4) 4 v coef (shipped_regular _ _ A1) A4 A3 A2 2 _ _ None r (A7 t1) (A7 t2) I) in HY.
    destruct HY as (Ls & l & _ & _ & _ & _ & ->). eexists _, l. reflexivity.
  - rewrite A6. unfold jump_error. change (Z.to_nat (4 * 4) + Z.to_nat 4 + 2 + 6)%nat with 28%nat. rewrite INR_IZR_INZ. change (Z.of_nat 28) with 28%Z.
    assert (/ 2 ^ 400 <= 1) by (pose proof (inv_p2 0 400 ltac:(lia)) as Q; cbn [pow] in Q; lra). assert (0 < / 2 ^ 400) by (apply Rinv_0_lt_compat, p2).
    apply Rle_trans with (28 * 4 ^ 2 / 2 ^ 49).
    + unfold Rdiv. apply Rmult_le_compat_r; [apply Rlt_le, Rinv_0_lt_compat, p2|]. apply Rmult_le_compat_l; [lra|]. apply pow_incr. lra.
    + lra.
Qed.

Print Assumptions C95_jump.
Print Assumptions C95_schedules.
Print Assumptions C95_interleaving.
Print Assumptions C95_completes.
Print Assumptions C95_state.
Print Assumptions C95_example.
