(** Concrete cases meeting the hypotheses of C42-C44: a chain of 4 sites with the lowest momentum
    orbital (1/2, 1/2, 1/2, 1/2) filled with both spins, loops shared by two threads. *)
From Coq Require Import QArith Qcanon.
From Verif Require Import Base M_Operator M_Lattice Spec_Lattice M_Basis P_Basis M_Matrix Spec_Matrix
  M_OpenMP Spec_OpenMP M_SiteOccupation M_FermiJump Spec_Slater P_SiteOccupation P_FermiJump Ex_Matrix Ex_Ode.
Local Open Scope list_scope.
Local Open Scope Z_scope.

Definition low : Z -> Ci := fun _ => (qhalf, @r0 Qcring).
Definition quarter : Z -> Z -> Qcring := fun _ _ => Q2Qc (1 # 4).
Definition two_threads (lo mid hi : Z) : list (list Z) := [zrange mid hi; rev (zrange lo mid)].
Lemma two_shares lo mid hi t : lo <= mid <= hi -> shares 2 lo hi (mkSch (two_threads lo mid hi) t).
Proof.
  intros H. split; [cbn; lia|]. cbn [who two_threads concat]. rewrite app_nil_r.
  rewrite (Pf_Matrix.zrange_app lo mid hi) by lia. rewrite Permutation_app_comm. apply Permutation_app_tail. symmetry. apply Permutation_rev.
Qed.
Example site_occupation_nonvacuous :
  radd qhalf qhalf = @r1 Qcring /\ numbers_orbitals orbital 4 /\ orbitals_below orbital 4 8 /\
  orthonormal (K := Ci) 4 [low] /\
  (forall i j, site 4 i -> site 4 j -> density (K := Ci) [low] i j = (quarter i j, @r0 Qcring)) /\
  shipped (chain_lattice 4) 4 /\ 4 + 4 * 4 * 4 < two64 /\
  (forall t, shares 2 0 4 (mkSch (two_threads 0 1 4) t)) /\ (forall t, shares 2 4 68 (mkSch (two_threads 4 30 68) t)) /\
  (forall a b, site 4 a -> site 4 b -> quarter a b = quarter b a).
Proof.
  split; [exact qhalf_ok|]. split; [apply orbital_numbers|]. split; [apply (orbital_below 4)|]. split.
  { intros a b f g Ha Hb. destruct a as [|[|a]]; [|discriminate|discriminate]. destruct b as [|[|b]]; [|discriminate|discriminate].
    injection Ha as <-. injection Hb as <-. cbn [Nat.eqb]. change (Zseq 4) with [0; 1; 2; 3]. cbn. f_equal; apply Qc_is_canon; reflexivity. }
  split. { intros i j _ _. unfold density, quarter. cbn. f_equal; apply Qc_is_canon; reflexivity. }
  split; [|split; [apply big; reflexivity|split; [intros; apply two_shares; lia|split; [intros; apply two_shares; lia|reflexivity]]]].
  constructor; split; [lia|apply big; lia].
Qed.

(** C45: a 4-site evaluation followed by 3-site ones is a legal history, by a 5-site one the refuted one *)
Definition sample (N : Z) t1 t2 : call Qcring :=
  mkCall (by_site quarter) (basis3 (chain_lattice N)) N (repeat (@r1 Ci) (Z.to_nat N)) (repeat (@r1 Ci) (Z.to_nat (N + N * N * N))) 2
    (mkSch (two_threads 0 1 N) t1) (mkSch (two_threads 0 2 N) t2).
Lemma sample_legal N t1 t2 : 2 <= N -> N + N * N * N < 18446744073709551616 -> legal Qcring (sample N t1 t2).
Proof.
  intros H2 H. unfold sample. constructor.
  - constructor. split; [lia|apply big; nia].
  - apply big. lia.
  - rewrite repeat_length. lia.
  - rewrite repeat_length. nia.
  - apply two_shares. lia.
  - apply two_shares. lia.
Qed.
Example jump_histories : forall t1 t2,
  Forall (legal Qcring) [sample 4 t1 t2; sample 3 t1 t2; sample 3 t1 t2] /\
  Forall (fun d => c_N d <= c_N (sample 4 t1 t2)) [sample 3 t1 t2; sample 3 t1 t2] /\
  legal Qcring (sample 5 t1 t2) /\ c_N (sample 4 t1 t2) < c_N (sample 5 t1 t2).
Proof.
  intros t1 t2. split; [repeat apply Forall_cons; try apply sample_legal; try lia; apply Forall_nil|].
  split; [repeat constructor; cbn; lia|]. split; [apply sample_legal; lia|cbn; lia].
Qed.
