(** PROPERTY C93: the doubles the measurement computes against the quantum mechanical expectation value. *)
From Coq Require Import Reals Lra List ZArith Lia Permutation.
From Verif Require Import Base Instances Spec_Fock M_Operator M_Lattice Spec_Lattice M_Basis Pf_Basis P_Basis M_Matrix M_Ode M_Dispersion M_Number M_OpenMP Spec_OpenMP Pf_OpenMP M_SiteOccupation
  Spec_Algebra Spec_Matrix Spec_Dynamics Spec_Slater P_SiteOccupation P_Positive Spec_Stability
  M_Rounding M_Double M_RoundedMeasurement Spec_RoundedMeasurement P_RoundedMeasurement P_RoundedMeasurement2 P_RoundedMeasurement3 Ex_Matrix Ex_Ode Ex_SiteOccupation.
Local Open Scope R_scope.
Local Open Scope list_scope.

(** all iterations on one thread *)
Lemma one_share lo hi tr : shares 1 lo hi (mkSch [zrange lo hi] tr).
Proof. split; [cbn; lia|]. cbn [who concat]. rewrite app_nil_r. apply Permutation_refl. Qed.

(** one-operator basis of a shipped lattice with N sites: up to the error the double is <A A^+> >= 0 in the determinant *)
Theorem C93_state_one : forall garbage M mode N phis (rho : Z -> Z -> R) lat (v : list (R * R)) order T s r,
  numbers_orbitals mode N -> orbitals_below mode N M ->
  orthonormal (K := cplx_ring Rring) N phis -> (forall i j, site N i -> site N j -> density phis i j = ((rho i j, 0) : cplx_ring Rring)) ->
  (forall i j, Rabs (rho i j) <= 1) -> shipped lat N -> Z.of_nat (length v) = N -> norm2 v <= 4 ->
  Permutation order (seq 0 (length (basis1 lat))) -> shares T 0 N s -> IZR (N * N + Z.of_nat T + 6) <= 2 ^ 50 ->
  f_site_occupation1 (double_arith garbage) (by_site (F := Rring) rho) (basis1 lat) (basis_get_conjugate order (basis1 lat)) v T s = Some r ->
  let A := vec_op (K := cplx_ring Rring) (basis1 lat) v in
  let state := adjoint_apply M mode A (slater M mode N phis) in
  exists y, r = Ok y /\ 0 <= fst (braket M state state) /\ snd (braket M state state) = 0 /\
    near (IZR (N * N + Z.of_nat T + 6) * (2 * IZR N * norm2 v) / 2 ^ 52 + / 2 ^ 1000) y (braket M state state).
Proof.
  intros garbage M mode N phis rho lat v order T s r Hm Hl Ho Hr Hrho HL Hv Hn Hp Hs HT R A state.
  pose proof (shipped_regular lat N HL) as HL'. pose proof (N_pos lat N HL') as NP.
  assert (Ln : length (basis1 lat) = Z.to_nat N) by (rewrite (basis1_len lat N HL'); lia).
  assert (Ex : exists tr x, site_occupation1 (F := Rring) (1 / 2) (by_site (F := Rring) rho) (basis1 lat) (basis_get_conjugate order (basis1 lat)) v 1 (mkSch [zrange 0 N] tr) = Some x).
  { unfold site_occupation1.
    match goal with |- exists tr x, pbind (par_reduce _ ?a ?z) _ = _ => destruct (par_reduce_finishes (K := cplx_ring Rring) [zrange 0 N] a z) as (tr & Q); exists tr;
      destruct (par_reduce (K := cplx_ring Rring) (mkSch [zrange 0 N] tr) a z) as [[q|]|] end; [eexists; reflexivity|eexists; reflexivity|contradiction]. }
  destruct Ex as (tr & x & Ex).
  pose proof (C43_site_occupation1 Rring (1 / 2) ltac:(cbn; lra) M mode N Hm Hl phis rho Ho Hr lat v order 1 _ x HL Hv Hp (one_share 0 N tr) Ex) as Hx.
  cbv zeta in Hx. fold A in Hx. fold state in Hx. subst x. destruct (square_pos M state) as [P Q].
  assert (NN : Z.of_nat (Z.to_nat N) = N) by lia.
  assert (KE : INR (Z.to_nat N * Z.to_nat N + T + 6) = IZR (N * N + Z.of_nat T + 6)) by (rewrite INR_IZR_INZ; f_equal; lia).
  destruct (C93_double_one garbage (by_site (F := Rring) rho) (basis1 lat) (basis_get_conjugate order (basis1 lat)) v T s 1 (mkSch [zrange 0 N] tr) (braket M state state) r) as (y & -> & Hy); try eassumption.
  - intros a b. apply Hrho.
  - rewrite Ln, KE. exact HT.
  - rewrite Ln, NN. exact Hs.
  - rewrite Ln, NN. apply one_share.
  - exists y. split; [reflexivity|]. split; [exact P|]. split; [exact Q|]. rewrite Ln, KE in Hy. rewrite INR_IZR_INZ, NN in Hy. exact Hy.
Qed.

(** three-operator basis, with and without the shortcut *)
Theorem C93_state_three : forall garbage M mode N phis (rho : Z -> Z -> R) lat (v : list (R * R)) symmetric order T s1 s2 s3 r,
  numbers_orbitals mode N -> orbitals_below mode N M ->
  orthonormal (K := cplx_ring Rring) N phis -> (forall i j, site N i -> site N j -> density phis i j = ((rho i j, 0) : cplx_ring Rring)) ->
  (forall i j, Rabs (rho i j) <= 1) -> shipped lat N -> (N + N * N * N < two64)%Z -> Z.of_nat (length v) = (N + N * N * N)%Z -> norm2 v <= 4 ->
  Permutation order (seq 0 (length (basis3 lat))) -> shares T 0 N s1 -> shares T 0 N s2 -> shares T N (N + N * N * N) s3 ->
  let S := (N + N * N * N)%Z in IZR (S * S + Z.of_nat T + 12) <= 2 ^ 50 ->
  f_site_occupation3 (double_arith garbage) (by_site (F := Rring) rho) (basis3 lat) (basis_get_conjugate order (basis3 lat)) v symmetric N T s1 s2 s3 = Some r ->
  let A := vec_op (K := cplx_ring Rring) (basis3 lat) v in
  let state := adjoint_apply M mode A (slater M mode N phis) in
  exists y, r = Ok y /\ 0 <= fst (braket M state state) /\ snd (braket M state state) = 0 /\
    near (IZR (S * S + Z.of_nat T + 12) * (34 * IZR S * norm2 v) / 2 ^ 52 + / 2 ^ 1000) y (braket M state state).
Proof.
  intros garbage M mode N phis rho lat v sym order T s1 s2 s3 r Hm Hl Ho Hr Hrho HL HS Hv Hn Hp Hs1 Hs2 Hs3 S HT R A state.
  pose proof (shipped_regular lat N HL) as HL'. pose proof (N_pos lat N HL') as NP.
  assert (SP : (0 <= N <= S)%Z) by (unfold S; nia).
  assert (Ln : length (basis3 lat) = Z.to_nat S) by (rewrite (basis3_len lat N HL'); unfold S; nia).
  destruct (C44_site_occupation_completes Rring (1 / 2) rho (basis3 lat) (basis_get_conjugate order (basis3 lat)) v sym N 1 [zrange 0 N] [zrange 0 N] [zrange N S]) as (t1 & t2 & t3 & Ex).
  destruct (site_occupation3 (F := Rring) (1 / 2) (by_site (F := Rring) rho) (basis3 lat) (basis_get_conjugate order (basis3 lat)) v sym N 1 (mkSch [zrange 0 N] t1) (mkSch [zrange 0 N] t2) (mkSch [zrange N S] t3)) as [x|] eqn:Er; [|congruence].
  pose proof (C43_site_occupation Rring (1 / 2) ltac:(cbn; lra) M mode N Hm Hl phis rho Ho Hr lat v sym order 1 _ _ _ x HL HS Hv Hp (one_share 0 N t1) (one_share 0 N t2) (one_share N S t3) Er) as Hx.
  cbv zeta in Hx. fold A in Hx. fold state in Hx. subst x. destruct (square_pos M state) as [P Q].
  assert (NN : Z.of_nat (Z.to_nat S) = S) by lia.
  assert (KE : INR (Z.to_nat S * Z.to_nat S + T + 12) = IZR (S * S + Z.of_nat T + 12)) by (rewrite INR_IZR_INZ; f_equal; lia).
  destruct (C93_double_three garbage (by_site (F := Rring) rho) (basis3 lat) (basis_get_conjugate order (basis3 lat)) v sym N T s1 s2 s3 1 (mkSch [zrange 0 N] t1) (mkSch [zrange 0 N] t2) (mkSch [zrange N S] t3) (braket M state state) r (fun a b => Hrho _ _) Hn) as (y & -> & Hy);
    [rewrite Ln, KE; exact HT|rewrite Ln, NN; exact SP|exact Hs1|exact Hs2|rewrite Ln, NN; exact Hs3|apply one_share|apply one_share|rewrite Ln, NN; apply one_share|exact Er|exact R|].
  exists y. split; [reflexivity|]. split; [exact P|]. split; [exact Q|]. rewrite Ln, KE in Hy. rewrite INR_IZR_INZ, NN in Hy. exact Hy.
Qed.

(** a chain of 4 sites, the lowest orbital filled, the loops shared by two threads; v = (1, 0, 0, ...) *)
Definition start (n : nat) : list (R * R) := (1, 0) :: repeat (0, 0) n.
Lemma start_norm n : norm2 (start n) = 1.
Proof.
  unfold norm2, start. rewrite sum_over_cons. rewrite sum_over_zero; [cbn; ring|]. intros x Hx. apply repeat_spec in Hx. subst x. cbn. ring.
Qed.
Definition low_R : Z -> cplx_ring Rring := fun _ => ((1 / 2, 0) : cplx_ring Rring).
Example rounded_nonvacuous :
  numbers_orbitals orbital 4 /\ orbitals_below orbital 4 8 /\ orthonormal (K := cplx_ring Rring) 4 [low_R] /\
  (forall i j, site 4 i -> site 4 j -> density (K := cplx_ring Rring) [low_R] i j = ((1 / 4, 0) : cplx_ring Rring)) /\ Rabs (1 / 4) <= 1 /\
  shipped (chain_lattice 4) 4 /\ (4 + 4 * 4 * 4 < two64)%Z /\
  Z.of_nat (length (start 3)) = 4%Z /\ norm2 (start 3) <= 4 /\ Z.of_nat (length (start 67)) = (4 + 4 * 4 * 4)%Z /\ norm2 (start 67) <= 4 /\
  (forall t, shares 2 0 4 (mkSch (two_threads 0 1 4) t)) /\ (forall t, shares 2 4 68 (mkSch (two_threads 4 30 68) t)) /\
  IZR (4 * 4 + 2 + 6) <= 2 ^ 50 /\ IZR (68 * 68 + 2 + 12) <= 2 ^ 50 /\
  (** the error of the three-operator measurement is below 10^-8 *)
  IZR (68 * 68 + 2 + 12) * (34 * 68 * norm2 (start 67)) / 2 ^ 52 + / 2 ^ 1000 <= 1 / 100000000.
Proof.
  split; [apply orbital_numbers|]. split; [apply (orbital_below 4)|]. split.
  { intros a b f g Ha Hb. destruct a as [|[|a]]; [|discriminate|discriminate]. destruct b as [|[|b]]; [|discriminate|discriminate].
    injection Ha as <-. injection Hb as <-. cbn [Nat.eqb]. change (Zseq 4) with [0; 1; 2; 3]%Z. cbn. f_equal; field. }
  split. { intros i j _ _. unfold density. cbn. f_equal; field. }
  split; [rewrite Rabs_pos_eq; lra|]. split; [constructor; split; [lia|apply big; lia]|]. split; [apply big; reflexivity|].
  rewrite !start_norm. split; [reflexivity|]. split; [lra|]. split; [reflexivity|]. split; [lra|].
  split; [intros; apply two_shares; lia|]. split; [intros; apply two_shares; lia|]. split; [cbn; lra|]. split; [cbn; lra|].
  apply Rle_trans with (1 / 200000000 + 1 / 200000000); [|lra]. apply Rplus_le_compat.
  - replace (68 * 68 + 2 + 12)%Z with 4638%Z by reflexivity. lra.
  - apply Rle_trans with (/ 2 ^ 40); [apply Rinv_le_contravar; [apply pow_lt; lra|apply Rle_pow; [lra|lia]]|lra].
Qed.

Print Assumptions C93_one.
Print Assumptions C93_three.
Print Assumptions C93_double_one.
Print Assumptions C93_double_three.
Print Assumptions C93_schedules_one.
Print Assumptions C93_schedules_three.
Print Assumptions C93_interleaving_one.
Print Assumptions C93_interleaving_three.
Print Assumptions C93_completes_one.
Print Assumptions C93_completes_three.
Print Assumptions C93_assert_refuted.
Print Assumptions C93_state_one.
Print Assumptions C93_state_three.
