(** THEOREMS: C68 (the site occupation is never negative). *)
From Coq Require Import Reals Lra.
From Verif Require Import Base Spec_Fock M_Operator M_Lattice Spec_Lattice M_Basis P_Basis M_Matrix
  Spec_Algebra Spec_Matrix Spec_Dynamics M_Dispersion M_OpenMP Spec_OpenMP M_SiteOccupation Spec_Slater P_SiteOccupation.
Local Open Scope list_scope.

Local Definition CR := cplx_ring Rring.
Lemma square_pos M (f : N -> CR) : (0 <= fst (braket M f f))%R /\ snd (braket M f f) = 0%R.
Proof.
  unfold braket. induction (basis_states M) as [|s l [IH1 IH2]].
  - rewrite sum_over_nil. cbn. split; [lra|reflexivity].
  - rewrite sum_over_cons. destruct (sum_over (fun s => (kconj (f s) * f s)%K) l) as [x y]. cbn [fst snd] in IH1, IH2. subst y.
    destruct (f s) as [a b]. cbn. split; [|ring].
    pose proof (Rle_0_sqr a). pose proof (Rle_0_sqr b). unfold Rsqr in *. lra.
Qed.

(** with the expectation values of any determinant with real density matrix, and any vector *)
Theorem C68_nonnegative : forall M mode N phis (rho : Z -> Z -> R) lat (v : list (R * R)) sym order T s1 s2 s3 r,
  numbers_orbitals mode N -> orbitals_below mode N M ->
  orthonormal (K := CR) N phis -> (forall i j, site N i -> site N j -> density phis i j = ((rho i j, 0%R) : CR)) ->
  shipped lat N -> (N + N * N * N < two64)%Z -> Z.of_nat (length v) = (N + N * N * N)%Z ->
  Permutation order (seq 0 (length (basis3 lat))) ->
  shares T 0 N s1 -> shares T 0 N s2 -> shares T N (N + N * N * N) s3 ->
  site_occupation3 (F := Rring) (/ 2)%R (by_site (F := Rring) rho) (basis3 lat) (basis_get_conjugate order (basis3 lat)) v sym N T s1 s2 s3 = Some r ->
  exists x : R, r = Ok ((x, 0%R) : CR) /\ (0 <= x)%R.
Proof.
  intros M mode N phis rho lat v sym order T s1 s2 s3 r Hm Hl Ho Hr HL HS Hv Hp H1 H2 H3 R.
  rewrite (C43_site_occupation Rring (/ 2)%R ltac:(cbn; lra) M mode N Hm Hl phis rho Ho Hr lat v sym order T s1 s2 s3 r HL HS Hv Hp H1 H2 H3 R).
  match goal with |- context[Ok (braket M ?f ?f)] => destruct (square_pos M f) as [P Q]; exists (fst (braket M f f)); split; [|exact P]; f_equal; etransitivity; [apply surjective_pairing|]; f_equal; exact Q end.
Qed.
Print Assumptions C68_nonnegative.
