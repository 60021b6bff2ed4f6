(** Proofs: the normal-ordered coefficients of the Fermi jump as expectation values. *)
From Verif Require Import Base Spec_Fock FockFacts M_Operator Pf_Commutator M_Lattice M_Basis Spec_Lattice Pf_Lattice Pf_Basis Spec_Algebra
  Spec_Matrix M_Matrix Pf_Matrix Pf_Trace Spec_Slater Pf_Slater Pf_SlaterHub Spec_Jump.
Local Open Scope list_scope.

Lemma zrange_blocks s n m : (0 <= n)%Z -> (0 <= m)%Z ->
  zrange s (s + n * m) = flat_map (fun i => zrange (s + i * m) (s + i * m + m)) (zrange 0 n).
Proof.
  intros Hn Hm. rewrite <- (Z2Nat.id n) by exact Hn. clear Hn. induction (Z.to_nat n) as [|k IH].
  - cbn [Z.of_nat]. rewrite Z.mul_0_l, Z.add_0_r, !zrange_nil by lia. reflexivity.
  - rewrite Nat2Z.inj_succ. unfold Z.succ. rewrite (zrange_app s (s + Z.of_nat k * m) (s + (Z.of_nat k + 1) * m)) by nia. rewrite IH.
    rewrite (zrange_app 0 (Z.of_nat k) (Z.of_nat k + 1)) by lia. rewrite flat_map_app. f_equal.
    rewrite (zrange_cons (Z.of_nat k) (Z.of_nat k + 1)) by lia. rewrite (zrange_nil (Z.of_nat k + 1)) by lia. cbn [flat_map]. rewrite app_nil_r. f_equal. lia.
Qed.
Lemma zrange_shift s n : (0 <= n)%Z -> zrange s (s + n) = map (fun i => (s + i)%Z) (zrange 0 n).
Proof.
  intros Hn. unfold zrange. rewrite map_map. replace (Z.to_nat (s + n - s)) with (Z.to_nat (n - 0)) by lia.
  apply map_ext. intros. lia.
Qed.
Lemma triples lat N : regular lat N -> (N + N * N * N < two64)%Z ->
  zrange N (N + N * N * N) =
  flat_map (fun a => flat_map (fun b => map (fun c => get_3op_index N a b c) (zrange 0 N)) (zrange 0 N)) (zrange 0 N).
Proof.
  intros HL HS. assert (HN := N_pos lat N HL).
  replace (N + N * N * N)%Z with (N + N * (N * N))%Z by ring. rewrite zrange_blocks by nia.
  rewrite !flat_map_concat_map. f_equal. apply map_ext_in. intros a Ha. apply zrange_in in Ha.
  rewrite zrange_blocks by nia. rewrite !flat_map_concat_map. f_equal. apply map_ext_in. intros b Hb. apply zrange_in in Hb.
  rewrite zrange_shift by nia. apply map_ext_in. intros c Hc. apply zrange_in in Hc.
  rewrite (get_3op_index_eq lat N HL HS) by assumption. ring.
Qed.

Section J.
  Context {K : StarRing}.
  Local Open Scope ring_scope_.
  Add Ring KrJ : (rth K).
  Variable half : K.
  Hypothesis Hhalf : half + half = 1.
  Variables (M : nat) (mode : hub -> nat) (N : Z).
  Hypothesis mode_inj : numbers_orbitals mode N.
  Hypothesis mode_lt : orbitals_below mode N M.
  Variable phis : list (Z -> K).
  Hypothesis orth : orthonormal N phis.
  Notation psi := (slater M mode N phis).
  Notation Ex := (E M (labs N) (ml mode) (chis phis)).
  Notation D := (density phis).

  Lemma expect_terms A : expect M mode A psi = sum_over (fun a => prefactor a * Ex (map (lo mode) (operators a))) A.
  Proof.
    unfold expect. transitivity (braket M psi (fun t => sum_over (fun a => prefactor a * apply M (map (lo mode) (operators a)) psi t) A)).
    - apply (bk_ext M); [intros t _; reflexivity|]. intros t _. unfold terms_elem.
      rewrite (sum_over_ext _ _ (fun s => sum_over (fun a => prefactor a * (amp (map (lo mode) (operators a)) s t * psi s)) A)).
      + rewrite sum_over_swap. apply sum_over_ext. intros a _. apply sum_over_mul_l.
      + intros s _. rewrite <- sum_over_mul_r. apply sum_over_ext. intros a _. unfold term_elem, elem, ladders.
        change (fun o : op hub => (creator o, mode (indices o))) with (lo mode). ring.
    - rewrite (bk_sum_r M _ (fun a => prefactor a) (fun a => apply M (map (lo mode) (operators a)) psi)).
      apply sum_over_ext. intros a _. f_equal. unfold E. apply (bk_ext M).
      + intros t _. apply slater_det.
      + intros t _. apply apply_ext. intros u _. apply slater_det.
  Qed.
  Definition anti (i : Z) (w : list (op hub)) : K := Ex (map (lo mode) (w ++ [hop false i true])) + Ex (map (lo mode) (hop false i true :: w)).
  Lemma expect_anti A i : expect M mode (anticommutator A [mkTerm 1 [hop false i true]]) psi =
    sum_over (fun a => prefactor a * anti i (operators a)) A.
  Proof.
    rewrite expect_terms. unfold anticommutator, op_mul. rewrite sum_over_app, !sum_over_flat_map, sum_over_cons, sum_over_nil, sum_over_map.
    cbn [prefactor operators app].
    rewrite (sum_over_ext _ _ (fun a => prefactor a * Ex (map (lo mode) (operators a ++ [hop false i true])))
      A) by (intros a _; cbn [map]; rewrite sum_over_cons, sum_over_nil; cbn [prefactor operators]; ring).
    transitivity (sum_over (fun a => prefactor a * Ex (map (lo mode) (operators a ++ [hop false i true]))) A +
                  sum_over (fun a => prefactor a * Ex (map (lo mode) (hop false i true :: operators a))) A).
    - rewrite (sum_over_ext _ (fun a => 1 * prefactor a * Ex (map (lo mode) (hop false i true :: operators a)))
        (fun a => prefactor a * Ex (map (lo mode) (hop false i true :: operators a))) A) by (intros a _; ring). ring.
    - rewrite <- sum_over_add. apply sum_over_ext. intros a _. unfold anti. ring.
  Qed.

  Ltac sites := repeat (apply Forall_cons; [cbn; assumption|]); apply Forall_nil.
  Ltac wick1 := rewrite (step_hub half Hhalf M mode N mode_inj mode_lt phis orth) by sites; rewrite ?possum_cons, ?possum_nil; cbn [app];
    unfold hop; cbn [contr negb Bool.eqb Nat.sub]; unfold par; cbn [Nat.odd Nat.even negb sgn].
  Lemma nilw : Ex (map (lo mode) []) = 1.
  Proof. apply (Ex_nil M mode N mode_inj mode_lt phis orth). Qed.
  Lemma anti1 i a : site N i -> site N a -> anti i [hop true a true] = delta a i.
  Proof.
    intros Hi Ha. unfold anti. cbn [app]. rewrite (w2 half Hhalf M mode N mode_inj mode_lt phis orth) by assumption.
    wick1. rewrite nilw. unfold delta. rewrite (Z.eqb_sym i a). ring.
  Qed.
  Lemma anti3 i a b c : site N i -> site N a -> site N b -> site N c ->
    anti i [hop true a true; hop true b false; hop false c false] = delta a i * D b c.
  Proof.
    intros Hi Ha Hb Hc. unfold anti. cbn [app]. rewrite (w4b half Hhalf M mode N mode_inj mode_lt phis orth) by assumption.
    wick1. fold (hop true b false) (hop false c false). rewrite (w2d half Hhalf M mode N mode_inj mode_lt phis orth) by assumption.
    unfold delta. rewrite (Z.eqb_sym i a). ring.
  Qed.
  Lemma expect_B1 i a : site N i -> site N a -> expect M mode (anticommutator (B1 a) [mkTerm 1 [hop false i true]]) psi = delta a i.
  Proof. intros Hi Ha. rewrite expect_anti. unfold B1. rewrite sum_over_cons, sum_over_nil. cbn [prefactor operators]. rewrite anti1 by assumption. ring. Qed.
  Lemma expect_B3 i a b c : site N i -> site N a -> site N b -> site N c ->
    expect M mode (anticommutator (B3 a b c) [mkTerm 1 [hop false i true]]) psi = delta a i * ((1 + 1) * D b c - delta b c).
  Proof.
    intros Hi Ha Hb Hc. rewrite expect_anti. unfold B3. rewrite !sum_over_cons, sum_over_nil. cbn [prefactor operators].
    rewrite anti1, anti3 by assumption. ring.
  Qed.
  (** linear in the first argument *)
  Lemma expect_lincomb n (f : Z -> K) (A : Z -> list (term hub K)) i :
    expect M mode (anticommutator (flat_map (fun l => map (fun t => mkTerm (f l * prefactor t) (operators t)) (A l)) (zrange 0 n)) [mkTerm 1 [hop false i true]]) psi =
    sum_over (fun l => f l * expect M mode (anticommutator (A l) [mkTerm 1 [hop false i true]]) psi) (zrange 0 n).
  Proof.
    rewrite expect_anti, sum_over_flat_map. apply sum_over_ext. intros l _. rewrite sum_over_map, expect_anti, <- sum_over_mul_l.
    apply sum_over_ext. intros a _. cbn [prefactor operators]. ring.
  Qed.
End J.
