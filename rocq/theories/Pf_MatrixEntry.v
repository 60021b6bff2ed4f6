(** Proofs: entries of the real-space matrices; projection of the commutator on the basis. *)
From Coq Require Import Sorting.Sorted ZifyBool.
From Verif Require Import Base Spec_Fock FockFacts M_Operator M_Lattice Spec_Lattice Pf_Lattice M_Basis Pf_Basis M_Matrix
  Spec_Algebra Pf_Algebra Pf_Commutator Spec_Matrix Pf_Matrix Pf_Matrix2 Pf_Trace Pf_Wick Pf_Liouville.
Local Open Scope list_scope.

Section Entry.
  Context {K : StarRing}.
  Local Open Scope ring_scope_.
  Add Ring KringE : (rth K).
  Variable sort : list (triplet K) -> list (triplet K).
  Hypothesis Hsort : sorts_by_column sort.
  Variables J U half : K.
  Variable lat : lattice.
  Variable N : Z.
  Hypothesis HG : graph lat N.
  Let HR : regular lat N := g_reg _ _ HG.
  Hypothesis Hfit : (N + N * N * N < two64)%Z.
  Local Notation nb := (lat_neighbors lat).
  Local Notation idx := (get_3op_index N).

  (** weight of column [j] in a list of triplets *)
  Definition weight (l : list (triplet K)) (j : Z) : K := sum_over (fun t => delta (t_col t) j * t_val t) l.
  Lemma weight_app a b j : weight (a ++ b) j = weight a j + weight b j.
  Proof. apply sum_over_app. Qed.
  Lemma entry_weight l j : sum_over snd (filter (fun e => Z.eqb (fst e) j) (pairs (sort l))) = weight l j.
  Proof.
    rewrite sum_over_filter.
    rewrite (sort_sum sort Hsort (fun e => if Z.eqb (fst e) j then snd e else 0) l).
    unfold pairs, weight. rewrite sum_over_map. apply sum_over_ext. intros t _. cbn [fst snd]. unfold delta.
    destruct (Z.eqb (t_col t) j); ring.
  Qed.
  (** adjacency as a number *)
  Definition adjc (i j : Z) : K := sum_over (fun x => delta x j) (nb i).
  Lemma adjc_sym i j : site N i -> site N j -> adjc i j = adjc j i.
  Proof.
    intros Hi Hj. unfold adjc. pose proof (sum_delta_nb N lat HG (1 : K) i j Hi Hj) as H.
    rewrite (sum_over_ext _ (fun x => delta x j) (fun x => delta x j * 1)) by (intros; ring). rewrite H.
    apply sum_over_ext. intros x _. rewrite delta_sym. ring.
  Qed.
  Lemma delta_idx a1 a2 a3 b1 b2 b3 : site N a1 -> site N a2 -> site N a3 -> site N b1 -> site N b2 -> site N b3 ->
    delta (idx a1 a2 a3) (idx b1 b2 b3) = (delta a1 b1 * delta a2 b2 * delta a3 b3 : K).
  Proof.
    intros. unfold delta. destruct (Z.eqb_spec (idx a1 a2 a3) (idx b1 b2 b3)) as [E|E].
    - apply (idx_inj lat N HG Hfit) in E; try assumption. destruct E as (-> & -> & ->). rewrite !Z.eqb_refl. ring.
    - destruct (Z.eqb_spec a1 b1); [|ring]. destruct (Z.eqb_spec a2 b2); [|ring]. destruct (Z.eqb_spec a3 b3); [|ring].
      subst. contradiction.
  Qed.
  Lemma delta_ne (a b : Z) : a <> b -> delta a b = (0 : K).
  Proof. intros H. unfold delta. destruct (Z.eqb_spec a b); [contradiction|reflexivity]. Qed.
  Lemma idx_not_site a b c i : site N a -> site N b -> site N c -> site N i -> idx a b c <> i.
  Proof. intros Ha Hb Hc Hi E. pose proof (idx_range lat N HG Hfit a b c Ha Hb Hc). unfold site in Hi. lia. Qed.

  Lemma weight_kin1 r j : weight (kinetic_triplets1 J lat r) j = - J * adjc r j.
  Proof.
    unfold weight, kinetic_triplets1, adjc. rewrite sum_over_map, <- sum_over_mul_l. apply sum_over_ext. intros x _. cbn [t_col t_val]. ring.
  Qed.
  Lemma adjc_big i j : site N i -> ~ site N j -> adjc i j = 0.
  Proof.
    intros Hi Hj. apply sum_over_zero. intros x Hx. apply delta_ne. intros ->. apply Hj. apply (g_range _ _ HG i j Hi Hx).
  Qed.
  (** the four blocks of entries *)
  Lemma weight_11 r j : site N r -> site N j ->
    weight (triplets1 J U half lat r) j = - J * adjc r j + U * half * delta r j.
  Proof.
    intros Hr Hj. unfold triplets1. rewrite weight_app, weight_kin1. unfold weight. rewrite !sum_over_cons, sum_over_nil. cbn [t_col t_val].
    rewrite (lat_size_N lat N HG), (delta_ne (idx r r r) j) by (apply idx_not_site; assumption). ring.
  Qed.
  Lemma weight_13 r j0 j1 j2 : site N r -> site N j0 -> site N j1 -> site N j2 ->
    weight (triplets1 J U half lat r) (idx j0 j1 j2) = U * half * (delta r j0 * delta r j1 * delta r j2).
  Proof.
    intros Hr H0 H1 H2. unfold triplets1. rewrite weight_app, weight_kin1. unfold weight. rewrite !sum_over_cons, sum_over_nil. cbn [t_col t_val].
    rewrite (lat_size_N lat N HG), (delta_ne r (idx j0 j1 j2)), delta_idx, adjc_big; try assumption.
    - ring.
    - intros Hs. apply (idx_not_site j0 j1 j2 (idx j0 j1 j2)); auto.
    - intros E. symmetry in E. revert E. apply idx_not_site; assumption.
  Qed.
  Lemma weight_kin3_1 row i0 i1 i2 j : site N i0 -> site N i1 -> site N i2 -> site N j ->
    weight (kinetic_triplets3 J lat row i0 i1 i2) j = 0.
  Proof.
    intros H0 H1 H2 Hj. apply sum_over_zero. intros t Ht. rewrite delta_ne; [ring|].
    unfold kinetic_triplets3 in Ht. rewrite (lat_size_N lat N HG) in Ht.
    repeat (apply in_app_or in Ht as [Ht|Ht]); apply in_map_iff in Ht as (x & <- & Hx); cbn [t_col];
      apply idx_not_site; try assumption; eapply (g_range _ _ HG); [|exact Hx| |exact Hx| |exact Hx]; assumption.
  Qed.
  Lemma sum_delta_prod (f : Z -> K) (c : K) l : sum_over (fun x => f x * c) l = sum_over f l * c.
  Proof. apply sum_over_mul_r. Qed.
  Lemma weight_kin3_3 row i0 i1 i2 j0 j1 j2 : site N i0 -> site N i1 -> site N i2 -> site N j0 -> site N j1 -> site N j2 ->
    weight (kinetic_triplets3 J lat row i0 i1 i2) (idx j0 j1 j2) =
    - J * (adjc i0 j0 * delta i1 j1 * delta i2 j2) + - J * (delta i0 j0 * adjc i1 j1 * delta i2 j2)
    + J * (delta i0 j0 * delta i1 j1 * adjc i2 j2).
  Proof.
    intros H0 H1 H2 G0 G1 G2. unfold kinetic_triplets3. rewrite (lat_size_N lat N HG), !weight_app. unfold weight.
    rewrite !sum_over_map. cbn [t_col t_val].
    rewrite (sum_over_ext _ (fun x => delta (idx x i1 i2) _ * _) (fun x => delta x j0 * (delta i1 j1 * delta i2 j2 * - J)))
      by (intros x Hx; rewrite delta_idx by (assumption || (apply (g_range _ _ HG i0); assumption)); ring).
    rewrite (sum_over_ext _ (fun x => delta (idx i0 x i2) _ * _) (fun x => delta x j1 * (delta i0 j0 * delta i2 j2 * - J)))
      by (intros x Hx; rewrite delta_idx by (assumption || (apply (g_range _ _ HG i1); assumption)); ring).
    rewrite (sum_over_ext _ (fun x => delta (idx i0 i1 x) _ * _) (fun x => delta x j2 * (delta i0 j0 * delta i1 j1 * J)))
      by (intros x Hx; rewrite delta_idx by (assumption || (apply (g_range _ _ HG i2); assumption)); ring).
    rewrite !sum_delta_prod. fold (adjc i0 j0). fold (adjc i1 j1). fold (adjc i2 j2). ring.
  Qed.
  Lemma onsite_if i0 i1 i2 row : weight (if (Z.eqb i0 i1 && Z.eqb i0 i2)%bool then [mkT row i0 (U * half)] else []) row =
    delta i0 i1 * delta i0 i2 * delta i0 row * (U * half).
  Proof.
    unfold weight, delta. destruct (Z.eqb i0 i1), (Z.eqb i0 i2); cbn [andb]; rewrite ?sum_over_cons, sum_over_nil; cbn [t_col t_val];
      try destruct (Z.eqb i0 row); ring.
  Qed.
  Lemma onsite_w i0 i1 i2 row j : weight (if (Z.eqb i0 i1 && Z.eqb i0 i2)%bool then [mkT row i0 (U * half)] else []) j =
    delta i0 i1 * delta i0 i2 * delta i0 j * (U * half).
  Proof.
    unfold weight, delta. destruct (Z.eqb i0 i1), (Z.eqb i0 i2); cbn [andb]; rewrite ?sum_over_cons, sum_over_nil; cbn [t_col t_val];
      try destruct (Z.eqb i0 j); ring.
  Qed.
  Lemma weight_31 i0 i1 i2 j : site N i0 -> site N i1 -> site N i2 -> site N j ->
    weight (triplets3 J U half lat (idx i0 i1 i2) i0 i1 i2) j = U * half * (delta j i0 * delta j i1 * delta j i2).
  Proof.
    intros H0 H1 H2 Hj. unfold triplets3. rewrite !weight_app, weight_kin3_1, onsite_w by assumption.
    unfold weight. rewrite sum_over_cons, sum_over_nil. cbn [t_col t_val]. rewrite (delta_ne (idx i0 i1 i2) j) by (apply idx_not_site; assumption).
    unfold delta. destruct (Z.eqb_spec i0 j) as [->|Hne].
    - rewrite Z.eqb_refl. ring.
    - destruct (Z.eqb_spec j i0); [subst; contradiction|]. ring.
  Qed.
  Lemma weight_33 i0 i1 i2 j0 j1 j2 : site N i0 -> site N i1 -> site N i2 -> site N j0 -> site N j1 -> site N j2 ->
    weight (triplets3 J U half lat (idx i0 i1 i2) i0 i1 i2) (idx j0 j1 j2) =
    - J * (adjc i0 j0 * delta i1 j1 * delta i2 j2) + - J * (delta i0 j0 * adjc i1 j1 * delta i2 j2)
    + J * (delta i0 j0 * delta i1 j1 * adjc i2 j2) + U * half * (delta i0 j0 * delta i1 j1 * delta i2 j2).
  Proof.
    intros H0 H1 H2 G0 G1 G2. unfold triplets3. rewrite !weight_app, weight_kin3_3, onsite_w by assumption.
    rewrite (delta_ne i0 (idx j0 j1 j2)) by (intros E; symmetry in E; revert E; apply idx_not_site; assumption).
    unfold weight. rewrite sum_over_cons, sum_over_nil. cbn [t_col t_val]. rewrite delta_idx by assumption. ring.
  Qed.
End Entry.
