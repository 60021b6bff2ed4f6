(** Proofs: the commutator with the Hamiltonian projected on the basis. *)
From Coq Require Import Sorting.Sorted ZifyBool.
From Verif Require Import Base Spec_Fock FockFacts M_Operator M_Lattice Spec_Lattice Pf_Lattice M_Basis Pf_Basis M_Matrix
  Spec_Algebra Pf_Algebra Pf_Commutator Spec_Matrix Pf_Matrix Pf_Matrix2 Pf_Trace Pf_Wick Pf_Liouville Pf_MatrixEntry.
Local Open Scope list_scope.

Section Frob.
  Context {K : StarRing}.
  Local Open Scope ring_scope_.
  Add Ring KringF : (rth K).
  Variable M : nat.
  Variable A : N -> N -> K.
  Lemma frob_ext X Y : (forall s t, X s t = Y s t) -> frobenius M A X = frobenius M A Y.
  Proof. intros H. unfold frobenius. apply sum_over_ext. intros s _. apply sum_over_ext. intros t _. rewrite H. reflexivity. Qed.
  Lemma frob_add X Y : frobenius M A (fun s t => X s t + Y s t) = frobenius M A X + frobenius M A Y.
  Proof.
    unfold frobenius. rewrite <- sum_over_add. apply sum_over_ext. intros s _. rewrite <- sum_over_add. apply sum_over_ext. intros t _. ring.
  Qed.
  Lemma frob_sub X Y : frobenius M A (fun s t => X s t - Y s t) = frobenius M A X - frobenius M A Y.
  Proof.
    unfold frobenius. rewrite <- sum_over_sub. apply sum_over_ext. intros s _. rewrite <- sum_over_sub. apply sum_over_ext. intros t _. ring.
  Qed.
  Lemma frob_scale c X : frobenius M A (fun s t => c * X s t) = c * frobenius M A X.
  Proof.
    unfold frobenius. rewrite <- sum_over_mul_l. apply sum_over_ext. intros s _. rewrite <- sum_over_mul_l. apply sum_over_ext. intros t _. ring.
  Qed.
  Lemma frob_sum {I} (X : I -> N -> N -> K) l :
    frobenius M A (fun s t => sum_over (fun i => X i s t) l) = sum_over (fun i => frobenius M A (X i)) l.
  Proof.
    induction l as [|i l IH].
    - rewrite sum_over_nil. unfold frobenius. apply sum_over_zero. intros s _. apply sum_over_zero. intros t _. rewrite sum_over_nil. ring.
    - rewrite sum_over_cons, <- IH, <- frob_add. apply frob_ext. intros s t. apply sum_over_cons.
  Qed.
End Frob.

Section Proj.
  Context {K : StarRing}.
  Local Open Scope ring_scope_.
  Add Ring KringPr : (rth K).
  Variables J U half : K.
  Hypothesis Hhalf : half + half = 1.
  Variable lat : lattice.
  Variable N : Z.
  Hypothesis HG : graph lat N.
  Let HR : regular lat N := g_reg _ _ HG.
  Hypothesis Hfit : (N + N * N * N < two64)%Z.
  Variable mode : hub -> nat.
  Hypothesis mode_inj : numbers_orbitals mode N.
  Variable M : nat.
  Hypothesis mode_below : orbitals_below mode N M.
  Local Notation nb := (lat_neighbors lat).
  Local Notation idx := (get_3op_index N).
  Local Notation E A := (terms_elem (K := K) mode A).
  Local Notation Fr A X := (frobenius M (E A) X).

  Definition el (c : Z) : list (term hub K) :=
    match nth_error (basis3 lat) (Z.to_nat c) with Some m => basis_op m | None => [] end.
  Lemma el1 i : site N i -> el i = B1 i.
  Proof. intros Hi. unfold el. rewrite (basis3_nth1 lat N HR i Hi). reflexivity. Qed.
  Lemma el3 i j k : site N i -> site N j -> site N k -> el (idx i j k) = B3 i j k.
  Proof. intros Hi Hj Hk. unfold el. rewrite (basis3_get lat N HR Hfit) by assumption. reflexivity. Qed.

  Ltac onall := unfold terms_on, on_sites, B1, B3, Hph; repeat (apply Forall_cons || apply Forall_nil); cbn [operators]; repeat (apply Forall_cons || apply Forall_nil); unfold index1, hop; cbn [indices fst]; assumption.
  Lemma on1 i : site N i -> terms_on (K := K) N (B1 i).
  Proof. intros Hi. onall. Qed.
  Lemma on3 i j k : site N i -> site N j -> site N k -> terms_on (K := K) N (B3 i j k).
  Proof. intros Hi Hj Hk. onall. Qed.
  Lemma onH k : site N k -> terms_on (K := K) N (Hph half k k k k).
  Proof. intros Hk. onall. Qed.
  Lemma on_mul A B : terms_on (K := K) N A -> terms_on N B -> terms_on N (op_mul A B).
  Proof.
    intros HA HB. apply Forall_forall. intros x Hx. unfold op_mul in Hx. apply in_flat_map in Hx as (a & Ha & Hx).
    apply in_map_iff in Hx as (b & <- & Hb). cbn [operators]. apply Forall_app. split.
    - eapply Forall_forall in HA; eauto.
    - eapply Forall_forall in HB; eauto.
  Qed.
  Ltac lens := intros a b Ha Hb; cbn in Ha, Hb; repeat match goal with H : _ \/ _ |- _ => destruct H | H : False |- _ => destruct H end; subst a b; cbn [operators length app]; (split; [cbn; lia|reflexivity]).

  Lemma G11 j i : site N i -> site N j -> Fr (B1 j) (E (B1 i)) = delta i j * (half * two_pow M).
  Proof.
    intros Hi Hj. rewrite (frob_ip half Hhalf N M mode mode_below mode_inj 1) by (try apply on1; try assumption; lens).
    rewrite gram_11. ring.
  Qed.
  Lemma G13 j i1 i2 i3 : site N j -> site N i1 -> site N i2 -> site N i3 -> Fr (B1 j) (E (B3 i1 i2 i3)) = 0.
  Proof.
    intros. rewrite (frob_ip half Hhalf N M mode mode_below mode_inj 2) by (try apply on1; try apply on3; try assumption; lens).
    rewrite gram_13 by exact Hhalf. ring.
  Qed.
  Lemma G31 j1 j2 j3 i : site N i -> site N j1 -> site N j2 -> site N j3 -> Fr (B3 j1 j2 j3) (E (B1 i)) = 0.
  Proof.
    intros. rewrite (frob_ip half Hhalf N M mode mode_below mode_inj 2) by (try apply on1; try apply on3; try assumption; lens).
    rewrite gram_31 by exact Hhalf. ring.
  Qed.
  Lemma G33 j1 j2 j3 i1 i2 i3 : site N i1 -> site N i2 -> site N i3 -> site N j1 -> site N j2 -> site N j3 ->
    Fr (B3 j1 j2 j3) (E (B3 i1 i2 i3)) = delta i1 j1 * delta i2 j2 * delta i3 j3 * (half * two_pow M).
  Proof.
    intros. rewrite (frob_ip half Hhalf N M mode mode_below mode_inj 3) by (try apply on1; try apply on3; try assumption; lens).
    rewrite gram_33 by exact Hhalf. rewrite (delta_sym j3 i3). ring.
  Qed.
  Local Notation S3 := (N + N * N * N)%Z.
  Lemma col_cases c : (0 <= c < S3)%Z -> site N c \/ exists i j k, site N i /\ site N j /\ site N k /\ c = idx i j k.
  Proof.
    intros Hc. destruct (Z.ltb_spec c N); [left; unfold site; lia|]. right.
    destruct (dec_spec lat N HG Hfit c ltac:(lia)) as (H1 & H2 & H3 & Ec). eauto 10.
  Qed.
  Lemma gram c r : (0 <= c < S3)%Z -> (0 <= r < S3)%Z -> Fr (el c) (E (el r)) = delta r c * (half * two_pow M).
  Proof.
    intros Hc Hr. apply col_cases in Hc as [Hc|(a & b & d & Ha & Hb & Hd & ->)]; apply col_cases in Hr as [Hr|(i & j & k & Hi & Hj & Hk & ->)].
    - rewrite !el1 by assumption. apply G11; assumption.
    - rewrite (el1 c), el3 by assumption. rewrite G13, delta_ne by (assumption || (apply (idx_not_site lat N HG Hfit); assumption)). ring.
    - rewrite (el1 r), el3 by assumption. rewrite G31, delta_ne; try assumption; [ring|]. intros Eq. symmetry in Eq. revert Eq. apply (idx_not_site lat N HG Hfit); assumption.
    - rewrite !el3 by assumption. rewrite G33, (delta_idx lat N HG Hfit) by assumption. ring.
  Qed.
  (** combinations of basis elements *)
  Definition comb (l : list (triplet K)) (s t : BinNums.N) : K := sum_over (fun x => t_val x * E (el (t_col x)) s t) l.
  Lemma frob_comb c l : (0 <= c < S3)%Z -> Forall (fun x => (0 <= t_col x < S3)%Z) l ->
    Fr (el c) (comb l) = weight l c * (half * two_pow M).
  Proof.
    intros Hc Hl. unfold comb. rewrite (frob_sum M _ (fun x s t => t_val x * E (el (t_col x)) s t)). unfold weight. rewrite <- sum_over_mul_r.
    apply sum_over_ext. intros x Hx. rewrite frob_scale, gram; [ring|exact Hc|]. eapply Forall_forall in Hl; eauto.
  Qed.
  Lemma combination_comb sort l s t : sorts_by_column sort ->
    combination mode basis_op (basis3 lat) (pairs (sort l)) s t = comb l s t.
  Proof.
    intros Hs. unfold combination. rewrite (sort_sum sort Hs _ l). unfold pairs, comb. rewrite sum_over_map. apply sum_over_ext.
    intros x _. cbn [fst snd]. unfold el. destruct (nth_error (basis3 lat) (Z.to_nat (t_col x))); reflexivity.
  Qed.
  Lemma comb_app a b s t : comb (a ++ b) s t = comb a s t + comb b s t.
  Proof. apply sum_over_app. Qed.
  Lemma comb_kin1 i s t : site N i -> comb (kinetic_triplets1 J lat i) s t = comm_elem mode (H_kin lat J) (B1 i) s t.
  Proof.
    intros Hi. rewrite (kin_B1 N mode mode_inj s t lat HG J i Hi). unfold comb, kinetic_triplets1. rewrite sum_over_map. apply sum_over_ext.
    intros x Hx. cbn [t_col t_val]. rewrite el1 by (apply (g_range _ _ HG i); assumption). reflexivity.
  Qed.
  Lemma comb_kin3 row i0 i1 i2 s t : site N i0 -> site N i1 -> site N i2 ->
    comb (kinetic_triplets3 J lat row i0 i1 i2) s t = comm_elem mode (H_kin lat J) (B3 i0 i1 i2) s t.
  Proof.
    intros H0 H1 H2. rewrite (kin_B3 N mode mode_inj s t lat HG J i0 i1 i2 H0 H1 H2). unfold kinetic_triplets3. rewrite (lat_size_N lat N HG), !comb_app.
    unfold comb. rewrite !sum_over_map. cbn [t_col t_val].
    rewrite (sum_over_ext _ (fun x => _ * E (el (idx x i1 i2)) s t) (fun x => - J * E (B3 x i1 i2) s t))
      by (intros x Hx; rewrite el3 by (assumption || (apply (g_range _ _ HG i0); assumption)); reflexivity).
    rewrite (sum_over_ext _ (fun x => _ * E (el (idx i0 x i2)) s t) (fun x => - J * E (B3 i0 x i2) s t))
      by (intros x Hx; rewrite el3 by (assumption || (apply (g_range _ _ HG i1); assumption)); reflexivity).
    rewrite (sum_over_ext _ (fun x => _ * E (el (idx i0 i1 x)) s t) (fun x => J * E (B3 i0 i1 x) s t))
      by (intros x Hx; rewrite el3 by (assumption || (apply (g_range _ _ HG i2); assumption)); reflexivity).
    ring.
  Qed.
  Lemma comm_app A A' B s t : comm_elem (K := K) mode (A ++ A') B s t = comm_elem mode A B s t + comm_elem mode A' B s t.
  Proof.
    rewrite !comm_elem_cw, <- sum_over_add. apply sum_over_ext. intros b _. rewrite sum_over_app. ring.
  Qed.
  (** exact rows *)
  Lemma exact1 i s t : site N i -> comb (triplets1 J U half lat i) s t = comm_elem mode (H_kin lat J ++ H_int lat U) (B1 i) s t.
  Proof.
    intros Hi. rewrite comm_app. rewrite (int_B1 N mode mode_inj s t lat HG half Hhalf U i Hi). unfold triplets1. rewrite comb_app, comb_kin1 by exact Hi.
    unfold comb at 1. rewrite !sum_over_cons, sum_over_nil. cbn [t_col t_val]. rewrite (lat_size_N lat N HG), el1, el3 by assumption. ring.
  Qed.
  Lemma exact_iii i s t : site N i -> comb (triplets3 J U half lat (idx i i i) i i i) s t = comm_elem mode (H_kin lat J ++ H_int lat U) (B3 i i i) s t.
  Proof.
    intros Hi. rewrite comm_app. rewrite (int_Biii N mode mode_inj s t lat HG half Hhalf U i Hi). unfold triplets3. rewrite !comb_app, comb_kin3 by exact Hi.
    rewrite Z.eqb_refl. cbn [andb]. unfold comb at 1 2. rewrite !sum_over_cons, sum_over_nil. cbn [t_col t_val]. rewrite el1, el3 by assumption. ring.
  Qed.
  (** the particle-hole symmetric interaction, projected *)
  Lemma frob_comm (n : nat) (A H B : list (term hub K)) :
    terms_on N A -> terms_on N H -> terms_on N B ->
    (forall a b, In a A -> In b (op_mul H B) -> let l := (length (operators a) + length (operators b))%nat in (l <= 2 * n)%nat /\ Nat.even l = true) ->
    (forall a b, In a A -> In b (op_mul B H) -> let l := (length (operators a) + length (operators b))%nat in (l <= 2 * n)%nat /\ Nat.even l = true) ->
    Fr A (fun s t => comm_elem mode H B s t) = (ip half n A (op_mul H B) - ip half n A (op_mul B H)) * two_pow M.
  Proof.
    intros HA HH HB L1 L2. unfold comm_elem. rewrite frob_sub.
    rewrite (frob_ip half Hhalf N M mode mode_below mode_inj n A (op_mul H B)) by (try apply on_mul; assumption).
    rewrite (frob_ip half Hhalf N M mode mode_below mode_inj n A (op_mul B H)) by (try apply on_mul; assumption). ring.
  Qed.
  Lemma ph1 k j i1 i2 i3 : site N k -> site N j -> site N i1 -> site N i2 -> site N i3 ->
    Fr (B1 j) (fun s t => comm_elem mode (Hph half k k k k) (B3 i1 i2 i3) s t) =
    half * half * delta k j * delta i1 k * delta k i3 * delta i2 k * two_pow M.
  Proof.
    intros. rewrite (frob_comm 4) by (try apply on1; try apply on3; try apply onH; try assumption; lens).
    rewrite ph_31 by exact Hhalf. ring.
  Qed.
  Lemma ph3 k j1 j2 j3 i1 i2 i3 : site N k -> site N j1 -> site N j2 -> site N j3 -> site N i1 -> site N i2 -> site N i3 ->
    Fr (B3 j1 j2 j3) (fun s t => comm_elem mode (Hph half k k k k) (B3 i1 i2 i3) s t) = 0.
  Proof.
    intros. rewrite (frob_comm 5) by (try apply on1; try apply on3; try apply onH; try assumption; lens).
    rewrite ph_33 by exact Hhalf. ring.
  Qed.
  Lemma charge1 i1 i2 i3 (b : term hub K) : In b (B3 i1 i2 i3) -> charge (K := K) (operators b) = 1.
  Proof. intros [<-|[<-|[]]]; unfold charge; cbn [operators]; rewrite !sum_over_cons, sum_over_nil; cbn [hop creator]; ring. Qed.
  Lemma comm3 i0 i1 i2 s t : site N i0 -> site N i1 -> site N i2 ->
    comm_elem mode (H_kin lat J ++ H_int lat U) (B3 i0 i1 i2) s t =
    comb (kinetic_triplets3 J lat (idx i0 i1 i2) i0 i1 i2 ++ [mkT (idx i0 i1 i2) (idx i0 i1 i2) (U * half)]) s t
    + sum_over (fun k => U * comm_elem mode (Hph half k k k k) (B3 i0 i1 i2) s t) (Zseq N).
  Proof.
    intros H0 H1 H2. rewrite comm_app, (int_split N mode mode_inj s t lat HG half).
    - rewrite comb_app, comb_kin3 by assumption. unfold comb. rewrite sum_over_cons, sum_over_nil. cbn [t_col t_val]. rewrite el3 by assumption. ring.
    - apply on3; assumption.
    - intros b Hb. eapply charge1, Hb.
  Qed.
  Lemma kin3_range i0 i1 i2 : site N i0 -> site N i1 -> site N i2 ->
    Forall (fun x : triplet K => (0 <= t_col x < S3)%Z) (kinetic_triplets3 J lat (idx i0 i1 i2) i0 i1 i2 ++ [mkT (idx i0 i1 i2) (idx i0 i1 i2) (U * half)]).
  Proof.
    intros H0 H1 H2. apply Forall_app. split.
    - apply Forall_forall. intros x Hx. unfold kinetic_triplets3 in Hx. rewrite (lat_size_N lat N HG) in Hx.
      repeat (apply in_app_or in Hx as [Hx|Hx]); apply in_map_iff in Hx as (y & <- & Hy); cbn [t_col];
      (assert (site N y) by (eapply (g_range _ _ HG); [|exact Hy]; assumption));
      match goal with |- context [idx ?a ?b ?c] => pose proof (idx_range lat N HG Hfit a b c) as Hx end; pose proof (HNpos lat N HG); intuition lia.
    - constructor; [|constructor]. cbn [t_col]. pose proof (idx_range lat N HG Hfit i0 i1 i2 H0 H1 H2). pose proof (HNpos lat N HG). lia.
  Qed.
  Lemma tr1_range i : site N i -> Forall (fun x : triplet K => (0 <= t_col x < S3)%Z) (triplets1 J U half lat i).
  Proof.
    intros Hi. pose proof (HNpos lat N HG). unfold triplets1. rewrite (lat_size_N lat N HG). apply Forall_app. split.
    - apply Forall_forall. intros x Hx. apply in_map_iff in Hx as (y & <- & Hy). cbn [t_col]. apply (g_range _ _ HG i y Hi) in Hy. unfold site in Hy. nia.
    - pose proof (idx_range lat N HG Hfit i i i Hi Hi Hi). unfold site in Hi. repeat constructor; cbn [t_col]; nia.
  Qed.
  Lemma sum_ph (f : Z -> K) i : site N i -> sum_over (fun k => delta k i * f k) (Zseq N) = f i.
  Proof.
    intros Hi. rewrite sum_delta by apply Zseq_nodup.
    replace (existsb (Z.eqb i) (Zseq N)) with true; [reflexivity|]. symmetry. apply existsb_exists. exists i.
    split; [apply Zseq_in; exact Hi|apply Z.eqb_refl].
  Qed.
  Lemma proj1 i c : site N i -> (0 <= c < S3)%Z ->
    Fr (el c) (fun s t => comm_elem mode (H_kin lat J ++ H_int lat U) (B1 i) s t) = weight (triplets1 J U half lat i) c * (half * two_pow M).
  Proof.
    intros Hi Hc. rewrite <- (frob_comb c _ Hc (tr1_range i Hi)). apply frob_ext. intros s t. symmetry. apply exact1, Hi.
  Qed.
  Lemma proj3 i0 i1 i2 c : site N i0 -> site N i1 -> site N i2 -> (0 <= c < S3)%Z ->
    Fr (el c) (fun s t => comm_elem mode (H_kin lat J ++ H_int lat U) (B3 i0 i1 i2) s t) =
    weight (triplets3 J U half lat (idx i0 i1 i2) i0 i1 i2) c * (half * two_pow M).
  Proof.
    intros H0 H1 H2 Hc. rewrite (frob_ext M _ _ _ (fun s t => comm3 i0 i1 i2 s t H0 H1 H2)).
    rewrite frob_add, (frob_comb c _ Hc (kin3_range i0 i1 i2 H0 H1 H2)).
    rewrite (frob_sum M _ (fun k s t => U * comm_elem mode (Hph half k k k k) (B3 i0 i1 i2) s t)).
    unfold triplets3. rewrite !weight_app, onsite_w.
    transitivity (weight (kinetic_triplets3 J lat (idx i0 i1 i2) i0 i1 i2) c * (half * two_pow M) + weight [mkT (idx i0 i1 i2) (idx i0 i1 i2) (U * half)] c * (half * two_pow M)
       + delta i0 i1 * delta i0 i2 * delta i0 c * (U * half) * (half * two_pow M)); [|ring].
    f_equal; [ring|].
    destruct (col_cases c Hc) as [Hs|(a & b & d & Ha & Hb & Hd & ->)].
    - rewrite el1 by exact Hs.
      rewrite (sum_over_ext _ _ (fun k => delta k c * (U * (half * half * delta i0 k * delta k i2 * delta i1 k * two_pow M)))).
      + rewrite sum_ph by exact Hs. unfold delta.
        destruct (Z.eqb_spec i0 c) as [->|Hne]; [|ring]. rewrite (Z.eqb_sym i1 c). destruct (Z.eqb c i1), (Z.eqb c i2); ring.
      + intros k Hk. apply Zseq_in in Hk. rewrite frob_scale, ph1 by assumption. ring.
    - rewrite el3 by assumption. rewrite (delta_ne i0 (idx a b d)) by (intros Eq; symmetry in Eq; revert Eq; apply (idx_not_site lat N HG Hfit); assumption).
      rewrite sum_over_zero; [ring|]. intros k Hk. apply Zseq_in in Hk. rewrite frob_scale, ph3 by assumption. ring.
  Qed.
End Proj.
