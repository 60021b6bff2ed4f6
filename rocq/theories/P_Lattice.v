(** THEOREMS: C17-C19, C23-C25 (lattice indices) and C55 (IntegerIterator). *)
From Coq Require Import ZifyBool Sorting.Sorted.
From Verif Require Import Base M_Lattice Spec_Lattice Pf_Lattice.
Local Open Scope Z_scope.

(** ** C17: chain neighbours *)
Theorem C17_neighbors : forall N i, N < two64 -> site N i ->
  chain_neighbors N i = [(i - 1) mod N; (i + 1) mod N] /\
  (forall j, In j (chain_neighbors N i) -> site N j) /\
  (forall j, In j (chain_neighbors N i) <-> ring_adj N i j).
Proof.
  intros N i HN Hi. rewrite chain_neighbors_ring by assumption. split; [reflexivity|].
  assert (E : forall j, In j [(i - 1) mod N; (i + 1) mod N] <-> ring_adj N i j).
  { intros j. unfold ring_adj. cbn [In]. intuition congruence. }
  split; [|exact E]. intros j Hj. apply E in Hj. apply (ring_adj_sym N i j Hi Hj).
Qed.
Print Assumptions C17_neighbors.
Theorem C17_symmetric : forall N i j, N < two64 -> site N i ->
  In j (chain_neighbors N i) -> In i (chain_neighbors N j).
Proof.
  intros N i j HN Hi H. apply (C17_neighbors N i HN Hi) in H.
  destruct (ring_adj_sym N i j Hi H) as [H' Hj]. apply (C17_neighbors N j HN Hj), H'.
Qed.
Print Assumptions C17_symmetric.

Lemma succ_perm N : 0 < N -> Permutation (map (fun i => (i + 1) mod N) (Zseq N)) (Zseq N).
Proof.
  intros HN. apply NoDup_Permutation.
  -
    assert (H : forall l, NoDup l -> (forall x, In x l -> site N x) -> NoDup (map (fun i => (i + 1) mod N) l)).
    { intros l Hl. induction Hl as [|x l Hx Hl IH]; intros Hs; cbn; constructor.
      - intros H. apply in_map_iff in H as (y & E & Hy).
        assert (Sx : site N x) by (apply Hs; left; reflexivity).
        assert (Sy : site N y) by (apply Hs; right; exact Hy).
        rewrite !succ_mod in E by assumption. unfold site in *.
        assert (x = y) by (destruct (x =? N - 1) eqn:E1, (y =? N - 1) eqn:E2; lia). subst y. contradiction.
      - apply IH. intros y Hy. apply Hs. right. exact Hy. }
    apply H; [apply Zseq_nodup|]. intros x Hx. apply Zseq_in in Hx. exact Hx.
  - apply Zseq_nodup.
  - intros x. rewrite in_map_iff, Zseq_in. split.
    + intros (y & <- & _). apply Z.mod_pos_bound; lia.
    + intros Hx. exists ((x - 1) mod N). split.
      * rewrite Zplus_mod_idemp_l. replace (x - 1 + 1) with x by lia. apply Z.mod_small; lia.
      * apply Zseq_in. apply Z.mod_pos_bound; lia.
Qed.
(** All directed neighbour pairs are the pairs from unique_neighbors, each once in
    each direction (counted with multiplicity, so also for N = 1 and N = 2). *)
Theorem C17_unique_bonds : forall N, 0 < N < two64 ->
  let bonds nb := flat_map (fun i => map (fun j => (i, j)) (nb N i)) (Zseq N) in
  Permutation (bonds chain_neighbors)
    (bonds chain_unique_neighbors ++ map (fun p => (snd p, fst p)) (bonds chain_unique_neighbors)).
Proof.
  intros N HN bonds.
  assert (Ein : forall x, In x (Zseq N) -> site N x) by (intros x H; apply Zseq_in in H; exact H).
  assert (E1 : bonds chain_neighbors = flat_map (fun i => [(i, (i - 1) mod N); (i, (i + 1) mod N)]) (Zseq N)).
  { unfold bonds. revert Ein. generalize (Zseq N) as l.
    induction l as [|x l IH]; intros Ein; [reflexivity|]. cbn [flat_map].
    rewrite IH by (intros y Hy; apply Ein; right; exact Hy).
    rewrite chain_neighbors_ring by (try lia; apply Ein; left; reflexivity). reflexivity. }
  assert (E2 : bonds chain_unique_neighbors = map (fun i => (i, (i + 1) mod N)) (Zseq N)).
  { unfold bonds. revert Ein. generalize (Zseq N) as l.
    induction l as [|x l IH]; intros Ein; [reflexivity|]. cbn [flat_map map].
    rewrite IH by (intros y Hy; apply Ein; right; exact Hy).
    rewrite chain_unique_ring by (try lia; apply Ein; left; reflexivity). reflexivity. }
  rewrite E1, E2, map_map. cbn [fst snd].
  transitivity (map (fun i => (i, (i - 1) mod N)) (Zseq N) ++ map (fun i => (i, (i + 1) mod N)) (Zseq N)).
  - generalize (Zseq N) as l. induction l as [|x l IH]; [reflexivity|]. cbn [flat_map map app].
    rewrite IH. apply perm_skip. apply Permutation_middle.
  - rewrite Permutation_app_comm. apply Permutation_app_head.
    transitivity (map (fun i => (i, (i - 1) mod N)) (map (fun i => (i + 1) mod N) (Zseq N))).
    + apply Permutation_map. symmetry. apply succ_perm. lia.
    + rewrite map_map. apply Permutation_refl'. apply map_ext_in. intros x Hx.
      f_equal. rewrite Zminus_mod_idemp_l. replace (x + 1 - 1) with x by lia.
      apply Z.mod_small. apply Ein. exact Hx.
Qed.
Print Assumptions C17_unique_bonds.
(** For N >= 3 every adjacent pair is listed by exactly one of its two ends. *)
Theorem C17_unique_exactly_once : forall N i j, 3 <= N < two64 -> site N i -> ring_adj N i j ->
  (In j (chain_unique_neighbors N i) /\ ~ In i (chain_unique_neighbors N j)) \/
  (~ In j (chain_unique_neighbors N i) /\ In i (chain_unique_neighbors N j)).
Proof.
  intros N i j HN Hi H. destruct (ring_adj_sym N i j Hi H) as [_ Hj].
  rewrite !chain_unique_ring by (try lia; assumption). rewrite !succ_mod by assumption.
  rewrite ring_adj_iff in H by assumption. cbn [In]. unfold site in *.
  destruct (i =? N - 1) eqn:E1, (j =? N - 1) eqn:E2, (i =? 0) eqn:E3; lia.
Qed.
Print Assumptions C17_unique_exactly_once.
Example C17_example : site 4 3 /\ chain_neighbors 4 3 = [2; 0] /\ chain_neighbors 4 0 = [3; 1].
Proof. split; [unfold site; lia|split; vm_compute; reflexivity]. Qed.

(** ** C18: chain distance *)
Theorem C18_graph_distance : forall N a b, N < two64 -> site N a -> site N b ->
  graph_distance (ring_adj N) (chain_distance N a b) a b.
Proof. intros N a b HN Ha Hb. rewrite chain_distance_eq by assumption. apply rd_graph; assumption. Qed.
Print Assumptions C18_graph_distance.
Theorem C18_metric : forall N a b c, N < two64 -> site N a -> site N b -> site N c ->
  chain_distance N a b = chain_distance N b a /\
  (chain_distance N a b = 0 <-> a = b) /\
  chain_distance N a c <= chain_distance N a b + chain_distance N b c /\
  0 <= chain_distance N a b <= N / 2.
Proof.
  intros N a b c HN Ha Hb Hc. rewrite !chain_distance_eq by assumption. unfold site in *.
  assert (H2 : forall x, 2 * x <= N -> x <= N / 2) by (intros x Hx; apply Z.div_le_lower_bound; lia).
  repeat split; try lia. apply H2. lia.
Qed.
Print Assumptions C18_metric.
Theorem C18_neighboring : forall N a b, N < two64 -> site N a -> site N b ->
  (chain_neighboring N a b = true <-> In b (chain_neighbors N a)) /\
  (2 <= N -> (chain_neighboring N a b = true <-> chain_distance N a b = 1)).
Proof.
  intros N a b HN Ha Hb. split.
  - rewrite chain_neighboring_iff by assumption. symmetry. apply (C17_neighbors N a HN Ha).
  - intros H2. rewrite chain_neighboring_iff by assumption. rewrite chain_distance_eq by assumption.
    rewrite ring_adj_iff by assumption. unfold site in *.
    destruct (a =? N - 1) eqn:E1, (a =? 0) eqn:E2; lia.
Qed.
Print Assumptions C18_neighboring.
Example C18_example : chain_distance 5 0 4 = 1 /\ chain_distance 5 1 4 = 2 /\ chain_neighboring 5 4 0 = true.
Proof. vm_compute. auto. Qed.

(** ** C19: iteration *)
Theorem C19_chain_iteration : forall N, 0 < N < two64 ->
  exists fuel, range_for fuel chain_begin (chain_end N) = Some (Zseq N).
Proof.
  intros N HN. exists (Z.to_nat N). unfold chain_begin, chain_end, chain_first, chain_last.
  rewrite (u64_id (N - 1)) by lia. rewrite u64_id by lia. replace (N - 1 + 1) with N by lia.
  apply range_for_zero; lia.
Qed.
Print Assumptions C19_chain_iteration.
Theorem C19_square_iteration : forall Nx Ny, 0 < Nx -> 0 < Ny -> Nx * Ny < two64 ->
  exists fuel, range_for fuel sq_begin (sq_end Nx Ny) = Some (Zseq (Nx * Ny)).
Proof.
  intros Nx Ny HX HY HN. exists (Z.to_nat (Nx * Ny)).
  unfold sq_begin, sq_end, sq_last, sq_size. assert (0 < Nx * Ny) by nia.
  rewrite (u64_id (Nx * Ny)) by lia. rewrite (u64_id (_ - 1)) by lia. rewrite u64_id by lia.
  replace (Nx * Ny - 1 + 1) with (Nx * Ny) by lia. apply range_for_zero; lia.
Qed.
Print Assumptions C19_square_iteration.
(** [Zseq n] is each index below n, once, ascending. *)
Theorem C19_each_site_once : forall n, (forall x, In x (Zseq n) <-> 0 <= x < n) /\ NoDup (Zseq n) /\
  StronglySorted Z.lt (Zseq n).
Proof.
  intros n. split; [intros x; apply Zseq_in|]. split; [apply Zseq_nodup|].
  unfold Zseq. generalize (Z.to_nat n) as m, 0%nat as s. induction m as [|m IH]; intros s; cbn; constructor.
  - apply IH.
  - apply Forall_forall. intros x Hx. apply in_map_iff in Hx as (k & <- & Hk). apply in_seq in Hk. lia.
Qed.
Print Assumptions C19_each_site_once.
Example C19_example : range_for 3 chain_begin (chain_end 3) = Some [0; 1; 2].
Proof. vm_compute. reflexivity. Qed.

(** ** C23: square-lattice coordinates.  The claim, for an Nx x Ny lattice: *)
Definition coords_inverse (Nx Ny : Z) : Prop :=
  (forall x y, site Nx x -> site Ny y ->
     site (Nx * Ny) (sq_index Nx x y) /\ sq_x Nx (sq_index Nx x y) = x /\ sq_y Nx (sq_index Nx x y) = y) /\
  (forall i, site (Nx * Ny) i ->
     site Nx (sq_x Nx i) /\ site Ny (sq_y Nx i) /\ sq_index Nx (sq_x Nx i) (sq_y Nx i) = i).
(** It holds exactly for the square shapes. *)
Theorem C23_inverse_iff_square : forall Nx Ny, 1 <= Nx -> 1 <= Ny ->
  Nx * Ny < two64 -> Nx * Nx < two64 -> (coords_inverse Nx Ny <-> Nx = Ny).
Proof.
  intros Nx Ny HX HY Hf Hf2. split.
  - intros [H1 H2].
    destruct (Z.lt_trichotomy Nx Ny) as [L|[E|L]]; [|exact E|]; exfalso.
    + (* y = Nx is a legal coordinate, but y_index < Nx *)
      destruct (H1 0 Nx) as (_ & _ & H); [unfold site; lia|unfold site; lia|].
      unfold sq_y in H. pose proof (Z.mod_pos_bound (sq_index Nx 0 Nx) Nx). lia.
    + (* i = Ny is a legal index with y_index = Ny *)
      destruct (H2 Ny) as (_ & H & _); [unfold site; nia|].
      unfold sq_y, site in H. rewrite Z.mod_small in H by lia. lia.
  - intros <-. split.
    + intros x y Hx Hy. split; [apply sq_index_range; assumption|].
      split; [apply sq_x_index|apply sq_y_index]; assumption.
    + intros i Hi. split; [apply sq_x_range; assumption|]. split; [apply sq_y_range; assumption|].
      apply sq_index_xy; assumption.
Qed.
Print Assumptions C23_inverse_iff_square.
Theorem C23_rectangle_refuted : exists Nx Ny, 1 <= Nx /\ 1 <= Ny /\ ~ coords_inverse Nx Ny.
Proof.
  exists 2, 3. split; [lia|]. split; [lia|]. intros H.
  apply (C23_inverse_iff_square 2 3) in H; vm_compute; congruence.
Qed.
Print Assumptions C23_rectangle_refuted.
(** On a rectangle two different coordinate pairs can share one index. *)
Theorem C23_index_collision_refuted : forall Nx Ny, 2 <= Nx -> Nx < Ny -> Nx * Ny < two64 ->
  sq_index Nx 0 Nx = sq_index Nx 1 0 /\ site Nx 0 /\ site Ny Nx /\ site Nx 1 /\ site Ny 0.
Proof.
  intros Nx Ny H1 H2 Hf. unfold sq_index, site. rewrite Z.mul_0_l, Z.mul_1_l.
  rewrite (u64_id 0) by nia. rewrite (u64_id Nx) by nia. repeat split; try lia. f_equal. lia.
Qed.
Print Assumptions C23_index_collision_refuted.
Example C23_example : sq_index 4 2 3 = 11 /\ sq_x 4 11 = 2 /\ sq_y 4 11 = 3.
Proof. vm_compute. auto. Qed.

(** ** C24: square-lattice neighbours *)
Theorem C24_neighbors : forall N i, 1 <= N -> N * N < two64 -> site (N * N) i ->
  let x := sq_x N i in let y := sq_y N i in
  sq_neighbors N N i = [ sq_index N ((x - 1) mod N) y; sq_index N x ((y - 1) mod N);
                         sq_index N ((x + 1) mod N) y; sq_index N x ((y + 1) mod N) ] /\
  (forall j, In j (sq_neighbors N N i) <->
     site (N * N) j /\ torus_adj N N (sq_x N i, sq_y N i) (sq_x N j, sq_y N j)).
Proof.
  intros N i HN Hf Hi. split; [apply sq_neighbors_torus; assumption|].
  intros j. apply sq_neighbors_coords; assumption.
Qed.
Print Assumptions C24_neighbors.
Theorem C24_symmetric : forall N i j, 1 <= N -> N * N < two64 -> site (N * N) i ->
  In j (sq_neighbors N N i) -> In i (sq_neighbors N N j).
Proof.
  intros N i j HN Hf Hi H. apply sq_neighbors_coords in H as [Hj H]; try assumption.
  apply sq_neighbors_coords; try assumption. split; [assumption|].
  destruct H as [[A E]|[E A]]; cbn [fst snd] in *.
  - left. split; [|symmetry; exact E]. apply (ring_adj_sym N _ _ (sq_x_range N HN i Hi) A).
  - right. split; [symmetry; exact E|]. apply (ring_adj_sym N _ _ (sq_y_range N HN i Hi) A).
Qed.
Print Assumptions C24_symmetric.
Theorem C24_neighboring : forall N i j, 1 <= N -> N * N < two64 -> site (N * N) i -> site (N * N) j ->
  (sq_neighboring N N i j = true <-> In j (sq_neighbors N N i)).
Proof.
  intros N i j HN Hf Hi Hj. rewrite sq_neighboring_torus, sq_neighbors_coords by assumption. tauto.
Qed.
Print Assumptions C24_neighboring.
Theorem C24_unique_exactly_once : forall N i j, 3 <= N -> N * N < two64 -> site (N * N) i ->
  NoDup (sq_unique_neighbors N N i) /\
  (In j (sq_neighbors N N i) ->
   (In j (sq_unique_neighbors N N i) /\ ~ In i (sq_unique_neighbors N N j)) \/
   (~ In j (sq_unique_neighbors N N i) /\ In i (sq_unique_neighbors N N j))) /\
  (In j (sq_unique_neighbors N N i) -> In j (sq_neighbors N N i)).
Proof.
  intros N i j H3 Hf Hi. assert (HN : 1 <= N) by lia.
  assert (U : forall a b, site (N * N) a -> site (N * N) b -> (In b (sq_unique_neighbors N N a) <->
     (sq_x N b = (sq_x N a + 1) mod N /\ sq_y N b = sq_y N a) \/
     (sq_x N b = sq_x N a /\ sq_y N b = (sq_y N a + 1) mod N))).
  { intros a b Ha Hb. rewrite sq_unique_torus by assumption. cbn [In].
    pose proof (sq_x_range N HN a Ha). pose proof (sq_y_range N HN a Ha).
    split.
    - intros [<-|[<-|[]]]; rewrite sq_x_index, sq_y_index by auto using mod_site; auto.
    - intros [[E1 E2]|[E1 E2]]; rewrite <- (sq_index_xy N HN Hf b Hb), E1, E2; auto. }
  pose proof (sq_x_range N HN i Hi) as Xi. pose proof (sq_y_range N HN i Hi) as Yi.
  repeat split.
  - rewrite sq_unique_torus by assumption. constructor; [|constructor; [intros []|constructor]].
    intros [E|[]]. apply (f_equal (sq_x N)) in E.
    rewrite !sq_x_index in E by auto using mod_site. rewrite succ_mod in E by assumption.
    unfold site in *. destruct (_ =? _) eqn:E1; lia.
  - intros H. apply sq_neighbors_coords in H as [Hj H]; try assumption.
    pose proof (sq_x_range N HN j Hj) as Xj. pose proof (sq_y_range N HN j Hj) as Yj.
    rewrite !U by assumption.
    destruct H as [[A E]|[E A]]; cbn [fst snd] in *; rewrite ring_adj_iff in A by assumption;
      rewrite !succ_mod by assumption; rewrite E; unfold site in *.
    + destruct (sq_x N i =? N - 1) eqn:E1, (sq_x N i =? 0) eqn:E2, (sq_x N j =? N - 1) eqn:E3,
        (sq_y N j =? N - 1) eqn:E4; lia.
    + destruct (sq_y N i =? N - 1) eqn:E1, (sq_y N i =? 0) eqn:E2, (sq_y N j =? N - 1) eqn:E3,
        (sq_x N j =? N - 1) eqn:E4; lia.
  - rewrite sq_unique_torus, sq_neighbors_torus by assumption. cbn [In]. tauto.
Qed.
Print Assumptions C24_unique_exactly_once.
(** Rectangles: a neighbour index can lie outside the lattice, and the neighbour
    relation need not be symmetric. *)
Theorem C24_rectangle_refuted :
  (exists Nx Ny i j, 1 <= Nx /\ 1 <= Ny /\ site (Nx * Ny) i /\ In j (sq_neighbors Nx Ny i) /\ ~ site (Nx * Ny) j) /\
  (exists Nx Ny i j, 1 <= Nx /\ 1 <= Ny /\ site (Nx * Ny) i /\ site (Nx * Ny) j /\
     In j (sq_neighbors Nx Ny i) /\ ~ In i (sq_neighbors Nx Ny j)).
Proof.
  split.
  - exists 3, 2, 0, 6. unfold site. split; [lia|]. split; [lia|]. split; [lia|].
    split; [vm_compute; tauto|lia].
  - exists 2, 3, 0, 2. unfold site. split; [lia|]. split; [lia|]. split; [lia|]. split; [lia|].
    vm_compute. split; [tauto|]. intros H. repeat (destruct H as [H|H]; [discriminate|]). exact H.
Qed.
Print Assumptions C24_rectangle_refuted.
Example C24_example : sq_neighbors 4 4 0 = [12; 3; 4; 1] /\ sq_unique_neighbors 4 4 15 = [3; 12].
Proof. vm_compute. auto. Qed.

(** ** C25: square-lattice distances *)
Theorem C25_ring_distances : forall N a b, 1 <= N -> N * N < two64 -> site (N * N) a -> site (N * N) b ->
  graph_distance (ring_adj N) (sq_distance_x N a b) (sq_x N a) (sq_x N b) /\
  graph_distance (ring_adj N) (sq_distance_y N N a b) (sq_y N a) (sq_y N b) /\
  graph_distance (torus_adj N N) (sq_distance_x N a b + sq_distance_y N N a b)
    (sq_x N a, sq_y N a) (sq_x N b, sq_y N b).
Proof.
  intros N a b HN Hf Ha Hb. rewrite sq_distance_x_rd, sq_distance_y_rd by assumption.
  pose proof (sq_x_range N HN a Ha). pose proof (sq_y_range N HN a Ha).
  pose proof (sq_x_range N HN b Hb). pose proof (sq_y_range N HN b Hb).
  split; [apply rd_graph; assumption|]. split; [apply rd_graph; assumption|].
  apply torus_graph; assumption.
Qed.
Print Assumptions C25_ring_distances.
Theorem C25_metric : forall N a b, 1 <= N -> N * N < two64 -> site (N * N) a -> site (N * N) b ->
  sq_distance_x N a b = sq_distance_x N b a /\ sq_distance_y N N a b = sq_distance_y N N b a /\
  sq_distance_x N a b <= N / 2 /\ sq_distance_y N N a b <= N / 2 /\
  (sq_distance_x N a b = 0 /\ sq_distance_y N N a b = 0 <-> a = b).
Proof.
  intros N a b HN Hf Ha Hb. rewrite !sq_distance_x_rd, !sq_distance_y_rd by assumption.
  pose proof (sq_x_range N HN a Ha). pose proof (sq_y_range N HN a Ha).
  pose proof (sq_x_range N HN b Hb). pose proof (sq_y_range N HN b Hb).
  assert (H2' : forall x, 2 * x <= N -> x <= N / 2) by (intros x Hx; apply Z.div_le_lower_bound; lia).
  unfold rd, site in *.
  split; [lia|]. split; [lia|]. split; [apply H2'; lia|]. split; [apply H2'; lia|]. split.
  - intros [E1 E2]. rewrite <- (sq_index_xy N HN Hf a Ha), <- (sq_index_xy N HN Hf b Hb).
    f_equal; lia.
  - intros ->. rewrite !Z.sub_diag. lia.
Qed.
Print Assumptions C25_metric.
(** On a rectangle two different sites can have both distances 0. *)
Theorem C25_rectangle_refuted : exists Nx Ny a b, 1 <= Nx /\ 1 <= Ny /\
  site (Nx * Ny) a /\ site (Nx * Ny) b /\ a <> b /\
  sq_distance_x Nx a b = 0 /\ sq_distance_y Nx Ny a b = 0.
Proof. exists 2, 3, 0, 4. unfold site. vm_compute. repeat split; congruence. Qed.
Print Assumptions C25_rectangle_refuted.
Example C25_example : sq_distance_x 4 0 12 = 1 /\ sq_distance_y 4 4 0 2 = 2.
Proof. vm_compute. auto. Qed.

(** ** C55: IntegerIterator as a random-access iterator over uint64_t *)
Definition u64val (v : Z) : Prop := 0 <= v < two64.
Theorem C55_arithmetic : forall v d e, u64val v -> u64val d -> u64val e ->
  it_plus_assign v d = it_plus v d /\
  it_minus (it_plus v d) d = v /\ it_plus (it_minus v d) d = v /\
  it_diff (it_plus v d) v = d /\
  it_plus (it_plus v d) e = it_plus v (u64 (d + e)) /\
  it_at v d = it_plus v d /\
  it_incr v = it_plus v 1 /\ it_decr v = it_minus v 1 /\
  it_decr (it_incr v) = v /\ it_incr (it_decr v) = v.
Proof.
  intros v d e Hv Hd He. unfold u64val in *.
  assert (E : forall x, 0 <= x < two64 -> x mod two64 = x) by (intros; apply Z.mod_small; assumption).
  unfold it_plus_assign, it_plus, it_minus, it_diff, it_at, it_incr, it_decr, u64.
  repeat split;
    rewrite ?Zplus_mod_idemp_l, ?Zplus_mod_idemp_r, ?Zminus_mod_idemp_l, ?Zminus_mod_idemp_r.
  - replace (v + d - d) with v by lia. apply E, Hv.
  - replace (v - d + d) with v by lia. apply E, Hv.
  - replace (v + d - v) with d by lia. apply E, Hd.
  - f_equal. lia.
  - replace (v + 1 - 1) with v by lia. apply E, Hv.
  - replace (v - 1 + 1) with v by lia. apply E, Hv.
Qed.
Print Assumptions C55_arithmetic.
Theorem C55_order : forall a b,
  (it_lt a b = true <-> a < b) /\ (it_gt a b = it_lt b a) /\ (it_le a b = negb (it_lt b a)) /\
  (it_ge a b = it_le b a) /\ (it_eq a b = true <-> a = b) /\ (it_ne a b = negb (it_eq a b)).
Proof. intros a b. unfold it_lt, it_gt, it_le, it_ge, it_eq, it_ne.
  split; [apply Z.ltb_lt|]. split; [reflexivity|]. split; [apply Z.leb_antisym|].
  split; [reflexivity|]. split; [apply Z.eqb_eq|reflexivity].
Qed.
Print Assumptions C55_order.
(** [it -= d] does not move back by d: it moves forward, whenever 2d is not 0 mod 2^64. *)
Theorem C55_minus_assign_refuted : forall v d, u64val v -> u64val d ->
  (it_minus_assign v d = it_minus v d <-> d = 0 \/ 2 * d = two64).
Proof.
  intros v d Hv Hd. unfold it_minus_assign, it_minus, u64, u64val in *. split.
  - intros H. assert (H2 : (2 * d) mod two64 = 0).
    { replace (2 * d) with ((v + d) - (v - d)) by lia. rewrite Zminus_mod, H, Z.sub_diag. apply Zmod_0_l. }
    apply Z.mod_divide in H2; [|lia]. destruct H2 as [q Hq]. assert (0 <= q < 2) by nia. assert (q = 0 \/ q = 1) as [-> | ->] by lia; lia.
  - intros [->|H].
    + rewrite Z.add_0_r, Z.sub_0_r. reflexivity.
    + replace (v + d) with (v - d + 1 * two64) by lia. rewrite Z.mod_add by lia. reflexivity.
Qed.
Print Assumptions C55_minus_assign_refuted.
Example C55_example : it_minus_assign 5 2 = 7 /\ it_minus 5 2 = 3 /\ it_diff 7 3 = 4.
Proof. vm_compute. auto. Qed.
