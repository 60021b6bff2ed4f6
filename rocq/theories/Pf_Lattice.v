(** Proofs about lattice indices. *)
From Coq Require Import ZifyBool.
From Verif Require Import Base M_Lattice Spec_Lattice.
Local Open Scope Z_scope.
Global Opaque two64.

Lemma two64_pos : 2 < two64.
Proof. reflexivity. Qed.
Lemma u64_id z : 0 <= z < two64 -> u64 z = z.
Proof. intros H. unfold u64. apply Z.mod_small, H. Qed.
Lemma u64_range z : 0 <= u64 z < two64.
Proof. unfold u64. apply Z.mod_pos_bound. pose proof two64_pos; lia. Qed.

Lemma succ_mod N a : site N a -> (a + 1) mod N = if a =? N - 1 then 0 else a + 1.
Proof.
  unfold site. intros H. destruct (Z.eqb_spec a (N - 1)) as [E|E].
  - replace (a + 1) with N by lia. apply Z.mod_same; lia.
  - apply Z.mod_small; lia.
Qed.
Lemma pred_mod N a : site N a -> (a - 1) mod N = if a =? 0 then N - 1 else a - 1.
Proof.
  unfold site. intros H. destruct (Z.eqb_spec a 0) as [E|E].
  - subst a. replace (0 - 1) with (N - 1 + (-1) * N) by lia.
    rewrite Z.mod_add by lia. apply Z.mod_small; lia.
  - apply Z.mod_small; lia.
Qed.
Lemma ring_adj_iff N a b : site N a ->
  ring_adj N a b <-> b = (if a =? N - 1 then 0 else a + 1) \/ b = (if a =? 0 then N - 1 else a - 1).
Proof. intros H. unfold ring_adj. rewrite succ_mod, pred_mod by exact H. reflexivity. Qed.
Lemma ring_adj_sym N a b : site N a -> ring_adj N a b -> ring_adj N b a /\ site N b.
Proof.
  intros H. rewrite ring_adj_iff by exact H. intros Hb.
  assert (Hs : site N b) by (unfold site in *; destruct Hb as [->| ->]; destruct (_ =? _) eqn:E; lia).
  split; [|exact Hs]. rewrite ring_adj_iff by exact Hs. unfold site in *.
  destruct Hb as [->| ->]; [right|left].
  - destruct (a =? N - 1) eqn:E1; [cbn; lia|]. destruct (a + 1 =? 0) eqn:E2; lia.
  - destruct (a =? 0) eqn:E1.
    + rewrite Z.eqb_refl. lia.
    + destruct (a - 1 =? N - 1) eqn:E2; lia.
Qed.

(** ** Chain *)
Lemma chain_neighbors_ring N i : N < two64 -> site N i ->
  chain_neighbors N i = [(i - 1) mod N; (i + 1) mod N].
Proof.
  unfold site. intros HN Hi. unfold chain_neighbors, chain_last, chain_first.
  rewrite (u64_id (N - 1)) by lia. rewrite pred_mod, succ_mod by exact Hi.
  f_equal; [|f_equal].
  - destruct (Z.ltb_spec 0 i), (Z.eqb_spec i 0); try lia. rewrite u64_id; lia.
  - destruct (Z.ltb_spec i (N - 1)), (Z.eqb_spec i (N - 1)); try lia. rewrite u64_id; lia.
Qed.
Lemma chain_unique_ring N i : N < two64 -> site N i ->
  chain_unique_neighbors N i = [(i + 1) mod N].
Proof.
  unfold site. intros HN Hi. unfold chain_unique_neighbors, chain_last, chain_first.
  rewrite (u64_id (N - 1)) by lia. rewrite succ_mod by exact Hi. f_equal.
  destruct (Z.ltb_spec i (N - 1)), (Z.eqb_spec i (N - 1)); try lia. rewrite u64_id; lia.
Qed.
Lemma chain_distance_eq N a b : N < two64 -> site N a -> site N b ->
  chain_distance N a b = Z.min (Z.abs (a - b)) (N - Z.abs (a - b)).
Proof.
  unfold site. intros HN Ha Hb. unfold chain_distance.
  destruct (Z.ltb_spec a b).
  - rewrite !u64_id; rewrite ?u64_id; lia.
  - rewrite !u64_id; rewrite ?u64_id; lia.
Qed.
Lemma chain_neighboring_iff N a b : N < two64 -> site N a -> site N b ->
  chain_neighboring N a b = true <-> ring_adj N a b.
Proof.
  intros HN Ha Hb. unfold chain_neighboring.
  rewrite !u64_id by (unfold site in *; lia).
  rewrite orb_true_iff, !Z.eqb_eq, !succ_mod by assumption. rewrite ring_adj_iff by assumption.
  unfold site in *.
  destruct (a =? N - 1) eqn:E1, (b =? N - 1) eqn:E2, (a =? 0) eqn:E3; lia.
Qed.

(** ring distance *)
Definition rd (N a b : Z) : Z := Z.min (Z.abs (a - b)) (N - Z.abs (a - b)).
Lemma rd_adj N a b c : site N a -> site N c -> ring_adj N a b -> rd N a c <= 1 + rd N b c.
Proof.
  intros Ha Hc Hab. rewrite ring_adj_iff in Hab by assumption. unfold rd, site in *.
  destruct Hab as [->| ->]; destruct (_ =? _) eqn:E; lia.
Qed.
Lemma walk_sites N n a b : site N a -> walk (ring_adj N) n a b -> site N b.
Proof.
  intros Ha Hw. induction Hw as [|n a b c Hab Hw IH]; [exact Ha|].
  apply IH. apply (ring_adj_sym N a b Ha Hab).
Qed.
Lemma rd_walk N n a b : site N a -> walk (ring_adj N) n a b -> rd N a b <= Z.of_nat n.
Proof.
  intros Ha Hw. pose proof (walk_sites N n a b Ha Hw) as Hb.
  induction Hw as [a|n a b c Hab Hw IH].
  - unfold rd, site in *. rewrite Z.sub_diag. lia.
  - pose proof (proj2 (ring_adj_sym N a b Ha Hab)) as Hb'.
    pose proof (rd_adj N a b c Ha Hb Hab). specialize (IH Hb' Hb). lia.
Qed.
Lemma walk_up N (k : nat) a : site N a -> walk (ring_adj N) k a ((a + Z.of_nat k) mod N).
Proof.
  revert a. induction k as [|k IH]; intros a Ha.
  - replace ((a + Z.of_nat 0) mod N) with a; [constructor|].
    cbn. rewrite Z.add_0_r, Z.mod_small; [reflexivity|exact Ha].
  - eapply walk_S; [left; reflexivity|].
    replace ((a + Z.of_nat (S k)) mod N) with (((a + 1) mod N + Z.of_nat k) mod N).
    + apply IH. unfold site in *. apply Z.mod_pos_bound. lia.
    + unfold site in *. rewrite Zplus_mod_idemp_l. f_equal. lia.
Qed.
Lemma walk_down N (k : nat) a : site N a -> walk (ring_adj N) k a ((a - Z.of_nat k) mod N).
Proof.
  revert a. induction k as [|k IH]; intros a Ha.
  - replace ((a - Z.of_nat 0) mod N) with a; [constructor|].
    cbn. rewrite Z.sub_0_r, Z.mod_small; [reflexivity|exact Ha].
  - eapply walk_S; [right; reflexivity|].
    replace ((a - Z.of_nat (S k)) mod N) with (((a - 1) mod N - Z.of_nat k) mod N).
    + apply IH. unfold site in *. apply Z.mod_pos_bound. lia.
    + unfold site in *. rewrite Zminus_mod_idemp_l. f_equal. lia.
Qed.
Lemma rd_exists N a b : site N a -> site N b -> walk (ring_adj N) (Z.to_nat (rd N a b)) a b.
Proof.
  intros Ha Hb.
  assert (Hup : forall k, 0 <= k -> (a + k) mod N = b -> walk (ring_adj N) (Z.to_nat k) a b).
  { intros k Hk <-. pose proof (walk_up N (Z.to_nat k) a Ha) as H. rewrite Z2Nat.id in H by lia. exact H. }
  assert (Hdn : forall k, 0 <= k -> (a - k) mod N = b -> walk (ring_adj N) (Z.to_nat k) a b).
  { intros k Hk <-. pose proof (walk_down N (Z.to_nat k) a Ha) as H. rewrite Z2Nat.id in H by lia. exact H. }
  unfold site in *. unfold rd.
  destruct (Z.le_gt_cases (Z.abs (a - b)) (N - Z.abs (a - b))).
  - rewrite Z.min_l by lia. destruct (Z.le_gt_cases a b).
    + apply Hup; [lia|]. replace (a + Z.abs (a - b)) with b by lia. apply Z.mod_small; lia.
    + apply Hdn; [lia|]. replace (a - Z.abs (a - b)) with b by lia. apply Z.mod_small; lia.
  - rewrite Z.min_r by lia. destruct (Z.le_gt_cases a b).
    + apply Hdn; [lia|]. replace (a - (N - Z.abs (a - b))) with (b + (-1) * N) by lia.
      rewrite Z.mod_add by lia. apply Z.mod_small; lia.
    + apply Hup; [lia|]. replace (a + (N - Z.abs (a - b))) with (b + 1 * N) by lia.
      rewrite Z.mod_add by lia. apply Z.mod_small; lia.
Qed.
Lemma rd_graph N a b : site N a -> site N b -> graph_distance (ring_adj N) (rd N a b) a b.
Proof.
  intros Ha Hb. split; [apply rd_exists; assumption|]. split; [unfold rd, site in *; lia|].
  intros n Hw. apply rd_walk; assumption.
Qed.

(** ** Iteration *)
Lemma range_for_spec (n : nat) b : 0 <= b -> b + Z.of_nat n < two64 ->
  forall fuel, (n <= fuel)%nat ->
  range_for fuel b (b + Z.of_nat n) = Some (map (fun k => b + Z.of_nat k) (seq 0 n)).
Proof.
  revert b. induction n as [|n IH]; intros b Hb Hn fuel Hf.
  - replace (b + Z.of_nat 0) with b by lia. destruct fuel; cbn [range_for]; unfold it_ne;
      rewrite Z.eqb_refl; reflexivity.
  - destruct fuel as [|fuel]; [lia|]. cbn [range_for]. unfold it_ne at 1.
    replace (b =? b + Z.of_nat (S n)) with false by lia. cbn [negb].
    unfold it_incr. rewrite u64_id by lia.
    replace (b + Z.of_nat (S n)) with (b + 1 + Z.of_nat n) by lia.
    rewrite IH by lia. cbn [seq map]. f_equal. f_equal; [lia|].
    rewrite <- seq_shift, map_map. apply map_ext. intros k. lia.
Qed.
Lemma range_for_zero n : 0 <= n < two64 -> forall fuel, (Z.to_nat n <= fuel)%nat ->
  range_for fuel 0 n = Some (Zseq n).
Proof.
  intros Hn fuel Hf. pose proof (range_for_spec (Z.to_nat n) 0) as H.
  rewrite Z2Nat.id in H by lia. rewrite Z.add_0_l in H. rewrite H by lia.
  f_equal.
Qed.
Lemma Zseq_in n x : In x (Zseq n) <-> 0 <= x < n.
Proof.
  unfold Zseq. rewrite in_map_iff. split.
  - intros (k & <- & Hk). apply in_seq in Hk. lia.
  - intros H. exists (Z.to_nat x). split; [lia|]. apply in_seq. lia.
Qed.
Lemma Zseq_nodup n : NoDup (Zseq n).
Proof. unfold Zseq. apply FinFun.Injective_map_NoDup; [intros a b; apply Nat2Z.inj|apply seq_NoDup]. Qed.
Lemma Zseq_length n : length (Zseq n) = Z.to_nat n.
Proof. unfold Zseq. rewrite map_length, seq_length. reflexivity. Qed.

(** ** Square lattice *)
Section Square.
  Variable N : Z.
  Hypothesis HN : 1 <= N.
  Hypothesis Hfit : N * N < two64.

  Lemma sq_index_eq x y : site N x -> site N y -> sq_index N x y = x * N + y.
  Proof.
    unfold site, sq_index. intros Hx Hy.
    rewrite (u64_id (x * N)) by nia. apply u64_id. nia.
  Qed.
  Lemma sq_index_range x y : site N x -> site N y -> site (N * N) (sq_index N x y).
  Proof. intros Hx Hy. rewrite sq_index_eq by assumption. unfold site in *. nia. Qed.
  Lemma sq_x_index x y : site N x -> site N y -> sq_x N (sq_index N x y) = x.
  Proof.
    intros Hx Hy. rewrite sq_index_eq by assumption. unfold sq_x, site in *.
    rewrite Z.add_comm, Z.div_add by lia. rewrite Z.div_small by lia. lia.
  Qed.
  Lemma sq_y_index x y : site N x -> site N y -> sq_y N (sq_index N x y) = y.
  Proof.
    intros Hx Hy. rewrite sq_index_eq by assumption. unfold sq_y, site in *.
    rewrite Z.add_comm, Z.mod_add by lia. apply Z.mod_small; lia.
  Qed.
  Lemma sq_x_range i : site (N * N) i -> site N (sq_x N i).
  Proof.
    unfold site, sq_x. intros H. split; [apply Z.div_pos; lia|].
    apply Z.div_lt_upper_bound; lia.
  Qed.
  Lemma sq_y_range i : site (N * N) i -> site N (sq_y N i).
  Proof. unfold site, sq_y. intros H. apply Z.mod_pos_bound; lia. Qed.
  Lemma sq_index_xy i : site (N * N) i -> sq_index N (sq_x N i) (sq_y N i) = i.
  Proof.
    intros H. rewrite sq_index_eq by (apply sq_x_range || apply sq_y_range; assumption).
    unfold sq_x, sq_y. pose proof (Z.div_mod i N). lia.
  Qed.
  Lemma N_fits : N < two64.
  Proof. nia. Qed.

  Lemma sq_neighbors_torus i : site (N * N) i ->
    let x := sq_x N i in let y := sq_y N i in
    sq_neighbors N N i = [ sq_index N ((x - 1) mod N) y; sq_index N x ((y - 1) mod N);
                           sq_index N ((x + 1) mod N) y; sq_index N x ((y + 1) mod N) ].
  Proof.
    intros Hi x y. pose proof (sq_x_range i Hi) as Hx. pose proof (sq_y_range i Hi) as Hy.
    fold x in Hx. fold y in Hy. unfold sq_neighbors. fold (sq_x N i). fold (sq_y N i).
    fold x. fold y. rewrite !succ_mod, !pred_mod by assumption.
    pose proof N_fits. unfold site in *. rewrite (u64_id (N - 1)) by lia.
    f_equal; [|f_equal; [|f_equal; [|f_equal]]]; f_equal;
      (destruct (_ =? _) eqn:E; [reflexivity|apply u64_id; lia]).
  Qed.
  Lemma sq_unique_torus i : site (N * N) i ->
    let x := sq_x N i in let y := sq_y N i in
    sq_unique_neighbors N N i = [ sq_index N ((x + 1) mod N) y; sq_index N x ((y + 1) mod N) ].
  Proof.
    intros Hi x y. pose proof (sq_x_range i Hi) as Hx. pose proof (sq_y_range i Hi) as Hy.
    fold x in Hx. fold y in Hy. unfold sq_unique_neighbors. fold (sq_x N i). fold (sq_y N i).
    fold x. fold y. rewrite !succ_mod by assumption.
    pose proof N_fits. unfold site in *. rewrite (u64_id (N - 1)) by lia.
    f_equal; [|f_equal]; f_equal;
      (destruct (_ =? _) eqn:E; [reflexivity|apply u64_id; lia]).
  Qed.

  Lemma mod_site a : site N (a mod N).
  Proof. unfold site. apply Z.mod_pos_bound. lia. Qed.

  Lemma sq_neighbors_coords i j : site (N * N) i -> 
    In j (sq_neighbors N N i) <->
    site (N * N) j /\ torus_adj N N (sq_x N i, sq_y N i) (sq_x N j, sq_y N j).
  Proof.
    intros Hi. rewrite sq_neighbors_torus by assumption.
    pose proof (sq_x_range i Hi) as Hx. pose proof (sq_y_range i Hi) as Hy.
    set (x := sq_x N i) in *. set (y := sq_y N i) in *. unfold torus_adj, ring_adj. cbn [fst snd]. split.
    - intros [<-|[<-|[<-|[<-|[]]]]];
        (split; [apply sq_index_range; auto using mod_site|]);
        rewrite sq_x_index, sq_y_index by auto using mod_site; auto.
    - intros [Hj H]. rewrite <- (sq_index_xy j Hj). cbn [In].
      destruct H as [[[E|E] E2]|[E2 [E|E]]]; rewrite <- E2, E; auto.
  Qed.

  Lemma sq_neighboring_torus i j : site (N * N) i -> site (N * N) j ->
    sq_neighboring N N i j = true <-> torus_adj N N (sq_x N i, sq_y N i) (sq_x N j, sq_y N j).
  Proof.
    intros Hi Hj. pose proof (sq_x_range i Hi) as Hxi. pose proof (sq_y_range i Hi) as Hyi.
    pose proof (sq_x_range j Hj) as Hxj. pose proof (sq_y_range j Hj) as Hyj.
    unfold sq_neighboring.
    set (xi := sq_x N i) in *. set (yi := sq_y N i) in *.
    set (xj := sq_x N j) in *. set (yj := sq_y N j) in *.
    pose proof N_fits as HF.
    pose proof (chain_neighboring_iff N xi xj HF Hxi Hxj) as CX.
    pose proof (chain_neighboring_iff N yi yj HF Hyi Hyj) as CY.
    unfold chain_neighboring in CX, CY. unfold torus_adj. cbn [fst snd].
    destruct (Z.eqb_spec xi xj) as [Ex|Ex].
    - rewrite CY. split; [auto|]. intros [[Ax Ey]|[_ Ay]]; [|exact Ay].
      rewrite Ex in Ax. rewrite <- Ey.
      (* adjacent to itself in x: then N = 1 *)
      rewrite ring_adj_iff in Ax by assumption. rewrite ring_adj_iff by assumption.
      unfold site in *. clear CX CY.
      destruct (xj =? N - 1) eqn:E1, (xj =? 0) eqn:E2, (yi =? N - 1) eqn:E3, (yi =? 0) eqn:E4; lia.
    - destruct (Z.eqb_spec yi yj) as [Ey|Ey].
      + rewrite CX. split; [auto|]. intros [[Ax _]|[E _]]; [exact Ax|contradiction].
      + split; [discriminate|]. intros [[_ E]|[E _]]; contradiction.
  Qed.

  Lemma sq_distance_x_rd a b : site (N * N) a -> site (N * N) b ->
    sq_distance_x N a b = rd N (sq_x N a) (sq_x N b).
  Proof.
    intros Ha Hb. pose proof (sq_x_range a Ha) as HA. pose proof (sq_x_range b Hb) as HB.
    pose proof N_fits. unfold sq_distance_x, rd, site in *.
    destruct (Z.ltb_spec (sq_x N b) (sq_x N a)); rewrite !u64_id; rewrite ?u64_id; lia.
  Qed.
  Lemma sq_distance_y_rd a b : site (N * N) a -> site (N * N) b ->
    sq_distance_y N N a b = rd N (sq_y N a) (sq_y N b).
  Proof.
    intros Ha Hb. pose proof (sq_y_range a Ha) as HA. pose proof (sq_y_range b Hb) as HB.
    pose proof N_fits. unfold sq_distance_y, rd, site in *.
    destruct (Z.ltb_spec (sq_y N b) (sq_y N a)); rewrite !u64_id; rewrite ?u64_id; lia.
  Qed.
End Square.

(** torus graph distance is the sum of the ring distances *)
Lemma walk_app {A} (adj : A -> A -> Prop) n m a b c :
  walk adj n a b -> walk adj m b c -> walk adj (n + m)%nat a c.
Proof. intros H1 H2. induction H1; [exact H2|]. cbn. eapply walk_S; eauto. Qed.
Lemma walk_x Nx Ny n a b y : walk (ring_adj Nx) n a b -> walk (torus_adj Nx Ny) n (a, y) (b, y).
Proof.
  induction 1 as [|n a b c Hab Hw IH]; [constructor|].
  apply (walk_S _ _ _ (b, y)); [left; cbn; split; [exact Hab|reflexivity]|exact IH].
Qed.
Lemma walk_y Nx Ny n a b x : walk (ring_adj Ny) n a b -> walk (torus_adj Nx Ny) n (x, a) (x, b).
Proof.
  induction 1 as [|n a b c Hab Hw IH]; [constructor|].
  apply (walk_S _ _ _ (x, b)); [right; cbn; split; [reflexivity|exact Hab]|exact IH].
Qed.
Lemma torus_walk_bound Nx Ny n p q :
  site Nx (fst p) -> site Ny (snd p) -> walk (torus_adj Nx Ny) n p q ->
  site Nx (fst q) /\ site Ny (snd q) /\ rd Nx (fst p) (fst q) + rd Ny (snd p) (snd q) <= Z.of_nat n.
Proof.
  intros Hx Hy Hw. induction Hw as [p|n p q r Hpq Hw IH].
  - split; [exact Hx|split; [exact Hy|]]. unfold rd, site in *. rewrite !Z.sub_diag. lia.
  - destruct Hpq as [[A E]|[E A]].
    + pose proof (proj2 (ring_adj_sym _ _ _ Hx A)) as Hq. rewrite E in Hy.
      destruct (IH Hq Hy) as (H1 & H2 & H3). split; [exact H1|split; [exact H2|]].
      pose proof (rd_adj Nx _ _ _ Hx H1 A). rewrite E. lia.
    + pose proof (proj2 (ring_adj_sym _ _ _ Hy A)) as Hq. rewrite E in Hx.
      destruct (IH Hx Hq) as (H1 & H2 & H3). split; [exact H1|split; [exact H2|]].
      pose proof (rd_adj Ny _ _ _ Hy H2 A). rewrite E. lia.
Qed.
Lemma torus_graph Nx Ny xa ya xb yb : site Nx xa -> site Ny ya -> site Nx xb -> site Ny yb ->
  graph_distance (torus_adj Nx Ny) (rd Nx xa xb + rd Ny ya yb) (xa, ya) (xb, yb).
Proof.
  intros Hxa Hya Hxb Hyb.
  assert (0 <= rd Nx xa xb) by (unfold rd, site in *; lia).
  assert (0 <= rd Ny ya yb) by (unfold rd, site in *; lia).
  split; [|split; [lia|]].
  - rewrite Z2Nat.inj_add by lia. apply (walk_app _ _ _ _ (xb, ya)).
    + apply walk_x, rd_exists; assumption.
    + apply walk_y, rd_exists; assumption.
  - intros n Hw. apply torus_walk_bound in Hw; auto. apply Hw.
Qed.
