(** PROPERTY C115: how fast the coefficients spread. *)
From Coq Require Import Reals Lra Psatz.
From Verif Require Import Base M_Operator M_Lattice Spec_Lattice Pf_Lattice P_Lattice M_LatticeReal Spec_LatticeReal M_Basis Pf_Basis P_Basis M_Matrix M_Ode M_Dispersion M_OpenMP M_TimeLoop Spec_TimeLoop
  Pf_Matrix Spec_Matrix Pf_Matrix2 P_Matrix Spec_Stability Pf_Stability Pf_Stability2 Pf_Stability3 P_Stability Spec_Programs M_Programs Pf_Programs Pf_Programs2 Spec_Ode Pf_Ode P_Ode P_TimeLoop P_Programs M_JumpPrograms P_JumpPrograms Pf_MatrixEntry P_OccupationFree Pf_Symmetry P_Symmetry Ex_Matrix Ex_Programs Spec_LightCone Pf_LightCone.
Local Open Scope R_scope.
Local Open Scope list_scope.
Local Notation len u := (Z.of_nat (length u)).

(** the distances of the shipped lattices *)
Theorem C115_chain_distance : forall N, (3 <= N)%Z -> (N < two64)%Z -> distance_from_0 (chain_lattice N) N (ring_distance N 0).
Proof.
  intros N HN H64. split; [unfold ring_distance; lia|]. split; [intros i Hi; unfold ring_distance, site in *; lia|]. intros i j Hi Hj. change (lat_neighbors (chain_lattice N) i) with (chain_neighbors N i) in Hj. rewrite chain_neighbors_ring in Hj by assumption. unfold site in Hi.
  destruct Hj as [<-|[<-|[]]]; unfold ring_distance.
  - destruct (Z.eq_dec i 0) as [->|]; [replace ((0 - 1) mod N)%Z with (N - 1)%Z by (symmetry; replace (0 - 1)%Z with (N - 1 + (-1) * N)%Z by ring; rewrite Z.mod_add, Z.mod_small; lia)|rewrite Z.mod_small by lia]; lia.
  - destruct (Z.eq_dec i (N - 1)) as [->|]; [replace ((N - 1 + 1) mod N)%Z with 0%Z by (symmetry; replace (N - 1 + 1)%Z with N by ring; apply Z_mod_same_full)|rewrite Z.mod_small by lia]; lia.
Qed.
Definition torus_distance (N i : Z) : Z := (ring_distance N 0 (i / N) + ring_distance N 0 (i mod N))%Z.
Lemma ring_step N x : (3 <= N)%Z -> site N x -> (ring_distance N 0 ((x - 1) mod N) <= ring_distance N 0 x + 1 /\ ring_distance N 0 ((x + 1) mod N) <= ring_distance N 0 x + 1)%Z.
Proof.
  intros HN Hx. unfold site in Hx. split; unfold ring_distance.
  - destruct (Z.eq_dec x 0) as [->|]; [replace ((0 - 1) mod N)%Z with (N - 1)%Z by (symmetry; replace (0 - 1)%Z with (N - 1 + (-1) * N)%Z by ring; rewrite Z.mod_add, Z.mod_small; lia)|rewrite Z.mod_small by lia]; lia.
  - destruct (Z.eq_dec x (N - 1)) as [->|]; [replace ((N - 1 + 1) mod N)%Z with 0%Z by (symmetry; replace (N - 1 + 1)%Z with N by ring; apply Z_mod_same_full)|rewrite Z.mod_small by lia]; lia.
Qed.
Theorem C115_square_distance : forall N, (3 <= N)%Z -> (N * N < two64)%Z -> distance_from_0 (square_lattice N N) (N * N) (torus_distance N).
Proof.
  intros N HN H64. split; [unfold torus_distance; rewrite Zdiv_0_l, Zmod_0_l; unfold ring_distance; lia|]. split; [intros i Hi; unfold torus_distance, ring_distance, site in *; pose proof (Z.mod_pos_bound i N ltac:(lia)); assert (0 <= i / N < N)%Z by (split; [apply Z.div_pos; lia|apply Z.div_lt_upper_bound; lia]); lia|]. intros i j Hi Hj. change (lat_neighbors (square_lattice N N) i) with (sq_neighbors N N i) in Hj.
  set (x := (i / N)%Z) in *. set (y := (i mod N)%Z) in *. unfold site in Hi.
  assert (Hx : site N x) by (unfold site, x; split; [apply Z.div_pos; lia|apply Z.div_lt_upper_bound; lia]). assert (Hy : site N y) by (apply Z.mod_pos_bound; lia).
  assert (Ei : i = (x * N + y)%Z) by (unfold x, y; rewrite Z.mul_comm; apply Z.div_mod; lia). rewrite Ei in Hj. rewrite (torus_neighbors N HN H64 x y Hx Hy) in Hj.
  assert (T : forall a b, site N b -> torus_distance N (a * N + b) = (ring_distance N 0 a + ring_distance N 0 b)%Z).
  { intros a b Hb. unfold torus_distance. unfold site in Hb. rewrite Z.div_add_l, Z.div_small by lia. replace ((a * N + b) mod N)%Z with b by (symmetry; rewrite Z.add_comm, Z.mod_add, Z.mod_small; lia). rewrite Z.add_0_r. reflexivity. }
  rewrite Ei, (T x y Hy). destruct (ring_step N x HN Hx) as [X1 X2]. destruct (ring_step N y HN Hy) as [Y1 Y2].
  assert (M : forall z, site N (z mod N)) by (intros z; apply Z.mod_pos_bound; lia).
  destruct Hj as [<-|[<-|[<-|[<-|[]]]]]; rewrite T by auto; lia.
Qed.

(** after k steps the run has reached the elements all of whose sites are at most 4k hops from site 0 *)
Theorem C115_steps : forall (sort : list (triplet CR) -> list (triplet CR)) J U lat N far dt d,
  sorts_by_column sort -> shipped3 lat N -> fits3 lat N -> distance_from_0 lat N far -> let n := (N + N * N * N)%Z in
  exists m u, init_matrix sort (real J : CR) (real U) (real (1/2)) lat = Ok m /\ init_vector (K := CR) n = Ok u /\
    forall sts i, (0 <= i < n)%Z -> (4 * Z.of_nat (length sts) < reach N far i)%Z -> vget (program_run d dt m sts u) i = real 0.
Proof.
  intros sort J U lat N far dt d Hs Hl Hf Hd n. destruct (full_facts sort J U lat N Hs Hl Hf) as (m & Em & A & _).
  assert (Hn : (0 < n)%Z) by (pose proof (HNpos lat N (shipped3_graph lat N Hl)); unfold n; nia). destruct (init_vector_unit n Hn) as (h0 & E0 & L0 & V0).
  exists m, h0. split; [exact Em|]. split; [exact E0|]. intros sts. unfold program_run. apply inside_vget.
  change (4 * Z.of_nat (length sts))%Z with (0 + 4 * Z.of_nat (length sts))%Z.
  apply (inside_run n (entry (bm_scale imag_unit m)) (reach N far)); [|exact A|exact L0|].
  - intros i j. apply (full_local sort J U lat N far Hs Hl Hd Hf m Em).
  - intros p Hp L. apply idx_in in Hp. unfold vec, vecf. rewrite (V0 _ Hp). unfold first_unit. destruct (Z.eqb_spec (fst p) 0) as [e|e]; [|destruct (snd p); reflexivity].
    rewrite e in L. rewrite reach_1 in L by (pose proof (HNpos lat N (shipped3_graph lat N Hl)); unfold site; lia). destruct Hd as (D0 & _). lia.
Qed.

(** the exact solution: what has got d hops away or further has length at most (3 z |J| t)^d / d!, whatever U is *)
Theorem C115_exact : forall (sort : list (triplet CR) -> list (triplet CR)) J U lat N far m y,
  sorts_by_column sort -> shipped3 lat N -> fits3 lat N -> distance_from_0 lat N far ->
  init_matrix sort (real J : CR) (real U) (real (1/2)) lat = Ok m -> the_solution (N + N * N * N) (entry (bm_scale imag_unit m)) y ->
  forall (d : nat) t, 0 <= t -> length2 (beyond N far (Z.of_nat d) (y t)) <= (3 * neighbours lat * Rabs J * t) ^ d / INR (fact d).
Proof.
  intros sort J U lat N far m y Hs Hl Hf Hd Em (Hy & Y0 & _) d t Ht. set (n := (N + N * N * N)%Z) in *.
  pose proof (HNpos lat N (shipped3_graph lat N Hl)) as HN. assert (Hn : (0 < n)%Z) by (unfold n; nia).
  destruct (full_facts sort J U lat N Hs Hl Hf) as (m' & Em' & _ & An & _ & _). rewrite Em in Em'. injection Em' as <-.
  destruct (full_facts sort J 0 lat N Hs Hl Hf) as (m0 & Em0 & _ & An0 & Rb & Bp). rewrite Rabs_R0, Rplus_0_r in Rb, Bp.
  assert (L : len (beyond N far (Z.of_nat d) (y t)) = n) by (unfold beyond; rewrite map_length, zrange_length; fold n; lia).
  unfold length2. rewrite (vec_n2 n _ L).
  assert (Q : nrm (idx n) (out (reach N far) (Z.of_nat d) (vecf (y t))) <= (3 * neighbours lat * Rabs J * t) ^ d / INR (fact d)).
  { destruct (init_vector_unit n Hn) as (h0 & _ & L0 & V0).
    apply (tail_bound n (entry (bm_scale imag_unit m)) (entry (bm_scale imag_unit m0)) (reach N far) (3 * neighbours lat * Rabs J) An (row_op _ _ _ An0 Rb Bp) Bp); [| | |exact Hy| | |exact Ht].
    - intros i j. apply (full_local sort J U lat N far Hs Hl Hd Hf m Em).
    - intros i j. apply (full_same sort J U lat N far Hs Hl Hf m Em m0 Em0).
    - intros i Hi. destruct Hd as (_ & P & _). destruct (cases lat N Hl Hf i Hi) as [Qi|(a & b & c & Ha & Hb & Hc & ->)]; [rewrite reach_1 by assumption; auto|].
      rewrite (reach_3 lat N far Hl Hf) by assumption. pose proof (P a Ha). lia.
    - intros i Hi G. rewrite (Y0 i Hi). unfold first_unit. destruct (Z.eqb_spec i 0) as [->|]; [|reflexivity]. rewrite reach_1 in G by (unfold site; lia). destruct Hd as (D0 & _). lia.
    - pose proof (unit_norm n h0 Hn L0 V0) as N0. rewrite (vec_n2 n _ L0) in N0. unfold nrm. rewrite <- sqrt_1, <- N0. f_equal. unfold n2, dot. apply SR_ext. intros p Hp. apply idx_in in Hp. unfold vec, vecf. rewrite (V0 _ Hp), (Y0 _ Hp). reflexivity. }
  eapply Rle_trans; [|exact Q]. apply Req_le. unfold nrm. f_equal. unfold n2, dot. apply SR_ext. intros p Hp. apply idx_in in Hp. unfold vec, vecf, out.
  unfold beyond, vget. rewrite nth_zrange_map by exact Hp. destruct (Z.of_nat d <=? reach N far (fst p))%Z; [reflexivity|destruct (snd p); reflexivity].
Qed.

(** ** the programs *)
Lemma cone_lines sort rnd u st lat N far J U dt t_end interval steps :
  sorts_by_column sort -> shipped3 lat N -> fits3 lat N -> distance_from_0 lat N far -> times_ok rnd u dt t_end interval steps ->
  let n := (N + N * N * N)%Z in Z.of_nat (length (basis3 lat)) = n /\
  exists ss, (forall (O : Type) (obs : progress -> O), terminates_with (run_main rnd st n dt t_end interval (compute_lattice sort lat J U) obs)
      (Ok (map (fun k => (time_at rnd dt k, obs (ss k))) (written interval steps)))) /\
    forall k, len (coefficients (ss k)) = n /\ forall i, (0 <= i < n)%Z -> (4 * Z.of_nat k < reach N far i)%Z -> vget (coefficients (ss k)) i = real 0.
Proof.
  intros Hs Hl Hf Hd (T1 & T2 & T3 & T4 & T5 & T6 & T7) n. assert (Hs1 : shipped lat N) by (destruct Hl; constructor; lia || nia).
  pose proof (HNpos lat N (shipped3_graph lat N Hl)) as HN. assert (Hn : (0 < n)%Z) by (unfold n; nia).
  split; [pose proof (basis3_len lat N (shipped_regular _ _ Hs1)); unfold n; nia|].
  destruct (full_facts sort J U lat N Hs Hl Hf) as (m & Em & A & _). destruct (init_vector_unit n Hn) as (h0 & E0 & L0 & V0).
  exists (fun k => times_applied (integrate n dt (bm_scale imag_unit m)) k (mkProgress 0 st h0)). split.
  - intros O obs. destruct (C53_schedule progress O rnd u dt t_end interval steps (integrate n dt (bm_scale imag_unit m)) obs (mkProgress 0 st h0) T1 T2 T3 T4 T5 T6 T7) as (s & (f0 & T) & _ & _ & Out).
    exists f0. intros fuel Hfu. unfold run_main, compute_lattice. rewrite Em, E0. cbn [obind]. rewrite (T fuel Hfu), Out. reflexivity.
  - intros k. destruct (integrate_iter n dt (bm_scale imag_unit m) st h0 k) as (sts & Ls & _ & Es). rewrite Es. split; [exact (run_len n _ _ A n dt sts h0 L0)|].
    destruct (C115_steps sort J U lat N far dt n Hs Hl Hf Hd) as (m' & h' & Em' & E' & Q). rewrite Em in Em'. injection Em' as <-. unfold n in E0. rewrite E0 in E'. injection E' as <-.
    intros i Hi G. rewrite <- Ls in G. exact (Q sts i Hi G).
Qed.
(** hubbard_real_1d_rk4_coefficients: the line after k steps has exact zeros for every operator with a site more than 4k hops from site 0 *)
Theorem C115_coefficients : forall sort rnd u st N J U dt t_end interval steps,
  sorts_by_column sort -> (3 <= N)%Z -> fits3 (chain_lattice N) N -> times_ok rnd u dt t_end interval steps ->
  exists h, terminates_with (coefficients_full sort rnd st N J U dt t_end interval)
      (Ok (map (fun k => (time_at rnd dt k, h k)) (written interval steps))) /\
    forall k a b c, site N a -> site N b -> site N c -> let cone := (4 * Z.of_nat k)%Z in
      ((cone < ring_distance N 0 a)%Z -> vget (h k) a = real 0) /\
      ((cone < ring_distance N 0 a \/ cone < ring_distance N 0 b \/ cone < ring_distance N 0 c)%Z -> vget (h k) (N + N * N * a + N * b + c)%Z = real 0).
Proof.
  intros sort rnd u st N J U dt t_end interval steps Hs HN Hf Ht. assert (Hf' := Hf). unfold fits3 in Hf'. cbn [lat_coordination chain_lattice] in Hf'.
  assert (Hl : shipped3 (chain_lattice N) N) by (constructor; nia). assert (HD : distance_from_0 (chain_lattice N) N (ring_distance N 0)) by (apply C115_chain_distance; nia).
  destruct (cone_lines sort rnd u st (chain_lattice N) N _ J U dt t_end interval steps Hs Hl Hf HD Ht) as (Eb & ss & Te & S). set (n := (N + N * N * N)%Z) in *.
  exists (fun k => coefficients (ss k)). split; [unfold coefficients_full; rewrite Eb; apply Te|]. intros k a b c Ha Hb Hc cone.
  destruct (S k) as (_ & F). split; intros G; apply F.
  - unfold n, site in *; nia.
  - rewrite reach_1 by exact Ha. exact G.
  - unfold n, site in *; nia.
  - unfold reach. destruct (sites_of N a b c Ha Hb Hc) as (-> & -> & ->). destruct (Z.ltb_spec (N + N * N * a + N * b + c) N); [unfold site in *; nia|]. fold cone. lia.
Qed.

(** 12 sites, the exact solution at |J| t = 1/10 is tiny 5 hops away; after one step nothing is more than 4 hops away *)
Example C115_example : forall m y, init_matrix isort (real 1 : CR) (real 100) (real (1/2)) (chain_lattice 12) = Ok m ->
  the_solution (12 + 12 * 12 * 12) (entry (bm_scale imag_unit m)) y ->
  length2 (beyond 12 (ring_distance 12 0) 5 (y (/ 10))) <= / 1000 /\
  exists u, init_vector (K := CR) (12 + 12 * 12 * 12) = Ok u /\ forall st, vget (program_run 1740 (/ 10) m [st] u) 6 = real 0.
Proof.
  intros m y Em Hy. assert (Hf : fits3 (chain_lattice 12) 12) by (unfold fits3; apply big; reflexivity).
  assert (T : (12 < two64)%Z) by reflexivity. assert (Hl : shipped3 (chain_lattice 12) 12) by (constructor; lia). pose proof (C115_chain_distance 12 ltac:(lia) T) as Hd. split.
  - pose proof (C115_exact isort 1 100 _ 12 _ m y isort_ok Hl Hf Hd Em Hy 5 (/ 10) ltac:(lra)) as Q. unfold neighbours in Q. cbn [lat_coordination chain_lattice] in Q. rewrite Rabs_R1 in Q.
    eapply Rle_trans; [exact Q|]. cbn. lra.
  - destruct (C115_steps isort 1 100 _ 12 _ (/ 10) 1740 isort_ok Hl Hf Hd) as (m' & u & Em' & Eu & V). rewrite Em in Em'. injection Em' as <-. exists u. split; [exact Eu|].
    intros st. apply (V [st] 6%Z); cbn; lia.
Qed.

