(** PROPERTY C115, in double precision: outside the light cone the zeros are exact. *)
From Coq Require Import Reals Lra Psatz Permutation.
From Verif Require Import Base M_Operator M_Lattice Spec_Lattice Pf_Lattice P_Lattice M_Basis Pf_Basis P_Basis M_Matrix M_Ode M_Dispersion M_OpenMP M_TimeLoop Spec_TimeLoop Spec_Ode
  Pf_Matrix Spec_Matrix Pf_Matrix2 P_Matrix Spec_LatticeReal Pf_Ode Spec_Stability Pf_Stability2 P_Stability Spec_Programs M_Programs Pf_Programs P_TimeLoop P_Programs Pf_MatrixEntry P_OccupationFree Pf_Symmetry
  M_Rounding M_Double M_RoundedMeasurement M_DoublePrograms Spec_DoublePrograms Pf_DoublePrograms P_DoublePrograms P_ParticleHoleDouble P_DoublePrograms2 Ex_Matrix Ex_Programs Spec_LightCone Pf_LightCone P_LightCone.
Local Open Scope R_scope.
Local Open Scope list_scope.
Local Notation len u := (Z.of_nat (length u)).

Section Zeros.
  Context (ar : arith) (lv : Z -> Z).
  (** the only laws used *)
  Hypothesis A0 : f_add ar 0 0 = 0.
  Hypothesis M1 : forall x, f_mul ar x 0 = 0.
  Definition within (d : Z) (v : list CR) : Prop := forall k, (d < lv (Z.of_nat k))%Z -> nth k v (0, 0) = ((0, 0) : CR).
  Lemma within_more d d' v : (d <= d')%Z -> within d v -> within d' v.
  Proof. intros H W k L. apply W. lia. Qed.
  Lemma zero_add : cf_add ar (0, 0) (0, 0) = (0, 0).
  Proof. unfold cf_add. cbn. rewrite A0. reflexivity. Qed.
  Lemma within_add d u v : within d u -> within d v -> within d (fv_add ar u v).
  Proof.
    intros Hu Hv k L. specialize (Hu k L). specialize (Hv k L). revert Hu Hv. clear L. unfold fv_add. revert v k. induction u as [|a u IH]; intros v k Hu Hv; [destruct k; reflexivity|].
    destruct v as [|b v]; [destruct k; reflexivity|]. destruct k as [|k]; cbn [List.combine map nth fst snd] in *; [rewrite Hu, Hv; exact zero_add|apply IH; assumption].
  Qed.
  Lemma within_scale d c u : within d u -> within d (fv_scale ar c u).
  Proof.
    intros Hu k L. specialize (Hu k L). unfold fv_scale. destruct (Nat.lt_ge_cases k (length u)) as [Q|Q].
    - rewrite (nth_indep _ _ (cf_scale ar c ((0, 0) : CR))) by (rewrite map_length; exact Q). rewrite (map_nth (cf_scale ar c)), Hu. unfold cf_scale. cbn. rewrite M1. reflexivity.
    - apply nth_overflow. rewrite map_length. exact Q.
  Qed.
  (** every stored element leads to a level at most one lower *)
  Definition steps_by_one (m : bmat CR) : Prop := forall k e, In e (nth k (bm_done m) []) -> (0 <= fst e)%Z /\ (lv (Z.of_nat k) <= lv (fst e) + 1)%Z.
  Lemma within_mul d m u : steps_by_one m -> within d u -> within (d + 1) (fsp_vec ar m u).
  Proof.
    intros Hm Hu k L. unfold fsp_vec. destruct (Nat.lt_ge_cases k (length (bm_done m))) as [Q|Q]; [|apply nth_overflow; rewrite map_length; exact Q].
    set (F := fun row : list (Z * CR) => fold_left (fun acc e => cf_add ar acc (cf_mul ar (snd e) (vget u (fst e)))) row ((0, 0) : CR)).
    rewrite (nth_indep _ _ (F [])) by (rewrite map_length; exact Q). rewrite (map_nth F). unfold F. specialize (Hm k). revert Hm. generalize (nth k (bm_done m) []). intros row Hm.
    induction row as [|e row IH]; [reflexivity|]. cbn [fold_left].
    assert (Z0 : cf_add ar ((0, 0) : CR) (cf_mul ar (snd e) (vget u (fst e))) = (0, 0)).
    { destruct (Hm e (or_introl eq_refl)) as (Ge & Ls). specialize (Hu (Z.to_nat (fst e))). rewrite Z2Nat.id in Hu by exact Ge. unfold vget. change (nth (Z.to_nat (fst e)) u r0) with (nth (Z.to_nat (fst e)) u (0, 0)). rewrite Hu by lia.
      destruct (snd e) as [p q]. unfold cf_mul, cf_add. cbn. rewrite !M1, ?Ropp_0, !A0. reflexivity. }
    rewrite Z0. apply IH. intros e' He'. apply Hm. right. exact He'.
  Qed.
  Lemma within_step h m d u : steps_by_one m -> within d u -> within (d + 4) (frk_step ar h m u).
  Proof.
    intros Hm Hu. unfold frk_step. cbv zeta.
    set (k1 := fsp_vec ar m u). assert (K1 : within (d + 1) k1) by (apply within_mul; assumption).
    match goal with |- context[fsp_vec ar m (fv_add ar u (fv_scale ar ?c k1))] => set (k2 := fsp_vec ar m (fv_add ar u (fv_scale ar c k1))); assert (K2 : within (d + 2) k2) by (replace (d + 2)%Z with (d + 1 + 1)%Z by ring; apply within_mul; [exact Hm|apply within_add; [apply (within_more d); [lia|exact Hu]|apply within_scale; exact K1]]) end.
    match goal with |- context[fsp_vec ar m (fv_add ar u (fv_scale ar ?c k2))] => set (k3 := fsp_vec ar m (fv_add ar u (fv_scale ar c k2))); assert (K3 : within (d + 3) k3) by (replace (d + 3)%Z with (d + 2 + 1)%Z by ring; apply within_mul; [exact Hm|apply within_add; [apply (within_more d); [lia|exact Hu]|apply within_scale; exact K2]]) end.
    match goal with |- context[fsp_vec ar m (fv_add ar u (fv_scale ar ?c k3))] => set (k4 := fsp_vec ar m (fv_add ar u (fv_scale ar c k3))); assert (K4 : within (d + 4) k4) by (replace (d + 4)%Z with (d + 3 + 1)%Z by ring; apply within_mul; [exact Hm|apply within_add; [apply (within_more d); [lia|exact Hu]|apply within_scale; exact K3]]) end.
    apply (within_more d (d + 4)) in Hu; [|lia]. apply (within_more (d + 1) (d + 4)) in K1; [|lia]. apply (within_more (d + 2) (d + 4)) in K2; [|lia]. apply (within_more (d + 3) (d + 4)) in K3; [|lia].
    repeat (apply within_add || apply within_scale || assumption).
  Qed.
  Lemma within_run h m n : forall d u, steps_by_one m -> within d u -> within (d + 4 * Z.of_nat n) (frun ar h m n u).
  Proof.
    induction n as [|n IH]; intros d u Hm Hu; [apply (within_more d); [lia|exact Hu]|]. cbn [frun]. apply (within_more (d + 4 + 4 * Z.of_nat n)); [lia|]. apply IH; [exact Hm|]. apply within_step; assumption.
  Qed.
End Zeros.
(** the columns stored in a row *)
Lemma full_by_one garbage sort J U lat N far m : sorts_by_column sort -> shipped3 lat N -> fits3 lat N -> distance_from_0 lat N far ->
  init_matrix sort (real J : CR) (real U) (real (1/2)) lat = Ok m -> steps_by_one (reach N far) (fbm_scale (double_arith garbage) imag_unit m).
Proof.
  intros Hs Hl Hf Hd Em. pose proof (shipped3_graph lat N Hl) as HG. pose proof (fits3_S3 lat N HG Hf) as HS. destruct Hd as (_ & _ & D). pose proof (HNpos lat N HG) as HN.
  assert (Dn : forall i b, site N i -> In b (lat_neighbors lat i) -> site N b /\ (far i <= far b + 1)%Z).
  { intros i b Hi Hb. pose proof (g_range _ _ HG i b Hi Hb) as Rb. split; [exact Rb|]. apply (D b i Rb), (g_sym _ _ HG i b Hi Hb). }
  rewrite (init_matrix_closed sort Hs _ _ _ lat N HG HS Hf) in Em. injection Em as <-. intros k e He. unfold fbm_scale in He. cbn [bm_done] in He.
  match type of He with context[map (map ?F) ?l] => set (rows := l) in *; set (f := F) in * end.
  destruct (Nat.lt_ge_cases k (length rows)) as [L|L]; [|rewrite nth_overflow in He by (rewrite map_length; exact L); destruct He].
  rewrite (nth_indep _ [] (map f [])) in He by (rewrite map_length; exact L). rewrite (map_nth (map f)) in He. apply in_map_iff in He. destruct He as ([c v] & <- & He). unfold f. cbn [fst].
  assert (Hk : (0 <= Z.of_nat k < N + N * N * N)%Z).
  { unfold rows in L. rewrite app_length in L. unfold rows1, rows3 in L. rewrite !map_length, !zrange_length in L. nia. }
  destruct (cases lat N Hl Hf _ Hk) as [Hi|(i0 & i1 & i2 & H0 & H1 & H2 & Ek)].
  - pose proof (nth_rows1 sort (real J : CR) (real U) (real (1/2)) lat N (Z.of_nat k) Hi) as R. rewrite Nat2Z.id in R. pose proof (eq_ind _ (fun l => In (c, v) l) He _ R) as He'. clear He. rename He' into He. unfold pairs in He. apply in_map_iff in He. destruct He as (t & Et & Ht).
    destruct (Hs (triplets1 (real J : CR) (real U) (real (1/2)) lat (Z.of_nat k))) as [Pm _]. apply (Permutation_in _ Pm) in Ht. injection Et as <- <-.
    set (i := Z.of_nat k) in *. rewrite (reach_1 N far i Hi). unfold triplets1 in Ht. apply in_app_iff in Ht. destruct Ht as [Ht|[<-|[<-|[]]]].
    + unfold kinetic_triplets1 in Ht. apply in_map_iff in Ht. destruct Ht as (b & <- & Hb). cbn [t_col]. destruct (Dn i b Hi Hb) as [Rb Lb]. rewrite (reach_1 N far b Rb). unfold site in Rb. lia.
    + cbn [t_col]. rewrite (reach_1 N far i Hi). unfold site in Hi. lia.
    + cbn [t_col]. change (lat_size lat) with (lat_size lat). rewrite ?(lat_size_N _ _ HG). rewrite (reach_3 lat N far Hl Hf) by assumption. pose proof (idx_range lat N Hl Hf i i i Hi Hi Hi). lia.
  - pose proof (nth_rows3 sort (real J : CR) (real U) (real (1/2)) lat N HG HS i0 i1 i2 H0 H1 H2) as R. rewrite <- Ek, Nat2Z.id in R. pose proof (eq_ind _ (fun l => In (c, v) l) He _ R) as He'. clear He. rename He' into He. unfold pairs in He. apply in_map_iff in He. destruct He as (t & Et & Ht).
    rewrite Ek in Ht |- *. clear R. injection Et as <- <-.
    destruct (Hs (triplets3 (real J : CR) (real U) (real (1/2)) lat (get_3op_index N i0 i1 i2) i0 i1 i2)) as [Pm _]. apply (Permutation_in _ Pm) in Ht.
    rewrite (reach_3 lat N far Hl Hf) by assumption. unfold triplets3, kinetic_triplets3 in Ht. rewrite ?(lat_size_N _ _ HG) in Ht. rewrite !in_app_iff in Ht. destruct Ht as [[Ht|[Ht|Ht]]|[Ht|[<-|[]]]].
    + apply in_map_iff in Ht. destruct Ht as (b & <- & Hb). cbn [t_col]. destruct (Dn i0 b H0 Hb) as [Rb Lb]. rewrite (reach_3 lat N far Hl Hf) by assumption. pose proof (idx_range lat N Hl Hf b i1 i2 Rb H1 H2). lia.
    + apply in_map_iff in Ht. destruct Ht as (b & <- & Hb). cbn [t_col]. destruct (Dn i1 b H1 Hb) as [Rb Lb]. rewrite (reach_3 lat N far Hl Hf) by assumption. pose proof (idx_range lat N Hl Hf i0 b i2 H0 Rb H2). lia.
    + apply in_map_iff in Ht. destruct Ht as (b & <- & Hb). cbn [t_col]. destruct (Dn i2 b H2 Hb) as [Rb Lb]. rewrite (reach_3 lat N far Hl Hf) by assumption. pose proof (idx_range lat N Hl Hf i0 i1 b H0 H1 Rb). lia.
    + destruct ((i0 =? i1) && (i0 =? i2))%Z%bool eqn:C; [|destruct Ht]. apply andb_true_iff in C. destruct C as [C1 C2]. apply Z.eqb_eq in C1, C2. subst i1 i2. destruct Ht as [<-|[]]. cbn [t_col]. rewrite (reach_1 N far i0 H0). unfold site in H0. lia.
    + cbn [t_col]. rewrite (reach_3 lat N far Hl Hf) by assumption. pose proof (idx_range lat N Hl Hf i0 i1 i2 H0 H1 H2). lia.
Qed.
(** hubbard_real_1d_rk4_coefficients in double precision (infinities and NaNs are not modelled: as long as nothing overflows): the same zeros as in C115_coefficients *)
Theorem C115_coefficients_double : forall sort garbage N J U dt t_end interval steps,
  sorts_by_column sort -> (3 <= N)%Z -> fits3 (chain_lattice N) N -> double_times garbage dt t_end interval steps ->
  exists h, terminates_with (f_coefficients_full garbage sort N J U dt t_end interval)
      (Ok (map (fun k => (time_at (to_double garbage) dt k, h k)) (written interval steps))) /\
    forall k a b c, site N a -> site N b -> site N c -> let cone := (4 * Z.of_nat k)%Z in
      ((cone < ring_distance N 0 a)%Z -> vget (h k) a = real 0) /\
      ((cone < ring_distance N 0 a \/ cone < ring_distance N 0 b \/ cone < ring_distance N 0 c)%Z -> vget (h k) (N + N * N * a + N * b + c)%Z = real 0).
Proof.
  intros sort garbage N J U dt t_end interval steps Hs HN Hf Ht. assert (Hf' := Hf). unfold fits3 in Hf'. cbn [lat_coordination chain_lattice] in Hf'.
  assert (Hl : shipped3 (chain_lattice N) N) by (constructor; nia). assert (HD : distance_from_0 (chain_lattice N) N (ring_distance N 0)) by (apply C115_chain_distance; nia).
  assert (Hs1 : shipped (chain_lattice N) N) by (constructor; nia). set (n := (N + N * N * N)%Z).
  destruct (full_facts sort J U _ N Hs Hl Hf) as (m & Em & _). destruct (init_vector_unit n ltac:(unfold n; nia)) as (h0 & E0 & L0 & V0).
  assert (Eb : Z.of_nat (length (basis3 (chain_lattice N))) = n) by (pose proof (basis3_len _ N (shipped_regular _ _ Hs1)); unfold n; nia).
  exists (fun k => fprogram_run (double_arith garbage) dt m k h0). split.
  - unfold f_coefficients_full, f_compute_full. rewrite Eb, Em. cbn [obind]. exact (f_lines garbage dt t_end interval steps n m h0 Ht E0 _ f_coefficients).
  - intros k a b c Ha Hb Hc cone. assert (W : within (reach N (ring_distance N 0)) cone (fprogram_run (double_arith garbage) dt m k h0)).
    { unfold fprogram_run, cone. replace (4 * Z.of_nat k)%Z with (0 + 4 * Z.of_nat k)%Z by ring. apply within_run; [apply add_00|apply mul_0r|exact (full_by_one garbage sort J U _ N _ m Hs Hl Hf HD Em)|].
      intros q L. destruct (Nat.lt_ge_cases q (length h0)) as [Lq|Lq]; [|apply nth_overflow; exact Lq]. pose proof (V0 (Z.of_nat q) ltac:(lia)) as V. unfold vget in V. rewrite Nat2Z.id in V. change (nth q h0 (0, 0)) with (nth q h0 r0). rewrite V.
      unfold first_unit. destruct (Z.eqb_spec (Z.of_nat q) 0) as [e|]; [|reflexivity]. rewrite e in L. rewrite reach_1 in L by (unfold site; lia). unfold ring_distance in L. lia. }
    split; intros G.
    + unfold vget. apply W. unfold site in Ha. rewrite Z2Nat.id by lia. rewrite reach_1 by (unfold site; lia). exact G.
    + unfold vget. apply W. rewrite Z2Nat.id by (unfold site in *; nia). unfold reach. destruct (sites_of N a b c Ha Hb Hc) as (-> & -> & ->). destruct (Z.ltb_spec (N + N * N * a + N * b + c) N); [unfold site in *; nia|]. lia.
Qed.
(** 20 sites: the line after two steps is zero 9 sites away from site 0, where c+_9 is coefficient 9 *)
Example C115_double_example : forall garbage, exists h, terminates_with (f_coefficients_full garbage isort 20 1 1 (/ 64) (1 / 16) 2)
    (Ok (map (fun k => (time_at (to_double garbage) (/ 64) k, h k)) (written 2 4))) /\ In 2%nat (written 2 4) /\ vget (h 2%nat) 9 = real 0.
Proof.
  intros garbage. destruct (C115_coefficients_double isort garbage 20 1 1 (/ 64) (1 / 16) 2 4 isort_ok ltac:(lia) ltac:(unfold fits3; apply big; reflexivity) (example_times garbage)) as (h & T & Z).
  exists h. split; [exact T|]. split; [change (written 2 4) with [0; 2; 4]%nat; right; left; reflexivity|]. apply (Z 2%nat 9%Z 0%Z 0%Z); unfold site; cbn; lia.
Qed.
