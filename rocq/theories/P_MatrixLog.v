(** THEOREMS: C102 (how many elements the Liouvillian matrices store, and what the log says about it). *)
From Coq Require Import Ascii String Reals Lra Permutation Sorting.Sorted ZifyBool.
From Verif Require Import Base Spec_Fock FockFacts M_Operator M_Lattice Spec_Lattice Pf_Lattice M_Basis Pf_Basis M_Matrix
  Spec_Algebra Pf_Algebra Pf_Commutator Spec_Matrix Pf_Matrix Pf_Matrix2 P_Matrix Spec_Momentum Pf_Momentum P_Momentum M_Text Pf_Text M_Io Pf_Io M_MatrixLog.
Local Open Scope list_scope.
Lemma two64_eq : two64 = 18446744073709551616%Z.
Proof. with_strategy transparent [two64] reflexivity. Qed.
Local Open Scope Z_scope.

(** the stored values, and how many of them satisfy a condition *)
Definition stored {K : StarRing} (m : bmat K) : list K := map snd (concat (bm_done m) ++ bm_cur m).
Definition how_many {A} (p : A -> bool) (l : list A) : Z := Z.of_nat (length (filter p l)).
Definition if1 (b : bool) : Z := if b then 1 else 0.

Lemma zr_nodup a b : NoDup (zrange a b).
Proof.
  unfold zrange. generalize (seq_NoDup (Z.to_nat (b - a)) 0). generalize (seq 0 (Z.to_nat (b - a))). intros l H. induction H as [|k l Hk H IH]; [constructor|]. cbn [map]. constructor; [|exact IH].
  intros Q. apply in_map_iff in Q as (k' & E & Hk'). apply Hk. replace k with k' by lia. exact Hk'.
Qed.
Lemma nodup_map {A B} (f : A -> B) l : (forall a b, In a l -> In b l -> f a = f b -> a = b) -> NoDup l -> NoDup (map f l).
Proof.
  intros H ND. induction ND as [|x l Hx ND IH]; [constructor|]. cbn [map]. constructor.
  - intros Q. apply in_map_iff in Q as (y & E & Hy). apply Hx. rewrite <- (H y x (or_intror Hy) (or_introl eq_refl) E). exact Hy.
  - apply IH. intros a b Ha Hb. apply H; right; assumption.
Qed.
Section Count.
  Context {K : StarRing} (p : K -> bool).
  Lemma hm_app {A} (q : A -> bool) a b : how_many q (a ++ b) = how_many q a + how_many q b.
  Proof. unfold how_many. rewrite filter_app, app_length. lia. Qed.
  Lemma hm_cons {A} (q : A -> bool) x l : how_many q (x :: l) = if1 (q x) + how_many q l.
  Proof. unfold how_many, if1. cbn [filter]. destruct (q x); cbn [length]; lia. Qed.
  Lemma hm_perm {A} (q : A -> bool) a b : Permutation a b -> how_many q a = how_many q b.
  Proof.
    intros H. induction H as [|x a b H IH|x y a|a b c H1 IH1 H2 IH2]; [reflexivity| | |congruence]; rewrite !hm_cons; lia.
  Qed.
  Lemma hm_map {A B} (q : B -> bool) (f : A -> B) l : how_many q (map f l) = how_many (fun x => q (f x)) l.
  Proof. induction l as [|x l IH]; [reflexivity|]. cbn [map]. rewrite !hm_cons, IH. reflexivity. Qed.
  Lemma hm_const {A} (b : bool) (l : list A) : how_many (fun _ => b) l = if1 b * Z.of_nat (length l).
  Proof. induction l as [|x l IH]; [cbn; lia|]. rewrite hm_cons, IH. cbn [length]. lia. Qed.
  Lemma hm_concat {A B} (q : B -> bool) (f : A -> list B) l w (v : A -> Z) : (forall x, In x l -> how_many q (f x) = w + v x) ->
    how_many q (concat (map f l)) = Z.of_nat (length l) * w + fold_right Z.add 0 (map v l).
  Proof.
    induction l as [|x l IH]; intros H; [reflexivity|]. cbn [map concat length fold_right]. rewrite hm_app, IH by (intros y Hy; apply H; right; exact Hy).
    rewrite (H x (or_introl eq_refl)). lia.
  Qed.
  Lemma sum_if1 {A} (b : Z) (q : A -> bool) l : fold_right Z.add 0 (map (fun x => b * if1 (q x)) l) = b * how_many q l.
  Proof. induction l as [|x l IH]; [cbn; lia|]. cbn [map fold_right]. rewrite hm_cons, IH. lia. Qed.
  Lemma stored_rows cap n rows : stored (mkB (K := K) n cap rows []) = concat (map (map snd) rows).
  Proof. unfold stored. cbn [bm_done bm_cur]. rewrite app_nil_r, concat_map. reflexivity. Qed.
  Lemma hm_sorted sort (Hs : sorts_by_column sort) (l : list (triplet K)) : how_many p (map snd (pairs (sort l))) = how_many (fun t => p (t_val t)) l.
  Proof. unfold pairs. rewrite map_map, hm_map. cbn [snd]. apply hm_perm, Hs. Qed.
  Lemma nonzeros_stored (m : bmat K) : bm_nonzeros m = how_many (fun _ => true) (stored m).
  Proof.
    rewrite hm_const, nonzeros_total. unfold stored, if1. rewrite map_length, app_length. rewrite Z.mul_1_l. f_equal. f_equal. unfold total. induction (bm_done m) as [|r l IH]; [reflexivity|]. cbn [fold_right concat]. rewrite app_length. lia.
  Qed.
End Count.

Section Rows.
  Context {K : StarRing} (p : K -> bool) (sort : list (triplet K) -> list (triplet K)) (Hs : sorts_by_column sort) (J U half : K) (lat : lattice) (N : Z).
  Hypothesis HG : graph lat N.
  Hypothesis HS : N + N * N * N < two64.
  Let z := lat_coordination lat.
  Lemma hm_kin1 row : site N row -> how_many (fun t => p (t_val t)) (kinetic_triplets1 J lat row) = z * if1 (p (ropp J)).
  Proof.
    intros Hr. unfold kinetic_triplets1. rewrite hm_map. cbn [t_val]. rewrite hm_const, (nb_len lat N HG) by exact Hr. pose proof (g_co _ _ HG). unfold z. lia.
  Qed.
  Lemma hm_row1 row : site N row -> how_many (fun t => p (t_val t)) (triplets1 J U half lat row) = z * if1 (p (ropp J)) + 2 * if1 (p (rmul U half)).
  Proof. intros Hr. unfold triplets1. rewrite hm_app, hm_kin1 by exact Hr. rewrite !hm_cons. cbn [t_val]. unfold how_many. cbn [filter length]. lia. Qed.
  Lemma hm_row3 row i0 i1 i2 : site N i0 -> site N i1 -> site N i2 ->
    how_many (fun t => p (t_val t)) (triplets3 J U half lat row i0 i1 i2) =
    2 * z * if1 (p (ropp J)) + z * if1 (p J) + if1 (p (rmul U half)) + if1 (p (rmul U half)) * if1 ((i0 =? i1) && (i0 =? i2)).
  Proof.
    intros H0 H1 H2. unfold triplets3, kinetic_triplets3. rewrite !hm_app, !hm_map. cbn [t_val]. rewrite !hm_const, !(nb_len lat N HG) by assumption. pose proof (g_co _ _ HG). rewrite Z2Nat.id by (unfold z in *; lia).
    fold z. rewrite hm_cons. cbn [t_val]. destruct ((i0 =? i1) && (i0 =? i2)); [rewrite hm_cons|]; cbn [t_val]; unfold how_many; cbn [filter length if1]; lia.
  Qed.
  (** exactly N of the three-operator rows have three equal sites *)
  Lemma diagonals : how_many (fun r => (dec1 N r =? dec2 N r) && (dec1 N r =? dec3 N r)) (zrange N (N + N * N * N)) = N.
  Proof.
    pose proof (HNpos lat N HG) as HN.
    assert (P : Permutation (filter (fun r => (dec1 N r =? dec2 N r) && (dec1 N r =? dec3 N r)) (zrange N (N + N * N * N))) (map (fun i => get_3op_index N i i i) (zrange 0 N))).
    { assert (E : forall i, site N i -> get_3op_index N i i i = N + N * N * i + N * i + i) by (intros i Hi; apply (get_3op_index_eq lat N (g_reg _ _ HG) HS); exact Hi).
      apply NoDup_Permutation.
      - apply NoDup_filter, zr_nodup.
      - apply nodup_map; [|apply zr_nodup]. intros a b Ha Hb Q. apply zrange_in in Ha, Hb. rewrite !E in Q by (unfold site; lia). nia.
      - intros r. rewrite filter_In, in_map_iff. split.
        + intros [Hr Q]. apply zrange_in in Hr. destruct (dec_spec lat N HG HS r ltac:(lia)) as (D1 & D2 & D3 & Er). apply andb_true_iff in Q as [Q1 Q2]. apply Z.eqb_eq in Q1, Q2.
          exists (dec1 N r). split; [rewrite <- Er at 4; congruence|apply zrange_in; exact D1].
        + intros (i & <- & Hi). apply zrange_in in Hi. assert (Si : site N i) by (unfold site; lia). pose proof (get_3op_index_range lat N (g_reg _ _ HG) HS i i i Si Si Si) as R.
          split; [apply zrange_in; exact R|]. destruct (dec_spec lat N HG HS _ R) as (D1 & D2 & D3 & Er).
          apply (get_3op_index_inj lat N (g_reg _ _ HG) HS) in Er as (E1 & E2 & E3); try assumption. rewrite E1, E2, E3, Z.eqb_refl. reflexivity. }
    unfold how_many. rewrite (Permutation_length P), map_length, zrange_length. lia.
  Qed.
End Rows.

(** ** C102: the number of stored elements, with any condition on their values.  z is the number of neighbours of a site. *)
Theorem C102_kinetic : forall (K : StarRing) (sort : list (triplet K) -> list (triplet K)) (J : K) lat N (p : K -> bool),
  sorts_by_column sort -> shipped3 lat N -> N * lat_coordination lat < two64 ->
  exists m, init_kinetic_matrix sort J lat = Ok m /\ bm_size m = N /\
    how_many p (stored m) = N * lat_coordination lat * if1 (p (ropp J)).
Proof.
  intros K sort J lat N p Hs Hl Hf. pose proof (shipped3_graph _ _ Hl) as HG. pose proof (HNpos lat N HG). pose proof (g_co _ _ HG).
  eexists. split; [apply (init_kinetic_closed sort Hs J lat N HG Hf)|]. split; [reflexivity|]. rewrite stored_rows, map_map.
  rewrite (hm_concat p _ _ (lat_coordination lat * if1 (p (ropp J))) (fun _ => 0 * if1 true)).
  - rewrite sum_if1, zrange_length. lia.
  - intros x Hx. apply zrange_in in Hx. rewrite (hm_sorted p sort Hs). rewrite (hm_kin1 p J lat N HG) by exact Hx. lia.
Qed.
Theorem C102_full : forall (K : StarRing) (sort : list (triplet K) -> list (triplet K)) (J U half : K) lat N (p : K -> bool),
  sorts_by_column sort -> shipped3 lat N -> fits3 lat N ->
  let z := lat_coordination lat in
  exists m, init_matrix sort J U half lat = Ok m /\ bm_size m = N + N * N * N /\
    how_many p (stored m) = (N * z + 2 * N * N * N * z) * if1 (p (ropp J)) + N * N * N * z * if1 (p J) + (3 * N + N * N * N) * if1 (p (rmul U half)).
Proof.
  intros K sort J U half lat N p Hs Hl Hf z. pose proof (shipped3_graph _ _ Hl) as HG. pose proof (HNpos lat N HG). pose proof (g_co _ _ HG).
  pose proof (fits3_S3 lat N HG Hf) as HS.
  eexists. split; [apply (init_matrix_closed sort Hs J U half lat N HG HS Hf)|]. split; [reflexivity|]. rewrite stored_rows, map_app, concat_app, hm_app. unfold rows1, rows3. rewrite !map_map.
  rewrite (hm_concat p _ (zrange 0 N) (z * if1 (p (ropp J)) + 2 * if1 (p (rmul U half))) (fun _ => 0 * if1 true)).
  2:{ intros x Hx. apply zrange_in in Hx. rewrite (hm_sorted p sort Hs). rewrite (hm_row1 p J U half lat N HG) by exact Hx. unfold z. lia. }
  rewrite (hm_concat p _ (zrange N (N + N * N * N)) (2 * z * if1 (p (ropp J)) + z * if1 (p J) + if1 (p (rmul U half)))
            (fun r => if1 (p (rmul U half)) * if1 ((dec1 N r =? dec2 N r) && (dec1 N r =? dec3 N r)))).
  2:{ intros x Hx. apply zrange_in in Hx. rewrite (hm_sorted p sort Hs). destruct (dec_spec lat N HG HS x Hx) as (D1 & D2 & D3 & _). apply (hm_row3 p J U half lat N HG); assumption. }
  rewrite !sum_if1, (diagonals lat N HG HS), !zrange_length. rewrite !Z2Nat.id by nia. lia.
Qed.
Theorem C102_momentum : forall (K : StarRing) N q (eps : Z -> K) u2 u2n b (p : K -> bool),
  0 < N -> N * (1 + 3 * N) < two64 -> site N q -> is_momentum_basis N q b ->
  exists m, mom_init_matrix b N eps u2 u2n = Ok m /\ bm_size m = 1 + N * N /\
    how_many p (stored m) = if1 (p (radd (eps q) u2)) + 2 * (N * N) * if1 (p u2n) + how_many (fun r => p (entry m r r)) (zrange 1 (1 + N * N)).
Proof.
  intros K N q eps u2 u2n b p HN Hf Hq Hb. apply mb_closed in Hb; try assumption. subst b.
  eexists. split; [apply (mom_closed_form N q eps u2 u2n HN Hf)|]. split; [reflexivity|].
  assert (D : forall r, 1 <= r < 1 + N * N -> entry (mkB (1 + N * N) (N * (1 + 3 * N)) (mrows N q eps u2 u2n) []) r r = mdiag N q eps u2 r).
  { intros r Hr. unfold entry, row_of. cbn [bm_done]. rewrite mrow by exact Hr. rewrite entry_pairs, wr by lia.
    destruct (Z.eqb_spec r 0); [lia|]. rewrite Z.eqb_refl. reflexivity. }
  rewrite stored_rows. match goal with |- _ = _ + how_many ?f _ => set (F := f) end.
  assert (DF : forall r, 1 <= r < 1 + N * N -> F r = p (mdiag N q eps u2 r)) by (intros r Hr; unfold F; f_equal; apply D; exact Hr). clearbody F. clear D.
  unfold mrows. cbn [map concat]. rewrite hm_app.
  unfold pairs at 1, mtrip0. cbn [map t_col t_val snd]. rewrite hm_cons, !map_map, hm_map. cbn [t_val snd]. rewrite hm_const, zrange_length.
  assert (G : forall l, (forall r, In r l -> 1 <= r < 1 + N * N) ->
    how_many p (concat (map (fun r => map snd (pairs (mtrip N q eps u2 u2n r))) l)) = Z.of_nat (length l) * if1 (p u2n) + how_many F l).
  { induction l as [|r l IH]; intros Hl; [reflexivity|]. cbn [map concat length]. rewrite hm_app, IH by (intros x Hx; apply Hl; right; exact Hx). rewrite (hm_cons F r l), DF by (apply Hl; left; reflexivity).
    unfold pairs, mtrip. cbn [map t_col t_val snd]. rewrite !hm_cons. change (how_many p []) with 0. lia. }
  rewrite G by (intros r Hr; apply zrange_in in Hr; exact Hr). rewrite zrange_length. rewrite !Z2Nat.id by nia. lia.
Qed.

(** ** C102: the log *)
(** the five lines; the number before the sign % is the share of stored elements, not the percentage *)
Definition log_of (show : R -> text) (n k : Z) : list text :=
  [ str "Creating " ++ dec n ++ str "x" ++ dec n ++ str " complex sparse matrix"; str "Computing matrix elements";
    str "  " ++ dec k ++ str " out of " ++ dec (n * n) ++ str " matrix elements are non-zero (" ++ show (IZR k / IZR (n * n))%R ++ str "% filling)";
    str "Multiply matrix with prefactor 1i"; str "Finished matrix initialization" ].
Lemma log_text {K : StarRing} show (m : bmat K) n k : bm_size m = n -> 0 <= n -> n * n < two64 -> how_many (fun _ => true) (stored m) = k -> matrix_log show m = log_of show n k.
Proof.
  intros E Hn Hf Ek. unfold matrix_log, log_of, filling, elements. rewrite nonzeros_stored, Ek, E, u64_id by nia. reflexivity.
Qed.
Theorem C102_log : forall (K : StarRing) (sort : list (triplet K) -> list (triplet K)) (J U half : K) lat N show,
  sorts_by_column sort -> shipped3 lat N -> fits3 lat N -> (N + N * N * N) * (N + N * N * N) < two64 ->
  let z := lat_coordination lat in
  (exists m, init_kinetic_matrix sort J lat = Ok m /\ matrix_log show m = log_of show N (N * z)) /\
  (exists m, init_matrix sort J U half lat = Ok m /\ matrix_log show m = log_of show (N + N * N * N) (N * z + 3 * N * N * N * z + (3 * N + N * N * N))).
Proof.
  intros K sort J U half lat N show Hs Hl Hf Hw z. pose proof (shipped3_graph _ _ Hl) as HG. pose proof (HNpos lat N HG). pose proof (g_co _ _ HG). unfold fits3 in Hf. split.
  - destruct (C102_kinetic K sort J lat N (fun _ => true) Hs Hl ltac:(nia)) as (m & E & Sz & C). exists m. split; [exact E|]. apply log_text; [exact Sz|lia|nia|]. rewrite C. unfold z. cbn [if1]. lia.
  - destruct (C102_full K sort J U half lat N (fun _ => true) Hs Hl Hf) as (m & E & Sz & C). exists m. split; [exact E|]. apply log_text; [exact Sz|nia|exact Hw|]. rewrite C. unfold z. cbn [if1]. lia.
Qed.
Theorem C102_log_momentum : forall (K : StarRing) N q (eps : Z -> K) u2 u2n b show,
  0 < N -> N * (1 + 3 * N) < two64 -> (1 + N * N) * (1 + N * N) < two64 -> site N q -> is_momentum_basis N q b ->
  exists m, mom_init_matrix b N eps u2 u2n = Ok m /\ matrix_log show m = log_of show (1 + N * N) (1 + 3 * (N * N)).
Proof.
  intros K N q eps u2 u2n b show HN Hf Hw Hq Hb. destruct (C102_momentum K N q eps u2 u2n b (fun _ => true) HN Hf Hq Hb) as (m & E & Sz & C).
  exists m. split; [exact E|]. apply log_text; [exact Sz|nia|exact Hw|]. rewrite C, hm_const, zrange_length. cbn [if1]. lia.
Qed.
(** (defect) The number logged with a % sign is a hundredth of the percentage. *)
Theorem C102_percent_refuted : forall (K : StarRing) (sort : list (triplet K) -> list (triplet K)) (J U half : K) lat N,
  sorts_by_column sort -> shipped3 lat N -> fits3 lat N -> (N + N * N * N) * (N + N * N * N) < two64 ->
  exists m, init_matrix sort J U half lat = Ok m /\ (0 < filling m)%R /\
    (let percentage := 100 * (IZR (bm_nonzeros m) / (IZR (bm_size m) * IZR (bm_size m))) in filling m = percentage / 100 /\ filling m < percentage)%R.
Proof.
  intros K sort J U half lat N Hs Hl Hf Hw. pose proof (shipped3_graph _ _ Hl) as HG. pose proof (HNpos lat N HG). pose proof (g_co _ _ HG).
  destruct (C102_full K sort J U half lat N (fun _ => true) Hs Hl Hf) as (m & E & Sz & C). exists m. split; [exact E|].
  unfold filling, elements. rewrite nonzeros_stored, C, Sz, u64_id by nia. cbn [if1].
  set (k := ((N * lat_coordination lat + 2 * N * N * N * lat_coordination lat) * 1 + N * N * N * lat_coordination lat * 1 + (3 * N + N * N * N) * 1)%Z). assert (Hk : 0 < k) by (unfold k; nia). clearbody k.
  set (n := N + N * N * N) in *. assert (Hn : 0 < n) by (unfold n; nia). clearbody n. rewrite mult_IZR. apply IZR_lt in Hk, Hn.
  assert (P : (0 < IZR k / (IZR n * IZR n))%R) by (apply Rdiv_lt_0_compat; [lra|apply Rmult_lt_0_compat; lra]). split; [exact P|]. cbv zeta. split; lra.
Qed.
Section Zero.
  Context {K : StarRing}.
  Add Ring KringML : (rth K).
  Lemma zero_times (x : K) : rmul r0 x = r0.
  Proof. ring. Qed.
  Lemma opp_zero (x : K) : ropp x = r0 -> x = r0.
  Proof. intros H. transitivity (ropp (ropp x)); [ring|]. rewrite H. ring. Qed.
End Zero.
(** (defect) Without interaction 3 N + N^3 of the elements counted as non-zero are zeros. *)
Theorem C102_zeros_refuted : forall (K : StarRing) (sort : list (triplet K) -> list (triplet K)) (J half : K) lat N (nonzero : K -> bool),
  (forall x, nonzero x = true <-> x <> r0) -> J <> r0 -> sorts_by_column sort -> shipped3 lat N -> fits3 lat N ->
  exists m, init_matrix sort J r0 half lat = Ok m /\ bm_nonzeros m = how_many nonzero (stored m) + (3 * N + N * N * N) /\ how_many nonzero (stored m) < bm_nonzeros m.
Proof.
  intros K sort J half lat N nz Hnz HJ Hs Hl Hf. pose proof (shipped3_graph _ _ Hl) as HG. pose proof (HNpos lat N HG).
  destruct (C102_full K sort J r0 half lat N (fun _ => true) Hs Hl Hf) as (m & E & Sz & C). destruct (C102_full K sort J r0 half lat N nz Hs Hl Hf) as (m' & E' & _ & C').
  rewrite E in E'. injection E' as <-. exists m. split; [exact E|]. rewrite nonzeros_stored, C, C'. cbn [if1].
  rewrite zero_times. assert (N0 : nz r0 = false) by (destruct (nz r0) eqn:Q; [apply Hnz in Q; contradiction|reflexivity]).
  assert (NJ : nz J = true) by (apply Hnz; exact HJ). assert (NoJ : nz (ropp J) = true) by (apply Hnz; intros Q; apply HJ; apply opp_zero; exact Q).
  rewrite N0, NJ, NoJ. cbn [if1]. nia.
Qed.
(** (defect) For chains of more than 1625 sites the number of matrix elements does not fit into 64 bits: the logged number, and with it the share, is wrong. *)
Theorem C102_wrap_refuted : forall (K : StarRing) (sort : list (triplet K) -> list (triplet K)) (J U half : K) lat N,
  sorts_by_column sort -> shipped3 lat N -> fits3 lat N -> 1626 <= N ->
  exists m, init_matrix sort J U half lat = Ok m /\ elements m < bm_size m * bm_size m.
Proof.
  intros K sort J U half lat N Hs Hl Hf HN. pose proof (shipped3_graph _ _ Hl) as HG.
  destruct (C102_full K sort J U half lat N (fun _ => true) Hs Hl Hf) as (m & E & Sz & _). exists m. split; [exact E|]. unfold elements, u64. rewrite Sz.
  assert (T : two64 = 4294967296 * 4294967296) by (rewrite two64_eq; reflexivity).
  assert (B : 4294967296 <= N + N * N * N) by nia. set (n := N + N * N * N) in *. clearbody n. pose proof (Z.mod_pos_bound (n * n) two64). nia.
Qed.

(** ** concrete cases *)
Example C102_chain3 : shipped3 (chain_lattice 3) 3 /\ fits3 (chain_lattice 3) 3 /\ (3 + 3 * 3 * 3) * (3 + 3 * 3 * 3) < two64 /\ lat_coordination (chain_lattice 3) = 2 /\
  3 * 2 + 3 * 3 * 3 * 3 * 2 + (3 * 3 + 3 * 3 * 3) = 204.
Proof. split; [constructor; rewrite two64_eq; lia|]. split; [|split; [rewrite two64_eq; lia|split; reflexivity]]. unfold fits3. rewrite two64_eq. reflexivity. Qed.
Example C102_chain1626 : shipped3 (chain_lattice 1626) 1626 /\ fits3 (chain_lattice 1626) 1626.
Proof. split; [constructor; rewrite two64_eq; lia|]. unfold fits3. rewrite two64_eq. reflexivity. Qed.
Print Assumptions C102_kinetic.
Print Assumptions C102_full.
Print Assumptions C102_momentum.
Print Assumptions C102_log.
Print Assumptions C102_log_momentum.
Print Assumptions C102_percent_refuted.
Print Assumptions C102_zeros_refuted.
Print Assumptions C102_wrap_refuted.
