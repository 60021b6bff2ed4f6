(** THEOREMS: C20-C22, C26 (lattice positions, exact real arithmetic). *)
From Coq Require Import Reals Lra.
From Verif Require Import Base M_Lattice Spec_Lattice Pf_Lattice M_LatticeReal Spec_LatticeReal Pf_LatticeReal.
Local Open Scope R_scope.

(** ** C20: position -> index inverts index -> position modulo the period *)
Theorem C20_momentum_nearest : forall N v, (0 < N < two64 - 1)%Z ->
  exists r, terminates_with (fun fuel => ch_call fuel (momentum_chain N) v) (Ok r) /\
    ring_nearest N (- PI) (2 * PI / IZR N) (2 * PI) v r.
Proof. exact momentum_call. Qed.
Print Assumptions C20_momentum_nearest.
Theorem C20_momentum_roundtrip : forall N i m, (0 < N < two64 - 1)%Z -> site N i ->
  terminates_with (fun fuel => ch_call fuel (momentum_chain N) (ch_pos (momentum_chain N) i + IZR m * (2 * PI))) (Ok i).
Proof.
  intros N i m HN Hi. destruct (momentum_call N (ch_pos (momentum_chain N) i + IZR m * (2 * PI)) HN) as (r & T & R).
  assert (HN0 : IZR N <> 0) by (apply not_0_IZR; lia).
  assert (E : 2 * PI = IZR N * (2 * PI / IZR N)) by (field; exact HN0).
  rewrite E in R at 2. 
  assert (r = i); [|subst; exact T].
  apply (ring_nearest_exact N (- PI) (2 * PI / IZR N) (ch_pos (momentum_chain N) i + IZR m * (2 * PI)) i m r);
    [lia|apply pi_dx_pos; lia|exact Hi|unfold ch_pos; cbn; rewrite <- E; reflexivity|exact R].
Qed.
Print Assumptions C20_momentum_roundtrip.
Theorem C20_real_roundtrip : forall N dx i m, (0 < N < two64)%Z -> 0 < dx -> site N i ->
  terminates_with (fun fuel => ch_call fuel (real_chain N dx) (ch_pos (real_chain N dx) i + IZR m * (IZR N * dx))) (Ok i).
Proof.
  intros N dx i m HN Hdx Hi. unfold site in Hi.
  assert (Hi1 : 0 <= IZR i) by (apply IZR_le; lia).
  assert (Hi2 : IZR i <= IZR N - 1) by (rewrite <- minus_IZR; apply IZR_le; lia).
  assert (Hu : 0 <= IZR i * dx <= (IZR N - 1) * dx).
  { split; [apply Rmult_le_pos; lra|apply Rmult_le_compat_r; lra]. }
  pose proof (real_call N dx (ch_pos (real_chain N dx) i + IZR m * (IZR N * dx)) m (IZR i * dx) HN Hdx) as H.
  unfold ch_pos in *. cbn [real_chain ch_x_min ch_dx] in *. rewrite Rplus_0_l in *.
  specialize (H eq_refl ltac:(lra)).
  destruct (Rle_dec (IZR i * dx) ((IZR N - 1) * dx)) as [_|L]; [|lra].
  replace (IZR i * dx / dx) with (IZR i) in H by (field; lra). rewrite round_away_IZR in H. exact H.
Qed.
Print Assumptions C20_real_roundtrip.
Example C20_example : site 4 3 /\ (0 < 4 < two64 - 1)%Z /\ 0 < 1.
Proof. split; [unfold site; lia|]. split; [split; reflexivity|lra]. Qed.

(** ** C21: real-space positions.  For v = u + k * length with 0 <= u < length the call is
    - the nearest site if u is at most the position of the last site,
    - undefined (negative value converted to unsigned) if u lies between the last site
      and the half-way point to site 0,
    - site 0 beyond that. *)
Theorem C21_real_positions : forall N dx u (k : Z), (0 < N < two64)%Z -> 0 < dx ->
  0 <= u < IZR N * dx ->
  let run := fun fuel => ch_call fuel (real_chain N dx) (u + IZR k * (IZR N * dx)) in
  (u <= (IZR N - 1) * dx -> exists r, terminates_with run (Ok r) /\
     ring_nearest N 0 dx (IZR N * dx) (u + IZR k * (IZR N * dx)) r) /\
  ((IZR N - 1) * dx < u <= (IZR N - / 2) * dx -> terminates_with run UB) /\
  ((IZR N - / 2) * dx < u -> terminates_with run (Ok 0%Z) /\
     ring_nearest N 0 dx (IZR N * dx) (u + IZR k * (IZR N * dx)) 0).
Proof.
  intros N dx u k HN Hdx Hu run.
  pose proof (real_call N dx (u + IZR k * (IZR N * dx)) k u HN Hdx eq_refl Hu) as H. fold run in H.
  assert (HN1 : 1 <= IZR N) by (apply IZR_le; lia).
  split; [|split]; intros Hc.
  - destruct (Rle_dec u ((IZR N - 1) * dx)) as [_|L]; [|contradiction]. eexists. split; [exact H|].
    assert (Hq : 0 <= u / dx <= IZR (N - 1)).
    { rewrite minus_IZR. split; apply (Rmult_le_reg_r dx); try lra; unfold Rdiv;
        rewrite Rmult_assoc, Rinv_l by lra; lra. }
    assert (Hz : (0 <= round_away (u / dx) <= N - 1)%Z) by (split; [apply round_ge|apply round_le]; apply Hq).
    rewrite <- (Z.mod_small (round_away (u / dx)) N) by lia.
    apply (ring_nearest_of_near N 0 dx (IZR N * dx) _ (round_away (u / dx)) (- k));
      [lia|exact Hdx|reflexivity|].
    replace (u + IZR k * (IZR N * dx) + IZR (- k) * (IZR N * dx) - 0) with u by (rewrite opp_IZR; ring).
    apply round_away_near.
  - destruct (Rle_dec u ((IZR N - 1) * dx)) as [L|_]; [lra|].
    destruct (Rle_dec u ((IZR N - / 2) * dx)) as [_|L]; [exact H|lra].
  - destruct (Rle_dec u ((IZR N - 1) * dx)) as [L|_]; [exfalso; nra|].
    destruct (Rle_dec u ((IZR N - / 2) * dx)) as [L|_]; [lra|]. split; [exact H|].
    assert (G : ring_nearest N 0 dx (IZR N * dx) (u + IZR k * (IZR N * dx)) (N mod N));
      [|rewrite Z.mod_same in G by lia; exact G].
    apply (ring_nearest_of_near N 0 dx (IZR N * dx) _ N (- k)); [lia|exact Hdx|reflexivity|].
    replace (u + IZR k * (IZR N * dx) + IZR (- k) * (IZR N * dx) - 0) with u by (rewrite opp_IZR; ring).
    set (q := u / dx). assert (Eq : u = q * dx) by (unfold q; field; lra). rewrite Eq in Hu, Hc.
    assert (q < IZR N) by (apply (Rmult_lt_reg_r dx); lra).
    assert (IZR N - / 2 < q) by (apply (Rmult_lt_reg_r dx); lra). lra.
Qed.
Print Assumptions C21_real_positions.
(** So "every position maps to a site" is false on every real-space chain. *)
Theorem C21_every_position_refuted : forall N dx, (0 < N < two64)%Z -> 0 < dx ->
  terminates_with (fun fuel => ch_call fuel (real_chain N dx) ((IZR N - / 2) * dx)) UB.
Proof.
  intros N dx HN Hdx. assert (HN1 : 1 <= IZR N) by (apply IZR_le; lia).
  assert (Hu : 0 <= (IZR N - / 2) * dx < IZR N * dx) by nra.
  destruct (C21_real_positions N dx ((IZR N - / 2) * dx) 0 HN Hdx Hu) as (_ & H & _).
  rewrite Rmult_0_l, Rplus_0_r in H. apply H. nra.
Qed.
Print Assumptions C21_every_position_refuted.
Example C21_example : (0 < 4 < two64)%Z /\ 0 < 1 /\ 0 <= 7 / 2 < IZR 4 * 1 /\ (IZR 4 - 1) * 1 < 7 / 2 <= (IZR 4 - / 2) * 1.
Proof. split; [split; reflexivity|]. lra. Qed.

(** ** C22: closest *)
Theorem C22_real_closest : forall N dx v, (0 < N < two64)%Z -> 0 < dx ->
  exists r, terminates_with (fun fuel => ch_closest fuel (real_chain N dx) v) r /\
    ring_nearest N 0 dx (IZR N * dx) v r.
Proof. exact closest_real. Qed.
Print Assumptions C22_real_closest.
(** Momentum space: right for every position up to half a spacing below the zone edge ... *)
Theorem C22_momentum_closest_below_edge : forall N v, (0 < N < two64)%Z -> v <= PI - PI / IZR N ->
  exists r, terminates_with (fun fuel => ch_closest fuel (momentum_chain N) v) r /\
    ring_nearest N (- PI) (2 * PI / IZR N) (2 * PI) v r.
Proof. exact closest_momentum_low. Qed.
Print Assumptions C22_momentum_closest_below_edge.
(** ... and wrong on the whole interval around the zone edge, where site 0 is nearest. *)
Theorem C22_momentum_closest_refuted : forall N v, (2 <= N < two64)%Z ->
  PI - PI / IZR N < v < PI + PI / IZR N ->
  terminates_with (fun fuel => ch_closest fuel (momentum_chain N) v) (N - 1)%Z /\
  ~ ring_nearest N (- PI) (2 * PI / IZR N) (2 * PI) v (N - 1).
Proof. exact closest_momentum_high. Qed.
Print Assumptions C22_momentum_closest_refuted.
Example C22_example : (2 <= 4 < two64)%Z /\ PI - PI / IZR 4 < PI < PI + PI / IZR 4.
Proof. split; [split; [discriminate|reflexivity]|]. pose proof PI_RGT_0. simpl. lra. Qed.

(** ** C26: square-lattice positions *)
(** one coordinate: where a wrapped image of site i lands *)
Lemma coord_momentum N i m : (0 < N < two64 - 1)%Z -> site N i ->
  exists n, forall fuel, (n <= fuel)%nat -> exists w,
    wrap fuel (- PI) PI (2 * PI) (- PI + IZR i * (2 * PI / IZR N) + IZR m * (2 * PI)) = Some w /\
    to_u64 (round_away ((w - - PI) / (2 * PI / IZR N))) = Ok (if (i =? 0)%Z && (0 <? m)%Z then N else i).
Proof.
  intros HN Hi. pose proof PI_RGT_0 as HPI. set (d := 2 * PI / IZR N).
  assert (Hd : 0 < d) by (apply pi_dx_pos; lia). unfold site in Hi.
  assert (HNd : IZR N * d = 2 * PI) by (unfold d; field; apply not_0_IZR; lia).
  assert (Hi1 : 0 <= IZR i) by (apply IZR_le; lia).
  assert (Hi2 : IZR i <= IZR N - 1) by (rewrite <- minus_IZR; apply IZR_le; lia).
  assert (Hid : 0 <= IZR i * d) by (apply Rmult_le_pos; lra).
  assert (Hid2 : IZR i * d <= 2 * PI - d).
  { apply Rle_trans with ((IZR N - 1) * d); [apply Rmult_le_compat_r; lra|lra]. }
  set (v := - PI + IZR i * d + IZR m * (2 * PI)).
  destruct (wrap_closed (- PI) PI (2 * PI) v ltac:(lra) ltac:(ring)) as (n & k & H).
  exists n. intros fuel Hf. destruct (H fuel Hf) as (A & B & C). eexists. split; [exact A|].
  set (z := (m + k)%Z).
  assert (Ew : v + IZR k * (2 * PI) = - PI + IZR i * d + IZR z * (2 * PI)) by (unfold v, z; rewrite plus_IZR; ring).
  rewrite Ew in *.
  assert (Hround : forall t : Z, (0 <= t <= N)%Z -> - PI + IZR i * d + IZR z * (2 * PI) = - PI + IZR t * d ->
    to_u64 (round_away ((- PI + IZR i * d + IZR z * (2 * PI) - - PI) / d)) = Ok t).
  { intros t Ht E. rewrite E. replace ((- PI + IZR t * d - - PI) / d) with (IZR t) by (field; lra).
    rewrite round_away_IZR. apply to_u64_ok. lia. }
  destruct (Z.eqb_spec i 0) as [Ei|Ei]; cbn [andb].
  - subst i. destruct (Z.ltb_spec 0 m) as [Lm|Lm].
    + assert (Hv : PI <= v).
      { unfold v. assert (1 <= IZR m) by (apply IZR_le; lia). nra. }
      specialize (C Hv). apply Hround; [lia|]. rewrite HNd.
      assert (z = 1)%Z.
      { assert (0 < IZR z) by (apply (Rmult_lt_reg_r (2 * PI)); lra).
        assert (IZR z <= 1) by (apply (Rmult_le_reg_r (2 * PI)); lra).
        apply (lt_IZR 0 z) in H0. apply (le_IZR z 1) in H1. lia. }
      rewrite H0. ring.
    + assert (Hv : v < PI).
      { unfold v. assert (IZR m <= 0) by (apply IZR_le; lia). nra. }
      specialize (B Hv). apply Hround; [lia|].
      assert (z = 0)%Z.
      { assert (-1 < IZR z) by (apply (Rmult_lt_reg_r (2 * PI)); lra).
        assert (IZR z < 1) by (apply (Rmult_lt_reg_r (2 * PI)); lra).
        apply (lt_IZR (-1) z) in H0. apply (lt_IZR z 1) in H1. lia. }
      rewrite H0. ring.
  - apply Hround; [lia|].
    assert (Hi3 : 1 <= IZR i) by (apply IZR_le; lia). assert (Hid3 : d <= IZR i * d) by nra.
    assert (z = 0)%Z.
    { assert (Hb : - PI <= - PI + IZR i * d + IZR z * (2 * PI) <= PI).
      { destruct (Rlt_dec v PI) as [L|L]; [specialize (B L); lra|specialize (C ltac:(lra)); lra]. }
      assert (-1 < IZR z) by (apply (Rmult_lt_reg_r (2 * PI)); lra).
      assert (IZR z < 1) by (apply (Rmult_lt_reg_r (2 * PI)); lra).
      apply (lt_IZR (-1) z) in H0. apply (lt_IZR z 1) in H1. lia. }
    rewrite H0. ring.
Qed.
Lemma coord_real N dx i m : (0 < N < two64)%Z -> 0 < dx -> site N i ->
  exists n, forall fuel, (n <= fuel)%nat -> exists w,
    wrap fuel 0 (IZR (u64 (N - 1)) * dx) (IZR N * dx) (0 + IZR i * dx + IZR m * (IZR N * dx)) = Some w /\
    to_u64 (round_away ((w - 0) / dx)) = Ok i.
Proof.
  intros HN Hdx Hi. rewrite IZR_u64_pred by exact HN. unfold site in Hi.
  assert (HN1 : 1 <= IZR N) by (apply IZR_le; lia).
  assert (Hi1 : 0 <= IZR i) by (apply IZR_le; lia).
  assert (Hi2 : IZR i <= IZR N - 1) by (rewrite <- minus_IZR; apply IZR_le; lia).
  assert (Hlen : 0 < IZR N * dx) by nra.
  assert (Hu : 0 <= IZR i * dx <= (IZR N - 1) * dx) by nra.
  destruct (wrap_spec 0 ((IZR N - 1) * dx) (IZR N * dx) (0 + IZR i * dx + IZR m * (IZR N * dx)) Hlen) as (n & k & H).
  exists n. intros fuel Hf. destruct (H fuel Hf) as (A & B & C & D). eexists. split; [exact A|].
  set (z := (m + k)%Z).
  assert (Ew : 0 + IZR i * dx + IZR m * (IZR N * dx) + IZR k * (IZR N * dx) = IZR i * dx + IZR z * (IZR N * dx))
    by (unfold z; rewrite plus_IZR; ring).
  rewrite Ew in *.
  assert (z = 0)%Z.
  { assert (IZR z < 1) by (apply (Rmult_lt_reg_r (IZR N * dx)); lra).
    assert (-1 < IZR z).
    { destruct C as [C|C].
      - apply (Rmult_lt_reg_r (IZR N * dx)); lra.
      - destruct D as [D|[D|D]].
        + apply (Rmult_lt_reg_r (IZR N * dx)); lra.
        + apply (Rmult_lt_reg_r (IZR N * dx)); lra.
        + exfalso. nra. }
    apply (lt_IZR (-1) z) in H1. apply (lt_IZR z 1) in H0. lia. }
  rewrite H0. replace ((IZR i * dx + 0 * (IZR N * dx) - 0) / dx) with (IZR i) by (field; lra).
  rewrite round_away_IZR. apply to_u64_ok. lia.
Qed.

(** Real space, square shape: every image of every site maps back to it. *)
Theorem C26_real_roundtrip : forall N dx dy idx mx my, (1 <= N)%Z -> (N * N < two64)%Z ->
  0 < dx -> 0 < dy -> site (N * N) idx ->
  let s := real_square N N dx dy in
  terminates_with (fun fuel => s_call fuel s
    (fst (s_pos s idx) + IZR mx * s_x_length s, snd (s_pos s idx) + IZR my * s_y_length s)) (Ok idx).
Proof.
  intros N dx dy idx mx my HN Hf Hdx Hdy Hi s.
  pose proof (sq_x_range N HN idx Hi) as Hx. pose proof (sq_y_range N HN idx Hi) as Hy.
  assert (HNf : (0 < N < two64)%Z) by nia.
  destruct (coord_real N dx _ mx HNf Hdx Hx) as (n1 & H1).
  destruct (coord_real N dy _ my HNf Hdy Hy) as (n2 & H2).
  exists (n1 + n2)%nat. intros fuel Hfu.
  destruct (H1 fuel ltac:(lia)) as (wx & A1 & A2). destruct (H2 fuel ltac:(lia)) as (wy & B1 & B2).
  unfold s_call. cbn [s real_square s_x_min s_x_max s_x_length s_dx s_y_min s_y_max s_y_length s_dy s_size_x s_pos fst snd].
  unfold sq_x in A1, A2. unfold sq_y in B1, B2. rewrite A1, B1, A2, B2.
  do 2 f_equal. exact (sq_index_xy N HN Hf idx Hi).
Qed.
Print Assumptions C26_real_roundtrip.
(** Momentum space, square shape: the exact value for every image of every site.  It is the
    site itself except for positive windings of a coordinate 0, which come out as
    coordinate N (no [% size] as in the chain). *)
Theorem C26_momentum_value : forall N idx mx my, (1 <= N)%Z -> (N * N + N < two64)%Z -> site (N * N) idx ->
  let s := momentum_square N N in
  let over i m := (if (i =? 0) && (0 <? m) then N else i)%Z in
  terminates_with (fun fuel => s_call fuel s
    (fst (s_pos s idx) + IZR mx * s_x_length s, snd (s_pos s idx) + IZR my * s_y_length s))
    (Ok (over (sq_x N idx) mx * N + over (sq_y N idx) my)%Z).
Proof.
  intros N idx mx my HN Hf Hi s over.
  pose proof (sq_x_range N HN idx Hi) as Hx. pose proof (sq_y_range N HN idx Hi) as Hy.
  assert (HNf : (0 < N < two64 - 1)%Z) by nia.
  destruct (coord_momentum N _ mx HNf Hx) as (n1 & H1).
  destruct (coord_momentum N _ my HNf Hy) as (n2 & H2).
  exists (n1 + n2)%nat. intros fuel Hfu.
  destruct (H1 fuel ltac:(lia)) as (wx & A1 & A2). destruct (H2 fuel ltac:(lia)) as (wy & B1 & B2).
  unfold s_call. cbn [s momentum_square s_x_min s_x_max s_x_length s_dx s_y_min s_y_max s_y_length s_dy s_size_x s_pos fst snd].
  unfold sq_x in A1. unfold sq_y in B1. rewrite A1, B1. unfold Rminus in A2, B2 |- *. rewrite A2, B2.
  assert (Hov : forall i m, site N i -> (0 <= over i m <= N)%Z).
  { intros i m Hs. unfold site in Hs. unfold over. destruct ((i =? 0)%Z && (0 <? m)%Z); lia. }
  do 2 f_equal. fold (over (sq_x N idx) mx). fold (over (sq_y N idx) my).
  assert (0 <= over (sq_x N idx) mx <= N)%Z by (apply Hov; assumption).
  assert (0 <= over (sq_y N idx) my <= N)%Z by (apply Hov; assumption).
  rewrite (u64_id (_ * _)) by nia. apply u64_id. nia.
Qed.
Print Assumptions C26_momentum_value.
Theorem C26_momentum_roundtrip : forall N idx mx my, (1 <= N)%Z -> (N * N + N < two64)%Z ->
  site (N * N) idx ->
  (sq_x N idx <> 0 \/ mx <= 0)%Z -> (sq_y N idx <> 0 \/ my <= 0)%Z ->
  let s := momentum_square N N in
  terminates_with (fun fuel => s_call fuel s
    (fst (s_pos s idx) + IZR mx * s_x_length s, snd (s_pos s idx) + IZR my * s_y_length s)) (Ok idx).
Proof.
  intros N idx mx my HN Hf Hi Cx Cy s. pose proof (C26_momentum_value N idx mx my HN Hf Hi) as H.
  cbv beta zeta in H.
  replace ((sq_x N idx =? 0) && (0 <? mx))%Z with false in H by lia.
  replace ((sq_y N idx =? 0) && (0 <? my))%Z with false in H by lia.
  assert (Hf2 : (N * N < two64)%Z) by lia.
  pose proof (sq_index_xy N HN Hf2 idx Hi) as E.
  rewrite sq_index_eq in E by (first [assumption|apply sq_x_range; assumption|apply sq_y_range; assumption]).
  cbv iota in H. rewrite E in H. exact H.
Qed.
Print Assumptions C26_momentum_roundtrip.
(** The zone corner: position (pi, pi), an image of site 0, gives an index beyond the lattice. *)
Theorem C26_zone_edge_refuted : forall N, (1 <= N)%Z -> (N * N + N < two64)%Z ->
  terminates_with (fun fuel => s_call fuel (momentum_square N N) (PI, PI)) (Ok (N * N + N)%Z) /\
  ~ site (N * N) (N * N + N).
Proof.
  intros N HN Hf. split; [|unfold site; lia].
  assert (Hs : site (N * N) 0) by (unfold site; nia).
  pose proof (C26_momentum_value N 0 1 1 HN Hf Hs) as H. cbv beta zeta in H.
  unfold sq_x, sq_y, s_pos in H. cbn [momentum_square s_x_min s_x_max s_x_length s_dx s_y_min s_y_max s_y_length s_dy s_size_x fst snd] in H.
  rewrite !Z.div_0_l, !Z.mod_0_l in H by lia. cbn [Z.eqb Z.ltb andb Z.compare] in H.
  replace (- PI + 0 * (2 * PI / IZR N) + 1 * (2 * PI)) with PI in H by ring. exact H.
Qed.
Print Assumptions C26_zone_edge_refuted.
Example C26_example : (1 <= 4)%Z /\ (4 * 4 + 4 < two64)%Z /\ site (4 * 4) 7 /\ sq_x 4 7 = 1%Z /\ sq_y 4 7 = 3%Z.
Proof. unfold site. vm_compute. intuition congruence. Qed.
