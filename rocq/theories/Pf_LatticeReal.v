(** Proofs about positions. *)
From Coq Require Import Reals Lra.
From Verif Require Import Base M_Lattice Spec_Lattice Pf_Lattice M_LatticeReal Spec_LatticeReal.
Local Open Scope R_scope.

Lemma nat_above (x : R) : exists n : nat, x <= INR n.
Proof.
  destruct (Rle_lt_dec x 0) as [H|H]; [exists 0%nat; simpl; lra|].
  exists (Z.to_nat (up x)). rewrite INR_IZR_INZ. pose proof (archimed x) as [A _].
  assert (0 <= up x)%Z. { apply le_IZR. lra. }
  rewrite Z2Nat.id by assumption. lra.
Qed.

Lemma while_below_spec lo len v : 0 < len -> exists (n k : nat), forall fuel, (n <= fuel)%nat ->
  while_below fuel lo len v = Some (v + INR k * len) /\ lo <= v + INR k * len /\
  (k <> 0%nat -> v + INR k * len < lo + len).
Proof.
  intros HL. destruct (nat_above ((lo - v) / len)) as [n Hn].
  assert (Hn' : lo - v <= INR n * len).
  { apply (Rmult_le_compat_r len) in Hn; [|lra]. unfold Rdiv in Hn.
    rewrite Rmult_assoc, Rinv_l, Rmult_1_r in Hn by lra. exact Hn. }
  clear Hn. revert v Hn'. induction n as [|n IH]; intros v Hn.
  - exists 0%nat, 0%nat. intros fuel _. simpl in *. 
    destruct fuel; simpl; destruct (Rlt_dec v lo); try (exfalso; lra);
      (split; [f_equal; ring|]; split; [lra|congruence]).
  - destruct (Rlt_dec v lo) as [L|L].
    + destruct (IH (v + len)) as (n0 & k & H); [rewrite S_INR in Hn; lra|].
      exists (S n0), (S k). intros fuel Hf. destruct fuel as [|fuel]; [lia|].
      destruct (H fuel) as (H1 & H2 & H3); [lia|].
      assert (E : v + INR (S k) * len = v + len + INR k * len) by (rewrite S_INR; ring).
      rewrite E. split; [|split; [exact H2|]].
      * simpl. destruct (Rlt_dec v lo); [exact H1|contradiction].
      * intros _. destruct k as [|k]; [simpl; lra|]. apply H3. congruence.
    + exists 0%nat, 0%nat. intros fuel _. simpl.
      destruct fuel; simpl; destruct (Rlt_dec v lo); try contradiction;
        (split; [f_equal; ring|]; split; [lra|congruence]).
Qed.
Lemma while_above_spec hi len v : 0 < len -> exists (n k : nat), forall fuel, (n <= fuel)%nat ->
  while_above fuel hi len v = Some (v - INR k * len) /\ v - INR k * len <= hi /\
  (k <> 0%nat -> hi - len < v - INR k * len).
Proof.
  intros HL. destruct (nat_above ((v - hi) / len)) as [n Hn].
  assert (Hn' : v - hi <= INR n * len).
  { apply (Rmult_le_compat_r len) in Hn; [|lra]. unfold Rdiv in Hn.
    rewrite Rmult_assoc, Rinv_l, Rmult_1_r in Hn by lra. exact Hn. }
  clear Hn. revert v Hn'. induction n as [|n IH]; intros v Hn.
  - exists 0%nat, 0%nat. intros fuel _. simpl in *. 
    destruct fuel; simpl; destruct (Rlt_dec hi v); try (exfalso; lra);
      (split; [f_equal; ring|]; split; [lra|congruence]).
  - destruct (Rlt_dec hi v) as [L|L].
    + destruct (IH (v - len)) as (n0 & k & H); [rewrite S_INR in Hn; lra|].
      exists (S n0), (S k). intros fuel Hf. destruct fuel as [|fuel]; [lia|].
      destruct (H fuel) as (H1 & H2 & H3); [lia|].
      assert (E : v - INR (S k) * len = v - len - INR k * len) by (rewrite S_INR; ring).
      rewrite E. split; [|split; [exact H2|]].
      * simpl. destruct (Rlt_dec hi v); [exact H1|contradiction].
      * intros _. destruct k as [|k]; [simpl; lra|]. apply H3. congruence.
    + exists 0%nat, 0%nat. intros fuel _. simpl.
      destruct fuel; simpl; destruct (Rlt_dec hi v); try contradiction;
        (split; [f_equal; ring|]; split; [lra|congruence]).
Qed.

(** The wrapped value: congruent to v; inside [lo, hi], or, when the window is shorter
    than the period, possibly below lo. *)
Lemma wrap_spec lo hi len v : 0 < len -> exists (n : nat) (m : Z), forall fuel, (n <= fuel)%nat ->
  let w := v + IZR m * len in
  wrap fuel lo hi len v = Some w /\ w <= hi /\ (lo <= w \/ hi - len < w) /\
  (lo <= w \/ (hi < w + len /\ w + len < lo + len /\ lo <= w + len) \/ hi < lo).
Proof.
  intros HL. destruct (while_below_spec lo len v HL) as (n1 & k1 & H1).
  destruct (while_above_spec hi len (v + INR k1 * len) HL) as (n2 & k2 & H2).
  exists (n1 + n2)%nat, (Z.of_nat k1 - Z.of_nat k2)%Z. intros fuel Hf.
  destruct (H1 fuel) as (A1 & A2 & A3); [lia|]. destruct (H2 fuel) as (B1 & B2 & B3); [lia|].
  assert (E : v + IZR (Z.of_nat k1 - Z.of_nat k2) * len = v + INR k1 * len - INR k2 * len).
  { rewrite minus_IZR, <- !INR_IZR_INZ. ring. }
  cbv zeta. rewrite E. unfold wrap. rewrite A1. split; [exact B1|]. split; [exact B2|].
  destruct k2 as [|k2].
  - simpl in *. rewrite Rmult_0_l, Rminus_0_r. split; left; lra.
  - assert (B4 := B3 ltac:(congruence)). split; [right; lra|].
    destruct (Rle_lt_dec lo (v + INR k1 * len - INR (S k2) * len)) as [L|L]; [left; lra|].
    destruct (Rlt_dec hi lo) as [Q|Q]; [right; right; lra|].
    right; left. split; [lra|]. split; [lra|lra].
Qed.

(** ** rounding *)
Lemma Int_part_spec x : IZR (Int_part x) <= x < IZR (Int_part x) + 1.
Proof. pose proof (base_Int_part x). lra. Qed.
Lemma round_away_near x : - / 2 <= x - IZR (round_away x) <= / 2.
Proof.
  unfold round_away. destruct (Rle_dec 0 x).
  - pose proof (Int_part_spec (x + / 2)). lra.
  - rewrite opp_IZR. pose proof (Int_part_spec (- x + / 2)). lra.
Qed.
Lemma near_best x z k : - / 2 <= x - IZR z <= / 2 -> Rabs (x - IZR z) <= Rabs (x - IZR k).
Proof.
  intros H. destruct (Z.eq_dec k z) as [->|Hne]; [lra|].
  assert (Rabs (x - IZR z) <= / 2) by (apply Rabs_le; lra).
  assert (/ 2 <= Rabs (x - IZR k)); [|lra].
  assert (Hk : (k <= z - 1 \/ z + 1 <= k)%Z) by lia. destruct Hk as [Hk|Hk].
  - apply IZR_le in Hk. rewrite minus_IZR in Hk. rewrite Rabs_right; lra.
  - apply IZR_le in Hk. rewrite plus_IZR in Hk. rewrite Rabs_left1; lra.
Qed.
Lemma round_away_unique x z : (0 <= x -> IZR z - / 2 <= x < IZR z + / 2) ->
  (x < 0 -> IZR z - / 2 < x <= IZR z + / 2) -> round_away x = z.
Proof.
  intros H1 H2. unfold round_away. destruct (Rle_dec 0 x) as [L|L].
  - specialize (H1 L).
    pose proof (Int_part_spec (x + / 2)) as [A B].
    assert (IZR z < IZR (Int_part (x + / 2) + 1)) by (rewrite plus_IZR; lra).
    assert (IZR (Int_part (x + / 2)) < IZR (z + 1)) by (rewrite plus_IZR; lra).
    apply lt_IZR in H, H0. lia.
  - specialize (H2 ltac:(lra)). pose proof (Int_part_spec (- x + / 2)) as [A B].
    assert (IZR (- z) < IZR (Int_part (- x + / 2) + 1)) by (rewrite plus_IZR, opp_IZR; lra).
    assert (IZR (Int_part (- x + / 2)) < IZR (- z + 1)) by (rewrite plus_IZR, opp_IZR; lra).
    apply lt_IZR in H, H0. lia.
Qed.
Lemma round_away_IZR z : round_away (IZR z) = z.
Proof. apply round_away_unique; intros; lra. Qed.
Lemma round_le x z : x <= IZR z -> (round_away x <= z)%Z.
Proof.
  intros H. pose proof (round_away_near x) as [A B]. apply Zlt_succ_le. unfold Z.succ.
  assert (A' : IZR (round_away x) <= x + / 2) by lra.
  apply lt_IZR. rewrite plus_IZR. lra.
Qed.
Lemma round_ge x z : IZR z <= x -> (z <= round_away x)%Z.
Proof.
  intros H. pose proof (round_away_near x) as [A B]. apply Zlt_succ_le. unfold Z.succ.
  apply lt_IZR. rewrite plus_IZR. lra.
Qed.
Lemma to_u64_ok z : (0 <= z < two64)%Z -> to_u64 z = Ok z.
Proof.
  intros H. unfold to_u64. replace (0 <=? z)%Z with true by lia.
  replace (z <? two64)%Z with true by lia. reflexivity.
Qed.
Lemma to_u64_neg z : (z < 0)%Z -> to_u64 z = UB.
Proof. intros H. unfold to_u64. replace (0 <=? z)%Z with false by lia. reflexivity. Qed.

(** nearest lattice point = ring-nearest site, when len = N dx *)
Lemma ring_nearest_of_near N x0 dx len v (z m : Z) : (0 < N)%Z -> 0 < dx -> len = IZR N * dx ->
  - / 2 <= (v + IZR m * len - x0) / dx - IZR z <= / 2 ->
  ring_nearest N x0 dx len v (z mod N).
Proof.
  intros HN Hdx HL H. split; [unfold site; apply Z.mod_pos_bound; lia|].
  exists (z / N - m)%Z. intros j m' Hj. unfold image_dist.
  set (x := (v + IZR m * len - x0) / dx) in *.
  assert (Hv : v = x * dx + x0 - IZR m * len) by (unfold x; field; lra).
  assert (Hz : IZR z = IZR (z mod N) + IZR (z / N) * IZR N).
  { rewrite <- mult_IZR, <- plus_IZR. f_equal. pose proof (Z.div_mod z N). lia. }
  replace (v - (x0 + IZR (z mod N) * dx + IZR (z / N - m) * len)) with ((x - IZR z) * dx)
    by (rewrite Hv, HL, minus_IZR, Hz; ring).
  replace (v - (x0 + IZR j * dx + IZR m' * len)) with ((x - IZR (j + (m + m') * N)) * dx)
    by (rewrite Hv, HL, plus_IZR, mult_IZR, plus_IZR; ring).
  rewrite !Rabs_mult. apply Rmult_le_compat_r; [apply Rabs_pos|]. apply near_best, H.
Qed.

(** ** operator() of the chain, generically: len = N dx *)
Lemma call_generic c v : (0 < ch_size c)%Z -> 0 < ch_dx c -> ch_length c = IZR (ch_size c) * ch_dx c ->
  exists (n : nat) (m : Z), forall fuel, (n <= fuel)%nat ->
  let w := v + IZR m * ch_length c in
  wrap fuel (ch_x_min c) (ch_x_max c) (ch_length c) v = Some w /\ w <= ch_x_max c /\
  (ch_x_min c <= w \/ ch_x_max c - ch_length c < w) /\
  (ch_x_min c <= w \/ (ch_x_max c < w + ch_length c /\ w + ch_length c < ch_x_min c + ch_length c /\
     ch_x_min c <= w + ch_length c) \/ ch_x_max c < ch_x_min c).
Proof.
  intros HN Hdx HL. apply wrap_spec. rewrite HL. apply Rmult_lt_0_compat; [|exact Hdx].
  apply IZR_lt. exact HN.
Qed.

Lemma pi_dx_pos N : (0 < N)%Z -> 0 < 2 * PI / IZR N.
Proof.
  intros H. apply Rdiv_lt_0_compat; [pose proof PI_RGT_0; lra|]. apply IZR_lt; exact H.
Qed.

Lemma momentum_call N v : (0 < N < two64 - 1)%Z ->
  exists r, terminates_with (fun fuel => ch_call fuel (momentum_chain N) v) (Ok r) /\
    ring_nearest N (- PI) (2 * PI / IZR N) (2 * PI) v r.
Proof.
  intros HN. set (c := momentum_chain N). pose proof (pi_dx_pos N ltac:(lia)) as Hdx.
  assert (HN0 : IZR N <> 0) by (apply not_0_IZR; lia).
  assert (HL : ch_length c = IZR (ch_size c) * ch_dx c) by (cbn; field; exact HN0).
  destruct (call_generic c v ltac:(cbn; lia) Hdx HL) as (n & m & H).
  set (w := v + IZR m * ch_length c) in *.
  assert (Hw : - PI <= w <= PI).
  { destruct (H n (le_n n)) as (_ & A & B & _). fold w in A, B. cbn in A, B. lra. }
  set (q := (w - ch_x_min c) / ch_dx c).
  assert (Hq : 0 <= q <= IZR N).
  { assert (Ew : w - ch_x_min c = q * ch_dx c) by (unfold q; field; cbn; lra).
    cbn in Ew. assert (E2 : IZR N * (2 * PI / IZR N) = 2 * PI) by (field; exact HN0).
    split.
    - apply (Rmult_le_reg_r (2 * PI / IZR N)); [exact Hdx|]. lra.
    - apply (Rmult_le_reg_r (2 * PI / IZR N)); [exact Hdx|]. lra. }
  assert (Hz : (0 <= round_away q <= N)%Z) by (split; [apply round_ge|apply round_le]; apply Hq).
  exists (round_away q mod N)%Z. split.
  - exists n. intros fuel Hf. destruct (H fuel Hf) as (A & _). fold w in A.
    unfold ch_call. rewrite A. fold q. rewrite to_u64_ok by lia. reflexivity.
  - apply (ring_nearest_of_near N (- PI) _ _ v (round_away q) m); [lia|exact Hdx|cbn in HL; exact HL|].
    exact (round_away_near q).
Qed.

Lemma IZR_u64_pred N : (0 < N < two64)%Z -> IZR (u64 (N - 1)) = IZR N - 1.
Proof. intros H. rewrite u64_id by lia. rewrite minus_IZR. reflexivity. Qed.

(** real space: the position [v mod length] decides *)
Lemma real_call N dx v (k : Z) (u : R) : (0 < N < two64)%Z -> 0 < dx ->
  v = u + IZR k * (IZR N * dx) -> 0 <= u < IZR N * dx ->
  terminates_with (fun fuel => ch_call fuel (real_chain N dx) v)
    (if Rle_dec u ((IZR N - 1) * dx) then Ok (round_away (u / dx))
     else if Rle_dec u ((IZR N - / 2) * dx) then UB else Ok 0%Z).
Proof.
  intros HN Hdx Hv Hu. set (c := real_chain N dx).
  assert (HNR : 1 <= IZR N) by (apply IZR_le; lia).
  destruct (call_generic c v ltac:(cbn; lia) Hdx eq_refl) as (n & m & H).
  set (w := v + IZR m * ch_length c) in *.
  assert (Hmax : ch_x_max c = (IZR N - 1) * dx) by (cbn; rewrite IZR_u64_pred by exact HN; ring).
  destruct (H n (le_n n)) as (_ & A & B & C). fold w in A, B, C. rewrite Hmax in *. cbn in B, C.
  assert (Ew : w = u + IZR (k + m) * (IZR N * dx)) by (unfold w; rewrite Hv, plus_IZR; cbn; ring).
  assert (Hlen : 0 < IZR N * dx) by (apply Rmult_lt_0_compat; lra).
  assert (Hx0 : 0 <= (IZR N - 1) * dx) by (apply Rmult_le_pos; lra).
  assert (Hw0 : w = if Rle_dec u ((IZR N - 1) * dx) then u else u - IZR N * dx).
  { rewrite Ew. set (z := (k + m)%Z) in *.
    assert (Hlow : - dx < w). { destruct B; [lra|]. lra. }
    assert (Hz : (z = 0 \/ z = -1)%Z).
    { assert (IZR z < 1). { apply (Rmult_lt_reg_r (IZR N * dx)); [exact Hlen|]. lra. }
      assert (-2 < IZR z).
      { apply (Rmult_lt_reg_r (IZR N * dx)); [exact Hlen|].
        assert (dx <= IZR N * dx) by (rewrite <- (Rmult_1_l dx) at 1; apply Rmult_le_compat_r; lra). lra. }
      apply (lt_IZR z 1) in H0. apply (lt_IZR (-2) z) in H1. lia. }
    destruct (Rle_dec u ((IZR N - 1) * dx)) as [L|L].
    - destruct Hz as [-> | Hz]; [ring|]. exfalso. rewrite Hz in Ew.
      replace (u + -1 * (IZR N * dx)) with (u - IZR N * dx) in Ew by ring.
      destruct C as [C|[C|C]]; lra.
    - destruct Hz as [Hz| ->]; [|ring]. exfalso. rewrite Hz in Ew. lra. }
  exists n. intros fuel Hf. destruct (H fuel Hf) as (D & _). fold w in D. rewrite <- Hmax in D.
  unfold ch_call. rewrite Hmax in D. rewrite Hmax.
  rewrite D. cbn [ch_x_min c real_chain ch_dx ch_size]. rewrite Rminus_0_r. rewrite Hw0.
  destruct (Rle_dec u ((IZR N - 1) * dx)) as [L|L].
  - assert (Hq : 0 <= u / dx <= IZR (N - 1)).
    { split; [apply Rmult_le_pos; [lra|left; apply Rinv_0_lt_compat; lra]|].
      rewrite minus_IZR. apply (Rmult_le_reg_r dx); [lra|]. unfold Rdiv.
      rewrite Rmult_assoc, Rinv_l by lra. lra. }
    assert (Hz : (0 <= round_away (u / dx) <= N - 1)%Z) by (split; [apply round_ge|apply round_le]; apply Hq).
    rewrite to_u64_ok by lia. rewrite Z.mod_small by lia. reflexivity.
  - set (q := (u - IZR N * dx) / dx).
    assert (Eq : u - IZR N * dx = q * dx) by (unfold q; field; lra).
    assert (Hq1 : -1 < q). { apply (Rmult_lt_reg_r dx); [lra|]. lra. }
    assert (Hq2 : q < 0). { apply (Rmult_lt_reg_r dx); [lra|]. lra. }
    destruct (Rle_dec u ((IZR N - / 2) * dx)) as [L2|L2].
    + assert (Hq3 : q <= - / 2). { apply (Rmult_le_reg_r dx); [lra|]. lra. }
      rewrite (round_away_unique q (-1)); [rewrite to_u64_neg by lia; reflexivity|intros; lra|intros; lra].
    + assert (Hq3 : - / 2 < q). { apply (Rmult_lt_reg_r dx); [lra|]. lra. }
      rewrite (round_away_unique q 0); [|intros; lra|intros; lra].
      rewrite to_u64_ok by lia. rewrite Z.mod_small by lia. reflexivity.
Qed.

(** window exactly one period long *)
Lemma wrap_closed lo hi len v : 0 < len -> hi = lo + len ->
  exists (n : nat) (m : Z), forall fuel, (n <= fuel)%nat ->
  let w := v + IZR m * len in
  wrap fuel lo hi len v = Some w /\ (v < hi -> lo <= w < hi) /\ (hi <= v -> lo < w <= hi).
Proof.
  intros HL Hh. destruct (while_below_spec lo len v HL) as (n1 & k1 & H1).
  destruct (while_above_spec hi len (v + INR k1 * len) HL) as (n2 & k2 & H2).
  exists (n1 + n2)%nat, (Z.of_nat k1 - Z.of_nat k2)%Z. intros fuel Hf.
  destruct (H1 fuel) as (A1 & A2 & A3); [lia|]. destruct (H2 fuel) as (B1 & B2 & B3); [lia|].
  assert (E : v + IZR (Z.of_nat k1 - Z.of_nat k2) * len = v + INR k1 * len - INR k2 * len).
  { rewrite minus_IZR, <- !INR_IZR_INZ. ring. }
  cbv zeta. rewrite E. unfold wrap. rewrite A1. split; [exact B1|].
  assert (K1 : forall k : nat, 0 <= INR k * len) by (intros k; apply Rmult_le_pos; [apply pos_INR|lra]).
  pose proof (K1 k2). pose proof (K1 k1).
  split; intros Hv.
  - assert (Hlt : v + INR k1 * len < hi).
    { destruct k1 as [|k1]; [simpl; lra|]. specialize (A3 ltac:(congruence)). lra. }
    destruct k2 as [|k2]; [simpl; lra|]. specialize (B3 ltac:(congruence)). lra.
  - assert (Hk1 : k1 = 0%nat).
    { destruct k1 as [|k1]; [reflexivity|]. specialize (A3 ltac:(congruence)).
      rewrite S_INR in A3. specialize (K1 k1). lra. }
    subst k1. simpl in *. destruct k2 as [|k2]; [simpl in *; lra|]. specialize (B3 ltac:(congruence)). lra.
Qed.

(** a position that is exactly an image of site i *)
Lemma ring_nearest_exact N x0 dx v (i m r : Z) : (0 < N)%Z -> 0 < dx ->
  site N i -> v = x0 + IZR i * dx + IZR m * (IZR N * dx) ->
  ring_nearest N x0 dx (IZR N * dx) v r -> r = i.
Proof.
  intros HN Hdx Hi Hv [Hr (m0 & H)]. specialize (H i m Hi). unfold image_dist in H.
  rewrite Hv in H. replace (x0 + IZR i * dx + IZR m * (IZR N * dx) - (x0 + IZR i * dx + IZR m * (IZR N * dx)))
    with 0 in H by ring.
  rewrite Rabs_R0 in H.
  replace (x0 + IZR i * dx + IZR m * (IZR N * dx) - (x0 + IZR r * dx + IZR m0 * (IZR N * dx)))
    with (IZR ((i + m * N) - (r + m0 * N)) * dx) in H
    by (rewrite minus_IZR, !plus_IZR, !mult_IZR; ring).
  rewrite Rabs_mult, (Rabs_right dx) in H by lra.
  assert (E : Rabs (IZR ((i + m * N) - (r + m0 * N))) = 0).
  { pose proof (Rabs_pos (IZR ((i + m * N) - (r + m0 * N)))). 
    destruct (Rle_lt_or_eq_dec _ _ H0) as [L|L]; [|symmetry; exact L].
    pose proof (Rmult_lt_0_compat _ _ L Hdx). lra. }
  rewrite <- abs_IZR in E. apply eq_IZR in E. unfold site in *.
  assert (E1 : ((m - m0) * N = r - i)%Z) by lia.
  assert (- 1 < m - m0 < 1)%Z by nia. assert (m - m0 = 0)%Z as E2 by lia. rewrite E2 in E1. lia.
Qed.

(** ** closest *)
Lemma closest_fold c w l acc : fst acc = (ch_pos c (snd acc) - w) * (ch_pos c (snd acc) - w) ->
  let r := fold_left (closest_step c w) l acc in
  fst r = (ch_pos c (snd r) - w) * (ch_pos c (snd r) - w) /\ fst r <= fst acc /\
  (snd r = snd acc \/ In (snd r) l) /\
  forall j, In j l -> fst r <= (ch_pos c j - w) * (ch_pos c j - w).
Proof.
  revert acc. induction l as [|x l IH]; intros acc Ha.
  - cbn. repeat split; auto; [lra|intros j []].
  - cbn [fold_left]. specialize (IH (closest_step c w acc x)).
    assert (Hs : fst (closest_step c w acc x) = (ch_pos c (snd (closest_step c w acc x)) - w) * (ch_pos c (snd (closest_step c w acc x)) - w)).
    { unfold closest_step. destruct (Rlt_dec _ _); [reflexivity|exact Ha]. }
    specialize (IH Hs). cbv zeta in IH |- *.
    assert (Hle : fst (closest_step c w acc x) <= fst acc /\ fst (closest_step c w acc x) <= (ch_pos c x - w) * (ch_pos c x - w)).
    { unfold closest_step. destruct (Rlt_dec _ _); cbn [fst]; lra. }
    assert (Hin : snd (closest_step c w acc x) = snd acc \/ snd (closest_step c w acc x) = x).
    { unfold closest_step. destruct (Rlt_dec _ _); cbn [snd]; auto. }
    destruct IH as (I1 & I2 & I3 & I4). split; [exact I1|]. split; [lra|]. split.
    + destruct I3 as [I3|I3]; [|right; right; exact I3].
      destruct Hin as [Hin|Hin]; [left; congruence|right; left; congruence].
    + intros j [<-|Hj]; [lra|apply I4, Hj].
Qed.
Lemma closest_min c v w n : (0 < ch_size c < two64)%Z ->
  (forall fuel, (n <= fuel)%nat -> wrap fuel (ch_x_min c - ch_dx c / 2) (ch_x_max c + ch_dx c / 2) (ch_length c) v = Some w) ->
  exists r, terminates_with (fun fuel => ch_closest fuel c v) r /\ site (ch_size c) r /\
    forall j, site (ch_size c) j -> (ch_pos c r - w) * (ch_pos c r - w) <= (ch_pos c j - w) * (ch_pos c j - w).
Proof.
  intros HN Hw.
  pose proof (closest_fold c w (Zseq (ch_size c)) ((ch_pos c 0 - w) * (ch_pos c 0 - w), 0%Z) eq_refl) as H.
  cbv zeta in H. destruct H as (I1 & I2 & I3 & I4). eexists. split; [|split].
  - exists n. intros fuel Hf. unfold ch_closest. rewrite (Hw fuel Hf).
    unfold chain_begin, chain_end, chain_first, chain_last.
    rewrite (u64_id (ch_size c - 1)) by lia. rewrite u64_id by lia.
    replace (ch_size c - 1 + 1)%Z with (ch_size c) by lia. rewrite range_for_zero by lia. reflexivity.
  - destruct I3 as [I3|I3]; [rewrite I3; unfold site; cbn; lia|]. apply Zseq_in in I3. exact I3.
  - intros j Hj. rewrite <- I1. apply I4. apply Zseq_in. exact Hj.
Qed.
Lemma sq_le_abs a b : 0 <= b -> a * a <= b * b -> - b <= a <= b.
Proof.
  intros Hb H. assert (Rabs a <= Rabs b) by (apply Rsqr_le_abs_0; unfold Rsqr; lra).
  rewrite (Rabs_right b) in H0 by lra.
  pose proof (Rle_abs a). pose proof (Rle_abs (- a)). rewrite Rabs_Ropp in H2. lra.
Qed.
(** if the wrapped position is within half a spacing of the sites' range, closest is right *)
Lemma closest_near c v m n : (0 < ch_size c < two64)%Z -> 0 < ch_dx c ->
  ch_length c = IZR (ch_size c) * ch_dx c ->
  let w := v + IZR m * ch_length c in
  (forall fuel, (n <= fuel)%nat -> wrap fuel (ch_x_min c - ch_dx c / 2) (ch_x_max c + ch_dx c / 2) (ch_length c) v = Some w) ->
  ch_x_min c - ch_dx c / 2 <= w <= ch_x_min c + (IZR (ch_size c) - / 2) * ch_dx c ->
  exists r, terminates_with (fun fuel => ch_closest fuel c v) r /\
    ring_nearest (ch_size c) (ch_x_min c) (ch_dx c) (ch_length c) v r.
Proof.
  intros HN Hdx HL w Hw Hb. destruct (closest_min c v w n HN Hw) as (r & T & Hr & Hmin).
  exists r. split; [exact T|].
  set (q := (w - ch_x_min c) / ch_dx c).
  assert (Eq : w = ch_x_min c + q * ch_dx c) by (unfold q; field; lra).
  assert (Hq : - / 2 <= q <= IZR (ch_size c) - / 2).
  { split; apply (Rmult_le_reg_r (ch_dx c)); lra. }
  assert (Hj : exists j, site (ch_size c) j /\ - / 2 <= q - IZR j <= / 2).
  { pose proof (Int_part_spec (q + / 2)) as [A B]. set (z := Int_part (q + / 2)) in *.
    assert (Hz1 : (-1 < z)%Z) by (apply lt_IZR; lra).
    destruct (Z.eq_dec z (ch_size c)) as [E|E].
    - exists (ch_size c - 1)%Z. split; [unfold site; lia|]. rewrite E in *. rewrite minus_IZR. lra.
    - exists z. split; [|lra]. unfold site. split; [lia|].
      assert (z < ch_size c + 1)%Z by (apply lt_IZR; rewrite plus_IZR; lra). lia. }
  destruct Hj as (j & Hj & Hjq). specialize (Hmin j Hj). unfold ch_pos in Hmin.
  assert (Hr2 : (q - IZR r) * (q - IZR r) <= / 2 * / 2).
  { assert (M : (q - IZR r) * (q - IZR r) <= (q - IZR j) * (q - IZR j)).
    { apply (Rmult_le_reg_r (ch_dx c * ch_dx c)); [apply Rmult_lt_0_compat; lra|].
      rewrite Eq in Hmin.
      replace ((ch_x_min c + IZR r * ch_dx c - (ch_x_min c + q * ch_dx c)) * (ch_x_min c + IZR r * ch_dx c - (ch_x_min c + q * ch_dx c)))
        with ((q - IZR r) * (q - IZR r) * (ch_dx c * ch_dx c)) in Hmin by ring.
      replace ((ch_x_min c + IZR j * ch_dx c - (ch_x_min c + q * ch_dx c)) * (ch_x_min c + IZR j * ch_dx c - (ch_x_min c + q * ch_dx c)))
        with ((q - IZR j) * (q - IZR j) * (ch_dx c * ch_dx c)) in Hmin by ring. exact Hmin. }
    assert ((q - IZR j) * (q - IZR j) <= / 2 * / 2) by nra. lra. }
  apply sq_le_abs in Hr2; [|lra].
  pose proof (ring_nearest_of_near (ch_size c) (ch_x_min c) (ch_dx c) (ch_length c) v r m ltac:(lia) Hdx HL Hr2) as R.
  rewrite Z.mod_small in R by exact Hr. exact R.
Qed.

Lemma closest_real N dx v : (0 < N < two64)%Z -> 0 < dx ->
  exists r, terminates_with (fun fuel => ch_closest fuel (real_chain N dx) v) r /\
    ring_nearest N 0 dx (IZR N * dx) v r.
Proof.
  intros HN Hdx. set (c := real_chain N dx).
  assert (Hlen : 0 < ch_length c) by (cbn; apply Rmult_lt_0_compat; [apply IZR_lt; lia|lra]).
  assert (Hmax : ch_x_max c = (IZR N - 1) * dx) by (cbn; rewrite IZR_u64_pred by exact HN; ring).
  destruct (wrap_spec (ch_x_min c - ch_dx c / 2) (ch_x_max c + ch_dx c / 2) (ch_length c) v Hlen) as (n & m & H).
  apply (closest_near c v m n); [cbn; lia|exact Hdx|reflexivity| |].
  - intros fuel Hf. apply (H fuel Hf).
  - destruct (H n (le_n n)) as (_ & A & B & _). rewrite Hmax in A, B. cbn in A, B |- *. lra.
Qed.
Lemma closest_momentum_low N v : (0 < N < two64)%Z -> v <= PI - PI / IZR N ->
  exists r, terminates_with (fun fuel => ch_closest fuel (momentum_chain N) v) r /\
    ring_nearest N (- PI) (2 * PI / IZR N) (2 * PI) v r.
Proof.
  intros HN Hv. set (c := momentum_chain N). pose proof (pi_dx_pos N ltac:(lia)) as Hdx.
  assert (HN0 : IZR N <> 0) by (apply not_0_IZR; lia). pose proof PI_RGT_0 as HPI.
  assert (HL : ch_length c = IZR (ch_size c) * ch_dx c) by (cbn; field; exact HN0).
  assert (Hd2 : ch_dx c / 2 = PI / IZR N) by (cbn; field; exact HN0).
  assert (Hlen : 0 < ch_length c) by (cbn; lra).
  destruct (while_below_spec (ch_x_min c - ch_dx c / 2) (ch_length c) v Hlen) as (n & k & H).
  destruct (H n (le_n n)) as (_ & A & B).
  assert (Hd : 0 < PI / IZR N) by (apply Rdiv_lt_0_compat; [lra|apply IZR_lt; lia]).
  assert (Hb : v + INR k * ch_length c <= PI - PI / IZR N).
  { destruct k as [|k]; [simpl; lra|]. specialize (B ltac:(congruence)). rewrite Hd2 in B. cbn in B |- *. lra. }
  apply (closest_near c v (Z.of_nat k) n); [cbn; lia|exact Hdx|exact HL| |].
  - intros fuel Hf. destruct (H fuel Hf) as (C & _). unfold wrap. rewrite C, <- INR_IZR_INZ.
    assert (L : ~ (ch_x_max c + ch_dx c / 2 < v + INR k * ch_length c)) by (rewrite Hd2; cbn in *; lra).
    destruct fuel; cbn [while_above]; destruct (Rlt_dec _ _); try contradiction; reflexivity.
  - rewrite <- INR_IZR_INZ. split; [exact A|].
    replace (ch_x_min c + (IZR (ch_size c) - / 2) * ch_dx c) with (PI - PI / IZR N); [exact Hb|].
    cbn. field. exact HN0.
Qed.
(** just below and at the upper edge of the Brillouin zone it is wrong *)
Lemma closest_momentum_high N v : (2 <= N < two64)%Z -> PI - PI / IZR N < v < PI + PI / IZR N ->
  terminates_with (fun fuel => ch_closest fuel (momentum_chain N) v) (N - 1)%Z /\
  ~ ring_nearest N (- PI) (2 * PI / IZR N) (2 * PI) v (N - 1).
Proof.
  intros HN Hv. set (c := momentum_chain N). pose proof (pi_dx_pos N ltac:(lia)) as Hdx.
  assert (HN0 : IZR N <> 0) by (apply not_0_IZR; lia). pose proof PI_RGT_0 as HPI.
  assert (HN2 : 2 <= IZR N) by (apply IZR_le; lia).
  set (d := PI / IZR N) in *.
  assert (Hd : 0 < d) by (apply Rdiv_lt_0_compat; lra).
  assert (HdN : IZR N * d = PI) by (unfold d; field; exact HN0).
  assert (Hd2 : 2 * PI / IZR N = 2 * d) by (unfold d; field; exact HN0).
  assert (Hw : forall fuel, (0 <= fuel)%nat -> wrap fuel (ch_x_min c - ch_dx c / 2) (ch_x_max c + ch_dx c / 2) (ch_length c) v = Some v).
  { intros fuel _. unfold wrap. cbn [ch_x_min ch_x_max ch_dx ch_length c momentum_chain]. rewrite Hd2.
    assert (L1 : ~ v < - PI - 2 * d / 2) by lra. assert (L2 : ~ PI + 2 * d / 2 < v) by lra.
    destruct fuel; cbn [while_below]; destruct (Rlt_dec v _); try contradiction;
      cbn [while_above]; destruct (Rlt_dec _ v); try contradiction; reflexivity. }
  destruct (closest_min c v v 0 ltac:(cbn; lia) Hw) as (r & T & Hr & Hmin).
  cbn [ch_size c momentum_chain] in Hr, Hmin.
  assert (Er : r = (N - 1)%Z).
  { specialize (Hmin (N - 1)%Z ltac:(unfold site; lia)). unfold ch_pos in Hmin.
    cbn [ch_x_min ch_dx c momentum_chain] in Hmin. rewrite Hd2 in Hmin.
    destruct (Z.eq_dec r (N - 1)) as [E|E]; [exact E|exfalso].
    unfold site in Hr. assert (Hr2 : (r <= N - 2)%Z) by lia. apply IZR_le in Hr2.
    rewrite minus_IZR in Hr2, Hmin.
    (* position of N-1 is PI - 2d < v; r is further left *)
    set (a := v - (- PI + (IZR N - 1) * (2 * d))) in *.
    set (b := v - (- PI + IZR r * (2 * d))) in *.
    assert (Ha : 0 < a) by (unfold a; nra). assert (Hb : a < b) by (unfold a, b; nra).
    replace ((- PI + IZR r * (2 * d) - v) * (- PI + IZR r * (2 * d) - v)) with (b * b) in Hmin by (unfold b; ring).
    replace ((- PI + (IZR N - 1) * (2 * d) - v) * (- PI + (IZR N - 1) * (2 * d) - v)) with (a * a) in Hmin by (unfold a; ring).
    nra. }
  subst r. split; [exact T|].
  intros [_ (m & H)]. specialize (H 0%Z 1%Z ltac:(unfold site; lia)). unfold image_dist in H. rewrite Hd2 in H.
  replace (v - (- PI + 0 * (2 * d) + 1 * (2 * PI))) with (v - PI) in H by ring.
  assert (H1 : Rabs (v - PI) <= d) by (apply Rabs_le; lra).
  set (e := v - PI) in *.
  replace (v - (- PI + IZR (N - 1) * (2 * d) + IZR m * (2 * PI)))
    with (e + IZR (1 - m * N) * (2 * d)) in H
    by (unfold e; rewrite !minus_IZR, mult_IZR; rewrite <- HdN; ring).
  set (k := (1 - m * N)%Z) in *.
  assert (Hk : (k <> 0)%Z) by (unfold k; destruct (Z_lt_le_dec m 1); nia).
  destruct (Z.lt_trichotomy k 0) as [L|[L|L]]; [|contradiction|].
  - assert (Hk1 : (k <= -1)%Z) by lia. apply IZR_le in Hk1.
    assert (He : - d < e < d) by (unfold e; lra). clearbody e.
    assert (Hx : e + IZR k * (2 * d) <= e - 2 * d) by nra.
    rewrite (Rabs_left1 (e + _)) in H by lra.
    destruct (Rle_lt_dec 0 e) as [Q|Q];
      [rewrite (Rabs_right e) in H by lra; lra|rewrite (Rabs_left1 e) in H by lra; lra].
  - assert (Hk1 : (1 <= k)%Z) by lia. apply IZR_le in Hk1.
    assert (He : - d < e < d) by (unfold e; lra). clearbody e.
    assert (Hx : e + 2 * d <= e + IZR k * (2 * d)) by nra.
    rewrite (Rabs_right (e + _)) in H by lra.
    destruct (Rle_lt_dec 0 e) as [Q|Q];
      [rewrite (Rabs_right e) in H by lra; lra|rewrite (Rabs_left1 e) in H by lra; lra].
Qed.
