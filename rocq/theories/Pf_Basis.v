(** Proofs about the bases. *)
From Coq Require Import Reals.
From Verif Require Import Base M_Operator M_Lattice Spec_Lattice Pf_Lattice M_LatticeReal
  Spec_LatticeReal Pf_LatticeReal P_LatticeReal Instances M_Basis.
Local Open Scope Z_scope.
Local Open Scope list_scope.

(** A lattice with N sites 0..N-1 visited in order. *)
Definition regular (lat : lattice) (N : Z) : Prop :=
  lat_size lat = N /\ lat_sites lat = Zseq N /\ 0 < N < two64.
Lemma chain_regular N : 0 < N < two64 -> regular (chain_lattice N) N.
Proof.
  intros HN. unfold regular, chain_lattice. cbn [lat_size lat_sites]. split; [reflexivity|]. split; [|exact HN].
  unfold visited, chain_begin, chain_end, chain_first, chain_last.
  rewrite (u64_id (N - 1)) by lia. rewrite u64_id by lia. replace (N - 1 + 1) with N by lia.
  rewrite range_for_zero by lia. reflexivity.
Qed.
Lemma square_regular Nx Ny : 0 < Nx -> 0 < Ny -> Nx * Ny < two64 -> regular (square_lattice Nx Ny) (Nx * Ny).
Proof.
  intros HX HY HN. assert (0 < Nx * Ny) by nia. unfold regular, square_lattice. cbn [lat_size lat_sites].
  unfold sq_end, sq_last, sq_size. rewrite (u64_id (Nx * Ny)) by lia. split; [reflexivity|]. split; [|lia].
  unfold visited, sq_begin. rewrite (u64_id (_ - 1)) by lia. rewrite u64_id by lia.
  replace (Nx * Ny - 1 + 1) with (Nx * Ny) by lia. rewrite range_for_zero by lia. reflexivity.
Qed.

Lemma Zseq_nth N i : 0 <= i < N -> nth_error (Zseq N) (Z.to_nat i) = Some i.
Proof.
  intros H. unfold Zseq. rewrite nth_error_map, (nth_error_nth' _ 0%nat) by (rewrite seq_length; lia).
  rewrite seq_nth by lia. cbn. f_equal. lia.
Qed.
(** flat_map of constant-length blocks *)
Lemma nth_flat_map {A B} (f : A -> list B) (l : list A) (w : nat) a j x :
  (forall y, In y l -> length (f y) = w) -> nth_error l a = Some x -> (j < w)%nat ->
  nth_error (flat_map f l) (a * w + j) = nth_error (f x) j.
Proof.
  revert a. induction l as [|y l IH]; intros a Hw Ha Hj; [destruct a; discriminate|].
  destruct a as [|a]; cbn [nth_error flat_map] in *.
  - injection Ha as ->. cbn. apply nth_error_app1. rewrite Hw by (left; reflexivity). exact Hj.
  - rewrite nth_error_app2 by (rewrite Hw by (left; reflexivity); lia).
    rewrite Hw by (left; reflexivity). replace (S a * w + j - w)%nat with (a * w + j)%nat by lia.
    apply IH; auto. intros z Hz. apply Hw. right. exact Hz.
Qed.
Lemma flat_map_len {A B} (f : A -> list B) (l : list A) (w : nat) :
  (forall y, In y l -> length (f y) = w) -> length (flat_map f l) = (length l * w)%nat.
Proof.
  induction l as [|y l IH]; intros Hw; [reflexivity|]. cbn [flat_map length].
  rewrite app_length, IH by (intros; apply Hw; right; assumption).
  rewrite Hw by (left; reflexivity). lia.
Qed.

Section Real.
  Variable lat : lattice.
  Variable N : Z.
  Hypothesis HL : regular lat N.
  Let n := Z.to_nat N.
  Lemma N_pos : 0 < N < two64.
  Proof. apply HL. Qed.

  Lemma basis1_len : length (basis1 lat) = n.
  Proof. destruct HL as (_ & E & _). unfold basis1. rewrite E, map_length, Zseq_length. reflexivity. Qed.
  Lemma basis1_nth i : site N i -> nth_error (basis1 lat) (Z.to_nat i) = Some [hop true i true].
  Proof.
    destruct HL as (_ & E & _). intros Hi. unfold basis1. rewrite E, nth_error_map, Zseq_nth by exact Hi. reflexivity.
  Qed.
  Lemma inner_len i1 i2 : length (map (fun i3 => [hop true i1 true; hop true i2 false; hop false i3 false]) (lat_sites lat)) = n.
  Proof. destruct HL as (_ & E & _). rewrite map_length, E, Zseq_length. reflexivity. Qed.
  Lemma middle_len i1 : length (flat_map (fun i2 => map (fun i3 => [hop true i1 true; hop true i2 false; hop false i3 false]) (lat_sites lat)) (lat_sites lat)) = (n * n)%nat.
  Proof.
    rewrite (flat_map_len _ _ n) by (intros; apply inner_len).
    destruct HL as (_ & E & _). rewrite E, Zseq_length. reflexivity.
  Qed.
  Definition block3 : list (monomial hub) :=
    flat_map (fun i1 => flat_map (fun i2 =>
      map (fun i3 => [hop true i1 true; hop true i2 false; hop false i3 false]) (lat_sites lat))
      (lat_sites lat)) (lat_sites lat).
  Lemma basis3_split : basis3 lat = basis1 lat ++ block3.
  Proof. reflexivity. Qed.
  Lemma basis3_len : length (basis3 lat) = (n + n * n * n)%nat.
  Proof.
    rewrite basis3_split, app_length, basis1_len. f_equal. unfold block3. rewrite (flat_map_len _ _ (n * n)%nat) by (intros; apply middle_len).
    destruct HL as (_ & E & _). rewrite E, Zseq_length. fold n. lia.
  Qed.
  Lemma basis3_nth1 i : site N i -> nth_error (basis3 lat) (Z.to_nat i) = Some [hop true i true].
  Proof.
    intros Hi. rewrite basis3_split, nth_error_app1.
    - apply basis1_nth, Hi.
    - rewrite basis1_len. unfold n, site in *. lia.
  Qed.
  Lemma basis3_nth3 i1 i2 i3 : site N i1 -> site N i2 -> site N i3 ->
    nth_error (basis3 lat) (Z.to_nat (N + N * N * i1 + N * i2 + i3)) =
    Some [hop true i1 true; hop true i2 false; hop false i3 false].
  Proof.
    intros H1 H2 H3. unfold site in *. rewrite basis3_split, nth_error_app2.
    2:{ rewrite basis1_len. unfold n. nia. }
    rewrite basis1_len.
    replace (Z.to_nat (N + N * N * i1 + N * i2 + i3) - n)%nat
      with (Z.to_nat i1 * (n * n) + (Z.to_nat i2 * n + Z.to_nat i3))%nat.
    2:{ unfold n. apply Nat2Z.inj. rewrite Nat2Z.inj_sub by nia. nia. }
    destruct HL as (_ & E & _). unfold block3.
    rewrite (nth_flat_map _ _ (n * n)%nat _ _ i1);
      [|intros; apply middle_len|rewrite E; apply Zseq_nth; exact H1|unfold n; nia].
    rewrite (nth_flat_map _ _ n _ _ i2);
      [|intros; apply inner_len|rewrite E; apply Zseq_nth; exact H2|unfold n; lia].
    rewrite nth_error_map, E, Zseq_nth by exact H3. reflexivity.
  Qed.

  Hypothesis Hfit : N + N * N * N < two64.
  Lemma get_3op_index_eq i1 i2 i3 : site N i1 -> site N i2 -> site N i3 ->
    get_3op_index N i1 i2 i3 = N + N * N * i1 + N * i2 + i3.
  Proof.
    pose proof N_pos as HN. unfold site. intros H1 H2 H3. unfold get_3op_index.
    assert (B1 : 0 <= N * N * i1 <= N * N * (N - 1)) by nia.
    assert (B2 : 0 <= N * i2 <= N * (N - 1)) by nia.
    rewrite (u64_id (N * N)) by nia. rewrite (u64_id (N * N * i1)) by nia. rewrite (u64_id (N * i2)) by nia.
    rewrite (u64_id (N + _)) by nia. rewrite (u64_id (N + _ + _)) by nia. apply u64_id. nia.
  Qed.
  Lemma get_3op_index_range i1 i2 i3 : site N i1 -> site N i2 -> site N i3 ->
    N <= get_3op_index N i1 i2 i3 < N + N * N * N.
  Proof. intros H1 H2 H3. rewrite get_3op_index_eq by assumption. unfold site in *. nia. Qed.
  (** decoding *)
  Definition dec1 (j : Z) := (j - N) / (N * N).
  Definition dec2 (j : Z) := ((j - N) / N) mod N.
  Definition dec3 (j : Z) := (j - N) mod N.
  Lemma get_3op_index_dec j : N <= j < N + N * N * N ->
    site N (dec1 j) /\ site N (dec2 j) /\ site N (dec3 j) /\ get_3op_index N (dec1 j) (dec2 j) (dec3 j) = j.
  Proof.
    pose proof N_pos as HN. intros Hj.
    assert (H1 : site N (dec1 j)).
    { unfold site, dec1. split; [apply Z.div_pos; nia|apply Z.div_lt_upper_bound; nia]. }
    assert (H2 : site N (dec2 j)) by (unfold site, dec2; apply Z.mod_pos_bound; lia).
    assert (H3 : site N (dec3 j)) by (unfold site, dec3; apply Z.mod_pos_bound; lia).
    split; [exact H1|]. split; [exact H2|]. split; [exact H3|].
    rewrite get_3op_index_eq by assumption. unfold dec1, dec2, dec3.
    rewrite <- Z.div_div by lia.
    pose proof (Z.div_mod (j - N) N ltac:(lia)) as E1.
    pose proof (Z.div_mod ((j - N) / N) N ltac:(lia)) as E2. nia.
  Qed.
  Lemma get_3op_index_inj i1 i2 i3 j1 j2 j3 :
    site N i1 -> site N i2 -> site N i3 -> site N j1 -> site N j2 -> site N j3 ->
    get_3op_index N i1 i2 i3 = get_3op_index N j1 j2 j3 -> i1 = j1 /\ i2 = j2 /\ i3 = j3.
  Proof.
    intros A1 A2 A3 B1 B2 B3 H. rewrite !get_3op_index_eq in H by assumption. unfold site in *.
    assert (E : (i1 * N + i2) * N + i3 = (j1 * N + j2) * N + j3) by nia.
    assert (i3 = j3).
    { assert (M : ((i1 * N + i2) * N + i3) mod N = ((j1 * N + j2) * N + j3) mod N) by (rewrite E; reflexivity).
      rewrite !(Z.add_comm (_ * N)), !Z.mod_add, !Z.mod_small in M by lia. exact M. }
    assert (E2 : i1 * N + i2 = j1 * N + j2) by nia.
    assert (i2 = j2).
    { assert (M : (i1 * N + i2) mod N = (j1 * N + j2) mod N) by (rewrite E2; reflexivity).
      rewrite !(Z.add_comm (_ * N)), !Z.mod_add, !Z.mod_small in M by lia. exact M. }
    nia.
  Qed.
  Lemma basis3_get i1 i2 i3 : site N i1 -> site N i2 -> site N i3 ->
    nth_error (basis3 lat) (Z.to_nat (get_3op_index N i1 i2 i3)) =
    Some [hop true i1 true; hop true i2 false; hop false i3 false].
  Proof. intros. rewrite get_3op_index_eq by assumption. apply basis3_nth3; assumption. Qed.
  (** every row is one of the two kinds *)
  Lemma basis3_cases (j : nat) m : nth_error (basis3 lat) j = Some m ->
    (exists i, site N i /\ Z.of_nat j = i /\ m = [hop true i true]) \/
    (exists i1 i2 i3, site N i1 /\ site N i2 /\ site N i3 /\ Z.of_nat j = get_3op_index N i1 i2 i3 /\
       m = [hop true i1 true; hop true i2 false; hop false i3 false]).
  Proof.
    intros Hj. pose proof N_pos as HN.
    assert (Hl : (j < n + n * n * n)%nat) by (rewrite <- basis3_len; apply nth_error_Some; congruence).
    destruct (Z_lt_le_dec (Z.of_nat j) N) as [L|L].
    - left. exists (Z.of_nat j). assert (site N (Z.of_nat j)) by (unfold site; lia).
      split; [assumption|]. split; [reflexivity|].
      pose proof (basis3_nth1 (Z.of_nat j) H) as E. rewrite Nat2Z.id in E. congruence.
    - right. destruct (get_3op_index_dec (Z.of_nat j)) as (H1 & H2 & H3 & E); [unfold n in Hl; nia|].
      exists (dec1 (Z.of_nat j)), (dec2 (Z.of_nat j)), (dec3 (Z.of_nat j)).
      split; [exact H1|]. split; [exact H2|]. split; [exact H3|]. split; [symmetry; exact E|].
      pose proof (basis3_get _ _ _ H1 H2 H3) as G. rewrite E, Nat2Z.id in G. congruence.
  Qed.
  Lemma basis3_nodup : NoDup (basis3 lat).
  Proof.
    apply NoDup_nth_error. intros i j Hi Hij.
    destruct (nth_error (basis3 lat) i) as [m|] eqn:E1; [|apply nth_error_Some in Hi; contradiction].
    symmetry in Hij.
    destruct (basis3_cases i m E1) as [(a & Ha & Ei & ->)|(a1 & a2 & a3 & A1 & A2 & A3 & Ei & ->)];
      destruct (basis3_cases j _ Hij) as [(b & Hb & Ej & Em)|(b1 & b2 & b3 & B1 & B2 & B3 & Ej & Em)];
      try discriminate.
    - injection Em as ->. lia.
    - injection Em as -> -> ->. lia.
  Qed.
End Real.

(** ** conjugate basis *)
Lemma update_nth_length {A} (f : A -> A) k l : length (update_nth f k l) = length l.
Proof. revert k. induction l as [|x l IH]; intros [|k]; cbn; auto. Qed.
Lemma update_nth_nth {A} (f : A -> A) k l j :
  nth_error (update_nth f k l) j = if Nat.eqb k j then option_map f (nth_error l j) else nth_error l j.
Proof.
  revert k j. induction l as [|x l IH]; intros k j.
  - destruct k, j; cbn; try reflexivity; destruct (Nat.eqb _ _); reflexivity.
  - destruct k, j; cbn; try reflexivity. apply IH.
Qed.
Lemma fold_update {A} (f : A -> A) order : NoDup order -> forall l j,
  nth_error (fold_left (fun v i => update_nth f i v) order l) j =
  if existsb (Nat.eqb j) order then option_map f (nth_error l j) else nth_error l j.
Proof.
  induction 1 as [|x order Hx Hnd IH]; intros l j; [reflexivity|].
  cbn [fold_left existsb]. rewrite IH, update_nth_nth, (Nat.eqb_sym j x).
  destruct (Nat.eqb_spec x j) as [->|Hne]; cbn [orb]; [|reflexivity].
  replace (existsb (Nat.eqb j) order) with false; [reflexivity|].
  symmetry. apply Bool.not_true_is_false. intros H. apply existsb_exists in H as (y & Hy & E).
  apply Nat.eqb_eq in E. subst y. contradiction.
Qed.
Lemma nth_error_ext {A} (l l' : list A) : (forall j, nth_error l j = nth_error l' j) -> l = l'.
Proof.
  revert l'. induction l as [|x l IH]; intros [|y l'] H; [reflexivity|specialize (H 0%nat); discriminate|specialize (H 0%nat); discriminate|].
  f_equal; [specialize (H 0%nat); cbn in H; congruence|]. apply IH. intros j. apply (H (S j)).
Qed.
Lemma fold_update_all {A} (f : A -> A) order l : Permutation order (seq 0 (length l)) ->
  fold_left (fun v i => update_nth f i v) order l = map f l.
Proof.
  intros Hp. assert (Hnd : NoDup order) by (apply (Permutation_NoDup (Permutation_sym Hp)), seq_NoDup).
  apply nth_error_ext. intros j. rewrite fold_update by exact Hnd. rewrite nth_error_map.
  destruct (existsb (Nat.eqb j) order) eqn:E; [reflexivity|].
  destruct (nth_error l j) as [x|] eqn:Ej; [|reflexivity]. exfalso.
  assert (j < length l)%nat by (apply nth_error_Some; congruence).
  assert (In j order) by (apply (Permutation_in _ (Permutation_sym Hp)), in_seq; lia).
  assert (existsb (Nat.eqb j) order = true); [|congruence].
  apply existsb_exists. exists j. split; [assumption|apply Nat.eqb_refl].
Qed.

(** ** momentum basis *)
Lemma mapM_ok {A B} (f : nat -> A -> option (outcome B)) (g : A -> B) l :
  (forall x, In x l -> terminates_with (fun fuel => f fuel x) (Ok (g x))) ->
  terminates_with (fun fuel => mapM (f fuel) l) (Ok (map g l)).
Proof.
  induction l as [|x l IH]; intros H; [exists 0%nat; reflexivity|].
  destruct (H x) as (n1 & H1); [left; reflexivity|].
  destruct IH as (n2 & H2); [intros; apply H; right; assumption|].
  exists (n1 + n2)%nat. intros fuel Hf. cbn [mapM map]. rewrite H1 by lia. rewrite H2 by lia. reflexivity.
Qed.
Lemma mom_i3_value N q i1 i2 : 0 < N < two64 - 1 -> site N q -> site N i1 -> site N i2 ->
  terminates_with (fun fuel => mom_i3 fuel (momentum_chain N) q i1 i2) (Ok ((i1 + i2 - q) mod N)).
Proof.
  intros HN Hq H1 H2. unfold mom_i3.
  set (d := i1 + i2 - q).
  replace (ch_pos (momentum_chain N) i1 + ch_pos (momentum_chain N) i2 - ch_pos (momentum_chain N) q)%R
    with (ch_pos (momentum_chain N) (d mod N) + IZR (d / N) * (2 * PI))%R.
  - apply C20_momentum_roundtrip; [exact HN|]. unfold site. apply Z.mod_pos_bound. lia.
  - unfold ch_pos. cbn [momentum_chain ch_x_min ch_dx].
    assert (HN0 : (IZR N <> 0)%R) by (apply not_0_IZR; lia).
    assert (E : (IZR d = IZR (d mod N) + IZR (d / N) * IZR N)%R).
    { rewrite <- mult_IZR, <- plus_IZR. f_equal. pose proof (Z.div_mod d N). lia. }
    assert (Ed : (IZR i1 + IZR i2 - IZR q = IZR d)%R) by (unfold d; rewrite minus_IZR, plus_IZR; ring).
    replace (- PI + IZR i1 * (2 * PI / IZR N) + (- PI + IZR i2 * (2 * PI / IZR N)) - (- PI + IZR q * (2 * PI / IZR N)))%R
      with (- PI + (IZR i1 + IZR i2 - IZR q) * (2 * PI / IZR N))%R by (field; exact HN0).
    rewrite Ed, E. field. exact HN0.
Qed.
(** the closed form of the momentum basis *)
Definition mom_mono (N q i1 i2 : Z) : monomial hub :=
  [hop true i1 true; hop true i2 false; hop false ((i1 + i2 - q) mod N) false].
Definition mom_closed (N q : Z) : list (monomial hub) :=
  [hop true q true] :: List.concat (map (fun i1 => map (mom_mono N q i1) (Zseq N)) (Zseq N)).
Lemma mom_basis_value N q : 0 < N < two64 - 1 -> site N q ->
  terminates_with (fun fuel => mom_basis fuel (momentum_chain N) q) (Ok (mom_closed N q)).
Proof.
  intros HN Hq.
  assert (Hs : visited chain_begin (chain_end N) N = Zseq N).
  { pose proof (chain_regular N ltac:(lia)) as (_ & E & _). exact E. }
  assert (H : terminates_with (fun fuel => mapM (fun i1 => mapM (fun i2 =>
                match mom_i3 fuel (momentum_chain N) q i1 i2 with
                | None => None
                | Some UB => Some UB
                | Some (Ok i3) => Some (Ok [hop true i1 true; hop true i2 false; hop false i3 false])
                end) (Zseq N)) (Zseq N)) (Ok (map (fun i1 => map (mom_mono N q i1) (Zseq N)) (Zseq N)))).
  { apply (mapM_ok (fun fuel i1 => mapM (fun i2 => _) (Zseq N))). intros i1 H1. apply Zseq_in in H1.
    apply (mapM_ok (fun fuel i2 => _)). intros i2 H2. apply Zseq_in in H2.
    destruct (mom_i3_value N q i1 i2 HN Hq H1 H2) as (m & Hm). exists m. intros fuel Hf.
    rewrite Hm by exact Hf. reflexivity. }
  destruct H as (m & Hm). exists m. intros fuel Hf. unfold mom_basis.
  change (ch_size (momentum_chain N)) with N. rewrite Hs. rewrite (Hm fuel Hf). reflexivity.
Qed.
Lemma mom_closed_nth N q i1 i2 : 0 < N -> site N i1 -> site N i2 ->
  nth_error (mom_closed N q) (Z.to_nat (1 + i1 * N + i2)) = Some (mom_mono N q i1 i2).
Proof.
  intros HN H1 H2. unfold site in *. unfold mom_closed.
  replace (Z.to_nat (1 + i1 * N + i2)) with (S (Z.to_nat i1 * Z.to_nat N + Z.to_nat i2)).
  2:{ apply Nat2Z.inj. rewrite Nat2Z.inj_succ, Nat2Z.inj_add, Nat2Z.inj_mul, !Z2Nat.id by nia. nia. }
  cbn [nth_error]. rewrite <- flat_map_concat_map.
  rewrite (nth_flat_map _ _ (Z.to_nat N) _ _ i1);
    [|intros; rewrite map_length; apply Zseq_length|apply Zseq_nth; exact H1|lia].
  rewrite nth_error_map, Zseq_nth by exact H2. reflexivity.
Qed.
Lemma mom_closed_length N q : 0 < N -> length (mom_closed N q) = S (Z.to_nat N * Z.to_nat N).
Proof.
  intros HN. unfold mom_closed. cbn [length]. f_equal. rewrite <- flat_map_concat_map.
  rewrite (flat_map_len _ _ (Z.to_nat N)) by (intros; rewrite map_length; apply Zseq_length).
  rewrite Zseq_length. reflexivity.
Qed.
