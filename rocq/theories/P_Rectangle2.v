(** PROPERTIES C24, C25 and C41 on rectangles: the defects hold for every rectangle, not for one example. *)
From Coq Require Import Reals.
From Verif Require Import Base M_Lattice Spec_Lattice Pf_Lattice P_Lattice M_Matrix Pf_Matrix M_Dispersion P_Dispersion M_Expectation P_Expectation.
Local Open Scope Z_scope.

Local Lemma u64s x : 0 <= x -> x < two64 -> u64 x = x.
Proof. intros. apply u64_id; lia. Qed.

(** ** C24: neighbours *)
(** the neighbours of the sites below are all sites exactly if the lattice has at least as many columns as rows *)
Theorem C24_inside_iff : forall Nx Ny, 1 <= Nx -> 1 <= Ny -> Nx * Nx < two64 -> Nx * Ny + Nx + Ny < two64 ->
  (forall i j, site (Nx * Ny) i -> In j (sq_neighbors Nx Ny i) -> site (Nx * Ny) j) <-> Nx <= Ny.
Proof.
  intros Nx Ny HX HY F1 F2. split.
  - intros H. destruct (Z_lt_le_dec Ny Nx) as [L|L]; [exfalso|exact L].
    assert (P : In ((Nx - 1) * Nx) (sq_neighbors Nx Ny 0)).
    { left. rewrite Z.div_0_l by lia. cbn [Z.eqb]. unfold sq_index. rewrite Zmod_0_l. rewrite (u64s (Nx - 1)) by nia. rewrite (u64s ((Nx - 1) * Nx)) by nia. rewrite u64s by nia. lia. }
    specialize (H 0 _ ltac:(unfold site; nia) P). unfold site in H. nia.
  - intros L i j [Hi1 Hi2] Hj.
    assert (Xr : 0 <= i / Ny < Nx) by (split; [apply Z.div_pos; lia|apply Z.div_lt_upper_bound; lia]).
    assert (Yr : 0 <= i mod Nx < Nx) by (apply Z.mod_pos_bound; lia).
    assert (Q : forall x y, 0 <= x < Nx -> 0 <= y < Ny -> site (Nx * Ny) (sq_index Nx x y)).
    { intros x y Hx Hy. unfold sq_index, site. rewrite (u64s (x * Nx)) by nia. rewrite u64s by nia. nia. }
    unfold sq_neighbors in Hj. set (x := i / Ny) in *. set (y := i mod Nx) in *.
    assert (U1 : u64 (Nx - 1) = Nx - 1) by (apply u64s; nia). assert (U2 : u64 (Ny - 1) = Ny - 1) by (apply u64s; nia).
    assert (U3 : u64 (x + 1) = x + 1) by (apply u64s; nia). assert (U4 : u64 (y + 1) = y + 1) by (apply u64s; nia).
    rewrite U1, U2, U3, U4 in Hj.
    destruct Hj as [<-|[<-|[<-|[<-|[]]]]]; apply Q; try lia.
    + destruct (Z.eqb_spec x 0); [lia|]. rewrite u64s by nia. lia.
    + destruct (Z.eqb_spec y 0); [lia|]. rewrite u64s by nia. lia.
    + destruct (Z.eqb_spec x (Nx - 1)); lia.
    + destruct (Z.eqb_spec y (Ny - 1)); lia.
Qed.
(** with more columns than rows the relation is not symmetric, except on the 1 x 2 and 1 x 3 lattices *)
Theorem C24_asymmetric_refuted : forall Nx Ny, 1 <= Nx -> Nx < Ny -> Nx * Ny + Nx + Ny < two64 ->
  (forall i j, site (Nx * Ny) i -> site (Nx * Ny) j -> In j (sq_neighbors Nx Ny i) -> In i (sq_neighbors Nx Ny j)) <-> Nx = 1 /\ Ny <= 3.
Proof.
  intros Nx Ny HX HY F. split.
  - intros H. destruct (Z.eq_dec Nx 1) as [->|N1].
    + split; [reflexivity|]. destruct (Z_lt_le_dec 3 Ny) as [L|L]; [exfalso|exact L].
      assert (E : forall i, 0 <= i < Ny -> sq_neighbors 1 Ny i = [0; Ny - 1; 0; 1]).
      { intros i Hi. unfold sq_neighbors. rewrite Z.div_small by lia. rewrite Z.mod_1_r. unfold sq_index. rewrite (u64s (Ny - 1)) by lia. rewrite (u64s (1 - 1)) by lia.
        rewrite (u64s (0 + 1)) by lia. destruct (Z.eqb_spec 0 (Ny - 1)); [lia|]. change (1 - 1) with 0. change (0 + 1) with 1. change (0 * 1) with 0. change (0 =? 0) with true. cbv iota.
        rewrite ?(u64s (0 * 1)) by lia. change (0 * 1) with 0. rewrite ?(u64s 0) by lia. rewrite !u64s by lia. reflexivity. }
      specialize (H 2 0 ltac:(unfold site; lia) ltac:(unfold site; lia)). rewrite !E in H by lia. specialize (H ltac:(cbn; tauto)). cbn in H. lia.
    + exfalso. assert (T : Nx + Ny < two64) by nia.
      assert (E : forall i, i = 0 \/ i = Nx -> sq_neighbors Nx Ny i = [(Nx - 1) * Nx; Ny - 1; Nx; 1]).
      { intros i Hi. assert (D : i / Ny = 0) by (apply Z.div_small; lia). assert (M : i mod Nx = 0) by (destruct Hi as [-> | ->]; [apply Zmod_0_l|apply Z_mod_same_full]).
        unfold sq_neighbors. rewrite D, M. unfold sq_index. change (0 =? 0) with true. cbv iota. rewrite (u64s (Ny - 1)), (u64s (Nx - 1)) by nia. rewrite (u64s (0 + 1)) by lia.
        destruct (Z.eqb_spec 0 (Nx - 1)); [lia|]. destruct (Z.eqb_spec 0 (Ny - 1)); [lia|].
        rewrite (u64s ((Nx - 1) * Nx)) by nia. rewrite (u64s (0 * Nx)) by nia. rewrite (u64s ((0 + 1) * Nx)) by nia. rewrite !u64s by nia. repeat (f_equal; try lia). }
      specialize (H 0 Nx ltac:(unfold site; nia) ltac:(unfold site; nia)). rewrite !E in H by tauto. specialize (H ltac:(cbn; tauto)). cbn [In] in H. nia.
  - intros [-> L] i j Hi Hj Hij.
    assert (D : Ny = 2 \/ Ny = 3) by lia. unfold site in *.
    assert (C : forall k, 0 <= k < 3 -> k = 0 \/ k = 1 \/ k = 2) by lia.
    destruct D as [-> | ->]; (destruct (C i ltac:(lia)) as [-> | [-> | ->]]; destruct (C j ltac:(lia)) as [-> | [-> | ->]]; try lia; vm_compute in Hij |- *; tauto).
Qed.

(** ** C25: two different sites at distance zero, on every rectangle *)
Theorem C25_every_rectangle_refuted : forall Nx Ny, 1 <= Nx -> 1 <= Ny -> Nx <> Ny -> Nx * Ny < two64 ->
  exists a b, site (Nx * Ny) a /\ site (Nx * Ny) b /\ a <> b /\ sq_distance_x Nx a b = 0 /\ sq_distance_y Nx Ny a b = 0.
Proof.
  intros Nx Ny HX HY NE F. destruct (Z_lt_le_dec Nx Ny) as [L|L].
  - exists 0, (Nx * Nx). unfold site. repeat split; try nia.
    + unfold sq_distance_x, sq_x. rewrite Z.div_0_l by lia. rewrite Z.div_mul by lia. destruct (Z.ltb_spec Nx 0); [lia|]. rewrite (u64s (Nx - 0)) by nia. rewrite (u64s (Nx - _)) by nia. lia.
    + unfold sq_distance_y, sq_y. rewrite Zmod_0_l, Z_mod_mult. cbn [Z.ltb]. change (0 <? 0) with false. cbv iota. rewrite (u64s (0 - 0)) by lia. rewrite (u64s (Ny - _)) by nia. lia.
  - exists 0, Ny. unfold site. repeat split; try nia.
    + unfold sq_distance_x, sq_x. rewrite Z.div_0_l by lia. rewrite Z.div_small by lia. change (0 <? 0) with false. cbv iota. rewrite (u64s (0 - 0)) by lia. rewrite (u64s (Nx - _)) by nia. lia.
    + unfold sq_distance_y, sq_y. rewrite Zmod_0_l. rewrite Z.mod_small by lia. destruct (Z.ltb_spec Ny 0); [lia|]. rewrite (u64s (Ny - 0)) by nia. rewrite (u64s (Ny - _)) by nia. lia.
Qed.

(** ** C41: the lookup leaves the table *)
Theorem C41_wide_refuted : forall Nx Ny, 1 <= Nx -> Nx + 2 <= Ny -> (Nx + 1) * (Nx + 1) + Nx * Ny + (Ny / 2 + 1) * (Ny + 1) < two64 ->
  let a := 0 in let b := Nx * (Nx + 1) in
  site (Nx * Ny) a /\ site (Nx * Ny) b /\ ev2 Nx Ny (ev2_table Nx Ny) a b = UB.
Proof.
  intros Nx Ny HX HY F a b. assert (T : Nx + Ny < two64) by (assert (0 <= Ny / 2) by (apply Z.div_pos; lia); nia). assert (H0 : 0 <= Ny / 2) by (apply Z.div_pos; lia). assert (H1 : 0 <= Nx / 2) by (apply Z.div_pos; lia).
  assert (H2 : Nx / 2 <= Nx) by (pose proof (Z.mul_div_le Nx 2 ltac:(lia)); lia).
  split; [unfold site, a; nia|]. split; [unfold site, b; nia|].
  assert (DX : sq_distance_x Nx a b = Nx + 1).
  { unfold sq_distance_x, sq_x, a, b. rewrite Z.div_0_l by lia. rewrite (Z.mul_comm Nx), Z.div_mul by lia. destruct (Z.ltb_spec (Nx + 1) 0); [lia|]. rewrite (u64s (Nx + 1 - 0)) by nia.
    unfold u64. rewrite <- (Z_mod_plus_full (Nx - (Nx + 1 - 0)) 1 two64). rewrite Z.mod_small by nia. assert (2 * (Nx + 1) < two64) by nia. lia. }
  assert (DY : sq_distance_y Nx Ny a b = 0).
  { unfold sq_distance_y, sq_y, a, b. rewrite Zmod_0_l, (Z.mul_comm Nx), Z_mod_mult. change (0 <? 0) with false. cbv iota. rewrite (u64s (0 - 0)) by lia. rewrite (u64s (Ny - _)) by nia. lia. }
  unfold ev2. rewrite DX, DY. rewrite u64s by nia. apply vread_out. unfold ev2_table. rewrite map_length, zrange_length. nia.
Qed.
Theorem C41_tall_refuted : forall Nx Ny, 1 <= Ny -> Ny + 2 <= Nx -> Nx <= 2 * Ny - 1 -> Nx * Nx + (Ny / 2 + 1) * (Nx + 1) < two64 ->
  let a := 0 in let b := Nx / 2 * Nx + (Nx - 1) in
  site (Nx * Ny) a /\ site (Nx * Ny) b /\ ev2 Nx Ny (ev2_table Nx Ny) a b = UB.
Proof.
  intros Nx Ny HX HY HL F a b. assert (H0 : 0 <= Ny / 2) by (apply Z.div_pos; lia). assert (H1 : 0 <= Nx / 2) by (apply Z.div_pos; lia).
  pose proof (Z.mul_div_le Nx 2 ltac:(lia)) as H2. pose proof (Z.mul_div_le Ny 2 ltac:(lia)) as H3. assert (H4 : Nx / 2 < Ny) by lia.
  split; [unfold site, a; nia|]. split; [unfold site, b; nia|].
  assert (BX : b / Nx = Nx / 2) by (unfold b; rewrite Z.div_add_l by lia; rewrite (Z.div_small (Nx - 1)) by lia; lia).
  assert (BY : b mod Nx = Nx - 1) by (unfold b; rewrite Z.add_comm, Z_mod_plus_full; apply Z.mod_small; lia).
  assert (DX : sq_distance_x Nx a b = Nx / 2).
  { unfold sq_distance_x, sq_x. rewrite BX. unfold a. rewrite Z.div_0_l by lia. destruct (Z.ltb_spec (Nx / 2) 0); [lia|]. rewrite (u64s (Nx / 2 - 0)) by nia. rewrite u64s by nia. lia. }
  assert (DY : sq_distance_y Nx Ny a b = Nx - 1).
  { unfold sq_distance_y, sq_y. rewrite BY. unfold a. rewrite Zmod_0_l. destruct (Z.ltb_spec (Nx - 1) 0); [lia|]. rewrite (u64s (Nx - 1 - 0)) by nia.
    unfold u64. rewrite <- (Z_mod_plus_full (Ny - (Nx - 1 - 0)) 1 two64). rewrite Z.mod_small by nia. assert (2 * Nx < two64) by nia. lia. }
  unfold ev2. rewrite DX, DY. rewrite u64s by nia. apply vread_out. unfold ev2_table. rewrite map_length, zrange_length. nia.
Qed.
Example rectangle_examples :
  ((forall i j, site (2 * 4) i -> In j (sq_neighbors 2 4 i) -> site (2 * 4) j) <-> 2 <= 4) /\
  (exists a b, site (3 * 7) a /\ site (3 * 7) b /\ a <> b /\ sq_distance_x 3 a b = 0 /\ sq_distance_y 3 7 a b = 0) /\
  ev2 4 6 (ev2_table 4 6) 0 20 = UB /\ ev2 7 5 (ev2_table 7 5) 0 27 = UB.
Proof.
  split; [apply C24_inside_iff; try lia; reflexivity|]. split; [apply C25_every_rectangle_refuted; try lia; reflexivity|].
  split; [apply (C41_wide_refuted 4 6); try lia; reflexivity|apply (C41_tall_refuted 7 5); try lia; reflexivity].
Qed.
