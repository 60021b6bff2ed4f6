(** THEOREMS: C41 (expectation-value tables). *)
From Coq Require Import Reals Lra Psatz.
From Coquelicot Require Import Coquelicot.
From Verif Require Import Base M_Lattice Spec_Lattice Pf_Lattice P_Lattice M_LatticeReal M_Matrix Pf_Matrix M_Dispersion P_Dispersion M_Expectation Spec_Expectation.
Local Open Scope R_scope.
Local Open Scope list_scope.

(** ** One dimension *)
Lemma PI_nz : PI <> 0.
Proof. pose proof PI_RGT_0. lra. Qed.
Lemma sea_1d kF x : x <> 0 -> fermi_sea_1d kF x = sin (kF * x) / (PI * x).
Proof.
  intros Hx. unfold fermi_sea_1d.
  rewrite (is_RInt_unique _ _ _ (minus ((fun k => sin (k * x) / x) kF) ((fun k => sin (k * x) / x) (- kF)))).
  - cbn. replace (- kF * x) with (- (kF * x)) by ring. rewrite sin_neg. pose proof PI_nz. unfold minus, plus, opp. cbn. field. split; assumption.
  - apply (is_RInt_derive (fun k => sin (k * x) / x) (fun k => cos (k * x))).
    + intros k _. auto_derive; [trivial|]. field. exact Hx.
    + intros k _. apply (ex_derive_continuous (fun k => cos (k * x))). auto_derive. trivial.
Qed.
Lemma sea_1d_0 kF : fermi_sea_1d kF 0 = kF / PI.
Proof.
  unfold fermi_sea_1d. rewrite (RInt_ext _ (fun _ => 1)) by (intros; rewrite Rmult_0_r, cos_0; reflexivity).
  rewrite RInt_const. unfold scal. cbn. unfold mult. cbn. pose proof PI_nz. field. exact H.
Qed.
(** Every lookup is inside the table and gives the Fermi-sea average for the ring distance; it is
    symmetric and translation invariant, and the diagonal is the filling. *)
Theorem C41_chain : forall N dx filling a b, (N < two64)%Z -> site N a -> site N b -> dx <> 0 ->
  let ev := ev1 N (init_ev1 N dx filling) in
  ev a b = Ok (fermi_sea_1d (filling * PI) (IZR (chain_distance N a b) * dx)) /\
  ev a b = ev b a /\ ev a a = Ok filling.
Proof.
  intros N dx filling a b HN Ha Hb Hdx ev.
  assert (G : forall a b, site N a -> site N b -> ev a b = Ok (fermi_sea_1d (filling * PI) (IZR (chain_distance N a b) * dx))).
  { intros c d Hc Hd. unfold ev, ev1, init_ev1, ev1_table, calculate_fermi_momentum_1d.
    destruct (C18_metric N c d c HN Hc Hd Hc) as (_ & _ & _ & R). rewrite vread_map by lia. f_equal.
    destruct (Z.eqb_spec (chain_distance N c d) 0) as [E|E].
    - rewrite E, Rmult_0_l, sea_1d_0. field. apply PI_nz.
    - assert (IZR (chain_distance N c d) <> 0) by (apply not_0_IZR; exact E). rewrite sea_1d by (apply Rmult_integral_contrapositive; split; assumption).
      f_equal; [f_equal; ring|ring]. }
  split; [apply G; assumption|]. split.
  - rewrite !G by assumption. rewrite (Logic.proj1 (C18_metric N a b a HN Ha Hb Ha)). reflexivity.
  - rewrite G by assumption. rewrite (Logic.proj2 (Logic.proj1 (Logic.proj2 (C18_metric N a a a HN Ha Ha Ha))) eq_refl), Rmult_0_l, sea_1d_0. f_equal. field. apply PI_nz.
Qed.
Theorem C41_translation : forall N dx filling a b c d, (N < two64)%Z -> site N a -> site N b -> site N c -> site N d -> dx <> 0 ->
  ((a - b) mod N = (c - d) mod N)%Z ->
  ev1 N (init_ev1 N dx filling) a b = ev1 N (init_ev1 N dx filling) c d.
Proof.
  intros N dx filling a b c d HN Ha Hb Hc Hd Hdx E.
  assert (D : chain_distance N a b = chain_distance N c d); [|unfold ev1; rewrite D; reflexivity].
  rewrite !chain_distance_eq by assumption. unfold site in *.
  pose proof (Z.div_mod (a - b) N ltac:(lia)) as D1. pose proof (Z.div_mod (c - d) N ltac:(lia)) as D2. rewrite E in D1.
  assert (-1 <= (a - b) / N <= 0)%Z by (split; [apply Z.div_le_lower_bound|apply Z.lt_succ_r, Z.div_lt_upper_bound]; lia).
  assert (-1 <= (c - d) / N <= 0)%Z by (split; [apply Z.div_le_lower_bound|apply Z.lt_succ_r, Z.div_lt_upper_bound]; lia).
  pose proof (Z.mod_pos_bound (c - d) N ltac:(lia)). unfold rd.
  assert (C1 : ((a - b) / N = -1 \/ (a - b) / N = 0)%Z) by lia. assert (C2 : ((c - d) / N = -1 \/ (c - d) / N = 0)%Z) by lia.
  destruct C1 as [C1|C1], C2 as [C2|C2]; rewrite C1 in D1; rewrite C2 in D2; lia.
Qed.

(** ** Square lattice *)
Lemma inner_int (a c y : R) : RInt (fun ky => cos (a + ky * y)) (- c) c =
  if Req_EM_T y 0 then 2 * c * cos a else 2 * cos a * sin (c * y) / y.
Proof.
  destruct (Req_EM_T y 0) as [->|Hy].
  - rewrite (RInt_ext _ (fun _ => cos a)) by (intros; f_equal; ring). rewrite RInt_const. unfold scal. cbn. unfold mult. cbn. ring.
  - rewrite (is_RInt_unique _ _ _ (minus ((fun k => sin (a + k * y) / y) c) ((fun k => sin (a + k * y) / y) (- c)))).
    + cbn. unfold minus, plus, opp. cbn. replace (- c * y) with (- (c * y)) by ring. rewrite !sin_plus, sin_neg, cos_neg. field. exact Hy.
    + apply (is_RInt_derive (fun k => sin (a + k * y) / y) (fun k => cos (a + k * y))).
      * intros k _. auto_derive; [trivial|]. field. exact Hy.
      * intros k _. apply (ex_derive_continuous (fun k => cos (a + k * y))). auto_derive. trivial.
Qed.
Lemma even_int (f F : R -> R) : (forall k, is_derive F k (f k)) -> (forall k, continuous f k) ->
  RInt (fun k => f (Rabs k)) (- PI) PI = 2 * (F PI - F 0).
Proof.
  intros HF Hc. pose proof PI_RGT_0 as P. apply is_RInt_unique.
  assert (I1 : is_RInt f 0 PI (F PI - F 0)) by (apply (is_RInt_derive F f); intros; [apply HF|apply Hc]).
  assert (I2 : is_RInt (fun k => f (- k)) (- PI) 0 (F PI - F 0)).
  { assert (D : forall k, is_derive (fun k => - F (- k)) k (f (- k))).
    { intros k. auto_derive; [exists (f (- k)); apply HF|]. pose proof (is_derive_unique F (- k) (f (- k)) (HF (- k))) as Q. cbv beta in Q |- *. rewrite <- Q. change (fun x : R => F x) with F. ring. }
    replace (F PI - F 0) with (minus (- F (- 0)) (- F (- - PI))) by (unfold minus, plus, opp; cbn; replace (- - PI) with PI by ring; rewrite Ropp_0; ring).
    apply (is_RInt_derive (fun k => - F (- k)) (fun k => f (- k))); intros; [apply D|].
    apply (continuous_comp (fun k : R => - k) f); [apply (ex_derive_continuous (fun k : R => - k)); auto_derive; trivial|apply Hc]. }
  replace (2 * (F PI - F 0)) with (plus (F PI - F 0) (F PI - F 0)) by (unfold plus; cbn; ring).
  apply (is_RInt_Chasles (V := R_NormedModule) (fun k => f (Rabs k)) (- PI) 0 PI (F PI - F 0) (F PI - F 0)).
  - apply (is_RInt_ext (fun k => f (- k))); [|exact I2]. intros k Hk. rewrite Rmin_left, Rmax_right in Hk by lra. rewrite Rabs_left by lra. reflexivity.
  - apply (is_RInt_ext f); [|exact I1]. intros k Hk. rewrite Rmin_left, Rmax_right in Hk by lra. rewrite Rabs_right by lra. reflexivity.
Qed.
Lemma cos_abs k x : cos (Rabs k * x) = cos (k * x).
Proof. unfold Rabs. destruct (Rcase_abs k); [|reflexivity]. rewrite <- Ropp_mult_distr_l. apply cos_neg. Qed.
Lemma sea_2d_by (x y : R) (F : R -> R) :
  (forall k, is_derive F k (if Req_EM_T y 0 then 2 * (PI - k) * cos (k * x) else 2 * cos (k * x) * sin ((PI - k) * y) / y)) ->
  fermi_sea_2d x y = / (2 * PI * (2 * PI)) * (2 * (F PI - F 0)).
Proof.
  intros HF. unfold fermi_sea_2d. f_equal.
  rewrite <- (even_int (fun k => if Req_EM_T y 0 then 2 * (PI - k) * cos (k * x) else 2 * cos (k * x) * sin ((PI - k) * y) / y) F HF).
  - apply RInt_ext. intros k _. rewrite inner_int, cos_abs. reflexivity.
  - intros k. destruct (Req_EM_T y 0).
    + apply (ex_derive_continuous (fun k => 2 * (PI - k) * cos (k * x))). auto_derive. trivial.
    + apply (ex_derive_continuous (fun k => 2 * cos (k * x) * sin ((PI - k) * y) / y)). auto_derive; trivial.
Qed.
Lemma sea_2d_00 : fermi_sea_2d 0 0 = 1 / 2.
Proof.
  rewrite (sea_2d_by 0 0 (fun k => 2 * PI * k - k * k)).
  - pose proof PI_nz. field. exact H.
  - intros k. destruct (Req_EM_T 0 0); [|congruence]. rewrite Rmult_0_r, cos_0. auto_derive; [trivial|]. ring.
Qed.
Lemma sea_2d_x0 x : x <> 0 -> fermi_sea_2d x 0 = 2 / (PI * PI) * (sin (PI / 2 * x) / x) * (sin (PI / 2 * x) / x).
Proof.
  intros Hx. rewrite (sea_2d_by x 0 (fun k => 2 * ((PI - k) * sin (k * x) / x - cos (k * x) / (x * x)))).
  - replace (PI * x) with (2 * (PI / 2 * x)) by field. rewrite cos_2a_sin. replace (PI - PI) with 0 by ring. rewrite !Rmult_0_l, cos_0, sin_0. pose proof PI_nz. field. split; assumption.
  - intros k. destruct (Req_EM_T 0 0); [|congruence]. auto_derive; [trivial|]. field. exact Hx.
Qed.
Lemma sea_2d_diag x : x <> 0 -> fermi_sea_2d x x = 1 / PI * sin (PI / 2 * (x + x)) / (x + x).
Proof.
  intros Hx. rewrite (sea_2d_by x x (fun k => (k * sin (PI * x) + cos (PI * x - 2 * k * x) / (2 * x)) / x)).
  - replace (PI * x - 2 * PI * x) with (- (PI * x)) by ring. rewrite cos_neg. replace (PI * x - 2 * 0 * x) with (PI * x) by ring.
    replace (PI / 2 * (x + x)) with (PI * x) by field. pose proof PI_nz. field. repeat split; (assumption || lra).
  - intros k. destruct (Req_EM_T x 0); [contradiction|]. auto_derive; [trivial|].
    replace (PI * x) with ((PI - k) * x + k * x) at 1 by ring. replace (PI * x + - (2 * k * x)) with ((PI - k) * x - k * x) by ring.
    rewrite sin_plus, sin_minus. field. exact Hx.
Qed.
Lemma cos_diff x y : cos (PI * y) - cos (PI * x) = 2 * sin (PI / 2 * (x + y)) * sin (PI / 2 * (x - y)).
Proof.
  replace (PI * y) with (PI / 2 * (x + y) - PI / 2 * (x - y)) by field. replace (PI * x) with (PI / 2 * (x + y) + PI / 2 * (x - y)) by field.
  rewrite cos_plus, cos_minus. replace (PI / 2 * (x + y) - PI / 2 * (x - y)) with (PI * y) by field. ring.
Qed.
Lemma sea_2d_gen x y : y <> 0 -> x + y <> 0 -> x - y <> 0 ->
  fermi_sea_2d x y = 2 / (PI * PI) * (sin (PI / 2 * (x + y)) / (x + y)) * (sin (PI / 2 * (x - y)) / (x - y)).
Proof.
  intros Hy Hs Hd.
  rewrite (sea_2d_by x y (fun k => (cos (PI * y - k * (x + y)) / (x + y) - cos (PI * y + k * (x - y)) / (x - y)) / y)).
  - replace (PI * y - PI * (x + y)) with (- (PI * x)) by ring. replace (PI * y + PI * (x - y)) with (PI * x) by ring.
    replace (PI * y - 0 * (x + y)) with (PI * y) by ring. replace (PI * y + 0 * (x - y)) with (PI * y) by ring. rewrite cos_neg.
    pose proof (cos_diff x y) as C. pose proof PI_nz.
    transitivity (/ (2 * PI * (2 * PI)) * (4 * (cos (PI * y) - cos (PI * x)) / ((x + y) * (x - y)))); [field; repeat split; assumption|].
    rewrite C. field. repeat split; assumption.
  - intros k. destruct (Req_EM_T y 0); [contradiction|]. auto_derive; [trivial|].
    replace (PI * y + - (k * (x + y))) with ((PI - k) * y - k * x) by ring. replace (PI * y + k * (x - y)) with ((PI - k) * y + k * x) by ring.
    rewrite sin_plus, sin_minus. field. repeat split; assumption.
Qed.
(** what the table holds is the Fermi-sea average of the half-filled square lattice *)
Lemma ev2_value_sea dx dy : (0 <= dx < two64 / 2)%Z -> (0 <= dy < two64 / 2)%Z -> ev2_value dx dy = fermi_sea_2d (IZR dx) (IZR dy).
Proof.
  intros Hx Hy. unfold ev2_value. assert (T : (two64 / 2 + two64 / 2 = two64)%Z) by reflexivity. rewrite (u64_id (dx + dy)) by lia.
  destruct (Z.eqb_spec dx dy) as [<-|E].
  - destruct (Z.eqb_spec dx 0) as [->|E0]; [symmetry; apply sea_2d_00|]. rewrite sea_2d_diag by (apply not_0_IZR; lia). rewrite <- plus_IZR. reflexivity.
  - assert (S0 : IZR dx + IZR dy <> 0) by (rewrite <- plus_IZR; apply not_0_IZR; lia).
    assert (D0 : IZR dx - IZR dy <> 0) by (rewrite <- minus_IZR; apply not_0_IZR; lia).
    assert (P : fermi_sea_2d (IZR dx) (IZR dy) =
      2 / (PI * PI) * (sin (PI / 2 * IZR (dx + dy)) / IZR (dx + dy)) * (sin (PI / 2 * IZR (dx - dy)) / IZR (dx - dy))).
    { rewrite plus_IZR, minus_IZR. destruct (Z.eq_dec dy 0) as [->|Y0].
      - rewrite Rplus_0_r, Rminus_0_r. apply sea_2d_x0. apply not_0_IZR. lia.
      - apply sea_2d_gen; [apply not_0_IZR; exact Y0|exact S0|exact D0]. }
    rewrite P. destruct (Z.ltb_spec dy dx) as [L|L].
    + rewrite u64_id by lia. reflexivity.
    + rewrite u64_id by lia. replace (dy - dx)%Z with (- (dx - dy))%Z by lia. rewrite opp_IZR. rewrite <- Ropp_mult_distr_r, sin_neg.
      pose proof PI_nz. rewrite minus_IZR, plus_IZR. field. repeat split; assumption.
Qed.
(** Every rectangle: a pair whose computed distances do not exceed half the sides is looked up correctly. *)
Theorem C41_rectangle : forall Nx Ny a b, (1 <= Nx)%Z -> (1 <= Ny)%Z -> (Nx < two64)%Z -> (Ny < two64)%Z -> ((Nx / 2 + 1) * (Ny / 2 + 1) < two64)%Z ->
  (0 <= sq_distance_x Nx a b <= Nx / 2)%Z -> (0 <= sq_distance_y Nx Ny a b <= Ny / 2)%Z ->
  ev2 Nx Ny (ev2_table Nx Ny) a b = Ok (fermi_sea_2d (IZR (sq_distance_x Nx a b)) (IZR (sq_distance_y Nx Ny a b))).
Proof.
  intros Nx Ny a b HX HY FX FY Hf X Y.
  assert (T : (two64 = 2 * (two64 / 2))%Z) by reflexivity.
  pose proof (Z.mul_div_le Nx 2). pose proof (Z.mul_div_le Ny 2).
  assert (X2 : (Nx / 2 < two64 / 2)%Z) by lia. assert (Y2 : (Ny / 2 < two64 / 2)%Z) by lia.
  unfold ev2. set (x := sq_distance_x Nx a b) in *. set (y := sq_distance_y Nx Ny a b) in *.
  assert (0 <= Nx / 2)%Z by (apply Z.div_pos; lia). assert (0 <= Ny / 2)%Z by (apply Z.div_pos; lia).
  assert (R : ((Ny / 2 + 1) * x + y < (Nx / 2 + 1) * (Ny / 2 + 1))%Z) by nia.
  rewrite u64_id by nia. unfold ev2_table. rewrite vread_map by nia. f_equal.
  rewrite (Z.mul_comm (Ny / 2 + 1) x), Z.div_add_l by lia. rewrite Z.div_small by lia. rewrite Z.add_0_r.
  rewrite Z.add_comm, Z.mod_add by lia. rewrite Z.mod_small by lia. apply ev2_value_sea; split; lia.
Qed.
Theorem C41_square : forall N a b, (1 <= N)%Z -> (N * N < two64)%Z -> site (N * N) a -> site (N * N) b ->
  let ev := ev2 N N (ev2_table N N) in
  ev a b = Ok (fermi_sea_2d (IZR (sq_distance_x N a b)) (IZR (sq_distance_y N N a b))) /\
  ev a b = ev b a /\ ev a a = Ok (1 / 2).
Proof.
  intros N a b HN Hf Ha Hb ev.
  assert (H0 : (0 <= N / 2)%Z) by (apply Z.div_pos; lia). assert (M2 : (N / 2 * 2 <= N)%Z) by (pose proof (Z.mul_div_le N 2); lia).
  assert (G : forall a b, site (N * N) a -> site (N * N) b -> ev a b = Ok (fermi_sea_2d (IZR (sq_distance_x N a b)) (IZR (sq_distance_y N N a b)))).
  { intros c d Hc Hd. destruct (C25_metric N c d HN Hf Hc Hd) as (_ & _ & X & Y & _).
    destruct (C25_ring_distances N c d HN Hf Hc Hd) as ((_ & X0 & _) & (_ & Y0 & _) & _).
    apply C41_rectangle; try lia; nia. }
  split; [apply G; assumption|]. destruct (C25_metric N a b HN Hf Ha Hb) as (S1 & S2 & _). split.
  - rewrite !G by assumption. rewrite S1, S2. reflexivity.
  - rewrite G by assumption. destruct (C25_metric N a a HN Hf Ha Ha) as (_ & _ & _ & _ & Z0). destruct (Logic.proj2 Z0 eq_refl) as [-> ->]. rewrite sea_2d_00. reflexivity.
Qed.
(** Rectangles: the lookup can leave the table (defect). *)
Theorem C41_rectangle_refuted : ev2 2 5 (ev2_table 2 5) 0 8 = UB.
Proof. unfold ev2. apply vread_out. unfold ev2_table. rewrite map_length, zrange_length. vm_compute. congruence. Qed.
Example ex_ev1 : ev1 4 (init_ev1 4 1 (1/2)) 0 3 = Ok (fermi_sea_1d (1 / 2 * PI) (IZR 1 * 1)).
Proof. apply (C41_chain 4 1 (1/2) 0 3); unfold site; try lia; try lra; vm_compute; reflexivity. Qed.
Example ex_ev2 : ev2 4 4 (ev2_table 4 4) 0 5 = Ok (fermi_sea_2d 1 1).
Proof. apply (C41_square 4 0 5); unfold site; try lia; vm_compute; reflexivity. Qed.
(** non-vacuity of the rectangle clause: 4 x 6 lattice *)
Example ex_ev2_rect : ev2 4 6 (ev2_table 4 6) 0 5 = Ok (fermi_sea_2d (IZR (sq_distance_x 4 0 5)) (IZR (sq_distance_y 4 6 0 5))).
Proof. apply C41_rectangle; vm_compute; try reflexivity; try (split; intros; discriminate); intros; discriminate. Qed.
Print Assumptions C41_square.
Print Assumptions C41_rectangle.
