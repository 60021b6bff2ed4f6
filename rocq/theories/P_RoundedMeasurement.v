(** PROPERTY C93: the site occupation in floating-point arithmetic, for any distribution of the loops over
    threads and any interleaving. *)
From Coq Require Import Reals Lra Psatz List ZArith Lia Permutation.
From Verif Require Import Base Instances M_Operator M_Basis M_Matrix M_Ode M_Dispersion M_Number M_OpenMP Spec_OpenMP Pf_OpenMP M_SiteOccupation Spec_Stability
  M_Rounding Spec_Rounding Pf_Rounding M_RoundedMeasurement Spec_RoundedMeasurement Pf_Threads Pf_RoundedSum Pf_RoundedMeasurement Pf_RoundedMeasurement2
  Pf_RoundedMeasurement3 Pf_RoundedMeasurement4 Pf_RoundedMeasurement5 Pf_Matrix Pf_Stability.
Local Open Scope R_scope.
Local Open Scope list_scope.

Lemma state_mono ar u eta k c T T' W W' n n' res ex : W <= W' -> (n <= n')%nat -> state u eta ar k c T T' W n res ex -> state u eta ar k c T T' W' n' res ex.
Proof.
  intros HW Hn (Ls & ss & xs & w & A1 & A2 & A3 & A4 & A5 & A6 & A7 & A8). exists Ls, ss, xs, w. repeat (split; [assumption|]). split; [lra|]. split; [lia|assumption].
Qed.
Lemma bound_error u eta W n T k : 0 <= u -> 0 <= eta -> bound u eta k 400 W n T <= sum_error u eta W (n + T + k).
Proof.
  intros U E. unfold bound, sum_error, pw. apply Rplus_le_compat_l. apply Rmult_le_compat_l; [apply pow_le; lra|].
  apply Rmult_le_compat_r; [exact E|]. replace (400 + 1) with 401 by lra. apply Rmult_le_compat_l; [lra|]. apply le_INR. lia.
Qed.
Lemma bound_fits u eta H W n T k : 0 <= u -> 0 <= eta -> (1 + u) ^ (n + T + k) * (W + 401 * INR (n + T + k) * eta) <= H ->
  pw u (n + T + k) * (W + (400 + 1) * INR (n + T) * eta) <= H.
Proof.
  intros U E HH. eapply Rle_trans; [|exact HH]. unfold pw. apply Rmult_le_compat_l; [apply pow_le; lra|].
  apply Rplus_le_compat_l. apply Rmult_le_compat_r; [exact E|]. replace (400 + 1) with 401 by lra. apply Rmult_le_compat_l; [lra|]. apply le_INR. lia.
Qed.

(** ** One-operator basis *)
Theorem C93_one : forall u eta H ar ev basis conjugate_basis v T s T' s' x r, 0 <= u <= 1 / 32 -> 0 <= eta <= 1 -> 2048 <= H ->
  accurate u eta H ar -> (forall a b, Rabs (ev a b) <= 1) -> norm2 v <= 4 ->
  let n := length basis in let k := (n * n + T + 6)%nat in let W := 2 * INR n * norm2 v in
  (1 + u) ^ k * (W + 401 * INR k * eta) <= H ->
  shares T 0 (Z.of_nat n) s -> shares T' 0 (Z.of_nat n) s' ->
  site_occupation1 (F := Rring) (1 / 2) ev basis conjugate_basis v T' s' = Some (Ok x) ->
  f_site_occupation1 ar ev basis conjugate_basis v T s = Some r ->
  exists y, r = Ok y /\ near (sum_error u eta W k) y x.
Proof.
  intros u eta H ar ev basis cb v T s T' s' x r u0 e0 H0 acc ev1 v4 n k W HH Sh Sh' HE HR.
  unfold site_occupation1 in HE. unfold f_site_occupation1 in HR. unfold size in HE. unfold f_size in HR. fold n in HE, HR.
  match type of HE with pbind ?p _ = _ => destruct p as [[ex|]|] eqn:PE; [|discriminate|discriminate] end. cbn [pbind] in HE. injection HE as <-.
  match type of HR with pbind ?p _ = _ => destruct p as [r1|] eqn:PR; [|discriminate] end.
  match type of PE with par_reduce _ ?b _ = _ => set (a := b) in PE end. match type of PR with f_reduce _ _ ?b _ = _ => set (a' := b) in PR end.
  assert (Rows : forall i, In i (zrange 0 (Z.of_nat n)) -> row_ok u eta 6 400 n (SR (weight v 2 i) (zrange 0 (Z.of_nat n))) (a' i) (a i)).
  { intros i Hi xs Exs. edestruct (omap_close u eta 6 400 (fun j => product (F := Rring) basis cb v (so1_ev (F := Rring) ev) (with_conjugate (F := Rring) (1 / 2)) i j) (fun j => f_product basis cb v (f_so1 ar ev) (f_with_conjugate ar) i j) (weight v 2 i) (zrange 0 (Z.of_nat n)) xs) as (ss & Ess & Css & Lss); [|exact Exs|].
      - intros j Hj. apply (prod_conj u eta H ar u0 e0 H0 acc basis cb v v4 1 2 1); try lia; try lra. intros a0 b0. apply (so1_dev u eta H ar u0 e0 H0 acc ev ev1).
      - exists ss. split; [exact Ess|]. eexists. split; [exact Css|]. split; [lra|]. rewrite Lss, zrange_length. lia. }
  destruct (state_loop u eta ar 6 400 T T' 0 0 (f_zeros T) (zeros T') 0 (Z.of_nat n) s s' a' a (fun i => SR (weight v 2 i) (zrange 0 (Z.of_nat n))) n r1 ex
    ltac:(lia) (state_start u eta ar 6 400 T T') Sh Sh' Rows PE PR) as (res & -> & St).
  cbn [pbind] in HR. injection HR as <-. eexists. split; [reflexivity|].
  assert (St' : state u eta ar 6 400 T T' W (n * n) res ex).
  { eapply state_mono; [| |exact St].
    - rewrite weight_sum, Z.sub_0_r, Nat2Z.id. pose proof (A_norm v (Z.of_nat n)). pose proof (pos_INR n). unfold W.
      assert (INR n * A v 0 (Z.of_nat n) <= INR n * norm2 v) by (apply Rmult_le_compat_l; assumption). lra.
    - rewrite Z.sub_0_r, Nat2Z.id. lia. }
  destruct (state_end u eta H ar 6 400 ltac:(lra) ltac:(lra) ltac:(lra) acc T T' W (n * n) res ex St' (bound_fits u eta H W (n * n) T 6 ltac:(lra) ltac:(lra) HH)) as (Q1 & Q2).
  pose proof (bound_error u eta W (n * n) T 6 ltac:(lra) ltac:(lra)) as BE. fold k in BE.
  split; [exact (Rle_trans _ _ _ Q1 BE)|exact (Rle_trans _ _ _ Q2 BE)].
Qed.

(** ** Three-operator basis *)
Section Three.
  Context (u eta H : R) (ar : arith).
  Hypothesis u0 : 0 <= u <= 1 / 32.
  Hypothesis e0 : 0 <= eta <= 1.
  Hypothesis H0 : 2048 <= H.
  Hypothesis acc : accurate u eta H ar.
  Context (ev : op hub -> op hub -> R).
  Hypothesis ev1 : forall a b, Rabs (ev a b) <= 1.
  Context (basis cb : list (monomial hub)) (v : list CR).
  Hypothesis v4 : norm2 v <= 4.
  Lemma weak7 k X c e' e : (k <= 7)%nat -> X <= 34 -> c <= 29 -> (forall a b : monomial hub, approx (dev u eta k X c) (e' a b : outcome R) (e a b : outcome R)) ->
    forall a b, approx (dev u eta 7 34 29) (e' a b) (e a b).
  Proof. intros A B C D a b x Ex. destruct (D a b x Ex) as (y & Ey & Dy). exists y. split; [exact Ey|]. apply (dev_weak u eta u0 e0 k 7 X 34 c 29); try assumption. Qed.
  Lemma w11 a b : approx (dev u eta 7 34 29) (f_so_1_1 ar ev a b) (so_1_1 (F := Rring) ev a b).
  Proof. apply (weak7 1 2 1 (f_so_1_1 ar ev) (so_1_1 (F := Rring) ev)); try lia; try lra. intros. apply (so11_dev u eta H ar u0 e0 H0 acc ev ev1). Qed.
  Lemma w13 a b : approx (dev u eta 7 34 29) (f_so_1_3 ar ev a b) (so_1_3 (F := Rring) (1 / 2) ev a b).
  Proof. apply (weak7 3 6 9 (f_so_1_3 ar ev) (so_1_3 (F := Rring) (1 / 2) ev)); try lia; try lra. intros. apply (so13_dev u eta H ar u0 e0 H0 acc ev ev1). Qed.
  Lemma w31 a b : approx (dev u eta 7 34 29) (f_so_3_1 ar ev a b) (so_3_1 (F := Rring) (1 / 2) ev a b).
  Proof. apply (weak7 3 6 9 (f_so_3_1 ar ev) (so_3_1 (F := Rring) (1 / 2) ev)); try lia; try lra. intros. apply (so31_dev u eta H ar u0 e0 H0 acc ev ev1). Qed.
  Lemma w33 a b : approx (dev u eta 7 34 29) (f_so_3_3 ar ev a b) (so_3_3 (F := Rring) ev a b).
  Proof. apply (so33_dev u eta H ar u0 e0 H0 acc ev ev1). Qed.

  (** a row that is one loop over j *)
  Lemma row_loop (f : Z -> outcome CR) (f' : Z -> outcome summand) i c d : (forall j, approx (close u eta 12 (weight v 34 i j) 400) (f' j) (f j)) ->
    row_ok u eta 12 400 (Z.to_nat (d - c)) (SR (weight v 34 i) (zrange c d)) (omap f' (zrange c d)) (omap f (zrange c d)).
  Proof.
    intros A xs Exs. destruct (omap_close u eta 12 400 f f' (weight v 34 i) (zrange c d) xs (fun j _ => A j) Exs) as (ss & Ess & Css & Lss).
    exists ss. split; [exact Ess|]. eexists. split; [exact Css|]. split; [lra|]. rewrite Lss, zrange_length. lia.
  Qed.
  (** a row that is a loop over j < i and the diagonal element *)
  Lemma row_symmetric (f : Z -> outcome CR) (f' : Z -> outcome summand) (g : outcome CR) (g' : outcome summand) i c d : (c <= i < d)%Z ->
    (forall j, approx (close u eta 12 (weight v 34 i j) 400) (f' j) (f j)) -> approx (close u eta 12 (weight v 34 i i) 400) g' g ->
    row_ok u eta 12 400 (Z.to_nat (d - c)) (SR (weight v 34 i) (zrange c d))
      (obind (omap f' (zrange c i)) (fun xs => obind g' (fun x => Ok (xs ++ [x]))))
      (obind (omap f (zrange c i)) (fun xs => obind g (fun x => Ok (xs ++ [x])))).
  Proof.
    intros Hi A Ag ys Eys. destruct (omap f (zrange c i)) as [xs|] eqn:Exs; [|discriminate]. cbn [obind] in Eys. destruct g as [x|] eqn:Ex; [|discriminate].
    cbn [obind] in Eys. injection Eys as <-.
    destruct (omap_close u eta 12 400 f f' (weight v 34 i) (zrange c i) xs (fun j _ => A j) Exs) as (ss & Ess & Css & Lss).
    destruct (Ag x eq_refl) as (s & -> & Cs). rewrite Ess. cbn [obind]. eexists. split; [reflexivity|].
    exists (SR (weight v 34 i) (zrange c i) + weight v 34 i i). split; [apply Close_app; [exact Css|apply Close_one, Cs]|]. split.
    - apply Rle_trans with (SR (weight v 34 i) (zrange c (i + 1))); [|apply weight_sub; [lra|lia]].
      rewrite (zrange_app c i (i + 1)) by lia. rewrite SR_app, (zrange_cons i (i + 1)), (zrange_nil (i + 1) (i + 1)) by lia. cbn [SR]. lra.
    - rewrite app_length, Lss, zrange_length. cbn [length]. lia.
  Qed.
End Three.

Theorem C93_three : forall u eta H ar ev basis conjugate_basis v symmetric N T s1 s2 s3 T' s1' s2' s3' x r, 0 <= u <= 1 / 32 -> 0 <= eta <= 1 -> 2048 <= H ->
  accurate u eta H ar -> (forall a b, Rabs (ev a b) <= 1) -> norm2 v <= 4 ->
  let S := length basis in let k := (S * S + T + 12)%nat in let W := 34 * INR S * norm2 v in
  (1 + u) ^ k * (W + 401 * INR k * eta) <= H -> (0 <= N <= Z.of_nat S)%Z ->
  shares T 0 N s1 -> shares T 0 N s2 -> shares T N (Z.of_nat S) s3 -> shares T' 0 N s1' -> shares T' 0 N s2' -> shares T' N (Z.of_nat S) s3' ->
  site_occupation3 (F := Rring) (1 / 2) ev basis conjugate_basis v symmetric N T' s1' s2' s3' = Some (Ok x) ->
  f_site_occupation3 ar ev basis conjugate_basis v symmetric N T s1 s2 s3 = Some r ->
  exists y, r = Ok y /\ near (sum_error u eta W k) y x.
Proof.
  intros u eta H ar ev basis cb v sym N T s1 s2 s3 T' s1' s2' s3' x r u0 e0 H0 acc ev1 v4 S k W HH HN Sh1 Sh2 Sh3 Sh1' Sh2' Sh3' HE HR.
  set (M := Z.of_nat S) in *.
  unfold site_occupation3 in HE. unfold f_site_occupation3 in HR.
  match type of HE with pbind (par_reduce _ ?b _) _ = _ => set (a1 := b) in HE end. match type of HR with pbind (f_reduce _ _ ?b _) _ = _ => set (a1' := b) in HR end.
  destruct (par_reduce (K := cplx_ring Rring) s1' a1 (zeros T')) as [[ex1|]|] eqn:PE1; [|discriminate HE|discriminate HE]. cbn [pbind] in HE.
  match type of HE with pbind (par_reduce _ ?b _) _ = _ => set (a2 := b) in HE end.
  destruct (par_reduce (K := cplx_ring Rring) s2' a2 ex1) as [[ex2|]|] eqn:PE2; [|discriminate HE|discriminate HE]. cbn [pbind] in HE.
  match type of HE with pbind (par_reduce _ ?b _) _ = _ => set (a3 := b) in HE end.
  destruct (par_reduce (K := cplx_ring Rring) s3' a3 ex2) as [[ex3|]|] eqn:PE3; [|discriminate HE|discriminate HE]. cbn [pbind] in HE. injection HE as <-.
  assert (R1 : forall i, In i (zrange 0 N) -> row_ok u eta 12 400 (Z.to_nat (N - 0)) (SR (weight v 34 i) (zrange 0 N)) (a1' i) (a1 i)).
  { intros i Hi. apply zrange_in in Hi. unfold a1', a1. destruct sym.
    - apply row_symmetric; [exact Hi|..].
      + intros j. apply (prod_products u eta H ar u0 e0 H0 acc basis cb v v4 7 34 29); try lia; try lra. apply (w11 u eta H ar u0 e0 H0 acc ev ev1).
      + apply (prod_norm u eta H ar u0 e0 H0 acc basis cb v v4 7 34 29); try lia; try lra. apply (w11 u eta H ar u0 e0 H0 acc ev ev1).
    - apply row_loop. intros j. apply (prod_conj u eta H ar u0 e0 H0 acc basis cb v v4 7 34 29); try lia; try lra. apply (w11 u eta H ar u0 e0 H0 acc ev ev1). }
  destruct (f_reduce ar s1 a1' (f_zeros T)) as [r1|] eqn:PR1; [|discriminate HR].
  destruct (state_loop u eta ar 12 400 T T' 0 0 _ _ 0 N s1 s1' a1' a1 (fun i => SR (weight v 34 i) (zrange 0 N)) _ r1 ex1 ltac:(lia) (state_start u eta ar 12 400 T T') Sh1 Sh1' R1 PE1 PR1) as (res1 & -> & St1).
  cbn [pbind] in HR. match type of HR with pbind (f_reduce _ _ ?b _) _ = _ => set (a2' := b) in HR end.
  assert (R2 : forall i, In i (zrange 0 N) -> row_ok u eta 12 400 (Z.to_nat (M - N)) (SR (weight v 34 i) (zrange N M)) (a2' i) (a2 i)).
  { intros i Hi. unfold a2', a2. destruct sym.
    - apply row_loop. intros j. apply (prod_products u eta H ar u0 e0 H0 acc basis cb v v4 7 34 29); try lia; try lra. apply (w13 u eta H ar u0 e0 H0 acc ev ev1).
    - apply row_loop. intros j. apply (prod_both u eta H ar u0 e0 H0 acc basis cb v v4 7 34 29); try lia; try lra; [apply (w13 u eta H ar u0 e0 H0 acc ev ev1)|apply (w31 u eta H ar u0 e0 H0 acc ev ev1)]. }
  destruct (f_reduce ar s2 a2' res1) as [r2|] eqn:PR2; [|discriminate HR].
  destruct (state_loop u eta ar 12 400 T T' _ _ _ _ 0 N s2 s2' a2' a2 (fun i => SR (weight v 34 i) (zrange N M)) _ r2 ex2 ltac:(lia) St1 Sh2 Sh2' R2 PE2 PR2) as (res2 & -> & St2).
  cbn [pbind] in HR. match type of HR with pbind (f_reduce _ _ ?b _) _ = _ => set (a3' := b) in HR end.
  assert (R3 : forall i, In i (zrange N M) -> row_ok u eta 12 400 (Z.to_nat (M - N)) (SR (weight v 34 i) (zrange N M)) (a3' i) (a3 i)).
  { intros i Hi. apply zrange_in in Hi. unfold a3', a3. destruct sym.
    - apply row_symmetric; [exact Hi|..].
      + intros j. apply (prod_products u eta H ar u0 e0 H0 acc basis cb v v4 7 34 29); try lia; try lra. apply (w33 u eta H ar u0 e0 H0 acc ev ev1).
      + apply (prod_norm u eta H ar u0 e0 H0 acc basis cb v v4 7 34 29); try lia; try lra. apply (w33 u eta H ar u0 e0 H0 acc ev ev1).
    - apply row_loop. intros j. apply (prod_conj u eta H ar u0 e0 H0 acc basis cb v v4 7 34 29); try lia; try lra. apply (w33 u eta H ar u0 e0 H0 acc ev ev1). }
  destruct (f_reduce ar s3 a3' res2) as [r3|] eqn:PR3; [|discriminate HR].
  destruct (state_loop u eta ar 12 400 T T' _ _ _ _ N M s3 s3' a3' a3 (fun i => SR (weight v 34 i) (zrange N M)) _ r3 ex3 ltac:(lia) St2 Sh3 Sh3' R3 PE3 PR3) as (res3 & -> & St3).
  cbn [pbind] in HR. injection HR as <-. eexists. split; [reflexivity|].
  assert (St' : state u eta ar 12 400 T T' W (S * S) res3 ex3).
  { eapply state_mono; [| |exact St3].
    - rewrite !weight_sum. rewrite !Z.sub_0_r. pose proof (A_norm v M) as AN. pose proof (A_pos v 0 N) as A1. pose proof (A_pos v N M) as A3.
      assert (SA : A v 0 M = A v 0 N + A v N M) by (unfold A; rewrite (zrange_app 0 N M) by lia; apply SR_app). rewrite SA in AN.
      assert (SS : INR S = INR (Z.to_nat N) + INR (Z.to_nat (M - N))) by (rewrite <- plus_INR; f_equal; unfold M in *; lia).
      pose proof (pos_INR (Z.to_nat N)) as P1. pose proof (pos_INR (Z.to_nat (M - N))) as P2.
      unfold W. rewrite SS. set (p := INR (Z.to_nat N)) in *. set (q := INR (Z.to_nat (M - N))) in *. set (b1 := A v 0 N) in *. set (b3 := A v N M) in *.
      assert ((p + q) * (b1 + b3) <= (p + q) * norm2 v) by (apply Rmult_le_compat_l; lra). assert (0 <= p * b3) by (apply Rmult_le_pos; lra). assert (0 <= q * b1) by (apply Rmult_le_pos; lra). lra.
    - assert (S = Z.to_nat N + Z.to_nat (M - N))%nat by (unfold M in *; lia). rewrite Z.sub_0_r. nia. }
  destruct (state_end u eta H ar 12 400 ltac:(lra) ltac:(lra) ltac:(lra) acc T T' W (S * S) res3 ex3 St' (bound_fits u eta H W (S * S) T 12 ltac:(lra) ltac:(lra) HH)) as (Q1 & Q2).
  pose proof (bound_error u eta W (S * S) T 12 ltac:(lra) ltac:(lra)) as BE. fold k in BE.
  split; [exact (Rle_trans _ _ _ Q1 BE)|exact (Rle_trans _ _ _ Q2 BE)].
Qed.
