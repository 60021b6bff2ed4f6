(** PROPERTY C93 for doubles: error bounds, other schedules, termination. *)
From Coq Require Import Reals Lra Psatz List ZArith Lia Permutation.
From Verif Require Import Base Instances M_Operator M_Basis M_Matrix M_Ode M_Dispersion M_Number M_OpenMP Spec_OpenMP Pf_OpenMP M_SiteOccupation Spec_Stability
  M_Rounding M_Double Spec_Rounding Pf_Rounding P_Rounding M_RoundedMeasurement Spec_RoundedMeasurement Pf_Threads Pf_Threads2 Pf_RoundedMeasurement5 P_RoundedMeasurement.
Local Open Scope R_scope.
Local Open Scope list_scope.

Lemma power_one u k : 0 <= u -> INR k * u <= 1 / 2 -> (1 + u) ^ k <= 1 + 2 * (INR k * u).
Proof.
  intros U K. assert (Q : (1 + u) ^ k * (1 - INR k * u) <= 1).
  { clear K. induction k as [|k IH].
    - cbn. lra.
    - rewrite S_INR. cbn [pow]. pose proof (pos_INR k). assert (0 <= (1 + u) ^ k) by (apply pow_le; lra).
      assert ((1 + u) * (1 - (INR k + 1) * u) <= 1 - INR k * u) by nra.
      apply Rle_trans with ((1 + u) ^ k * (1 - INR k * u)); [|exact IH].
      replace ((1 + u) * (1 + u) ^ k * (1 - (INR k + 1) * u)) with ((1 + u) ^ k * ((1 + u) * (1 - (INR k + 1) * u))) by ring.
      apply Rmult_le_compat_l; assumption. }
  pose proof (pos_INR k). assert (0 <= INR k * u) by (apply Rmult_le_pos; assumption).
  set (x := INR k * u) in *. assert (0 < (1 + u) ^ k) by (apply pow_lt; lra). set (p := (1 + u) ^ k) in *. nra.
Qed.

(** the error in double precision *)
Definition double_error (W : R) (k : nat) : R := INR k * W / 2 ^ 52 + / 2 ^ 1000.
Lemma p2 n : 0 < 2 ^ n. Proof. apply pow_lt. lra. Qed.
Lemma p2_inv n m : / 2 ^ (n + m) * 2 ^ n = / 2 ^ m.
Proof. rewrite pow_add. field. split; apply Rgt_not_eq, p2. Qed.
Lemma k_u k : INR k <= 2 ^ 50 -> INR k * / 2 ^ 53 <= 1 / 8.
Proof.
  intros K. apply Rle_trans with (2 ^ 50 * / 2 ^ 53).
  - apply Rmult_le_compat_r; [apply Rlt_le, Rinv_0_lt_compat, p2|exact K].
  - rewrite (Rmult_comm (2 ^ 50)). change 53%nat with (50 + 3)%nat. rewrite p2_inv. lra.
Qed.
Lemma k_eta k : INR k <= 2 ^ 50 -> 2 * (401 * INR k * / 2 ^ 1075) <= / 2 ^ 1000.
Proof.
  intros K. apply Rle_trans with (2 ^ 60 * / 2 ^ 1075).
  - assert (2 * 401 * INR k <= 2 ^ 60). { change 60%nat with (10 + 50)%nat. rewrite pow_add. replace (2 ^ 10) with 1024 by lra. pose proof (pos_INR k). lra. }
    replace (2 * (401 * INR k * / 2 ^ 1075)) with (2 * 401 * INR k * / 2 ^ 1075) by ring.
    apply Rmult_le_compat_r; [apply Rlt_le, Rinv_0_lt_compat, p2|assumption].
  - rewrite (Rmult_comm (2 ^ 60)). change 1075%nat with (60 + 1015)%nat. rewrite p2_inv.
    apply Rinv_le_contravar; [apply p2|]. apply Rle_pow; [lra|lia].
Qed.
Lemma double_sum_error W k : 0 <= W -> INR k <= 2 ^ 50 -> sum_error (/ 2 ^ 53) (/ 2 ^ 1075) W k <= double_error W k.
Proof.
  intros HW K. pose proof (k_u k K) as Ku. pose proof (k_eta k K) as Ke. assert (U : 0 <= / 2 ^ 53) by (apply Rlt_le, Rinv_0_lt_compat, p2).
  pose proof (power_one (/ 2 ^ 53) k U ltac:(lra)) as P. unfold sum_error, double_error.
  assert (E0 : 0 <= 401 * INR k * / 2 ^ 1075) by (apply Rmult_le_pos; [pose proof (pos_INR k); lra|apply Rlt_le, Rinv_0_lt_compat, p2]).
  apply Rplus_le_compat.
  - apply Rle_trans with (2 * (INR k * / 2 ^ 53) * W); [apply Rmult_le_compat_r; lra|].
    apply Req_le. change 53%nat with (1 + 52)%nat. rewrite pow_add, pow_1. field.
  - apply Rle_trans with (2 * (401 * INR k * / 2 ^ 1075)); [|exact Ke]. apply Rmult_le_compat_r; lra.
Qed.
Lemma double_range W k : 0 <= W -> W <= 2 ^ 100 -> INR k <= 2 ^ 50 -> (1 + / 2 ^ 53) ^ k * (W + 401 * INR k * / 2 ^ 1075) <= 2 ^ 1023.
Proof.
  intros HW HW2 K. pose proof (k_u k K) as Ku. pose proof (k_eta k K) as Ke. assert (U : 0 <= / 2 ^ 53) by (apply Rlt_le, Rinv_0_lt_compat, p2).
  pose proof (power_one (/ 2 ^ 53) k U ltac:(lra)) as P.
  assert (E0 : 0 <= 401 * INR k * / 2 ^ 1075) by (apply Rmult_le_pos; [pose proof (pos_INR k); lra|apply Rlt_le, Rinv_0_lt_compat, p2]).
  assert (E1 : / 2 ^ 1000 <= 1). { rewrite <- Rinv_1. apply Rinv_le_contravar; [lra|]. apply (pow_R1_Rle 2 1000). lra. }
  apply Rle_trans with (2 * (2 ^ 100 + 1)).
  - apply Rmult_le_compat; [apply pow_le; lra|lra|lra|lra].
  - apply Rle_trans with (2 ^ 102).
    + change 102%nat with (2 + 100)%nat. rewrite pow_add. pose proof (pow_R1_Rle 2 100 ltac:(lra)). lra.
    + apply Rle_pow; [lra|lia].
Qed.
Lemma u53 : 0 <= / 2 ^ 53 <= 1 / 32.
Proof.
  split; [apply Rlt_le, Rinv_0_lt_compat, p2|]. replace (1 / 32) with (/ 2 ^ 5) by lra. apply Rinv_le_contravar; [apply p2|]. apply Rle_pow; [lra|lia].
Qed.
Lemma eta1075 : 0 <= / 2 ^ 1075 <= 1.
Proof.
  split; [apply Rlt_le, Rinv_0_lt_compat, p2|]. rewrite <- Rinv_1. apply Rinv_le_contravar; [lra|]. apply (pow_R1_Rle 2 1075). lra.
Qed.
Lemma H1023 : 2048 <= 2 ^ 1023.
Proof. replace 2048 with (2 ^ 11) by lra. apply Rle_pow; [lra|lia]. Qed.
Lemma W_range c n (v : list CR) k : 0 <= c <= 34 -> (n <= k)%nat -> INR k <= 2 ^ 50 -> norm2 v <= 4 -> 0 <= c * INR n * norm2 v <= 2 ^ 100.
Proof.
  intros Hc Hn Hk Hv. pose proof (norm2_pos v). pose proof (pos_INR n). apply le_INR in Hn.
  assert (0 <= c * INR n) by (apply Rmult_le_pos; lra). split; [apply Rmult_le_pos; lra|].
  apply Rle_trans with ((34 * 2 ^ 50) * 4).
  - apply Rmult_le_compat; [assumption|assumption| |assumption]. apply Rmult_le_compat; lra.
  - replace (34 * 2 ^ 50 * 4) with (136 * 2 ^ 50) by ring. apply Rle_trans with (2 ^ 8 * 2 ^ 50).
    + apply Rmult_le_compat_r; [apply Rlt_le, p2|lra].
    + rewrite <- pow_add. apply Rle_pow; [lra|lia].
Qed.
Lemma le_square n t c : (n <= n * n + t + c)%nat.
Proof. destruct n; nia. Qed.
Lemma near_le e e' x y : e <= e' -> near e x y -> near e' x y.
Proof. intros H [A B]. split; lra. Qed.

Theorem C93_double_one : forall garbage ev basis conjugate_basis v T s T' s' x r, (forall a b, Rabs (ev a b) <= 1) -> norm2 v <= 4 ->
  let n := length basis in let k := (n * n + T + 6)%nat in let W := 2 * INR n * norm2 v in
  INR k <= 2 ^ 50 -> shares T 0 (Z.of_nat n) s -> shares T' 0 (Z.of_nat n) s' ->
  site_occupation1 (F := Rring) (1 / 2) ev basis conjugate_basis v T' s' = Some (Ok x) ->
  f_site_occupation1 (double_arith garbage) ev basis conjugate_basis v T s = Some r ->
  exists y, r = Ok y /\ near (INR k * W / 2 ^ 52 + / 2 ^ 1000) y x.
Proof.
  intros garbage ev basis cb v T s T' s' x r Hev Hv n k W Hk Sh Sh' HE HR.
  assert (HW : 0 <= W <= 2 ^ 100). { apply (W_range 2 n v k); [lra|unfold k; apply le_square|exact Hk|exact Hv]. }
  destruct (C93_one (/ 2 ^ 53) (/ 2 ^ 1075) (2 ^ 1023) (double_arith garbage) ev basis cb v T s T' s' x r u53 eta1075 H1023 (double_ok garbage) Hev Hv
    (double_range W k (Logic.proj1 HW) (Logic.proj2 HW) Hk) Sh Sh' HE HR) as (y & -> & Hy).
  exists y. split; [reflexivity|]. eapply near_le; [|exact Hy]. apply double_sum_error; [exact (Logic.proj1 HW)|exact Hk].
Qed.
Theorem C93_double_three : forall garbage ev basis conjugate_basis v symmetric N T s1 s2 s3 T' s1' s2' s3' x r, (forall a b, Rabs (ev a b) <= 1) -> norm2 v <= 4 ->
  let S := length basis in let k := (S * S + T + 12)%nat in let W := 34 * INR S * norm2 v in
  INR k <= 2 ^ 50 -> (0 <= N <= Z.of_nat S)%Z ->
  shares T 0 N s1 -> shares T 0 N s2 -> shares T N (Z.of_nat S) s3 -> shares T' 0 N s1' -> shares T' 0 N s2' -> shares T' N (Z.of_nat S) s3' ->
  site_occupation3 (F := Rring) (1 / 2) ev basis conjugate_basis v symmetric N T' s1' s2' s3' = Some (Ok x) ->
  f_site_occupation3 (double_arith garbage) ev basis conjugate_basis v symmetric N T s1 s2 s3 = Some r ->
  exists y, r = Ok y /\ near (INR k * W / 2 ^ 52 + / 2 ^ 1000) y x.
Proof.
  intros garbage ev basis cb v sym N T s1 s2 s3 T' s1' s2' s3' x r Hev Hv S k W Hk HN Sh1 Sh2 Sh3 Sh1' Sh2' Sh3' HE HR.
  assert (HW : 0 <= W <= 2 ^ 100). { apply (W_range 34 S v k); [lra|unfold k; apply le_square|exact Hk|exact Hv]. }
  destruct (C93_three (/ 2 ^ 53) (/ 2 ^ 1075) (2 ^ 1023) (double_arith garbage) ev basis cb v sym N T s1 s2 s3 T' s1' s2' s3' x r u53 eta1075 H1023 (double_ok garbage) Hev Hv
    (double_range W k (Logic.proj1 HW) (Logic.proj2 HW) Hk) HN Sh1 Sh2 Sh3 Sh1' Sh2' Sh3' HE HR) as (y & -> & Hy).
  exists y. split; [reflexivity|]. eapply near_le; [|exact Hy]. apply double_sum_error; [exact (Logic.proj1 HW)|exact Hk].
Qed.

(** ** Other schedules *)
Lemma near_two e e' x y z : near e x z -> near e' y z -> near (e + e') x y.
Proof.
  intros [A B] [A' B']. split.
  - replace (fst x - fst y) with ((fst x - fst z) + - (fst y - fst z)) by ring. eapply Rle_trans; [apply Rabs_triang|]. rewrite Rabs_Ropp. lra.
  - replace (snd x - snd y) with ((snd x - snd z) + - (snd y - snd z)) by ring. eapply Rle_trans; [apply Rabs_triang|]. rewrite Rabs_Ropp. lra.
Qed.
(** two runs with any numbers of threads and any schedules differ by at most the sum of the two errors *)
Theorem C93_schedules_one : forall garbage ev basis conjugate_basis v T s T2 s2 T' s' x y y2, (forall a b, Rabs (ev a b) <= 1) -> norm2 v <= 4 ->
  let n := length basis in let W := 2 * INR n * norm2 v in
  INR (n * n + T + 6) <= 2 ^ 50 -> INR (n * n + T2 + 6) <= 2 ^ 50 ->
  shares T 0 (Z.of_nat n) s -> shares T2 0 (Z.of_nat n) s2 -> shares T' 0 (Z.of_nat n) s' ->
  site_occupation1 (F := Rring) (1 / 2) ev basis conjugate_basis v T' s' = Some (Ok x) ->
  f_site_occupation1 (double_arith garbage) ev basis conjugate_basis v T s = Some (Ok y) ->
  f_site_occupation1 (double_arith garbage) ev basis conjugate_basis v T2 s2 = Some (Ok y2) ->
  near (INR (2 * n * n + T + T2 + 12) * W / 2 ^ 52 + 2 / 2 ^ 1000) y y2.
Proof.
  intros garbage ev basis cb v T s T2 s2 T' s' x y y2 Hev Hv n W Hk Hk2 Sh Sh2 Sh' HE HR HR2.
  destruct (C93_double_one garbage ev basis cb v T s T' s' x _ Hev Hv Hk Sh Sh' HE HR) as (z & Ez & Hz). injection Ez as <-.
  destruct (C93_double_one garbage ev basis cb v T2 s2 T' s' x _ Hev Hv Hk2 Sh2 Sh' HE HR2) as (z & Ez & Hz2). injection Ez as <-.
  eapply near_le; [|exact (near_two _ _ _ _ _ Hz Hz2)]. fold n. fold W. apply Req_le.
  replace (2 * n * n + T + T2 + 12)%nat with ((n * n + T + 6) + (n * n + T2 + 6))%nat by ring. match goal with |- _ = INR (?a + ?b) * _ / _ + _ => rewrite (plus_INR a b); generalize (INR a) (INR b) end. intros. unfold Rdiv. ring.
Qed.
Theorem C93_schedules_three : forall garbage ev basis conjugate_basis v symmetric N T s1 s2 s3 T2 t1 t2 t3 T' s1' s2' s3' x y y2,
  (forall a b, Rabs (ev a b) <= 1) -> norm2 v <= 4 ->
  let n := length basis in let W := 34 * INR n * norm2 v in
  INR (n * n + T + 12) <= 2 ^ 50 -> INR (n * n + T2 + 12) <= 2 ^ 50 -> (0 <= N <= Z.of_nat n)%Z ->
  shares T 0 N s1 -> shares T 0 N s2 -> shares T N (Z.of_nat n) s3 -> shares T2 0 N t1 -> shares T2 0 N t2 -> shares T2 N (Z.of_nat n) t3 ->
  shares T' 0 N s1' -> shares T' 0 N s2' -> shares T' N (Z.of_nat n) s3' ->
  site_occupation3 (F := Rring) (1 / 2) ev basis conjugate_basis v symmetric N T' s1' s2' s3' = Some (Ok x) ->
  f_site_occupation3 (double_arith garbage) ev basis conjugate_basis v symmetric N T s1 s2 s3 = Some (Ok y) ->
  f_site_occupation3 (double_arith garbage) ev basis conjugate_basis v symmetric N T2 t1 t2 t3 = Some (Ok y2) ->
  near (INR (2 * n * n + T + T2 + 24) * W / 2 ^ 52 + 2 / 2 ^ 1000) y y2.
Proof.
  intros garbage ev basis cb v sym N T s1 s2 s3 T2 t1 t2 t3 T' s1' s2' s3' x y y2 Hev Hv n W Hk Hk2 HN Sh1 Sh2 Sh3 St1 St2 St3 Sh1' Sh2' Sh3' HE HR HR2.
  destruct (C93_double_three garbage ev basis cb v sym N T s1 s2 s3 T' s1' s2' s3' x _ Hev Hv Hk HN Sh1 Sh2 Sh3 Sh1' Sh2' Sh3' HE HR) as (z & Ez & Hz). injection Ez as <-.
  destruct (C93_double_three garbage ev basis cb v sym N T2 t1 t2 t3 T' s1' s2' s3' x _ Hev Hv Hk2 HN St1 St2 St3 Sh1' Sh2' Sh3' HE HR2) as (z & Ez & Hz2). injection Ez as <-.
  eapply near_le; [|exact (near_two _ _ _ _ _ Hz Hz2)]. fold n. fold W. apply Req_le.
  replace (2 * n * n + T + T2 + 24)%nat with ((n * n + T + 12) + (n * n + T2 + 12))%nat by ring. match goal with |- _ = INR (?a + ?b) * _ / _ + _ => rewrite (plus_INR a b); generalize (INR a) (INR b) end. intros. unfold Rdiv. ring.
Qed.

(** only which thread executes which iterations (in which order) matters, not how the threads interleave *)
Theorem C93_interleaving_one : forall ar ev basis conjugate_basis v T s s' r r', who s = who s' ->
  f_site_occupation1 ar ev basis conjugate_basis v T s = Some r -> f_site_occupation1 ar ev basis conjugate_basis v T s' = Some r' -> r = r'.
Proof.
  intros ar ev basis cb v T s s' r r' Hw. unfold f_site_occupation1, f_reduce.
  match goal with |- pbind ?p _ = _ -> pbind ?q _ = _ -> _ => destruct p as [x|] eqn:E; [|cbn [pbind]; intros; discriminate]; destruct q as [x'|] eqn:E'; [|cbn [pbind]; intros; discriminate] end.
  rewrite (rreduce_interleaving _ _ _ _ _ _ _ _ Hw E E'). congruence.
Qed.
Theorem C93_interleaving_three : forall ar ev basis conjugate_basis v symmetric N T s1 s2 s3 t1 t2 t3 r r', who s1 = who t1 -> who s2 = who t2 -> who s3 = who t3 ->
  f_site_occupation3 ar ev basis conjugate_basis v symmetric N T s1 s2 s3 = Some r ->
  f_site_occupation3 ar ev basis conjugate_basis v symmetric N T t1 t2 t3 = Some r' -> r = r'.
Proof.
  intros ar ev basis cb v sym N T s1 s2 s3 t1 t2 t3 r r' H1 H2 H3. unfold f_site_occupation3, f_reduce.
  match goal with |- pbind ?p _ = _ -> pbind ?q _ = _ -> _ => destruct p as [x|] eqn:E; [|cbn [pbind]; intros; discriminate]; destruct q as [x'|] eqn:E'; [|cbn [pbind]; intros; discriminate] end.
  rewrite <- (rreduce_interleaving _ _ _ _ _ _ _ _ H1 E E'). clear E E'. destruct x as [x|]; cbn [pbind]; [|congruence].
  match goal with |- pbind ?p _ = _ -> pbind ?q _ = _ -> _ => destruct p as [x2|] eqn:E; [|cbn [pbind]; intros; discriminate]; destruct q as [x2'|] eqn:E'; [|cbn [pbind]; intros; discriminate] end.
  rewrite <- (rreduce_interleaving _ _ _ _ _ _ _ _ H2 E E'). clear E E'. destruct x2 as [x2|]; cbn [pbind]; [|congruence].
  match goal with |- pbind ?p _ = _ -> pbind ?q _ = _ -> _ => destruct p as [x3|] eqn:E; [|cbn [pbind]; intros; discriminate]; destruct q as [x3'|] eqn:E'; [|cbn [pbind]; intros; discriminate] end.
  rewrite <- (rreduce_interleaving _ _ _ _ _ _ _ _ H3 E E'). congruence.
Qed.
(** the threads finish *)
Lemma reduce_finishes ar w f m : exists tr, f_reduce ar (mkSch w tr) f m <> None.
Proof. unfold f_reduce. apply rreduce_finishes. Qed.
Theorem C93_completes_one : forall ar ev basis conjugate_basis v T w, exists tr, f_site_occupation1 ar ev basis conjugate_basis v T (mkSch w tr) <> None.
Proof.
  intros ar ev basis cb v T w. unfold f_site_occupation1.
  match goal with |- exists tr, pbind (f_reduce _ _ ?f ?m) _ <> None => destruct (reduce_finishes ar w f m) as (tr & E); exists tr; destruct (f_reduce ar (mkSch w tr) f m) as [[x|]|] end;
    cbn [pbind]; congruence.
Qed.
Theorem C93_completes_three : forall ar ev basis conjugate_basis v symmetric N T w1 w2 w3, exists tr1 tr2 tr3,
  f_site_occupation3 ar ev basis conjugate_basis v symmetric N T (mkSch w1 tr1) (mkSch w2 tr2) (mkSch w3 tr3) <> None.
Proof.
  intros ar ev basis cb v sym N T w1 w2 w3. unfold f_site_occupation3.
  match goal with |- context [f_reduce _ _ ?f (f_zeros T)] => destruct (reduce_finishes ar w1 f (f_zeros T)) as (tr & E); exists tr; destruct (f_reduce ar (mkSch w1 tr) f (f_zeros T)) as [[x|]|] end; cbn [pbind];
    [|exists [], []; congruence|congruence]. clear E tr.
  match goal with |- context [f_reduce _ _ ?f x] => destruct (reduce_finishes ar w2 f x) as (tr & E); exists tr; destruct (f_reduce ar (mkSch w2 tr) f x) as [[x2|]|] end; cbn [pbind];
    [|exists []; congruence|congruence]. clear E tr.
  match goal with |- context [f_reduce _ _ ?f x2] => destruct (reduce_finishes ar w3 f x2) as (tr & E); exists tr; destruct (f_reduce ar (mkSch w3 tr) f x2) as [[x3|]|] end; cbn [pbind]; congruence.
Qed.
