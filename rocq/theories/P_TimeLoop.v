(** THEOREMS: C53 (measurement schedule of the time loop). *)
From Coq Require Import Reals Lra Psatz Arith.
From Verif Require Import Base M_Matrix M_LatticeReal M_Number M_TimeLoop Spec_LatticeReal Spec_TimeLoop Pf_LatticeReal.
Local Open Scope R_scope.
Local Open Scope list_scope.

Lemma Rltb_true a b : a < b -> Rltb a b = true.
Proof. unfold Rltb. destruct (Rlt_dec a b); [reflexivity|contradiction]. Qed.
Lemma Rltb_false a b : b <= a -> Rltb a b = false.
Proof. unfold Rltb. destruct (Rlt_dec a b); [lra|reflexivity]. Qed.
Lemma time_S rnd dt k : time_at rnd dt (S k) = rnd (time_at rnd dt k + dt).
Proof. reflexivity. Qed.

Section Rounding.
Variables (rnd : R -> R) (u dt : R) (n : nat).
Hypothesis (Hdt : 0 < dt) (Hu : 0 <= u) (Hr : relative_rounding rnd u) (Hn : 32 * u * INR n * INR n <= 1).
Lemma INR_le1 k : (1 <= k)%nat -> 1 <= INR k.
Proof. intros H. change 1 with (INR 1). apply le_INR, H. Qed.
Lemma un_small : (1 <= n)%nat -> u * INR n <= / 32 /\ u <= / 32.
Proof.
  intros H. pose proof (INR_le1 n H) as H1. assert (u * INR n <= u * INR n * INR n) by (assert (0 <= u * INR n) by nra; nra).
  assert (u <= u * INR n) by nra. lra.
Qed.
(** accumulated time error *)
Lemma time_error k : (k <= n)%nat -> Rabs (time_at rnd dt k - INR k * dt) <= 2 * u * INR k * INR n * dt.
Proof.
  induction k as [|k IH]; intros Hk.
  - change (time_at rnd dt 0) with 0. cbn [INR]. replace (0 - 0 * dt) with 0 by ring. rewrite Rabs_R0. nra.
  - specialize (IH ltac:(lia)). rewrite time_S. rewrite S_INR. pose proof (INR_le1 n ltac:(lia)) as N1.
    pose proof (pos_INR k) as K0. assert (Kn : INR k + 1 <= INR n) by (rewrite <- S_INR; apply le_INR; lia).
    pose proof (Hr (time_at rnd dt k + dt)) as E. set (t := time_at rnd dt k) in *.
    destruct (un_small ltac:(lia)) as [U1 U2].
    assert (B : Rabs (t - INR k * dt) <= dt).
    { assert (u * INR k * INR n <= / 32); [|nra]. assert (0 <= u * INR n) by nra. assert (u * INR n * INR k <= u * INR n * INR n) by (apply Rmult_le_compat_l; lra). lra. }
    assert (T : Rabs (t + dt) <= (INR n + 1) * dt).
    { replace (t + dt) with ((t - INR k * dt) + (INR k + 1) * dt) by ring. eapply Rle_trans; [apply Rabs_triang|].
      rewrite (Rabs_pos_eq ((INR k + 1) * dt)) by nra. nra. }
    replace (rnd (t + dt) - (INR k + 1) * dt) with ((rnd (t + dt) - (t + dt)) + (t - INR k * dt)) by ring.
    eapply Rle_trans; [apply Rabs_triang|]. assert (u * Rabs (t + dt) <= u * ((INR n + 1) * dt)) by (apply Rmult_le_compat_l; lra).
    assert (0 <= u * INR n * dt) by (assert (0 <= u * INR n) by nra; nra). assert (u * dt <= u * INR n * dt) by (assert (0 <= u * dt) by nra; nra). nra.
Qed.
Lemma time_diff j k : (j < k)%nat -> (k <= n)%nat ->
  time_at rnd dt j < time_at rnd dt k /\ Rabs (rnd (rnd (time_at rnd dt k - time_at rnd dt j) / dt) - INR (k - j)) < / 2.
Proof.
  intros Hjk Hk. pose proof (time_error j ltac:(lia)) as Ej. pose proof (time_error k Hk) as Ek.
  rewrite minus_INR by lia. pose proof (INR_le1 n ltac:(lia)) as N1. destruct (un_small ltac:(lia)) as [U1 U2].
  assert (J0 := pos_INR j). assert (JK : INR j + 1 <= INR k) by (rewrite <- S_INR; apply le_INR; lia).
  assert (KN : INR k <= INR n) by (apply le_INR; lia).
  set (tj := time_at rnd dt j) in *. set (tk := time_at rnd dt k) in *. set (N := INR n) in *.
  assert (U0 : 0 <= u * N) by nra.
  assert (UK : u * INR k * N <= / 32) by (assert (u * N * INR k <= u * N * N) by (apply Rmult_le_compat_l; lra); lra).
  assert (UJ : u * INR j * N <= / 32) by (assert (u * N * INR j <= u * N * N) by (apply Rmult_le_compat_l; lra); lra).
  assert (Dk : Rabs (tk - INR k * dt) <= / 16 * dt) by nra. assert (Dj : Rabs (tj - INR j * dt) <= / 16 * dt) by nra.
  clear Ej Ek. set (x := tk - tj).
  assert (X : Rabs (x - (INR k - INR j) * dt) <= / 8 * dt).
  { replace (x - (INR k - INR j) * dt) with ((tk - INR k * dt) + - (tj - INR j * dt)) by (unfold x; ring).
    eapply Rle_trans; [apply Rabs_triang|]. rewrite Rabs_Ropp. lra. }
  split; [pose proof (Rle_abs (- (x - (INR k - INR j) * dt))) as X2; rewrite Rabs_Ropp in X2; assert (dt <= (INR k - INR j) * dt) by nra; unfold x in *; lra|].
  assert (AX : Rabs x <= (N + 1) * dt).
  { replace x with ((x - (INR k - INR j) * dt) + (INR k - INR j) * dt) by ring. eapply Rle_trans; [apply Rabs_triang|].
    rewrite (Rabs_pos_eq ((INR k - INR j) * dt)) by nra. nra. }
  pose proof (Hr x) as E1. set (y := rnd x) in *.
  assert (Y : Rabs (y - (INR k - INR j) * dt) <= (/ 8 + / 16) * dt).
  { replace (y - (INR k - INR j) * dt) with ((y - x) + (x - (INR k - INR j) * dt)) by ring. eapply Rle_trans; [apply Rabs_triang|].
    assert (u * Rabs x <= u * ((N + 1) * dt)) by (apply Rmult_le_compat_l; lra). nra. }
  assert (Z : Rabs (y / dt - (INR k - INR j)) <= / 8 + / 16).
  { replace (y / dt - (INR k - INR j)) with ((y - (INR k - INR j) * dt) / dt) by (field; lra).
    unfold Rdiv. rewrite Rabs_mult, (Rabs_pos_eq (/ dt)) by (left; apply Rinv_0_lt_compat, Hdt).
    apply (Rmult_le_reg_r dt); [exact Hdt|]. rewrite Rmult_assoc, Rinv_l by lra. lra. }
  assert (AZ : Rabs (y / dt) <= N + 1).
  { replace (y / dt) with ((y / dt - (INR k - INR j)) + (INR k - INR j)) by ring. eapply Rle_trans; [apply Rabs_triang|].
    rewrite (Rabs_pos_eq (INR k - INR j)) by lra. lra. }
  pose proof (Hr (y / dt)) as E2.
  replace (rnd (y / dt) - (INR k - INR j)) with ((rnd (y / dt) - y / dt) + (y / dt - (INR k - INR j))) by ring.
  eapply Rle_lt_trans; [apply Rabs_triang|]. assert (u * Rabs (y / dt) <= u * (N + 1)) by (apply Rmult_le_compat_l; lra). nra.
Qed.
Lemma passed j k interval : (j <= k)%nat -> (k <= n)%nat -> (Z.of_nat n < two64)%Z ->
  has_time_interval_passed rnd (time_at rnd dt k) (time_at rnd dt j) dt interval =
  Ok ((j <? k)%nat && (interval <=? Z.of_nat (k - j))%Z).
Proof.
  intros Hjk Hk H64. unfold has_time_interval_passed. destruct (Nat.ltb_spec j k) as [L|L].
  - destruct (time_diff j k L Hk) as [A B]. rewrite (Rltb_true _ _ A). cbn [negb].
    rewrite (round_away_unique _ (Z.of_nat (k - j))).
    + unfold to_u64. replace ((0 <=? Z.of_nat (k - j))%Z && (Z.of_nat (k - j) <? two64)%Z) with true by lia. reflexivity.
    + intros _. rewrite <- INR_IZR_INZ. apply Rabs_def2 in B. lra.
    + intros _. rewrite <- INR_IZR_INZ. apply Rabs_def2 in B. lra.
  - replace j with k by lia. rewrite Rltb_false by lra. reflexivity.
Qed.
End Rounding.

Section Sched.
Context {H O : Type} (rnd : R -> R) (u dt t_end : R) (interval : Z) (n : nat) (step : H -> H) (obs : H -> O) (h0 : H).
Hypothesis (Hdt : 0 < dt) (Hu : 0 <= u) (Hr : relative_rounding rnd u) (Hn : 32 * u * INR n * INR n <= 1)
  (H64 : (Z.of_nat n < two64)%Z) (Hi : (0 <= interval)%Z) (Hsteps : steps_until rnd dt t_end n).
Local Notation m := (Z.to_nat (Z.max 1 interval)).
Local Notation line := (fun k => (time_at rnd dt k, obs (times_applied step k h0))).
(** state when the loop condition is checked for the (k+1)-st time / after the measurement at step k *)
Definition st (k q : nat) : loop_state H O :=
  mkLoop (time_at rnd dt k) (time_at rnd dt (q * m)) (times_applied step k h0) (map line (map (fun q => q * m)%nat (seq 0 (q + 1)))).
Lemma measure_st k : (k <= n)%nat -> maybe_measure rnd obs dt interval (st k ((k - 1) / m)) = Ok (st k (k / m)).
Proof.
  intros Hk. assert (M1 : (1 <= m)%nat) by lia. unfold maybe_measure. remember (k / m)%nat as km eqn:Ekm. unfold st. cbn [ls_t ls_last ls_h ls_out]. subst km.
  destruct k as [|k].
  - change ((0 - 1) / m)%nat with (0 / m)%nat. rewrite !Nat.div_0_l by lia. change (0 * m)%nat with 0%nat. rewrite (passed rnd u dt n Hdt Hu Hr Hn 0 0 interval) by lia. reflexivity.
  - replace (S k - 1)%nat with k by lia. pose proof (Nat.div_mod k m ltac:(lia)) as Q. pose proof (Nat.mod_upper_bound k m ltac:(lia)) as Ub.
    set (q := (k / m)%nat) in *. set (r := (k mod m)%nat) in *.
    rewrite (passed rnd u dt n Hdt Hu Hr Hn (q * m) (S k) interval) by lia. cbn [obind].
    destruct (Nat.eq_dec (r + 1) m) as [E|E].
    + assert (D : (S k / m = q + 1)%nat) by (symmetry; apply (Nat.div_unique (S k) m (q + 1) 0); nia).
      replace (_ && _) with true by lia. rewrite D.
      assert (KK : ((q + 1) * m = S k)%nat) by nia.
      rewrite (seq_app (q + 1) 1), !map_app. cbn [seq map]. rewrite Nat.add_0_l, KK. reflexivity.
    + assert (D : (S k / m = q)%nat) by (symmetry; apply (Nat.div_unique (S k) m q (r + 1)); nia).
      replace (_ && _) with false by lia. rewrite D. reflexivity.
Qed.
Lemma loop_from i : forall k, (k + i = n)%nat ->
  time_loop rnd step obs dt t_end interval (S i) (st k ((k - 1) / m)) = Some (Ok (st n ((n - 1) / m))) /\
  (forall fuel, time_loop rnd step obs dt t_end interval (S i + fuel) (st k ((k - 1) / m)) = Some (Ok (st n ((n - 1) / m)))).
Proof.
  induction i as [|i IH]; intros k Hk.
  - replace k with n by lia. assert (F : Rltb (ls_t (st n ((n - 1) / m))) t_end = false) by (apply Rltb_false; exact (proj1 Hsteps)).
    split; intros; cbn [time_loop Nat.add]; rewrite F; reflexivity.
  - assert (F : Rltb (ls_t (st k ((k - 1) / m))) t_end = true) by (apply Rltb_true; apply (proj2 Hsteps); lia).
    destruct (IH (S k) ltac:(lia)) as [A B]. replace (S k - 1)%nat with k in A, B by lia.
    split; intros; cbn [time_loop Nat.add]; rewrite F, (measure_st k) by lia; [exact A|exact (B fuel)].
Qed.
End Sched.

(** C53: the program stops after the first n steps that reach the end time and writes exactly the
    lines of the steps 0, m, 2m, ..., where m is the measurement interval (at least 1), each with
    the observable of the state after that many integration steps -- for every rounding with
    relative error u as long as 32 u n^2 <= 1 (for double precision: 2^24 steps). *)
Theorem C53_schedule : forall (H O : Type) (rnd : R -> R) u dt t_end interval n (step : H -> H) (obs : H -> O) h0,
  0 < dt -> 0 <= u -> relative_rounding rnd u -> 32 * u * INR n * INR n <= 1 ->
  (Z.of_nat n < two64)%Z -> (0 <= interval)%Z -> steps_until rnd dt t_end n ->
  exists s, terminates_with (program rnd step obs dt t_end interval h0) (Ok s) /\
    ls_t s = time_at rnd dt n /\ ls_h s = times_applied step n h0 /\
    ls_out s = map (fun k => (time_at rnd dt k, obs (times_applied step k h0))) (schedule (Z.to_nat (Z.max 1 interval)) n).
Proof.
  intros H O rnd u dt t_end interval n step obs h0 Hdt Hu Hr Hn H64 Hi Hs.
  exists (st rnd dt interval step obs h0 n (n / Z.to_nat (Z.max 1 interval))). split; [|repeat split].
  exists (S n). intros fuel Hf. unfold program.
  assert (E : mkLoop 0 0 h0 [(0, obs h0)] = st rnd dt interval step obs h0 0 ((0 - 1) / Z.to_nat (Z.max 1 interval))).
  { change (0 - 1)%nat with 0%nat. rewrite Nat.div_0_l by lia. reflexivity. }
  rewrite E. replace fuel with (S n + (fuel - S n))%nat by lia.
  rewrite (proj2 (loop_from rnd u dt t_end interval n step obs h0 Hdt Hu Hr Hn H64 Hi Hs n 0%nat ltac:(lia)) (fuel - S n)%nat).
  rewrite (measure_st rnd u dt interval n step obs h0) by (assumption || lia). reflexivity.
Qed.

Lemma exact_rounding : relative_rounding (fun x => x) 0.
Proof. intros x. replace (x - x) with 0 by ring. rewrite Rabs_R0. lra. Qed.
Lemma exact_time dt k : time_at (fun x => x) dt k = INR k * dt.
Proof. induction k as [|k IH]; [cbn; unfold time_at; cbn; ring|]. rewrite time_S, IH, S_INR. ring. Qed.

(** In exact arithmetic: ceil(t_end/dt) steps, measurements at the multiples of m*dt up to the
    final time. *)
Theorem C53_exact : forall (H O : Type) dt t_end interval n (step : H -> H) (obs : H -> O) h0,
  0 < dt -> (Z.of_nat n < two64)%Z -> (0 <= interval)%Z -> t_end <= INR n * dt < t_end + dt \/ (n = 0%nat /\ t_end <= 0) ->
  exists s, terminates_with (program (fun x => x) step obs dt t_end interval h0) (Ok s) /\
    ls_t s = INR n * dt /\ ls_h s = times_applied step n h0 /\
    ls_out s = map (fun k => (INR k * dt, obs (times_applied step k h0))) (schedule (Z.to_nat (Z.max 1 interval)) n).
Proof.
  intros H O dt t_end interval n step obs h0 Hdt H64 Hi Hn.
  destruct (C53_schedule H O (fun x => x) 0 dt t_end interval n step obs h0) as (s & T & A & B & C); try assumption; try lra.
  - exact exact_rounding.
  - split; [rewrite exact_time; destruct Hn as [Hn|[-> Hn]]; [lra|cbn; lra]|]. intros k Hk. rewrite exact_time.
    destruct Hn as [Hn|[-> _]]; [|lia]. assert (INR k + 1 <= INR n) by (rewrite <- S_INR; apply le_INR; lia). nra.
  - exists s. split; [exact T|]. rewrite A, exact_time. split; [reflexivity|]. split; [exact B|]. rewrite C. apply map_ext. intros k. rewrite exact_time. reflexivity.
Qed.

(** The expected times are spaced by the interval, the last one is the last multiple. *)
Theorem C53_times : forall m n, (1 <= m)%nat ->
  nth_error (schedule m n) 0 = Some 0%nat /\
  (forall k, In k (schedule m n) <-> (k <= n)%nat /\ Nat.divide m k) /\
  (forall q a b, nth_error (schedule m n) q = Some a -> nth_error (schedule m n) (S q) = Some b -> (b = a + m)%nat).
Proof.
  intros m n Hm. unfold schedule. split; [|split].
  - rewrite Nat.add_comm. reflexivity.
  - intros k. rewrite in_map_iff. split.
    + intros (q & <- & Hq). apply in_seq in Hq. split; [|exists q; reflexivity].
      pose proof (Nat.mul_div_le n m ltac:(lia)). nia.
    + intros [L [q ->]]. exists q. split; [reflexivity|]. apply in_seq. split; [lia|].
      assert (q <= n / m)%nat by (apply Nat.div_le_lower_bound; lia). lia.
  - intros q a b Ha Hb. rewrite nth_error_map in Ha, Hb.
    assert (N : forall i x, nth_error (seq 0 (n / m + 1)) i = Some x -> x = i).
    { intros i x Hx. assert (L : (i < length (seq 0 (n / m + 1)))%nat) by (apply nth_error_Some; congruence). rewrite seq_length in L.
      apply (nth_error_nth _ _ 0%nat) in Hx. rewrite seq_nth in Hx by lia. lia. }
    destruct (nth_error (seq 0 (n / m + 1)) q) as [x|] eqn:E1; [|discriminate]. destruct (nth_error (seq 0 (n / m + 1)) (S q)) as [y|] eqn:E2; [|discriminate].
    cbn in Ha, Hb. injection Ha as <-. injection Hb as <-. rewrite (N _ _ E1), (N _ _ E2). lia.
Qed.

(** Defects: the final state is not measured unless the interval divides the number of steps, and
    with a step size that is not positive the program never ends. *)
Theorem C53_end_refuted : forall (H O : Type) dt t_end interval n (step : H -> H) (obs : H -> O) h0,
  0 < dt -> (Z.of_nat n < two64)%Z -> (0 <= interval)%Z -> t_end <= INR n * dt < t_end + dt ->
  ~ Nat.divide (Z.to_nat (Z.max 1 interval)) n ->
  exists s, terminates_with (program (fun x => x) step obs dt t_end interval h0) (Ok s) /\
    ls_t s = INR n * dt /\ Forall (fun line => fst line < ls_t s) (ls_out s).
Proof.
  intros H O dt t_end interval n step obs h0 Hdt H64 Hi Hn Hd.
  destruct (C53_exact H O dt t_end interval n step obs h0 Hdt H64 Hi (or_introl Hn)) as (s & T & A & B & C).
  exists s. split; [exact T|]. split; [exact A|]. rewrite A, C. apply Forall_forall. intros l Hl. apply in_map_iff in Hl as (k & <- & Hk).
  apply (C53_times (Z.to_nat (Z.max 1 interval)) n ltac:(lia)) in Hk as [L D]. cbn [fst]. assert (k <> n) by (intros ->; contradiction).
  apply Rmult_lt_compat_r; [exact Hdt|]. apply lt_INR. lia.
Qed.
Theorem C53_nontermination_refuted : forall (H O : Type) dt t_end interval (step : H -> H) (obs : H -> O) h0 fuel,
  dt <= 0 -> 0 < t_end -> program (fun x => x) step obs dt t_end interval h0 fuel = None.
Proof.
  intros H O dt t_end interval step obs h0 fuel Hdt Ht. unfold program.
  assert (G : forall fl s, ls_t s <= 0 -> ls_last s = 0 -> time_loop (fun x => x) step obs dt t_end interval fl s = None).
  { induction fl as [|f IH]; intros s Hs Hl; [reflexivity|]. cbn [time_loop]. rewrite Rltb_true by lra.
    unfold maybe_measure, has_time_interval_passed. rewrite Hl, Rltb_false by lra. cbn [negb obind]. apply IH; cbn [ls_t ls_last]; [lra|exact Hl]. }
  rewrite G; [reflexivity|cbn; lra|reflexivity].
Qed.
(** has_time_interval_passed is false for t <= last and monotone in t (exact arithmetic) *)
Theorem C53_passed : forall t last dt interval, 0 < dt ->
  (t <= last -> has_time_interval_passed (fun x => x) t last dt interval = Ok false) /\
  (forall t', t <= t' -> (t' - last) / dt + 1 <= IZR two64 ->
    has_time_interval_passed (fun x => x) t last dt interval = Ok true ->
    has_time_interval_passed (fun x => x) t' last dt interval = Ok true).
Proof.
  intros t last dt interval Hdt. split.
  - intros L. unfold has_time_interval_passed. rewrite Rltb_false by lra. reflexivity.
  - intros t' L B. unfold has_time_interval_passed, obind. destruct (Rlt_dec last t) as [A|A]; [|rewrite Rltb_false by lra; discriminate].
    rewrite !Rltb_true by lra. cbn [negb]. unfold to_u64.
    assert (M : (t - last) / dt <= (t' - last) / dt) by (apply Rmult_le_compat_r; [left; apply Rinv_0_lt_compat, Hdt|lra]).
    assert (P : 0 <= (t - last) / dt) by (apply Rmult_le_pos; [lra|left; apply Rinv_0_lt_compat, Hdt]).
    pose proof (round_away_near ((t - last) / dt)) as N1. pose proof (round_away_near ((t' - last) / dt)) as N2.
    set (a := (t - last) / dt) in *. set (b := (t' - last) / dt) in *.
    assert (R1 : (round_away a <= round_away b)%Z).
    { unfold round_away. destruct (Rle_dec 0 a), (Rle_dec 0 b); try lra.
      destruct (base_Int_part (a + / 2)) as [I1 I2]. destruct (base_Int_part (b + / 2)) as [I3 I4].
      apply Zlt_succ_le. apply lt_IZR. rewrite succ_IZR. lra. }
    assert (R2 : (round_away b < two64)%Z) by (apply lt_IZR; lra).
    destruct ((0 <=? round_away a)%Z && (round_away a <? two64)%Z) eqn:E; [|discriminate]. intros Q. injection Q as Q.
    replace ((0 <=? round_away b)%Z && (round_away b <? two64)%Z) with true by lia. f_equal. lia.
Qed.
(** ** Non-vacuity *)
Example ex_schedule : schedule 3 10 = [0; 3; 6; 9]%nat.
Proof. reflexivity. Qed.
Example ex_run : exists s, terminates_with (program (fun x => x) S (fun h => h) (1/2) 2 3 0%nat) (Ok s) /\ map snd (ls_out s) = [0; 3]%nat.
Proof.
  destruct (C53_exact nat nat (1/2) 2 3 4 S (fun h => h) 0%nat) as (s & T & _ & _ & C); [lra|reflexivity|lia|left; cbn; lra|].
  exists s. split; [exact T|]. rewrite C. reflexivity.
Qed.
Print Assumptions C53_schedule.
