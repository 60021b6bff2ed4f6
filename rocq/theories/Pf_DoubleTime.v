(** PROOFS for C94: the time loop in double precision. *)
From Coq Require Import Reals Lra Psatz List ZArith Lia.
From Flocq Require Import Core Relative.
From Verif Require Import Base M_Matrix M_LatticeReal Spec_LatticeReal M_Number M_TimeLoop Spec_TimeLoop P_TimeLoop M_Rounding M_Double Pf_Double P_Rounding.
Local Open Scope R_scope.
Local Open Scope list_scope.

(** ** two roundings that agree on the values the loop computes *)
Section Agree.
  Context {H O : Type} (rnd rnd' : R -> R) (step : H -> H) (obs : H -> O) (dt t_end : R) (interval : Z) (n : nat).
  Hypothesis Hadd : forall k, (k < n)%nat -> rnd' (time_at rnd dt k + dt) = rnd (time_at rnd dt k + dt).
  Hypothesis Hsub : forall j k, (j < k <= n)%nat -> rnd' (time_at rnd dt k - time_at rnd dt j) = rnd (time_at rnd dt k - time_at rnd dt j).
  Hypothesis Hdiv : forall j k, (j < k <= n)%nat -> rnd' (rnd (time_at rnd dt k - time_at rnd dt j) / dt) = rnd (rnd (time_at rnd dt k - time_at rnd dt j) / dt).
  Hypothesis Hend : t_end <= time_at rnd dt n.
  Lemma passed_agree j k : (j <= k <= n)%nat ->
    has_time_interval_passed rnd' (time_at rnd dt k) (time_at rnd dt j) dt interval = has_time_interval_passed rnd (time_at rnd dt k) (time_at rnd dt j) dt interval.
  Proof.
    intros Hjk. unfold has_time_interval_passed. destruct (Rltb (time_at rnd dt j) (time_at rnd dt k)) eqn:L; [|reflexivity].
    assert (j < k)%nat.
    { destruct (Nat.eq_dec j k) as [->|]; [|lia]. unfold Rltb in L. destruct (Rlt_dec _ _); [lra|discriminate]. }
    cbn [negb]. rewrite Hsub, Hdiv by lia. reflexivity.
  Qed.
  Lemma measure_agree k j (s : loop_state H O) : (j <= k <= n)%nat -> ls_t s = time_at rnd dt k -> ls_last s = time_at rnd dt j ->
    maybe_measure rnd' obs dt interval s = maybe_measure rnd obs dt interval s.
  Proof. intros Hjk E1 E2. unfold maybe_measure. rewrite E1, E2, passed_agree by exact Hjk. reflexivity. Qed.
  Lemma loop_agree fuel : forall k j (s : loop_state H O), (j <= k <= n)%nat -> ls_t s = time_at rnd dt k -> ls_last s = time_at rnd dt j ->
    time_loop rnd' step obs dt t_end interval fuel s = time_loop rnd step obs dt t_end interval fuel s /\
    forall s', time_loop rnd step obs dt t_end interval fuel s = Some (Ok s') -> exists k' j', (j' <= k' <= n)%nat /\ ls_t s' = time_at rnd dt k' /\ ls_last s' = time_at rnd dt j'.
  Proof.
    induction fuel as [|fuel IH]; intros k j s Hjk E1 E2; cbn [time_loop]; [split; [reflexivity|discriminate]|].
    destruct (Rltb (ls_t s) t_end) eqn:L.
    2:{ split; [reflexivity|]. intros s' E. injection E as <-. exists k, j. auto. }
    assert (k < n)%nat.
    { destruct (Nat.eq_dec k n) as [->|]; [|lia]. rewrite E1 in L. rewrite Rltb_false in L by exact Hend. discriminate. }
    rewrite (measure_agree k j s Hjk E1 E2).
    assert (M : forall s1, maybe_measure rnd obs dt interval s = Ok s1 -> ls_t s1 = time_at rnd dt k /\ exists j', (j' <= k)%nat /\ ls_last s1 = time_at rnd dt j').
    { unfold maybe_measure. intros s1. destruct (has_time_interval_passed _ _ _ _ _) as [[|]|]; cbn [obind]; intros E; [|injection E as <-|discriminate].
      - injection E as <-. cbn [ls_t ls_last]. split; [exact E1|]. exists k. split; [lia|exact E1].
      - split; [exact E1|]. exists j. split; [lia|exact E2]. }
    destruct (maybe_measure rnd obs dt interval s) as [s1|]; [|split; [reflexivity|discriminate]].
    destruct (M s1 eq_refl) as (T1 & j' & Hj' & T2). rewrite T1. rewrite Hadd by lia.
    apply (IH (S k) j'); [lia|reflexivity|exact T2].
  Qed.
  Lemma program_agree h0 fuel : program rnd' step obs dt t_end interval h0 fuel = program rnd step obs dt t_end interval h0 fuel.
  Proof.
    unfold program. destruct (loop_agree fuel 0 0 (mkLoop 0 0 h0 [(0, obs h0)]) ltac:(lia) eq_refl eq_refl) as [E F]. rewrite E.
    destruct (time_loop rnd step obs dt t_end interval fuel _) as [[s|]|]; [|reflexivity|reflexivity].
    destruct (F s eq_refl) as (k & j & Hjk & E1 & E2). rewrite (measure_agree k j s Hjk E1 E2). reflexivity.
  Qed.
End Agree.

(** ** rounding to double, with a relative error everywhere: without underflow and overflow *)
Definition rel_double (x : R) : R :=
  if Rle_dec (bpow radix2 (-1022)) (Rabs x) then if Rle_dec (Rabs x) (bpow radix2 1023) then round_double x else x else x.
Lemma rel_double_rel : relative_rounding rel_double (/ 2 ^ 53).
Proof.
  intros x. unfold rel_double. assert (Z0 : Rabs (x - x) <= / 2 ^ 53 * Rabs x).
  { replace (x - x) with 0 by ring. rewrite Rabs_R0. apply Rmult_le_pos; [apply Rlt_le, Rinv_0_lt_compat, pow_lt; lra|apply Rabs_pos]. }
  destruct (Rle_dec _ _) as [L|_]; [|exact Z0]. destruct (Rle_dec _ _) as [_|_]; [|exact Z0].
  eapply Rle_trans; [apply (relative_error_N_FLT radix2 (-1074) 53 ltac:(lia)); exact L|].
  apply Rmult_le_compat_r; [apply Rabs_pos|]. apply Req_le. rewrite <- (bm 53). change (/ 2) with (bpow radix2 (-1)). rewrite <- bpow_plus. reflexivity.
Qed.
Lemma rel_agree garbage x : bpow radix2 (-1022) <= Rabs x <= bpow radix2 1023 -> to_double garbage x = rel_double x.
Proof.
  intros [L U]. rewrite double_round by exact U. unfold rel_double. destruct (Rle_dec _ _) as [_|N]; [|contradiction]. destruct (Rle_dec _ _) as [_|N]; [reflexivity|contradiction].
Qed.

Section Double.
  Context (garbage : R -> R) (dt : R) (n : nat).
  Hypothesis Hdt : / 2 ^ 1000 <= dt <= 2 ^ 100.
  Hypothesis Hn : INR n <= 2 ^ 24.
  Notation t k := (time_at rel_double dt k).
  Notation u := (/ 2 ^ 53).
  Lemma dt_pos : 0 < dt.
  Proof. assert (0 < / 2 ^ 1000) by (apply Rinv_0_lt_compat, pow_lt; lra). lra. Qed.
  Lemma u_pos : 0 <= u.
  Proof. apply Rlt_le, Rinv_0_lt_compat, pow_lt. lra. Qed.
  Lemma steps_small : 32 * u * INR n * INR n <= 1.
  Proof.
    pose proof u_pos. pose proof (pos_INR n). apply Rle_trans with (32 * u * 2 ^ 24 * 2 ^ 24); [|lra].
    apply Rmult_le_compat; [|assumption| |assumption]; [apply Rmult_le_pos; [lra|assumption]|]. apply Rmult_le_compat_l; [lra|assumption].
  Qed.
  Lemma t_near k : (k <= n)%nat -> Rabs (t k - INR k * dt) <= dt / 16.
  Proof.
    intros Hk. pose proof dt_pos. pose proof (time_error rel_double u dt n dt_pos u_pos rel_double_rel steps_small k Hk) as E. eapply Rle_trans; [exact E|].
    pose proof (pos_INR k). pose proof u_pos. apply le_INR in Hk. pose proof steps_small.
    assert (2 * u * INR k * INR n <= 2 * u * INR n * INR n).
    { apply Rmult_le_compat_r; [apply pos_INR|]. apply Rmult_le_compat_l; lra. }
    replace (dt / 16) with (/ 16 * dt) by field. apply Rmult_le_compat_r; lra.
  Qed.
  Lemma range x : dt / 8 <= x <= 2 ^ 900 -> bpow radix2 (-1022) <= Rabs x <= bpow radix2 1023.
  Proof.
    intros [L U]. pose proof dt_pos. rewrite Rabs_pos_eq by lra. split.
    - apply Rle_trans with (dt / 8); [|exact L]. apply Rle_trans with (/ 2 ^ 1000 / 8); [|lra].
      rewrite <- (bm 1000). replace (bpow radix2 (- Z.of_nat 1000) / 8) with (bpow radix2 (-1003)).
      + apply bpow_le. lia.
      + change (-1003)%Z with (- Z.of_nat 1000 + -3)%Z. rewrite bpow_plus. cbn [bpow Z.pow_pos Pos.iter radix_val radix2 Z.mul]. unfold Rdiv. f_equal.
    - apply Rle_trans with (2 ^ 900); [exact U|]. rewrite <- (bp 900). apply bpow_le. lia.
  Qed.
  Lemma range1 x : / 8 <= x <= 2 ^ 900 -> bpow radix2 (-1022) <= Rabs x <= bpow radix2 1023.
  Proof.
    intros [L U]. rewrite Rabs_pos_eq by lra. split.
    - apply Rle_trans with (bpow radix2 (-3)); [apply bpow_le; lia|]. cbn. lra.
    - apply Rle_trans with (2 ^ 900); [exact U|]. rewrite <- (bp 900). apply bpow_le. lia.
  Qed.
  Lemma big_enough : 4 * 2 ^ 24 * 2 ^ 100 <= 2 ^ 900.
  Proof. replace (4 * 2 ^ 24 * 2 ^ 100) with (2 ^ 126) by ring. apply Rle_pow; [lra|lia]. Qed.
  Lemma agree_add k : (k < n)%nat -> to_double garbage (t k + dt) = rel_double (t k + dt).
  Proof.
    intros Hk. apply rel_agree, range. pose proof dt_pos. pose proof (t_near k ltac:(lia)) as E. apply Rabs_le_inv in E. pose proof (pos_INR k).
    assert (INR k + 1 <= INR n) by (rewrite <- S_INR; apply le_INR; lia). pose proof big_enough. nra.
  Qed.
  Lemma diff_near j k : (j < k <= n)%nat -> 7 / 8 * dt <= t k - t j <= 2 * 2 ^ 24 * dt.
  Proof.
    intros Hjk. pose proof dt_pos. pose proof (t_near k ltac:(lia)) as E. pose proof (t_near j ltac:(lia)) as E'. apply Rabs_le_inv in E, E'. pose proof (pos_INR j).
    assert (INR j + 1 <= INR k) by (rewrite <- S_INR; apply le_INR; lia). assert (INR k <= INR n) by (apply le_INR; lia). split; nra.
  Qed.
  Lemma agree_sub j k : (j < k <= n)%nat -> to_double garbage (t k - t j) = rel_double (t k - t j).
  Proof.
    intros Hjk. apply rel_agree, range. pose proof dt_pos. pose proof (diff_near j k Hjk). pose proof big_enough. nra.
  Qed.
  Lemma agree_div j k : (j < k <= n)%nat -> to_double garbage (rel_double (t k - t j) / dt) = rel_double (rel_double (t k - t j) / dt).
  Proof.
    intros Hjk. apply rel_agree, range1. pose proof dt_pos. pose proof (diff_near j k Hjk) as [A B]. pose proof (rel_double_rel (t k - t j)) as E.
    rewrite (Rabs_pos_eq (t k - t j)) in E by lra. apply Rabs_le_inv in E. pose proof u_pos. assert (u <= / 8) by lra.
    set (x := t k - t j) in *. assert (u * x <= / 8 * x) by (apply Rmult_le_compat_r; lra).
    assert (C : 3 / 4 * dt <= rel_double x <= 4 * 2 ^ 24 * dt) by lra. pose proof big_enough as BE. split.
    - apply Rle_trans with (3 / 4 * dt / dt); [replace (3 / 4 * dt / dt) with (3 / 4) by (field; lra); lra|]. apply Rmult_le_compat_r; [apply Rlt_le, Rinv_0_lt_compat; lra|lra].
    - apply Rle_trans with (4 * 2 ^ 24 * dt / dt); [apply Rmult_le_compat_r; [apply Rlt_le, Rinv_0_lt_compat; lra|lra]|].
      replace (4 * 2 ^ 24 * dt / dt) with (4 * 2 ^ 24) by (field; lra). lra.
  Qed.
  Lemma time_double k : (k <= n)%nat -> time_at (to_double garbage) dt k = t k.
  Proof.
    induction k as [|k IH]; intros Hk; [reflexivity|]. rewrite !time_S, IH by lia. apply agree_add. lia.
  Qed.
  Lemma steps_double t_end : steps_until (to_double garbage) dt t_end n -> steps_until rel_double dt t_end n.
  Proof.
    intros [A B]. split; [rewrite <- time_double by lia; exact A|]. intros k Hk. rewrite <- time_double by lia. apply B. exact Hk.
  Qed.
  Lemma program_double {H O} (step : H -> H) (obs : H -> O) t_end interval h0 fuel : steps_until (to_double garbage) dt t_end n ->
    program (to_double garbage) step obs dt t_end interval h0 fuel = program rel_double step obs dt t_end interval h0 fuel.
  Proof.
    intros St. apply steps_double in St. apply (program_agree rel_double (to_double garbage) step obs dt t_end interval n).
    - apply agree_add.
    - apply agree_sub.
    - apply agree_div.
    - apply (Logic.proj1 St).
  Qed.
End Double.
