(** THEOREMS: C51, C52 (RK4), C65 (norm drift of a step). *)
From Coq Require Import Sorting.Sorted.
From Verif Require Import Base M_Matrix M_MatrixCheck M_Ode Spec_Lattice Spec_Matrix Spec_Ode Pf_Matrix Pf_Trace Pf_Ode.
Local Open Scope Z_scope.
Local Open Scope list_scope.

Section S.
Context (K : StarRing).
Add Ring KringPOde : (rth K).
Local Open Scope ring_scope_.
Local Notation len u := (Z.of_nat (length u)).
Implicit Types (u v : list K) (rk : rk4 K) (st : statics K).

(** 24 step(u) = 24 u + 24 h M u + 12 h^2 M^2 u + 4 h^3 M^3 u + h^4 M^4 u *)
Theorem C51_taylor : forall (half sixth : K) n mul rk st u,
  half + half = 1 -> sixth + sixth + sixth + sixth + sixth + sixth = 1 -> linear_on n mul -> len u = n ->
  let u' := snd (rk_step half sixth rk mul st u) in let h := rk_step_size rk in
  len u' = n /\
  forall i, num 24 * vget u' i =
    num 24 * vget u i + num 24 * hpow h 1 * vget (mpow mul 1 u) i + num 12 * hpow h 2 * vget (mpow mul 2 u) i
    + num 4 * hpow h 3 * vget (mpow mul 3 u) i + hpow h 4 * vget (mpow mul 4 u) i.
Proof.
  intros half sixth n mul rk st u Hh Hs Hl L u' h.
  pose proof (step_value n mul Hl half sixth Hh Hs rk st u L) as V. cbv zeta in V. fold u' in V.
  pose proof (mpow_length n mul Hl) as ML.
  split; [apply (step_length n mul Hl half sixth Hh Hs rk st u L)|].
  intros i. rewrite V.
  assert (E : h = num 6 * (rk_step_size rk * sixth)).
  { unfold h. replace (num 6 * (rk_step_size rk * sixth)) with (rk_step_size rk * (sixth + sixth + sixth + sixth + sixth + sixth)) by (cbn [num]; ring).
    rewrite Hs. ring. }
  rewrite E. generalize (rk_step_size rk * sixth) as w. intros w.
  vexp n Hl.
  cbn [mpow num hpow]. ring.
Qed.
(** Earlier calls leave no trace: the static vectors do not influence the result. *)
Theorem C51_history_free : forall (half sixth : K) mul rk st st' u,
  rk_step half sixth rk mul st u = rk_step half sixth rk mul st' u.
Proof. reflexivity. Qed.
Theorem C51_linear : forall (half sixth : K) n mul rk st u v a b,
  half + half = 1 -> sixth + sixth + sixth + sixth + sixth + sixth = 1 -> linear_on n mul -> len u = n -> len v = n ->
  let step x := snd (rk_step half sixth rk mul st x) in
  step (vadd (vscale a u) (vscale b v)) = vadd (vscale a (step u)) (vscale b (step v)) /\
  step (mul u) = mul (step u).
Proof.
  intros half sixth n mul rk st u v a b Hh Hs Hl Lu Lv step.
  pose proof (mpow_length n mul Hl) as ML. pose proof (mul_length n mul Hl u Lu) as Lm.
  assert (Lc : len (vadd (vscale a u) (vscale b v)) = n) by (rewrite vadd_length; rewrite !vscale_length; lia).
  assert (SV : forall x, len x = n -> _) by (intros x Lx; exact (step_value n mul Hl half sixth Hh Hs rk st x Lx)). cbv zeta in SV.
  assert (SL : forall x, len x = n -> len (step x) = n) by (intros x Lx; apply (step_length n mul Hl half sixth Hh Hs rk st x Lx)).
  split.
  - apply vget_ext.
    + rewrite SL by exact Lc. rewrite vadd_length; rewrite !vscale_length; rewrite !SL by assumption; lia.
    + intros i _. unfold step. rewrite !SV by assumption. rewrite !(mpow_add n mul Hl) by (rewrite vscale_length; assumption). rewrite !(mpow_scale n mul Hl) by assumption.
      vexp n Hl.
      ring.
  - apply vget_ext.
    + rewrite SL by exact Lm. rewrite (mul_length n mul Hl); [reflexivity|]. apply SL, Lu.
    + intros i _. unfold step. rewrite !SV by assumption. rewrite !mpow_mul.
      repeat first [rewrite (mul_add n mul Hl) by (vlen Hl) | rewrite (mul_scale n mul Hl) by (vlen Hl)]. reflexivity.
Qed.

(** n steps, whatever the buffers hold in between, are the n-th iterate of one linear map. *)
Fixpoint run_steps (half sixth : K) rk (mul : list K -> list K) (sts : list (statics K)) u : list K :=
  match sts with
  | [] => u
  | st :: sts' => run_steps half sixth rk mul sts' (snd (rk_step half sixth rk mul st u))
  end.
Theorem C51_n_steps : forall (half sixth : K) n mul rk sts u v a b,
  half + half = 1 -> sixth + sixth + sixth + sixth + sixth + sixth = 1 -> linear_on n mul -> len u = n -> len v = n ->
  let run x := run_steps half sixth rk mul sts x in
  len (run u) = n /\
  run (vadd (vscale a u) (vscale b v)) = vadd (vscale a (run u)) (vscale b (run v)) /\
  (forall st, run u = mpow (fun x => snd (rk_step half sixth rk mul st x)) (length sts) u).
Proof.
  intros half sixth n mul rk sts u v a b Hh Hs Hl. revert u v. induction sts as [|st sts IH]; intros u v Lu Lv; cbn [run_steps].
  - repeat split; auto.
  - pose proof (step_length n mul Hl half sixth Hh Hs rk st) as SL.
    destruct (IH _ _ (SL u Lu) (SL v Lv)) as (I1 & I2 & I3). cbv zeta in *. split; [exact I1|]. split.
    + rewrite (proj1 (C51_linear half sixth n mul rk st u v a b Hh Hs Hl Lu Lv)). exact I2.
    + intros st'. rewrite I3 with (st := st'). rewrite (C51_history_free half sixth mul rk st st' u). cbn [length].
      generalize (length sts). induction n0 as [|k IHk]; [reflexivity|]. cbn [mpow] in *. rewrite IHk. reflexivity.
Qed.

(** The products the library provides are linear maps: dense n x n matrices and finished
    sparse matrices (C32, C35). *)
Lemma dense_linear n (m : matrix K) : m_rows m = n -> m_cols m = n -> (0 <= n)%Z -> linear_on n (mat_vec m).
Proof.
  intros Hr Hc Hn. exists (m_at m). intros u Lu. unfold mat_vec. rewrite map_length, zrange_length, Hr. split; [lia|].
  intros i Hi. unfold vget at 1. rewrite nth_zrange_map by exact Hi. rewrite Hc. reflexivity.
Qed.
Lemma zrange_nodup n : NoDup (zrange 0 n).
Proof. unfold zrange. apply FinFun.Injective_map_NoDup; [intros x y H; lia|apply seq_NoDup]. Qed.
Lemma sparse_linear n (m : bmat K) : well_formed m n ->
  forall u, len u = n -> len (sp_vec m u) = n /\
    forall i, (0 <= i < n)%Z -> vget (sp_vec m u) i = sum_over (fun j => entry m i j * vget u j) (zrange 0 n).
Proof.
  intros (_ & Ln & _ & Hrows & _) u Lu. unfold sp_vec. rewrite map_length. split; [exact Ln|].
  intros i Hi. unfold vget at 1.
  pose proof (map_nth (fun row => sum_over (fun e => snd e * vget u (fst e)) row) (bm_done m) [] (Z.to_nat i)) as Q.
  rewrite sum_over_nil in Q. rewrite Q. clear Q. fold (row_of m i).
  assert (Hr : Forall (fun e => site n (fst e)) (row_of m i)).
  { unfold row_of. rewrite Forall_forall in Hrows. apply (Hrows (nth (Z.to_nat i) (bm_done m) [])). apply nth_In. lia. }
  unfold entry. induction Hr as [|e l He Hl IH].
  - cbn [filter]. rewrite !sum_over_nil. symmetry. apply sum_over_zero. intros j _. ring.
  - rewrite sum_over_cons, IH.
    replace (snd e * vget u (fst e)) with (sum_over (fun j => if Z.eqb j (fst e) then snd e * vget u j else 0) (zrange 0 n)).
    + rewrite <- sum_over_add. apply sum_over_ext. intros j _. cbn [filter]. rewrite Z.eqb_sym.
      destruct (Z.eqb_spec (fst e) j); [rewrite sum_over_cons|]; ring.
    + apply (sum_pick Z.eqb Z.eqb_eq (fun j => snd e * vget u j)); [apply zrange_nodup|]. apply zrange_in. exact He.
Qed.

(** ** C65: how a step changes the norm when the generator is anti-hermitian *)
Lemma conj_num k : kconj (num (K := K) k) = num k.
Proof. induction k; cbn [num]; [apply conj_0|]. rewrite conj_add, conj_1, IHk. reflexivity. Qed.
Lemma conj_hpow (h : K) k : kconj h = h -> kconj (hpow h k) = hpow h k.
Proof. intros H. induction k; cbn [hpow]; [apply conj_1|]. rewrite conj_mul, H, IHk. reflexivity. Qed.
(** [mul] is the product with the n x n matrix A *)
Definition acts_as n (A : Z -> Z -> K) (mul : list K -> list K) : Prop :=
  forall u, len u = n -> len (mul u) = n /\
    forall i, (0 <= i < n)%Z -> vget (mul u) i = sum_over (fun j => A i j * vget u j) (zrange 0 n).
Definition anti_hermitian n (A : Z -> Z -> K) : Prop :=
  forall i j, (0 <= i < n)%Z -> (0 <= j < n)%Z -> kconj (A i j) = - A j i.
Lemma inner_skew n A mul : acts_as n A mul -> anti_hermitian n A -> forall x y, len x = n -> len y = n ->
  inner (mul x) y = - inner x (mul y).
Proof.
  intros HA Hs x y Lx Ly. unfold inner. destruct (HA x Lx) as [L1 E1]. destruct (HA y Ly) as [L2 E2]. rewrite L1, Lx.
  rewrite (sum_over_ext _ (fun i => kconj (vget (mul x) i) * vget y i) (fun i => sum_over (fun j => - (A j i * kconj (vget x j) * vget y i)) (zrange 0 n))).
  2:{ intros i Hi. apply zrange_in in Hi. rewrite E1 by exact Hi. rewrite conj_sum_over, <- sum_over_mul_r. apply sum_over_ext. intros j Hj. apply zrange_in in Hj.
      rewrite conj_mul, Hs by assumption. ring. }
  rewrite sum_over_swap. rewrite <- sum_over_opp. apply sum_over_ext. intros j Hj. apply zrange_in in Hj. rewrite E2 by exact Hj.
  rewrite sum_over_opp, <- sum_over_mul_l. f_equal. apply sum_over_ext. intros i _. ring.
Qed.
Theorem C65_norm_drift : forall (half sixth : K) n A mul rk st u,
  half + half = 1 -> sixth + sixth + sixth + sixth + sixth + sixth = 1 ->
  acts_as n A mul -> anti_hermitian n A -> kconj (rk_step_size rk) = rk_step_size rk -> len u = n ->
  let u' := snd (rk_step half sixth rk mul st u) in let h := rk_step_size rk in
  num 24 * num 24 * inner u' u' + num 8 * hpow h 6 * inner (mpow mul 3 u) (mpow mul 3 u) =
  num 24 * num 24 * inner u u + hpow h 8 * inner (mpow mul 4 u) (mpow mul 4 u).
Proof.
  intros half sixth n A mul rk st u Hh Hs HA Hanti Hreal L u' h. assert (Hl : linear_on n mul) by (exists A; exact HA).
  destruct (C51_taylor half sixth n mul rk st u Hh Hs Hl L) as [Lu' T]. cbv zeta in T. fold u' h in T, Lu'.
  assert (E : vscale (num 24) u' =
    vadd (vscale (num 24) u) (vadd (vscale (num 24 * hpow h 1) (mpow mul 1 u)) (vadd (vscale (num 12 * hpow h 2) (mpow mul 2 u))
      (vadd (vscale (num 4 * hpow h 3) (mpow mul 3 u)) (vscale (hpow h 4) (mpow mul 4 u)))))).
  { apply vget_ext; [rewrite vscale_length, Lu'; symmetry; vlen Hl|]. intros i _. rewrite vget_vscale, T. vexp n Hl. ring. }
  assert (I : inner (vscale (num 24) u') (vscale (num 24) u') = num 24 * num 24 * inner u' u').
  { rewrite inner_scale_l, inner_scale_r, conj_num. ring. }
  rewrite <- I, E. clear I E T.
  assert (AL : forall x y z : list K, len x = n -> len y = n -> inner (vadd x y) z = inner x z + inner y z) by (intros; apply inner_add_l; congruence).
  assert (AR : forall x y z : list K, len y = n -> len z = n -> inner x (vadd y z) = inner x y + inner x z) by (intros; apply inner_add_r; congruence).
  repeat first [rewrite AL by (vlen Hl) | rewrite AR by (vlen Hl) | rewrite inner_scale_l | rewrite inner_scale_r].
  assert (Hr : kconj h = h) by exact Hreal.
  rewrite !conj_mul, !conj_num, !(conj_hpow h _ Hr).
  assert (SK : forall j k, inner (mpow mul (S j) u) (mpow mul k u) = - inner (mpow mul j u) (mpow mul (S k) u)).
  { intros j k. cbn [mpow]. apply (inner_skew n A mul HA Hanti); apply (mpow_length _ _ Hl); exact L. }
  assert (GG : forall j k, inner (mpow mul j u) (mpow mul k u) = hpow (- (1)) j * inner u (mpow mul (j + k) u)).
  { induction j as [|j IH]; intros k; [cbn [hpow mpow plus]; ring|]. rewrite SK, IH. replace (j + S k)%nat with (S j + k)%nat by lia. cbn [hpow]. ring. }
  clear SK.
  rewrite (GG 1%nat 0%nat : inner (mpow mul 1 u) u = _).
  rewrite (GG 1%nat 1%nat).  rewrite (GG 1%nat 2%nat).  rewrite (GG 1%nat 3%nat).  rewrite (GG 1%nat 4%nat).
  rewrite (GG 2%nat 0%nat : inner (mpow mul 2 u) u = _).
  rewrite (GG 2%nat 1%nat).  rewrite (GG 2%nat 2%nat).  rewrite (GG 2%nat 3%nat).  rewrite (GG 2%nat 4%nat).
  rewrite (GG 3%nat 0%nat : inner (mpow mul 3 u) u = _).
  rewrite (GG 3%nat 1%nat).  rewrite (GG 3%nat 2%nat).  rewrite (GG 3%nat 3%nat).  rewrite (GG 3%nat 4%nat).
  rewrite (GG 4%nat 0%nat : inner (mpow mul 4 u) u = _).
  rewrite (GG 4%nat 1%nat).  rewrite (GG 4%nat 2%nat).  rewrite (GG 4%nat 3%nat).  rewrite (GG 4%nat 4%nat).
  cbn [plus]. set (g0 := inner u u).
  repeat match goal with |- context [inner u (mpow mul ?k u)] => let g := fresh "g" in set (g := inner u (mpow mul k u)) in *; clearbody g end.
  change (inner u (mpow mul 0 u)) with g0. clearbody g0. cbn [hpow num]. ring.
Qed.

(** ** C52: the parallel product with a function matrix *)
Lemma dot_sum (m : matrix K) u row : forall cols acc,
  dot_lr 0 radd rmul m u row acc cols = acc + sum_over (fun j => m_at m row j * vget u j) cols.
Proof.
  induction cols as [|c cols IH]; intros acc; cbn [dot_lr fold_left]; [rewrite sum_over_nil; ring|].
  fold (dot_lr 0 radd rmul m u row (acc + m_at m row c * nth (Z.to_nat c) u 0) cols). rewrite IH, sum_over_cons. unfold vget. ring.
Qed.
Lemma ma_mat_vec garbage sched (m : matrix K) temp u : m_rows m = m_cols m -> legal_schedule (m_rows m) sched ->
  multiply_assign 0 radd rmul garbage sched m temp u = (u, mat_vec m u).
Proof.
  intros Hq Hs. rewrite multiply_assign_value by exact Hs. f_equal. unfold mat_vec. rewrite <- Hq. apply map_ext_in. intros row _.
  rewrite dot_sum. ring.
Qed.
Theorem C52_step : forall (half sixth : K) rk garbage c1 c2 c3 c4 (m table : matrix K) st temp u st',
  m_rows m = m_cols m ->
  legal_schedule (m_rows m) c1 -> legal_schedule (m_rows m) c2 -> legal_schedule (m_rows m) c3 -> legal_schedule (m_rows m) c4 ->
  m_rows table = m_rows m -> m_cols table = m_cols m ->
  (forall i j, (0 <= i < m_rows m)%Z -> (0 <= j < m_cols m)%Z -> m_at table i j = m_at m i j) ->
  snd (rk_step_fm half sixth rk garbage (c1, c2, c3, c4) m st temp u) = snd (rk_step half sixth rk (mat_vec table) st' u).
Proof.
  intros half sixth rk garbage c1 c2 c3 c4 m table st temp u st' Hq H1 H2 H3 H4 Tr Tc Te.
  assert (E : forall x, mat_vec table x = mat_vec m x).
  { intros x. unfold mat_vec. rewrite Tr, Tc. apply map_ext_in. intros i Hi. apply zrange_in in Hi. apply sum_over_ext. intros j Hj. apply zrange_in in Hj.
    rewrite Te by assumption. reflexivity. }
  unfold rk_step_fm, rk_step. rewrite !ma_mat_vec by assumption. cbn [snd s_k1 s_k2 s_k3 s_k4]. rewrite !E. reflexivity.
Qed.
End S.
Print Assumptions C51_taylor.
Print Assumptions C51_history_free.
Print Assumptions C51_linear.
Print Assumptions C51_n_steps.
Print Assumptions C52_step.
Print Assumptions C65_norm_drift.

(** multiply_assign for any arithmetic (rounded or not): every legal interleaving of the
    threads, whatever the static buffer held before, gives the value of the sequential
    left-to-right loops, bit for bit; the input vector is not written. *)
Theorem C52_multiply_assign : forall (T : Type) (zero : T) (add mul : T -> T -> T) garbage sched (m : matrix T) temp v,
  legal_schedule (m_rows m) sched -> 0 <= m_rows m ->
  let w := snd (multiply_assign zero add mul garbage sched m temp v) in
  Z.of_nat (length w) = m_rows m /\
  (forall i, 0 <= i < m_rows m ->
    nth (Z.to_nat i) w zero =
    fold_left (fun acc j => add acc (mul (m_at m i j) (nth (Z.to_nat j) v zero))) (zrange 0 (m_rows m)) zero) /\
  multiply_assign zero add mul garbage sched m temp v =
  multiply_assign zero add mul (fun _ => zero) (ma_sequential (m_rows m)) m [] v.
Proof.
  intros T zero add mul garbage sched m temp v Hs Hn. rewrite !multiply_assign_value.
  - cbn [snd]. rewrite map_length, zrange_length. split; [lia|]. split; [|reflexivity].
    intros i Hi. rewrite nth_zrange_map by exact Hi. reflexivity.
  - split.
    + intros rc Hrc. unfold ma_sequential in Hrc. apply in_flat_map in Hrc as (r & Hr & Hc). apply in_map_iff in Hc as (c & <- & _). apply zrange_in in Hr. exact Hr.
    + intros row Hrow. unfold ma_sequential.
      assert (G : forall l, NoDup l -> map snd (filter (fun rc => fst rc =? row) (flat_map (fun r => map (fun col => (r, col)) (zrange 0 (m_rows m))) l)) = if in_dec Z.eq_dec row l then zrange 0 (m_rows m) else []).
      { induction 1 as [|r l Hr Hl IH]; [reflexivity|]. cbn [flat_map]. rewrite filter_app, map_app, IH.
        assert (Q : forall cs : list Z, map snd (filter (fun rc => fst rc =? row) (map (fun col => (r, col)) cs)) = if r =? row then cs else []).
        { induction cs as [|c cs IHc]; cbn [map filter fst]; [destruct (r =? row); reflexivity|]. destruct (r =? row) eqn:Er; cbn [map snd]; rewrite IHc; reflexivity. }
        rewrite Q. destruct (Z.eqb_spec r row) as [->|Hne].
        - destruct (in_dec Z.eq_dec row l) as [H|H]; [contradiction|]. rewrite app_nil_r. destruct (in_dec Z.eq_dec row (row :: l)) as [H'|H']; [reflexivity|]. exfalso. apply H'. left. reflexivity.
        - destruct (in_dec Z.eq_dec row l) as [H|H], (in_dec Z.eq_dec row (r :: l)) as [H'|H']; try reflexivity.
          + exfalso. apply H'. right. exact H.
          + exfalso. destruct H' as [H'|H']; contradiction. }
      rewrite G by apply zrange_nodup. destruct (in_dec Z.eq_dec row (zrange 0 (m_rows m))) as [H|H]; [reflexivity|]. exfalso. apply H, zrange_in, Hrow.
  - exact Hs.
Qed.
Print Assumptions C52_multiply_assign.
(** A legal schedule with two interleaved threads for a 2x2 matrix. *)
Example legal_interleaving : legal_schedule 2 [(1, 0); (0, 0); (0, 1); (1, 1)].
Proof.
  split.
  - intros rc H. cbn in H. intuition (subst; cbn; lia).
  - intros row H. assert (row = 0 \/ row = 1) as [-> | ->] by lia; reflexivity.
Qed.
