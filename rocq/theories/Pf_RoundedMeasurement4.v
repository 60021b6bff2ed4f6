(** PROOFS: the loops of the site occupation, rounded and exact. *)
From Coq Require Import Reals Lra Psatz List ZArith Lia Permutation.
From Verif Require Import Base Instances M_Operator M_Basis M_Matrix M_Ode M_Dispersion M_Number M_OpenMP Spec_OpenMP Pf_OpenMP M_SiteOccupation Spec_Stability
  M_Rounding Spec_Rounding Pf_Rounding M_RoundedMeasurement Pf_Threads Pf_RoundedSum Pf_RoundedMeasurement Pf_RoundedMeasurement2 Pf_RoundedMeasurement3 Pf_Matrix Pf_Stability.
Local Open Scope R_scope.
Local Open Scope list_scope.

(** an executed parallel loop has no undefined iteration *)
Lemma omap_inv {A B} (f : A -> outcome B) l ys x : omap f l = Ok ys -> In x l -> exists y, f x = Ok y.
Proof.
  revert ys. induction l as [|a l IH]; intros ys E; [intros []|]. cbn in E. destruct (f a) as [y|] eqn:Fa; [|discriminate]. cbn in E.
  destruct (omap f l) as [ys'|] eqn:Fl; [|discriminate]. intros [<-|I]; [eauto|]. eapply IH; eauto.
Qed.
Lemma oconcat_inv {A B} (f : A -> outcome (list B)) l ys x : oconcat f l = Ok ys -> In x l -> exists y, f x = Ok y.
Proof.
  revert ys. induction l as [|a l IH]; intros ys E; [intros []|]. cbn in E. destruct (f a) as [y|] eqn:Fa; [|discriminate]. cbn in E.
  destruct (oconcat f l) as [ys'|] eqn:Fl; [|discriminate]. intros [<-|I]; [eauto|]. eapply IH; eauto.
Qed.
Lemma par_reduce_inv {K : StarRing} T lo hi s (a : Z -> outcome (list K)) ex ex' : shares T lo hi s -> par_reduce s a ex = Some (Ok ex') ->
  forall i, In i (zrange lo hi) -> exists xs, a i = Ok xs.
Proof.
  intros [_ P] E i Hi. apply Permutation_sym in P. apply (Permutation_in _ P) in Hi. apply in_concat in Hi. destruct Hi as (its & I1 & I2).
  unfold par_reduce, par_for in E. destruct (omap _ _) as [progs|] eqn:O; [|discriminate].
  destruct (In_nth_error _ _ I1) as (t & Ht).
  assert (It : In (t, its) (combine (seq 0 (length (who s))) (who s))).
  { apply nth_error_In with t. assert (L : (t < length (who s))%nat) by (apply nth_error_Some; congruence).
    clear - Ht L. revert Ht L. generalize (who s). intros w. assert (G : forall a t, (t < length w)%nat -> nth_error w t = Some its -> nth_error (combine (seq a (length w)) w) t = Some ((a + t)%nat, its)).
    { induction w as [|x w IH]; intros a [|t'] L H; cbn in *; try lia.
      - injection H as ->. rewrite Nat.add_0_r. reflexivity.
      - rewrite IH by (try lia; assumption). f_equal. f_equal. lia. }
    intros Ht L. exact (G 0%nat t L Ht). }
  destruct (omap_inv _ _ _ _ O It) as (p & Ep). cbn [fst snd] in Ep. destruct (oconcat_inv _ _ _ _ Ep I2) as (q & Eq).
  destruct (a i) as [xs|]; [eauto|discriminate].
Qed.

Section Loops.
  Context (u eta H : R) (ar : arith).
  Context (k : nat) (c : R).
  Local Notation Close := (Close u eta k c).
  Local Notation sums := (map (sum_up ((0, 0) : CR) (fplus ar))).

  Lemma omap_close (f : Z -> outcome CR) (f' : Z -> outcome summand) w J : forall xs,
    (forall j, In j J -> approx (close u eta k (w j) c) (f' j) (f j)) ->
    omap f J = Ok xs -> exists ss, omap f' J = Ok ss /\ Close ss xs (SR w J) /\ length ss = length J.
  Proof.
    induction J as [|j J IH]; intros xs A E; cbn [omap obind] in E.
    - injection E as <-. exists []. split; [reflexivity|]. split; [constructor|reflexivity].
    - destruct (f j) as [x|] eqn:Fj; [|discriminate]. cbn [omap obind] in E. destruct (omap f J) as [xs'|] eqn:FJ; [|discriminate]. cbn [omap obind] in E. injection E as <-.
      destruct (A j (or_introl eq_refl) x Fj) as (s & Es & Cs). destruct (IH xs') as (ss & Ess & Css & L); [intros; apply A; right; assumption|reflexivity|].
      exists (s :: ss). cbn. rewrite Es. cbn. rewrite Ess. cbn. split; [reflexivity|]. split; [constructor; assumption|lia].
  Qed.

  Definition row_ok (r : nat) (w : R) (a' : outcome (list summand)) (a : outcome (list CR)) : Prop :=
    approx (fun ss xs => exists W, Close ss xs W /\ W <= w /\ (length ss <= r)%nat) a' a.
  Lemma rows_close (g' : Z -> list summand) (g : Z -> list CR) w r J :
    (forall i, In i J -> exists W, Close (g' i) (g i) W /\ W <= w i /\ (length (g' i) <= r)%nat) ->
    exists W, Close (flat_map g' J) (flat_map g J) W /\ W <= SR w J /\ (length (flat_map g' J) <= r * length J)%nat.
  Proof.
    induction J as [|i J IH]; intros A; cbn [flat_map SR length].
    - exists 0. split; [constructor|]. split; [lra|lia].
    - destruct (A i (or_introl eq_refl)) as (W1 & C1 & L1 & N1). destruct IH as (W2 & C2 & L2 & N2); [intros; apply A; right; assumption|].
      exists (W1 + W2). split; [apply Close_app; assumption|]. split; [lra|]. rewrite app_length. lia.
  Qed.

  (** the rounded results are sums of [ss] in some grouping, the exact ones those of [xs] *)
  Definition state (T T' : nat) (W : R) (n : nat) (res : list CR) (ex : list (car (cplx_ring Rring))) : Prop :=
    exists Ls ss xs W', res = sums Ls /\ length Ls = T /\ length ex = T' /\ Permutation (concat Ls) ss /\ Close ss xs W' /\ W' <= W /\
      (length ss <= n)%nat /\ sum_over (K := cplx_ring Rring) (fun x => x) ex = sum_over (K := cplx_ring Rring) (fun x => x) xs.
  Lemma state_start T T' : state T T' 0 0 (f_zeros T) (zeros T').
  Proof.
    exists (repeat [] T), [], [], 0. split; [unfold f_zeros; induction T as [|T IH]; cbn [repeat map]; [reflexivity|rewrite <- IH; reflexivity]|].
    split; [apply repeat_length|]. split; [apply repeat_length|]. split; [|split; [constructor|split; [lra|split; [cbn; lia|]]]].
    - induction T; cbn; [constructor|assumption].
    - rewrite sum_over_nil. apply sum_over_zero. intros x Hx. apply repeat_spec in Hx. exact Hx.
  Qed.
  Lemma state_loop T T' W n res ex lo hi s s' a' (a : Z -> outcome (list CR)) w r r0 ex' : (lo <= hi)%Z ->
    state T T' W n res ex -> shares T lo hi s -> shares T' lo hi s' ->
    (forall i, In i (zrange lo hi) -> row_ok r (w i) (a' i) (a i)) ->
    par_reduce (K := cplx_ring Rring) s' a ex = Some (Ok ex') -> f_reduce ar s a' res = Some r0 ->
    exists res', r0 = Ok res' /\ state T T' (W + SR w (zrange lo hi)) (n + r * Z.to_nat (hi - lo)) res' ex'.
  Proof.
    intros Hlo (Ls & ss & xs & W' & -> & LT & LT' & HP & HC & HW & HN & HS) Sh Sh' Rows HE HR.
    pose proof (par_reduce_inv _ _ _ _ _ _ _ Sh' HE) as Inv.
    set (g := fun i => match a i with Ok l => l | UB => [] end). set (g' := fun i => match a' i with Ok l => l | UB => [] end).
    assert (G : forall i, In i (zrange lo hi) -> a i = Ok (g i)) by (intros i Hi; unfold g; destruct (Inv i Hi) as (l & ->); reflexivity).
    assert (G' : forall i, In i (zrange lo hi) -> a' i = Ok (g' i) /\ exists W, Close (g' i) (g i) W /\ W <= w i /\ (length (g' i) <= r)%nat).
    { intros i Hi. destruct (Rows i Hi (g i) (G i Hi)) as (l & El & Q). unfold g'. rewrite El. auto. }
    destruct (par_reduce_value (K := cplx_ring Rring) T' lo hi s' a g ex (Ok ex') Sh' ltac:(lia) G HE) as (e2 & E2 & LE & SE). injection E2 as <-.
    unfold f_reduce in HR.
    destruct (rreduce_value ((0, 0) : CR) (fplus ar) T lo hi s a' g' Ls r0 Sh ltac:(lia) (fun i Hi => Logic.proj1 (G' i Hi)) HR) as (Ls' & -> & LL & PL).
    destruct (rows_close g' g w r (zrange lo hi) (fun i Hi => Logic.proj2 (G' i Hi))) as (W2 & C2 & L2 & N2).
    eexists. split; [reflexivity|]. exists Ls', (ss ++ flat_map g' (zrange lo hi)), (xs ++ flat_map g (zrange lo hi)), (W' + W2).
    split; [reflexivity|]. split; [lia|]. split; [congruence|]. split; [rewrite PL; apply Permutation_app_tail, HP|].
    split; [apply Close_app; assumption|]. split; [lra|]. split; [rewrite app_length; rewrite zrange_length in N2; lia|].
    rewrite sum_over_app, SE, HS. f_equal. rewrite sum_over_flat_map. reflexivity.
  Qed.

  Hypothesis u0 : 0 <= u.
  Hypothesis e0 : 0 <= eta.
  Hypothesis c0 : 0 <= c.
  Hypothesis acc : accurate u eta H ar.
  Lemma bound_mono W W' n T : W <= W' -> bound u eta k c W n T <= bound u eta k c W' n T.
  Proof. intros L. unfold bound. pose proof (pw_ge u u0 (n + T + k)). assert ((pw u (n + T + k) - 1) * W <= (pw u (n + T + k) - 1) * W') by (apply Rmult_le_compat_l; lra). lra. Qed.
  Lemma state_end T T' W n res ex : state T T' W n res ex ->
    pw u (n + T + k) * (W + (c + 1) * INR (n + T) * eta) <= H ->
    Rabs (fst (f_accumulate ar res) - fst (accumulate (K := cplx_ring Rring) ex)) <= bound u eta k c W n T /\
    Rabs (snd (f_accumulate ar res) - snd (accumulate (K := cplx_ring Rring) ex)) <= bound u eta k c W n T.
  Proof.
    intros (Ls & ss & xs & W' & -> & LT & LT' & HP & HC & HW & HN & HS) HH.
    assert (HH' : pw u (n + T + k) * (W' + (c + 1) * INR (n + T) * eta) <= H).
    { eapply Rle_trans; [|exact HH]. apply Rmult_le_compat_l; [pose proof (pw_ge u u0 (n + T + k)); lra|lra]. }
    pose proof (accumulate_err u eta H ar u0 e0 acc k c c0 Ls ss xs W' n T HP HC HN LT HH') as (Q1 & Q2).
    rewrite accumulate_sum, HS, sum_fst, sum_snd. pose proof (bound_mono W' W n T HW).
    split; eapply Rle_trans; [exact Q1|assumption|exact Q2|assumption].
  Qed.
End Loops.
