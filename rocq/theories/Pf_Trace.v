(** Proofs: traces over a finite Fock space, their cyclicity and Wick's theorem at
    infinite temperature. *)
From Verif Require Import Base Spec_Fock FockFacts Pf_Commutator.
Local Open Scope list_scope.

Definition states (M : nat) : list N := map N.of_nat (seq 0 (2 ^ M)).
Lemma states_in M r : In r (states M) <-> (r < 2 ^ N.of_nat M)%N.
Proof.
  unfold states. rewrite in_map_iff.
  assert (E : (2 ^ N.of_nat M)%N = N.of_nat (2 ^ M)).
  { rewrite Nnat.Nat2N.inj_pow. reflexivity. }
  rewrite E. split.
  - intros (k & <- & Hk). apply in_seq in Hk. lia.
  - intros H. exists (N.to_nat r). rewrite in_seq. lia.
Qed.
Lemma states_nodup M : NoDup (states M).
Proof. unfold states. apply FinFun.Injective_map_NoDup; [intros a b; lia|apply seq_NoDup]. Qed.
Lemma states_bits M r : In r (states M) <-> forall k, (M <= k)%nat -> occ r k = false.
Proof.
  rewrite states_in. split.
  - intros H k Hk. unfold occ. destruct (N.eq_dec r 0) as [->|Hr]; [apply N.bits_0|].
    apply N.bits_above_log2. apply N.log2_lt_pow2; [lia|]. eapply N.lt_le_trans; [exact H|].
    apply N.pow_le_mono_r; lia.
  - intros H. destruct (N.eq_dec r 0) as [->|Hr]; [apply N.neq_0_lt_0, N.pow_nonzero; discriminate|].
    apply N.log2_lt_pow2; [lia|]. destruct (N.lt_ge_cases (N.log2 r) (N.of_nat M)) as [L|L]; [exact L|exfalso].
    specialize (H (N.to_nat (N.log2 r)) ltac:(lia)). unfold occ in H. rewrite N2Nat.id, N.bit_log2 in H by exact Hr.
    discriminate.
Qed.
Definition below (M : nat) (ops : list (bool * nat)) : Prop := Forall (fun o => snd o < M)%nat ops.
Lemma act_states M ops s sg t : below M ops -> In s (states M) -> act ops s = Some (sg, t) -> In t (states M).
Proof.
  revert sg t. induction ops as [|[c k] ops IH]; intros sg t Hb Hs H.
  - cbn in H. injection H as _ <-. exact Hs.
  - inversion Hb; subst. cbn [act] in H. destruct (act ops s) as [[sg1 s1]|] eqn:E; [|discriminate].
    rewrite ladder_upd in H. destruct (Bool.eqb (occ s1 k) c); [discriminate|]. injection H as _ <-.
    apply states_bits. intros j Hj. rewrite occ_upd. cbn [snd] in *.
    destruct (Nat.eqb_spec k j); [lia|]. specialize (IH sg1 s1 H3 Hs eq_refl). rewrite states_bits in IH. apply IH, Hj.
Qed.

Section Trace.
  Context {K : StarRing}.
  Local Open Scope ring_scope_.
  Add Ring KringT : (rth K).
  Variable M : nat.

  Lemma sum_pick {A} (eqb : A -> A -> bool) (Heq : forall x y, eqb x y = true <-> x = y) (f : A -> K) x l :
    NoDup l -> In x l -> sum_over (fun y => if eqb y x then f y else 0) l = f x.
  Proof.
    induction 1 as [|y l Hy Hl IH]; intros Hx; [destruct Hx|]. rewrite sum_over_cons. destruct Hx as [->|Hx].
    - replace (eqb x x) with true by (symmetry; apply Heq; reflexivity).
      rewrite sum_over_zero; [ring|]. intros z Hz. destruct (eqb z x) eqn:E; [|reflexivity].
      apply Heq in E. subst. contradiction.
    - destruct (eqb y x) eqn:E; [apply Heq in E; subst; contradiction|]. rewrite IH by exact Hx. ring.
  Qed.
  Lemma insert_states A B s t : below M B -> In s (states M) ->
    amp (K := K) (A ++ B) s t = sum_over (fun r => amp B s r * amp A r t) (states M).
  Proof.
    intros HB Hs. rewrite amp_app. unfold amp at 2. destruct (act B s) as [[sg r]|] eqn:E.
    - rewrite (sum_over_ext _ _ (fun y => if N.eqb y r then sgn sg * amp A y t else 0)).
      + rewrite (sum_pick N.eqb N.eqb_eq (fun y => sgn sg * amp A y t) r); [reflexivity|apply states_nodup|].
        eapply act_states; eassumption.
      + intros y _. destruct (N.eqb y r); ring.
    - symmetry. apply sum_over_zero. intros. ring.
  Qed.
  Definition Tr (w : list (bool * nat)) : K := sum_over (fun s => amp w s s) (states M).
  Lemma Tr_cyclic A B : below M A -> below M B -> Tr (A ++ B) = Tr (B ++ A).
  Proof.
    intros HA HB. unfold Tr.
    rewrite (sum_over_ext _ _ (fun s => sum_over (fun r => amp B s r * amp A r s) (states M))).
    2:{ intros s Hs. apply insert_states; assumption. }
    rewrite (sum_over_ext _ (fun s => amp (B ++ A) s s) (fun s => sum_over (fun r => amp A s r * amp B r s) (states M))).
    2:{ intros s Hs. apply insert_states; assumption. }
    rewrite sum_over_swap. apply sum_over_ext. intros s _. apply sum_over_ext. intros r _. ring.
  Qed.
  Definition dL (x y : bool * nat) : K :=
    if (Bool.eqb (fst x) (negb (fst y)) && Nat.eqb (snd x) (snd y))%bool then 1 else 0.
  Lemma Tr_car L R x y : Tr (L ++ x :: y :: R) + Tr (L ++ y :: x :: R) = dL x y * Tr (L ++ R).
  Proof.
    unfold Tr. rewrite <- sum_over_add, <- sum_over_mul_l. apply sum_over_ext. intros s _.
    destruct x as [c k], y as [c' k']. rewrite amp_car. unfold dL. cbn [fst snd]. destruct (_ && _)%bool; ring.
  Qed.
  Lemma Tr_step half x w : half + half = 1 -> below M (x :: w) -> Nat.odd (length w) = true ->
    Tr (x :: w) = half * possum w (fun l y p q => par (l - 1) * dL x y * Tr (p ++ q)).
  Proof.
    intros Hh Hb Ho. inversion Hb; subst.
    pose proof (move_through dL Tr Tr_car x w [] []) as H. cbn [app] in H. rewrite app_nil_r in H.
    unfold par in H at 2. rewrite Ho in H. cbn [sgn] in H.
    change (x :: w) with ([x] ++ w) in *. rewrite <- (Tr_cyclic [x] w) in H; [|repeat constructor; assumption|assumption].
    set (C := possum w _) in H.
    assert (E : Tr ([x] ++ w) + Tr ([x] ++ w) = C).
    { rewrite H at 1. ring. }
    assert (Ec : possum w (fun l y p q => par (l - 1) * dL x y * Tr (p ++ q)) = C).
    { unfold C. apply possum_ext. intros. rewrite app_nil_r. reflexivity. }
    rewrite Ec, <- E. transitivity ((half + half) * Tr ([x] ++ w)); [rewrite Hh; ring|ring].
  Qed.
  (** Frobenius products of ladder words are traces. *)
  Lemma frob_words A B : below M A -> below M B ->
    sum_over (fun s => sum_over (fun t => amp A s t * amp B s t) (states M)) (states M) = Tr (adj A ++ B).
  Proof.
    intros HA HB. unfold Tr. apply sum_over_ext. intros s Hs. rewrite insert_states by assumption.
    apply sum_over_ext. intros t _. rewrite amp_adj. ring.
  Qed.
  Lemma below_adj A : below M A -> below M (adj A).
  Proof.
    unfold below, adj. intros H. apply Forall_map. apply Forall_rev. eapply Forall_impl; [|exact H]. intros [c k] Hk. exact Hk.
  Qed.
End Trace.
