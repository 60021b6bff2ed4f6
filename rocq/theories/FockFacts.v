(** Facts about the Fock-space specification: canonical anticommutation
    relations and adjoints. *)
From Verif Require Import Base Spec_Fock.

(** * Facts: canonical anticommutation relations *)

Lemma occ_set s k j : occ (N.setbit s (N.of_nat k)) j = (Nat.eqb k j || occ s j).
Proof.
  unfold occ. rewrite N.setbit_eqb. f_equal.
  destruct (Nat.eqb_spec k j) as [->|H]; [apply N.eqb_refl|].
  apply N.eqb_neq. lia.
Qed.
Lemma occ_clear s k j : occ (N.clearbit s (N.of_nat k)) j = (occ s j && negb (Nat.eqb k j)).
Proof.
  unfold occ. rewrite N.clearbit_eqb. f_equal. f_equal.
  destruct (Nat.eqb_spec k j) as [->|H]; [apply N.eqb_refl|].
  apply N.eqb_neq. lia.
Qed.

Lemma parity_set s k j : occ s k = false ->
  parity_below (N.setbit s (N.of_nat k)) j = xorb (parity_below s j) (Nat.ltb k j).
Proof.
  intros Hk. induction j as [|j IH]; cbn [parity_below]; [reflexivity|].
  rewrite occ_set, IH.
  destruct (Nat.eqb_spec k j) as [->|Hne].
  - rewrite Hk. rewrite Nat.ltb_irrefl.
    replace (j <? S j) with true by (symmetry; apply Nat.ltb_lt; lia).
    destruct (parity_below s j); reflexivity.
  - replace (k <? S j) with (k <? j).
    + cbn [orb]. destruct (occ s j), (parity_below s j), (k <? j); reflexivity.
    + destruct (Nat.ltb_spec k j), (Nat.ltb_spec k (S j)); try reflexivity; lia.
Qed.
Lemma parity_clear s k j : occ s k = true ->
  parity_below (N.clearbit s (N.of_nat k)) j = xorb (parity_below s j) (Nat.ltb k j).
Proof.
  intros Hk. induction j as [|j IH]; cbn [parity_below]; [reflexivity|].
  rewrite occ_clear, IH.
  destruct (Nat.eqb_spec k j) as [->|Hne].
  - rewrite Hk. rewrite Nat.ltb_irrefl.
    replace (j <? S j) with true by (symmetry; apply Nat.ltb_lt; lia).
    destruct (parity_below s j); reflexivity.
  - replace (k <? S j) with (k <? j).
    + cbn [negb]. rewrite andb_true_r.
      destruct (occ s j), (parity_below s j), (k <? j); reflexivity.
    + destruct (Nat.ltb_spec k j), (Nat.ltb_spec k (S j)); try reflexivity; lia.
Qed.

Lemma state_ext s t : (forall k, occ s k = occ t k) -> s = t.
Proof.
  intros H. apply N.bits_inj. intros n.
  specialize (H (N.to_nat n)). unfold occ in H. rewrite N2Nat.id in H. exact H.
Qed.

(** The single-mode occupation after a ladder operator. *)
Definition upd (cr : bool) (k : nat) (s : N) : N :=
  if cr then N.setbit s (N.of_nat k) else N.clearbit s (N.of_nat k).

Lemma occ_upd cr k s j : occ (upd cr k s) j = if Nat.eqb k j then cr else occ s j.
Proof.
  destruct cr; cbn [upd]; [rewrite occ_set|rewrite occ_clear];
    destruct (Nat.eqb k j); cbn; try reflexivity.
  - apply andb_false_r.
  - apply andb_true_r.
Qed.

Lemma ladder_upd cr k s :
  ladder cr k s = if Bool.eqb (occ s k) cr then None else Some (parity_below s k, upd cr k s).
Proof. unfold ladder, upd. destruct cr, (occ s k); reflexivity. Qed.

Lemma parity_upd cr k s j : occ s k = negb cr ->
  parity_below (upd cr k s) j = xorb (parity_below s j) (Nat.ltb k j).
Proof.
  destruct cr; cbn; intros H; [apply parity_set|apply parity_clear]; exact H.
Qed.

Lemma act_app a b s :
  act (a ++ b) s =
  match act b s with
  | None => None
  | Some (sg, s') =>
      match act a s' with
      | None => None
      | Some (sg', s'') => Some (xorb sg sg', s'')
      end
  end.
Proof.
  induction a as [|[cr k] a IH]; cbn [app act].
  - destruct (act b s) as [[sg s']|]; [rewrite xorb_false_r|]; reflexivity.
  - rewrite IH. destruct (act b s) as [[sg s']|]; [|reflexivity].
    destruct (act a s') as [[sg' s'']|]; [|reflexivity].
    destruct (ladder cr k s'') as [[sg3 s3]|]; [|reflexivity].
    rewrite xorb_assoc. reflexivity.
Qed.

(** Two ladder operators: they anticommute unless they are adjoint on one mode. *)
Lemma act_two_ne x y i j s : i <> j ->
  act [(x, i); (y, j)] s =
  match act [(y, j); (x, i)] s with
  | None => None
  | Some (sg, t) => Some (negb sg, t)
  end.
Proof.
  intros Hne. cbn [act]. rewrite !ladder_upd. cbn [xorb].
  destruct (Bool.eqb (occ s j) y) eqn:Ej; destruct (Bool.eqb (occ s i) x) eqn:Ei.
  - reflexivity.
  - rewrite ladder_upd, occ_upd.
    replace (i =? j) with false by (symmetry; apply Nat.eqb_neq; auto).
    rewrite Ej. reflexivity.
  - rewrite ladder_upd, occ_upd.
    replace (j =? i) with false by (symmetry; apply Nat.eqb_neq; auto).
    rewrite Ei. reflexivity.
  - rewrite !ladder_upd, !occ_upd.
    replace (i =? j) with false by (symmetry; apply Nat.eqb_neq; auto).
    replace (j =? i) with false by (symmetry; apply Nat.eqb_neq; auto).
    rewrite Ej, Ei. f_equal. f_equal.
    + rewrite !parity_upd.
      * destruct (Nat.ltb_spec i j), (Nat.ltb_spec j i); try lia;
          destruct (parity_below s i), (parity_below s j); reflexivity.
      * destruct (occ s i), x; try discriminate; reflexivity.
      * destruct (occ s j), y; try discriminate; reflexivity.
    + apply state_ext. intros k. rewrite !occ_upd.
      destruct (Nat.eqb_spec i k), (Nat.eqb_spec j k); try reflexivity; lia.
Qed.

Lemma act_two_same x i s : act [(x, i); (x, i)] s = None.
Proof.
  cbn [act]. rewrite ladder_upd. destruct (Bool.eqb (occ s i) x); [reflexivity|].
  rewrite ladder_upd, occ_upd, Nat.eqb_refl. rewrite Bool.eqb_reflx. reflexivity.
Qed.

Lemma act_two_adj x i s :
  act [(x, i); (negb x, i)] s = if Bool.eqb (occ s i) x then Some (false, s) else None.
Proof.
  cbn [act]. rewrite ladder_upd.
  destruct (occ s i) eqn:E, x; cbn [Bool.eqb negb]; try reflexivity;
  (rewrite ladder_upd, occ_upd, Nat.eqb_refl; cbn [Bool.eqb xorb];
   f_equal; f_equal;
   [ rewrite parity_upd by (rewrite E; reflexivity); rewrite Nat.ltb_irrefl;
     destruct (parity_below s i); reflexivity
   | apply state_ext; intros k; rewrite !occ_upd;
     destruct (Nat.eqb_spec i k) as [<-|]; [rewrite E|]; reflexivity ]).
Qed.

Section Amp.
  Variable K : StarRing.
  Local Open Scope ring_scope_.
  Add Ring Kring3 : (rth K).

  (** <t| L R |s> factorises through the intermediate basis state. *)
  Lemma amp_app L R s t :
    amp (K := K) (L ++ R) s t =
    match act R s with
    | None => 0
    | Some (sg, s') => sgn sg * amp L s' t
    end.
  Proof.
    unfold amp. rewrite act_app. destruct (act R s) as [[sg s']|]; [|reflexivity].
    destruct (act L s') as [[sg' s'']|]; [|ring].
    destruct (N.eqb t s''); [apply sgn_mul|ring].
  Qed.

  (** CAR inside an arbitrary product. *)
  Lemma amp_car L R x i y j s t :
    amp (K := K) (L ++ (x, i) :: (y, j) :: R) s t + amp (L ++ (y, j) :: (x, i) :: R) s t =
    if (Bool.eqb x (negb y) && Nat.eqb i j)%bool then amp (L ++ R) s t else 0.
  Proof.
    assert (E : forall a b, L ++ a :: b :: R = (L ++ [a; b]) ++ R).
    { intros. rewrite <- app_assoc. reflexivity. }
    rewrite !E, !amp_app. destruct (act R s) as [[sg s']|];
      [|destruct (_ && _)%bool; ring].
    rewrite !(amp_app L [_; _]).
    destruct (Nat.eqb_spec i j) as [<-|Hne].
    - rewrite andb_true_r.
      destruct (Bool.eqb x (negb y)) eqn:Exy.
      + apply eqb_prop in Exy. subst x.
        pose proof (act_two_adj (negb y) i s') as H1. rewrite negb_involutive in H1.
        pose proof (act_two_adj y i s') as H2.
        rewrite H1, H2. destruct (occ s' i), y; cbn [Bool.eqb negb sgn]; ring.
      + assert (x = y) by (destruct x, y; try discriminate; reflexivity). subst y.
        rewrite act_two_same. ring.
    - rewrite andb_false_r. rewrite (act_two_ne x y i j) by exact Hne.
      destruct (act [(y, j); (x, i)] s') as [[sg2 t2]|]; [|ring].
      rewrite sgn_negb. ring.
  Qed.
End Amp.

(** Adjoint. *)
Definition adj (ops : list (bool * nat)) : list (bool * nat) :=
  map (fun o => (negb (fst o), snd o)) (rev ops).

Lemma ladder_adj cr k s t sg :
  ladder cr k s = Some (sg, t) <-> ladder (negb cr) k t = Some (sg, s).
Proof.
  assert (H : forall cr k s t sg, ladder cr k s = Some (sg, t) -> ladder (negb cr) k t = Some (sg, s)).
  { clear. intros cr k s t sg. rewrite !ladder_upd.
    destruct (Bool.eqb (occ s k) cr) eqn:E; [discriminate|]. intros [= <- <-].
    assert (Ho : occ s k = negb cr) by (destruct (occ s k), cr; try discriminate; reflexivity).
    rewrite occ_upd, Nat.eqb_refl, parity_upd by exact Ho. rewrite Nat.ltb_irrefl, xorb_false_r.
    replace (Bool.eqb cr (negb cr)) with false by (destruct cr; reflexivity).
    f_equal. f_equal. apply state_ext. intros j. rewrite !occ_upd.
    destruct (Nat.eqb_spec k j) as [<-|]; [rewrite Ho|]; reflexivity. }
  split; [apply H|]. intros Hx. apply H in Hx. rewrite negb_involutive in Hx. exact Hx.
Qed.

Lemma act_adj ops s t sg : act ops s = Some (sg, t) -> act (adj ops) t = Some (sg, s).
Proof.
  revert s t sg. induction ops as [|[cr k] ops IH]; intros s t sg; cbn [act].
  - intros [= <- <-]. reflexivity.
  - destruct (act ops s) as [[sg1 s1]|] eqn:E; [|discriminate].
    destruct (ladder cr k s1) as [[sg2 s2]|] eqn:E2; [|discriminate].
    intros [= <- <-]. unfold adj. cbn [rev]. rewrite map_app. cbn [map fst snd].
    fold (adj ops). rewrite act_app. cbn [act].
    apply ladder_adj in E2. rewrite E2. cbn [xorb]. rewrite (IH _ _ _ E).
    destruct sg1, sg2; reflexivity.
Qed.

Lemma adj_adj ops : adj (adj ops) = ops.
Proof.
  unfold adj. rewrite <- map_rev, map_map, rev_involutive.
  rewrite <- (map_id ops) at 2. apply map_ext. intros [c k]. cbn. rewrite negb_involutive. reflexivity.
Qed.

Lemma amp_adj {K : StarRing} ops s t : amp (K := K) (adj ops) t s = amp ops s t.
Proof.
  unfold amp. destruct (act ops s) as [[sg t']|] eqn:E.
  - destruct (N.eqb_spec t t') as [<-|Hne].
    + rewrite (act_adj _ _ _ _ E), N.eqb_refl. reflexivity.
    + destruct (act (adj ops) t) as [[sg2 s2]|] eqn:E2; [|reflexivity].
      destruct (N.eqb_spec s s2) as [<-|]; [|reflexivity].
      apply act_adj in E2. rewrite adj_adj in E2. congruence.
  - destruct (act (adj ops) t) as [[sg2 s2]|] eqn:E2; [|reflexivity].
    destruct (N.eqb_spec s s2) as [<-|]; [|reflexivity].
    apply act_adj in E2. rewrite adj_adj in E2. congruence.
Qed.
