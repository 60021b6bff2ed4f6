(** Diagonal Fock-space matrix elements of the words c+_1 D c_j with a word D of at most four
    operators of the other spin. *)
From Verif Require Import Base Spec_Fock FockFacts.
Local Open Scope list_scope.

(** net number of particles put into mode k *)
Fixpoint net (k : nat) (w : list (bool * nat)) : Z :=
  match w with
  | [] => 0
  | (c, m) :: w' => (if Nat.eqb m k then if c then 1 else -1 else 0) + net k w'
  end%Z.
Lemma act_net w s sg t k : act w s = Some (sg, t) -> (Z.b2z (occ t k) = Z.b2z (occ s k) + net k w)%Z.
Proof.
  revert sg t. induction w as [|[c m] w IH]; intros sg t H; cbn [act net] in *.
  - inversion H; subst. lia.
  - destruct (act w s) as [[sg' s']|] eqn:E; [|discriminate]. specialize (IH _ _ eq_refl).
    rewrite ladder_upd in H. destruct (Bool.eqb (occ s' m) c) eqn:Ec; [discriminate|]. inversion H; subst.
    rewrite occ_upd. destruct (Nat.eqb_spec m k) as [->|Hn]; [|lia].
    destruct (occ s' k), c; cbn [Bool.eqb Z.b2z] in *; try discriminate; lia.
Qed.
Lemma net_app k a b : net k (a ++ b) = (net k a + net k b)%Z.
Proof. induction a as [|[c m] a IH]; cbn [app net]; [reflexivity|]. rewrite IH. lia. Qed.

(** does the word bring s back to s, and with which sign? *)
Definition diag (w : list (bool * nat)) (s : N) : option bool :=
  match act w s with Some (sg, t) => if N.eqb t s then Some sg else None | None => None end.
Lemma amp_diag {K : StarRing} w s : amp (K := K) w s s = match diag w s with Some sg => sgn sg | None => r0 end.
Proof. unfold amp, diag. destruct (act w s) as [[sg t]|]; [|reflexivity]. rewrite N.eqb_sym. destruct (N.eqb t s); reflexivity. Qed.
Lemma diag_net w s sg k : diag w s = Some sg -> net k w = 0%Z.
Proof.
  unfold diag. destruct (act w s) as [[sg' t]|] eqn:E; [|discriminate]. destruct (N.eqb_spec t s) as [->|]; [|discriminate].
  intros _. pose proof (act_net _ _ _ _ k E). lia.
Qed.
Lemma diag_some w s sg : act w s = Some (sg, s) -> diag w s = Some sg.
Proof. unfold diag. intros ->. rewrite N.eqb_refl. reflexivity. Qed.
Lemma diag_none w s : act w s = None -> diag w s = None.
Proof. unfold diag. intros ->. reflexivity. Qed.

(** c+_1 D c_1, when D has a diagonal action on c_1 s *)
Lemma act_sandwich a D s (f : bool) :
  (forall sg t, act [(false, a)] s = Some (sg, t) -> act D t = if f then Some (false, t) else None) ->
  act ((true, a) :: D ++ [(false, a)]) s = if (occ s a && f)%bool then Some (false, s) else None.
Proof.
  intros H. change ((true, a) :: D ++ [(false, a)]) with ([(true, a)] ++ D ++ [(false, a)]). rewrite !act_app.
  destruct (act [(false, a)] s) as [[sg t]|] eqn:E.
  - rewrite (H _ _ eq_refl). assert (O : occ s a = true).
    { cbn [act] in E. rewrite ladder_upd in E. destruct (occ s a); [reflexivity|discriminate]. }
    rewrite O. cbn [andb]. destruct f; [|reflexivity].
    apply act_adj in E. change (adj [(false, a)]) with [(true, a)] in E. rewrite E. rewrite xorb_false_r, xorb_nilpotent. reflexivity.
  - cbn [act] in E. rewrite ladder_upd in E. destruct (occ s a); [discriminate|reflexivity].
Qed.
Lemma occ_after a s sg t k : act [(false, a)] s = Some (sg, t) -> k <> a -> occ t k = occ s k.
Proof.
  intros E Hk. cbn [act] in E. rewrite ladder_upd in E. destruct (Bool.eqb (occ s a) false); [discriminate|]. assert (t = upd false a s) as -> by congruence.
  rewrite occ_upd. destruct (Nat.eqb_spec a k); [congruence|reflexivity].
Qed.
Lemma act_number k s : act [(true, k); (false, k)] s = if occ s k then Some (false, s) else None.
Proof. etransitivity; [exact (act_two_adj true k s)|]. destruct (occ s k); reflexivity. Qed.
Lemma act_numbers k l s : act [(true, k); (false, k); (true, l); (false, l)] s = if (occ s k && occ s l)%bool then Some (false, s) else None.
Proof.
  change [(true, k); (false, k); (true, l); (false, l)] with ([(true, k); (false, k)] ++ [(true, l); (false, l)]).
  rewrite act_app, act_number. destruct (occ s l); [|rewrite andb_false_r; reflexivity]. rewrite act_number. destruct (occ s k); reflexivity.
Qed.
Lemma act_pair k l s : k <> l ->
  act [(true, k); (false, l); (true, l); (false, k)] s = if (occ s k && negb (occ s l))%bool then Some (false, s) else None.
Proof.
  intros Hkl. change [(true, k); (false, l); (true, l); (false, k)] with ([(true, k); (false, l)] ++ adj [(true, k); (false, l)]).
  rewrite act_app. destruct (act (adj [(true, k); (false, l)]) s) as [[sg t]|] eqn:E.
  - pose proof (act_adj _ _ _ _ E) as E'. rewrite adj_adj in E'. rewrite E', xorb_nilpotent.
    cbn [adj map rev app act negb fst snd] in E. rewrite ladder_upd in E. destruct (occ s k) eqn:Ok; cbn [Bool.eqb] in E; [|discriminate E].
    rewrite ladder_upd, occ_upd in E. destruct (Nat.eqb_spec k l); [congruence|]. destruct (occ s l); [discriminate|]. reflexivity.
  - cbn [adj map rev app act negb fst snd] in E. rewrite ladder_upd in E. destruct (occ s k) eqn:Ok; cbn [Bool.eqb] in E; [|reflexivity].
    rewrite ladder_upd, occ_upd in E. destruct (Nat.eqb_spec k l); [congruence|]. destruct (occ s l); [reflexivity|discriminate].
Qed.

Lemma eqb_ne a b : a <> b -> Nat.eqb a b = false. Proof. apply Nat.eqb_neq. Qed.
(** The four kinds of words: modes a, b of one spin; k, l, k', l' of the other. *)
Section Four.
  Variable s : N.
  Lemma diag2 a b : diag [(true, a); (false, b)] s = if (Nat.eqb a b && occ s a)%bool then Some false else None.
  Proof.
    destruct (diag _ s) as [sg|] eqn:E.
    - pose proof (diag_net _ _ _ a E) as H. cbn [net] in H. rewrite Nat.eqb_refl in H.
      destruct (Nat.eqb_spec b a) as [->|]; [|lia]. rewrite Nat.eqb_refl. unfold diag in E. rewrite act_number in E.
      destruct (occ s a); [|discriminate]. rewrite N.eqb_refl in E. rewrite <- E. reflexivity.
    - destruct (Nat.eqb_spec a b) as [->|]; [|reflexivity]. unfold diag in E. rewrite act_number in E. destruct (occ s b); [|reflexivity].
      rewrite N.eqb_refl in E. discriminate.
  Qed.
  Lemma sandwich_diag a D (f : bool) :
    (forall t, (forall k, k <> a -> occ t k = occ s k) -> act D t = if f then Some (false, t) else None) ->
    diag ((true, a) :: D ++ [(false, a)]) s = if (occ s a && f)%bool then Some false else None.
  Proof.
    intros H. pose proof (act_sandwich a D s f) as Q. unfold diag. rewrite Q.
    - destruct (occ s a && f)%bool; [rewrite N.eqb_refl|]; reflexivity.
    - intros sg t E. apply H. intros k Hk. eapply occ_after; [exact E|exact Hk].
  Qed.
  Lemma diag4 a b k l : k <> a -> l <> a -> k <> b -> l <> b ->
    diag [(true, a); (true, k); (false, l); (false, b)] s = if (Nat.eqb a b && occ s a && (Nat.eqb k l && occ s k))%bool then Some false else None.
  Proof.
    intros H1 H2 H3 H4. destruct (Nat.eqb_spec a b) as [<-|Hab].
    - destruct (Nat.eqb_spec k l) as [<-|Hkl].
      + change [(true, a); (true, k); (false, k); (false, a)] with ((true, a) :: [(true, k); (false, k)] ++ [(false, a)]).
        rewrite (sandwich_diag a _ (occ s k)); [cbn [andb]; destruct (occ s a), (occ s k); reflexivity|].
        intros t Ht. rewrite act_number, Ht by exact H1. reflexivity.
      + destruct (diag _ s) as [sg|] eqn:E; [|rewrite andb_false_r; reflexivity]. pose proof (diag_net _ _ _ k E) as H. cbn [net] in H.
        rewrite Nat.eqb_refl, !(eqb_ne a k), (eqb_ne l k) in H by congruence. lia.
    - destruct (diag _ s) as [sg|] eqn:E; [|reflexivity]. pose proof (diag_net _ _ _ a E) as H. cbn [net] in H.
      rewrite Nat.eqb_refl, (eqb_ne k a), (eqb_ne l a), (eqb_ne b a) in H by congruence. lia.
  Qed.
  Lemma diag6 a b k l l' k' : k <> a -> l <> a -> k <> b -> l <> b -> k' <> a -> l' <> a -> k' <> b -> l' <> b ->
    diag [(true, a); (true, k); (false, l); (true, l'); (false, k'); (false, b)] s =
    if (Nat.eqb a b && occ s a && (if Nat.eqb k l then Nat.eqb k' l' && (occ s k && occ s k')
                                   else Nat.eqb k k' && Nat.eqb l l' && (occ s k && negb (occ s l))))%bool then Some false else None.
  Proof.
    intros H1 H2 H3 H4 H5 H6 H7 H8. destruct (Nat.eqb_spec a b) as [<-|Hab].
    - destruct (Nat.eqb_spec k l) as [<-|Hkl].
      + destruct (Nat.eqb_spec k' l') as [<-|Hk'].
        * change [(true, a); (true, k); (false, k); (true, k'); (false, k'); (false, a)]
            with ((true, a) :: [(true, k); (false, k); (true, k'); (false, k')] ++ [(false, a)]).
          rewrite (sandwich_diag a _ (occ s k && occ s k')%bool); [cbn [andb]; reflexivity|].
          intros t Ht. rewrite act_numbers, !Ht by assumption. reflexivity.
        * destruct (diag _ s) as [sg|] eqn:E; [|rewrite andb_false_r; reflexivity]. pose proof (diag_net _ _ _ k' E) as H. cbn [net] in H.
          rewrite Nat.eqb_refl, !(eqb_ne a k'), (eqb_ne l' k') in H by congruence. destruct (Nat.eqb k k'); lia.
      + destruct (Nat.eqb_spec k k') as [<-|Hkk].
        * destruct (Nat.eqb_spec l l') as [<-|Hll].
          -- change [(true, a); (true, k); (false, l); (true, l); (false, k); (false, a)]
               with ((true, a) :: [(true, k); (false, l); (true, l); (false, k)] ++ [(false, a)]).
             rewrite (sandwich_diag a _ (occ s k && negb (occ s l))%bool); [cbn [andb]; reflexivity|].
             intros t Ht. rewrite act_pair, !Ht by assumption. reflexivity.
          -- destruct (diag _ s) as [sg|] eqn:E; [|rewrite !andb_false_r; reflexivity]. pose proof (diag_net _ _ _ l E) as H. cbn [net] in H.
             rewrite Nat.eqb_refl, !(eqb_ne a l), (eqb_ne k l), (eqb_ne l' l) in H by congruence. lia.
        * destruct (diag _ s) as [sg|] eqn:E; [|rewrite !andb_false_r; reflexivity]. pose proof (diag_net _ _ _ k E) as H. cbn [net] in H.
          rewrite Nat.eqb_refl, !(eqb_ne a k), (eqb_ne l k), (eqb_ne k' k) in H by congruence. destruct (Nat.eqb l' k); lia.
    - destruct (diag _ s) as [sg|] eqn:E; [|reflexivity]. pose proof (diag_net _ _ _ a E) as H. cbn [net] in H.
      rewrite Nat.eqb_refl, (eqb_ne k a), (eqb_ne l a), (eqb_ne b a), (eqb_ne k' a), (eqb_ne l' a) in H by congruence. lia.
  Qed.
End Four.
