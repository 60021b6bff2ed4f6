(** Proofs: the paramagnetic Slater determinants of Spec_Slater and the expectation values of the
    products of basis operators in them. *)
From Verif Require Import Base Spec_Fock FockFacts M_Operator Pf_Commutator M_Lattice M_Basis Spec_Lattice Pf_Lattice Spec_Algebra
  Spec_Matrix Pf_Trace Spec_Slater Pf_Slater.
Local Open Scope list_scope.

Section Hub.
  Context {K : StarRing}.
  Local Open Scope ring_scope_.
  Add Ring KrSH : (rth K).
  Variable half : K.
  Hypothesis Hhalf : half + half = 1.
  Variables (M : nat) (mode : hub -> nat) (N : Z).
  Hypothesis mode_inj : numbers_orbitals mode N.
  Hypothesis mode_lt : orbitals_below mode N M.
  Variable phis : list (Z -> K).
  Hypothesis orth : orthonormal N phis.

  Definition lab : Type := (Z * bool)%type.
  Definition eql (x y : lab) : bool := (Z.eqb (fst x) (fst y) && Bool.eqb (snd x) (snd y))%bool.
  Lemma eql_iff x y : eql x y = true <-> x = y.
  Proof.
    destruct x as [i a], y as [j b]. unfold eql. cbn [fst snd]. rewrite andb_true_iff, Z.eqb_eq, eqb_true_iff.
    split; [intros [-> ->]; reflexivity|intros H; inversion H; auto].
  Qed.
  Definition labs : list lab := flat_map (fun i => [(i, true); (i, false)]) (Zseq N).
  Lemma labs_in x : In x labs <-> site N (fst x).
  Proof.
    unfold labs. rewrite in_flat_map. split.
    - intros (i & Hi & Hx). apply Zseq_in in Hi. destruct Hx as [<-|[<-|[]]]; exact Hi.
    - intros H. exists (fst x). split; [apply Zseq_in; exact H|]. destruct x as [i []]; cbn; auto.
  Qed.
  Lemma labs_nodup : NoDup labs.
  Proof.
    unfold labs. assert (ND : NoDup (Zseq N)) by (unfold Zseq; apply FinFun.Injective_map_NoDup; [intros a b; lia|apply seq_NoDup]).
    induction (Zseq N) as [|i l IH]; cbn [flat_map]; [constructor|]. inversion ND as [|? ? Hn Hl]; subst.
    assert (Q : forall b, ~ In (i, b) (flat_map (fun i => [(i, true); (i, false)]) l)).
    { intros b Hb. apply in_flat_map in Hb. destruct Hb as (j & Hj & [E|[E|[]]]); inversion E; subst; contradiction. }
    cbn [app]. constructor; [intros [E|E]; [discriminate|apply (Q true E)]|]. constructor; [apply Q|apply IH, Hl].
  Qed.
  Definition ml (x : lab) : nat := mode x.
  Lemma ml_lt a : In a labs -> (ml a < M)%nat.
  Proof. rewrite labs_in. destruct a as [i s]. apply mode_lt. Qed.
  Lemma ml_inj a b : In a labs -> In b labs -> ml a = ml b -> a = b.
  Proof.
    rewrite !labs_in. destruct a as [i s], b as [j s']. cbn [fst]. intros Hi Hj E.
    destruct (mode_inj i s j s' Hi Hj E) as [-> ->]. reflexivity.
  Qed.
  Definition chi (phi : Z -> K) (spin : bool) (x : lab) : K := if Bool.eqb (snd x) spin then phi (fst x) else 0.
  Definition chis : list (lab -> K) := flat_map (fun phi => [chi phi true; chi phi false]) phis.

  Lemma sum_labs (F : lab -> K) : sum_over F labs = sum_over (fun i => F (i, true) + F (i, false)) (Zseq N).
  Proof.
    unfold labs. rewrite sum_over_flat_map. apply sum_over_ext. intros i _. rewrite !sum_over_cons, sum_over_nil. ring.
  Qed.
  Lemma create_lin phi spin f t : create M mode N phi spin f t = lin M labs ml true (chi phi spin) f t.
  Proof.
    unfold create, lin. rewrite sum_labs. apply sum_over_ext. intros i _. unfold chi, ml. cbn [fst snd].
    destruct spin; cbn [Bool.eqb]; ring.
  Qed.
  Lemma slater_det : forall l t, slater M mode N l t = det M labs ml (flat_map (fun phi => [chi phi true; chi phi false]) l) t.
  Proof.
    induction l as [|phi l IH]; intros t; cbn [slater flat_map app det]; [reflexivity|].
    rewrite create_lin. apply lin_ext. intros u _. rewrite create_lin. apply lin_ext. intros w _. apply IH.
  Qed.
  Lemma ip_chi f g s s' : ip labs (chi f s) (chi g s') = if Bool.eqb s s' then sum_over (fun i => kconj (f i) * g i) (Zseq N) else 0.
  Proof.
    unfold ip. rewrite sum_labs. transitivity (sum_over (fun i => if Bool.eqb s s' then kconj (f i) * g i else 0) (Zseq N)).
    - apply sum_over_ext. intros i _. unfold chi. cbn [fst snd]. destruct s, s'; cbn [Bool.eqb]; rewrite ?conj_0; ring.
    - destruct (Bool.eqb s s'); [reflexivity|]. apply sum_over_zero. reflexivity.
  Qed.
  Lemma chis_nth i c : nth_error chis i = Some c -> exists phi, nth_error phis (Nat.div2 i) = Some phi /\ c = chi phi (Nat.even i).
  Proof.
    unfold chis. clear orth. revert i. induction phis as [|phi l IH]; intros i H; cbn [flat_map app] in H; [destruct i; discriminate|].
    destruct i as [|[|i]]; cbn in H.
    - inversion H. exists phi. auto.
    - inversion H. exists phi. auto.
    - destruct (IH i H) as (p & E1 & E2). exists p. auto.
  Qed.
  Lemma chis_ortho : ortho labs chis.
  Proof.
    intros i j f g Hi Hj. apply chis_nth in Hi, Hj. destruct Hi as (p & Pi & ->), Hj as (q & Pj & ->).
    rewrite ip_chi, (orth _ _ _ _ Pi Pj).
    pose proof (Nat.div2_odd i) as Di. pose proof (Nat.div2_odd j) as Dj. rewrite <- !Nat.negb_even in Di, Dj.
    destruct (Nat.even i), (Nat.even j); cbn [Bool.eqb negb Nat.b2n] in *; destruct (Nat.eqb_spec (Nat.div2 i) (Nat.div2 j));
      destruct (Nat.eqb_spec i j); try reflexivity; lia.
  Qed.
  Lemma G_density i s j s' : G chis (i, s) (j, s') = if Bool.eqb s s' then density phis i j else 0.
  Proof.
    unfold G, chis, density. rewrite sum_over_flat_map.
    transitivity (sum_over (fun f => if Bool.eqb s s' then kconj (f i) * f j else 0) phis).
    - apply sum_over_ext. intros f _. rewrite !sum_over_cons, sum_over_nil. unfold chi. cbn [fst snd].
      destruct s, s'; cbn [Bool.eqb]; rewrite ?conj_0; ring.
    - destruct (Bool.eqb s s'); [reflexivity|]. apply sum_over_zero. reflexivity.
  Qed.

  Notation psi := (slater M mode N phis).
  Notation Ex := (E M labs ml chis).
  Notation D := (density phis).
  Definition contr (x y : op hub) : K :=
    match x, y with
    | mkOp cx (i, sx), mkOp cy (j, sy) =>
        if Bool.eqb cx (negb cy) then
          if Bool.eqb sx sy then (if cx then D i j else delta i j - D j i) else 0
        else 0
    end.
  Definition lo (o : op hub) : bool * nat := (creator o, mode (indices o)).
  Lemma step_hub x w : Forall (fun o => site N (index1 o)) (x :: w) ->
    Ex (map lo (x :: w)) = possum w (fun l y p q => par (l - 1) * contr x y * Ex (map lo (p ++ q))).
  Proof.
    intros H. inversion H as [|? ? Hx Hw]; subst. destruct x as [c [i s]]. cbn [map]. unfold lo at 1. cbn [creator indices].
    assert (Hin : In (i, s) labs) by (apply labs_in; exact Hx).
    assert (Hb : below M (map lo w)).
    { unfold below. apply Forall_map. eapply Forall_impl; [|exact Hw]. intros [c' [j s']] Hj. cbn. apply mode_lt, Hj. }
    change (mode (i, s)) with (ml (i, s)).
    rewrite (wick_step half Hhalf M eql eql_iff labs ml labs_nodup ml_lt ml_inj chis chis_ortho c (i, s) (map lo w) Hin Hb).
    clear H Hx Hb. revert Hw.
    enough (Gen : forall w pre, Forall (fun o => site N (index1 o)) w ->
      possum (map lo w) (fun l y p q => par (length pre + (l - 1)) * ctr eql labs ml chis c (i, s) y * Ex (map lo pre ++ p ++ q)) =
      possum w (fun l y p q => par (length pre + (l - 1)) * contr (mkOp (T := hub) c (i, s)) y * Ex (map lo (pre ++ p ++ q)))).
    { intros Hw. pose proof (Gen w [] Hw) as Q. exact Q. }
    clear w. intros w. induction w as [|[c' [j s']] w IH]; intros pre Hw'; [reflexivity|]. inversion Hw' as [|? ? Hj Hw'']; subst.
    cbn [map]. rewrite !possum_cons. f_equal.
    - cbn [app]. f_equal; [|f_equal; symmetry; apply map_app]. f_equal. unfold lo. cbn [creator indices].
      change (mode (j, s')) with (ml (j, s')).
      rewrite (ctr_value eql eql_iff labs ml labs_nodup ml_inj chis c (i, s) c' (j, s') Hin) by (apply labs_in; exact Hj).
      rewrite !G_density. cbn [contr]. destruct (Bool.eqb c (negb c')); [|reflexivity].
      unfold eql. cbn [fst snd]. replace (Bool.eqb s' s) with (Bool.eqb s s') by (destruct s, s'; reflexivity). unfold delta. rewrite (Z.eqb_sym j i).
      destruct c, (Bool.eqb s s'), (Z.eqb i j); cbn [andb]; try reflexivity; ring.
    - etransitivity; [|etransitivity; [exact (IH (pre ++ [mkOp (T := hub) c' (j, s')]) Hw'')|]].
      + apply possum_ext. intros l y p q _ ->. rewrite app_length, map_app. cbn [length map]. rewrite <- !app_assoc. cbn [app].
        replace (length pre + (S (S (length p)) - 1))%nat with (length pre + 1 + (S (length p) - 1))%nat by lia. reflexivity.
      + apply possum_ext. intros l y p q _ ->. rewrite app_length. cbn [length]. rewrite <- !app_assoc. cbn [app].
        replace (length pre + (S (S (length p)) - 1))%nat with (length pre + 1 + (S (length p) - 1))%nat by lia. reflexivity.
  Qed.
  Lemma Ex_nil : Ex (map lo []) = 1.
  Proof. apply (E_nil M eql eql_iff labs ml labs_nodup ml_lt ml_inj chis chis_ortho). Qed.

  (** <A^+ psi | B^+ psi> as expectation values of words *)
  Lemma adjoint_word w f h : braket M f (apply M w h) = braket (K := K) M (apply M (adj w) f) h.
  Proof.
    unfold braket, apply.
    transitivity (sum_over (fun t => sum_over (fun s => kconj (f t) * (amp w s t * h s)) (basis_states M)) (basis_states M)).
    { apply sum_over_ext. intros t _. rewrite <- sum_over_mul_l. reflexivity. }
    rewrite sum_over_swap. apply sum_over_ext. intros s _. rewrite conj_sum_over, <- sum_over_mul_r. apply sum_over_ext. intros t _.
    rewrite conj_mul, amp_conj, amp_adj. ring.
  Qed.
  Definition on (A : list (term hub K)) : Prop := Forall (fun a => Forall (fun o => site N (index1 o)) (operators a)) A.
  Lemma adjoint_terms (A : list (term hub K)) f u :
    adjoint_apply M mode A f u = sum_over (fun a => kconj (prefactor a) * apply M (adj (map lo (operators a))) f u) A.
  Proof.
    unfold adjoint_apply, terms_elem.
    rewrite (sum_over_ext _ _ (fun s => sum_over (fun a => kconj (prefactor a) * (amp (adj (map lo (operators a))) s u * f s)) A)).
    - rewrite sum_over_swap. apply sum_over_ext. intros a _. apply sum_over_mul_l.
    - intros s _. rewrite conj_sum_over, <- sum_over_mul_r. apply sum_over_ext. intros a _.
      unfold term_elem. rewrite conj_mul. unfold elem. rewrite amp_conj. change (ladders mode (operators a)) with (map lo (operators a)).
      rewrite <- (amp_adj (map lo (operators a))). ring.
  Qed.
  Lemma adj_lo w : adj (map lo w) = map lo (mono_conjugate (T := hub) w).
  Proof. unfold adj, mono_conjugate. rewrite <- map_rev, !map_map. apply map_ext. intros [c i]. reflexivity. Qed.
  Lemma overlap A B : on A -> on B ->
    braket M (adjoint_apply M mode A psi) (adjoint_apply M mode B psi) =
    sum_over (fun a => sum_over (fun b => prefactor a * kconj (prefactor b) *
      Ex (map lo (operators a ++ mono_conjugate (T := hub) (operators b)))) B) A.
  Proof.
    intros HA HB.
    rewrite (bk_ext M _ (fun u => sum_over (fun a => kconj (prefactor a) * apply M (adj (map lo (operators a))) psi u) A)
      _ (fun u => sum_over (fun b => kconj (prefactor b) * apply M (adj (map lo (operators b))) psi u) B))
      by (intros t _; apply adjoint_terms).
    rewrite (bk_sum_l M _ (fun a => kconj (prefactor a)) (fun a => apply M (adj (map lo (operators a))) psi)).
    apply sum_over_ext. intros a Ha. rewrite conj_inv.
    rewrite (bk_sum_r M _ (fun b => kconj (prefactor b)) (fun b => apply M (adj (map lo (operators b))) psi)).
    rewrite <- sum_over_mul_l. apply sum_over_ext. intros b Hb.
    rewrite <- adjoint_word.
    assert (Bw : below M (adj (map lo (operators b)))).
    { apply below_adj. unfold below. apply Forall_map. eapply Forall_impl; [|exact (proj1 (Forall_forall _ _) HB b Hb)].
      intros [c [j s]] Hj. cbn. apply mode_lt, Hj. }
    unfold E. rewrite (bk_ext M psi (det M labs ml chis) (apply M (map lo (operators a)) (apply M (adj (map lo (operators b))) psi))
      (apply M (map lo (operators a ++ mono_conjugate (T := hub) (operators b))) (det M labs ml chis))).
    - ring.
    - intros t _. apply slater_det.
    - intros t Ht. rewrite map_app, <- adj_lo, (apply_app M) by exact Bw.
      apply apply_ext. intros u _. apply apply_ext. intros w _. apply slater_det.
  Qed.

  (** Wick values of the words that occur *)
  Ltac sites := repeat (apply Forall_cons; [cbn; assumption|]); apply Forall_nil.
  Ltac wick1 := rewrite step_hub by sites; rewrite ?possum_cons, ?possum_nil; cbn [app];
    unfold hop; cbn [contr negb Bool.eqb Nat.sub]; unfold par; cbn [Nat.odd Nat.even negb sgn].
  Lemma w2 a b : site N a -> site N b -> Ex (map lo [hop true a true; hop false b true]) = D a b.
  Proof. intros. wick1. rewrite Ex_nil. ring. Qed.
  Lemma w2d a b : site N a -> site N b -> Ex (map lo [hop true a false; hop false b false]) = D a b.
  Proof. intros. wick1. rewrite Ex_nil. ring. Qed.
  Lemma w2c a b : site N a -> site N b -> Ex (map lo [hop false a false; hop true b false]) = delta a b - D b a.
  Proof. intros. wick1. rewrite Ex_nil. ring. Qed.
  Lemma w4a a b0 b1 b2 : site N a -> site N b0 -> site N b1 -> site N b2 ->
    Ex (map lo [hop true a true; hop true b0 false; hop false b1 false; hop false b2 true]) = D a b2 * D b0 b1.
  Proof. intros. wick1. fold (hop true b0 false) (hop false b1 false). rewrite w2d by assumption. ring. Qed.
  Lemma w4b a0 a1 a2 b : site N a0 -> site N a1 -> site N a2 -> site N b ->
    Ex (map lo [hop true a0 true; hop true a1 false; hop false a2 false; hop false b true]) = D a0 b * D a1 a2.
  Proof. intros. apply w4a; assumption. Qed.
  Lemma w4d a1 a2 b0 b1 : site N a1 -> site N a2 -> site N b0 -> site N b1 ->
    Ex (map lo [hop true a1 false; hop false a2 false; hop true b0 false; hop false b1 false]) =
    D a1 a2 * D b0 b1 + D a1 b1 * (delta a2 b0 - D b0 a2).
  Proof.
    intros. wick1. fold (hop true b0 false) (hop false b1 false) (hop false a2 false).
    rewrite w2d, w2c by assumption. ring.
  Qed.
  Lemma w6 a0 a1 a2 b0 b1 b2 : site N a0 -> site N a1 -> site N a2 -> site N b0 -> site N b1 -> site N b2 ->
    Ex (map lo [hop true a0 true; hop true a1 false; hop false a2 false; hop true b0 false; hop false b1 false; hop false b2 true]) =
    D a0 b2 * (D a1 a2 * D b0 b1 + D a1 b1 * (delta a2 b0 - D b0 a2)).
  Proof.
    intros. wick1. fold (hop true a1 false) (hop false a2 false) (hop true b0 false) (hop false b1 false).
    rewrite w4d by assumption. ring.
  Qed.

  Definition ov (A B : list (term hub K)) : K := braket M (adjoint_apply M mode A psi) (adjoint_apply M mode B psi).
  Ltac ons := repeat (apply Forall_cons; [repeat (apply Forall_cons; [cbn; assumption|]); apply Forall_nil|]); apply Forall_nil.
  Lemma mc1 b : mono_conjugate (T := hub) [hop true b true] = [hop false b true].
  Proof. reflexivity. Qed.
  Lemma mc3 b1 b2 b3 : mono_conjugate (T := hub) [hop true b1 true; hop true b2 false; hop false b3 false] =
    [hop true b3 false; hop false b2 false; hop false b1 true].
  Proof. reflexivity. Qed.
  Ltac expand := unfold ov; rewrite overlap by ons; unfold B1, B3; rewrite !sum_over_cons, !sum_over_nil;
    cbn [prefactor operators]; rewrite ?mc1, ?mc3; cbn [app]; rewrite ?conj_opp, ?conj_add, ?conj_1.
  Lemma conj_delta' x y : kconj (delta (K := K) x y) = delta x y.
  Proof. unfold delta. destruct (Z.eqb x y); [apply conj_1|apply conj_0]. Qed.
  Lemma ov11 a b : site N a -> site N b -> ov (B1 a) (B1 b) = D a b.
  Proof. intros. expand. rewrite w2 by assumption. ring. Qed.
  Lemma ov13 a b1 b2 b3 : site N a -> site N b1 -> site N b2 -> site N b3 ->
    ov (B1 a) (B3 b1 b2 b3) = (1 + 1) * D a b1 * D b3 b2 - delta b3 b2 * D a b1.
  Proof. intros. expand. rewrite w2, w4a, conj_delta' by assumption. unfold delta. rewrite (Z.eqb_sym b2). ring. Qed.
  Lemma ov31 a1 a2 a3 b : site N a1 -> site N a2 -> site N a3 -> site N b ->
    ov (B3 a1 a2 a3) (B1 b) = (1 + 1) * D a1 b * D a2 a3 - delta a2 a3 * D a1 b.
  Proof. intros. expand. rewrite w2, w4b by assumption. ring. Qed.
  Lemma ov33 a1 a2 a3 b1 b2 b3 : site N a1 -> site N a2 -> site N a3 -> site N b1 -> site N b2 -> site N b3 ->
    ov (B3 a1 a2 a3) (B3 b1 b2 b3) =
    (1 + 1) * (1 + 1) * (D a1 b1 * (D a2 a3 * D b3 b2 + D a2 b2 * (delta a3 b3 - D b3 a3)))
    - (1 + 1) * delta a2 a3 * (D a1 b1 * D b3 b2) - (1 + 1) * delta b3 b2 * (D a1 b1 * D a2 a3)
    + delta a2 a3 * delta b3 b2 * D a1 b1.
  Proof.
    intros. expand. rewrite w2, w6, conj_delta' by assumption. rewrite !w4a by assumption.
    replace (delta (K := K) b2 b3) with (delta (K := K) b3 b2) by (unfold delta; rewrite Z.eqb_sym; reflexivity). ring.
  Qed.
End Hub.
