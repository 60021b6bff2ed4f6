(** Proofs about the parallel loops. *)
From Verif Require Import Base M_Matrix M_Ode Pf_Ode M_OpenMP Spec_OpenMP.
Local Open Scope list_scope.

Lemma oconcat_ok {A B} (f : A -> outcome (list B)) g l :
  (forall x, In x l -> f x = Ok (g x)) -> oconcat f l = Ok (flat_map g l).
Proof.
  induction l as [|x l IH]; intros H; cbn; [reflexivity|].
  rewrite (H x) by (left; reflexivity). cbn. rewrite IH by (intros; apply H; right; assumption). reflexivity.
Qed.
Lemma omap_ok {A B} (f : A -> outcome B) g l :
  (forall x, In x l -> f x = Ok (g x)) -> omap f l = Ok (map g l).
Proof.
  induction l as [|x l IH]; intros H; cbn; [reflexivity|].
  rewrite (H x) by (left; reflexivity). cbn. rewrite IH by (intros; apply H; right; assumption). reflexivity.
Qed.

Lemma list_set_same {A} (l : list A) i d : list_set l i (nth i l d) = l.
Proof. revert i. induction l as [|x l IH]; intros [|i]; cbn; try reflexivity. rewrite IH. reflexivity. Qed.
Lemma list_set_comm {A} (l : list A) i j x y : i <> j -> list_set (list_set l i x) j y = list_set (list_set l j y) i x.
Proof.
  revert i j. induction l as [|z l IH]; intros [|i] [|j] H; cbn; try reflexivity; try lia.
  rewrite IH by lia. reflexivity.
Qed.
Lemma nth_list_set_ne {A} (l : list A) i j x d : i <> j -> nth j (list_set l i x) d = nth j l d.
Proof. revert i j. induction l as [|z l IH]; intros [|i] [|j] H; cbn; try reflexivity; try lia. apply IH. lia. Qed.
Lemma nth_error_list_set {A} (l : list A) i j x :
  nth_error (list_set l i x) j = if Nat.eqb i j then match nth_error l j with Some _ => Some x | None => None end else nth_error l j.
Proof.
  revert i j. induction l as [|z l IH]; intros [|i] [|j]; cbn; try reflexivity.
  - destruct (Nat.eqb i j); reflexivity.
  - apply IH.
Qed.

Section P.
  Context {K : StarRing}.
  Local Open Scope ring_scope_.
  Add Ring KrO : (rth K).

  (** a thread running alone to its end *)
  Fixpoint solo (reg : K) (p : list (mop K)) (mem : list K) : list K :=
    match p with
    | [] => mem
    | o :: p' => let (reg', mem') := exec1 o reg mem in solo reg' p' mem'
    end.
  Definition solos (ths : list (thread K)) (mem : list K) : list K :=
    fold_left (fun m th => solo (fst th) (snd th) m) ths mem.
  Definition uses (th : thread K) (c : nat) : Prop := exists o, In o (snd th) /\ cell o = c.
  Definition apart (ths : list (thread K)) : Prop :=
    forall i j a b c, i <> j -> nth_error ths i = Some a -> nth_error ths j = Some b -> uses a c -> uses b c -> False.

  Lemma solo_set p : forall reg mem c x, (forall o, In o p -> cell o <> c) ->
    solo reg p (list_set mem c x) = list_set (solo reg p mem) c x.
  Proof.
    induction p as [|o p IH]; intros reg mem c x H; cbn [solo]; [reflexivity|].
    assert (Ho : cell o <> c) by (apply H; left; reflexivity).
    assert (Hp : forall o, In o p -> cell o <> c) by (intros; apply H; right; assumption).
    destruct o as [d|d y|d y]; cbn [cell exec1] in *.
    - rewrite nth_list_set_ne by lia. apply IH, Hp.
    - rewrite list_set_comm by lia. apply IH, Hp.
    - rewrite list_set_comm by lia. apply IH, Hp.
  Qed.
  Lemma solos_set ths : forall mem c x, (forall th, In th ths -> ~ uses th c) ->
    solos ths (list_set mem c x) = list_set (solos ths mem) c x.
  Proof.
    induction ths as [|th ths IH]; intros mem c x H; cbn; [reflexivity|].
    rewrite solo_set.
    - apply IH. intros; apply H; right; assumption.
    - intros o Ho Hc. apply (H th); [left; reflexivity|]. exists o. auto.
  Qed.
  Lemma solos_nth ths : forall mem c, (forall th, In th ths -> ~ uses th c) -> nth c (solos ths mem) 0 = nth c mem 0.
  Proof.
    induction ths as [|[reg p] ths IH]; intros mem c H; cbn; [reflexivity|].
    change (fold_left _ ths ?m) with (solos ths m). rewrite IH by (intros; apply H; right; assumption).
    assert (Hp : forall o, In o p -> cell o <> c).
    { intros o Ho Hc. apply (H (reg, p)); [left; reflexivity|]. exists o. auto. }
    clear IH H. revert reg mem. induction p as [|o p IH]; intros reg mem; cbn; [reflexivity|].
    assert (Ho : cell o <> c) by (apply Hp; left; reflexivity).
    destruct o as [d|d y|d y]; cbn [cell exec1] in *; rewrite IH by (intros; apply Hp; right; assumption);
      try rewrite nth_list_set_ne by lia; reflexivity.
  Qed.

  Lemma list_set_split {A} (l : list A) i a x : nth_error l i = Some a ->
    exists l1 l2, l = l1 ++ a :: l2 /\ length l1 = i /\ list_set l i x = l1 ++ x :: l2.
  Proof.
    revert i. induction l as [|z l IH]; intros [|i] H; cbn in H; try discriminate.
    - inversion H. subst. exists [], l. auto.
    - destruct (IH _ H) as [l1 [l2 [-> [L E]]]]. exists (z :: l1), l2. cbn. rewrite E, L. auto.
  Qed.

  Lemma step_inv ths mem t : apart ths ->
    apart (fst (step (ths, mem) t)) /\
    solos (fst (step (ths, mem) t)) (snd (step (ths, mem) t)) = solos ths mem.
  Proof.
    intros HA. unfold step. cbn [fst snd].
    destruct (nth_error ths t) as [[reg [|o p]]|] eqn:E; cbn [fst snd]; try (split; [assumption|reflexivity]).
    destruct (exec1 o reg mem) as [reg' mem'] eqn:Ex. cbn [fst snd].
    split.
    - intros i j a b c Hij Ha Hb Ua Ub. rewrite nth_error_list_set in Ha, Hb.
      assert (Hsub : forall k th, (if Nat.eqb t k then match nth_error ths k with Some _ => Some (reg', p) | None => None end
        else nth_error ths k) = Some th -> uses th c -> exists th', nth_error ths k = Some th' /\ uses th' c).
      { intros k th Hk [o' [Ho' Hc]]. destruct (Nat.eqb_spec t k) as [->|].
        - rewrite E in Hk. inversion Hk. subst. exists (reg, o :: p). split; [assumption|]. exists o'. split; [right; assumption|reflexivity].
        - exists th. split; [assumption|]. exists o'. auto. }
      destruct (Hsub _ _ Ha Ua) as [a' [Ha' Ua']]. destruct (Hsub _ _ Hb Ub) as [b' [Hb' Ub']].
      eapply HA; eauto.
    - destruct (list_set_split ths t (reg, o :: p) (reg', p) E) as [l1 [l2 [-> [L ->]]]].
      unfold solos. rewrite !fold_left_app. cbn [fold_left fst snd solo].
      change (fold_left (fun m th => solo (fst th) (snd th) m) l1 mem') with (solos l1 mem').
      change (fold_left (fun m th => solo (fst th) (snd th) m) l1 mem) with (solos l1 mem).
      assert (Hno : forall th, In th l1 -> ~ uses th (cell o)).
      { intros th Hin U. apply In_nth_error in Hin. destruct Hin as [i Hi].
        assert (i < length l1)%nat by (apply nth_error_Some; congruence).
        apply (HA i t th (reg, o :: p) (cell o)); [lia| |assumption|assumption|].
        - rewrite nth_error_app1 by assumption. assumption.
        - exists o. split; [left|]; reflexivity. }
      f_equal. destruct o as [d|d y|d y]; cbn [cell exec1] in *; inversion Ex; subst; clear Ex.
      + rewrite (solos_nth l1 _ d Hno). reflexivity.
      + rewrite solos_set by assumption. reflexivity.
      + rewrite solos_set by assumption. reflexivity.
  Qed.

  Lemma fold_step_inv tr : forall ths mem, apart ths ->
    let c := fold_left step tr (ths, mem) in solos (fst c) (snd c) = solos ths mem.
  Proof.
    induction tr as [|t tr IH]; intros ths mem HA; cbn [fold_left]; [reflexivity|].
    destruct (step_inv ths mem t HA) as [HA' E]. destruct (step (ths, mem) t) as [ths' mem'].
    cbn [fst snd] in *. cbn zeta. rewrite <- E. exact (IH ths' mem' HA').
  Qed.

  Lemma solos_finished ths mem : finished ths = true -> solos ths mem = mem.
  Proof.
    revert mem. induction ths as [|[reg p] ths IH]; intros mem H; cbn in *; [reflexivity|].
    destruct p; [|discriminate]. cbn. apply IH, H.
  Qed.

  Theorem par_value progs tr mem r :
    apart (start progs) ->
    (forall p o, In p progs -> In o p -> (cell o < length mem)%nat) ->
    run_par progs tr mem = Some r -> r = Ok (solos (start progs) mem).
  Proof.
    intros HA HB. unfold run_par.
    replace (forallb _ progs) with true.
    2:{ symmetry. apply forallb_forall. intros p Hp. apply forallb_forall. intros o Ho. apply Nat.ltb_lt. eauto. }
    pose proof (fold_step_inv tr _ mem HA) as E. cbn zeta in E. 
    destruct (fold_left step tr (start progs, mem)) as [ths mem'].
    cbn [fst snd] in E. destruct (finished ths) eqn:F; [|intros H; discriminate H]. intros H. injection H as <-.
    rewrite <- E. rewrite solos_finished by assumption. reflexivity.
  Qed.

  (** some interleaving always lets all threads finish: one thread after the other *)
  Fixpoint seq_trace (t : nat) (progs : list (list (mop K))) : list nat :=
    match progs with [] => [] | p :: ps => repeat t (length p) ++ seq_trace (S t) ps end.
  Lemma run_thread p : forall (l1 l2 : list (thread K)) reg mem, exists reg' mem',
    fold_left (step (K := K)) (repeat (length l1) (length p)) (l1 ++ (reg, p) :: l2, mem) = (l1 ++ (reg', []) :: l2, mem').
  Proof.
    induction p as [|o p IH]; intros l1 l2 reg mem; cbn [repeat length fold_left]; [exists reg, mem; reflexivity|].
    unfold step at 2. cbn [fst snd]. rewrite nth_error_app2, Nat.sub_diag by lia. cbn [nth_error].
    destruct (exec1 o reg mem) as [reg1 mem1].
    assert (Q : forall l1 : list (thread K), list_set (l1 ++ (reg, o :: p) :: l2) (length l1) (reg1, p) = l1 ++ (reg1, p) :: l2).
    { clear. induction l1 as [|z l1 IH]; cbn; [reflexivity|]. rewrite IH. reflexivity. }
    specialize (Q l1).
    destruct (IH l1 l2 reg1 mem1) as [r' [m' E]]. exists r', m'. rewrite <- E. f_equal. f_equal. exact Q.
  Qed.
  Lemma seq_trace_run progs : forall l1 mem, forallb (fun th : thread K => match snd th with [] => true | _ => false end) l1 = true ->
    finished (fst (fold_left step (seq_trace (length l1) progs) (l1 ++ start progs, mem))) = true.
  Proof.
    induction progs as [|p ps IH]; intros l1 mem H; cbn [seq_trace start map fold_left].
    - rewrite app_nil_r. exact H.
    - rewrite fold_left_app. destruct (run_thread p l1 (start ps) 0 mem) as [reg' [mem' E]].
      match goal with |- context[fold_left step (repeat ?a ?b) ?c] =>
        replace (fold_left step (repeat a b) c) with (l1 ++ ((reg', []) : thread K) :: start ps, mem') by (symmetry; exact E) end.
      replace (S (length l1)) with (length (l1 ++ [((reg', []) : thread K)])) by (rewrite app_length; cbn; lia).
      replace (l1 ++ ((reg', []) : thread K) :: start ps) with ((l1 ++ [((reg', []) : thread K)]) ++ start ps)
        by (rewrite <- app_assoc; reflexivity).
      apply IH. rewrite forallb_app, H. reflexivity.
  Qed.
  Lemma par_finishes (progs : list (list (mop K))) mem : exists tr, run_par progs tr mem <> None.
  Proof.
    exists (seq_trace 0 progs). unfold run_par. destruct (forallb _ progs); [|discriminate].
    pose proof (seq_trace_run progs [] mem eq_refl) as H. cbn [app length] in H.
    destruct (fold_left step (seq_trace 0 progs) (start progs, mem)) as [ths mem'].
    cbn [fst] in H. rewrite H. discriminate.
  Qed.

  (** *** Reductions *)
  Lemma list_set_set {A} (l : list A) i x y : list_set (list_set l i x) i y = list_set l i y.
  Proof. revert i. induction l as [|z l IH]; intros [|i]; cbn; try reflexivity. rewrite IH. reflexivity. Qed.
  Lemma solo_plus xs : forall t reg mem p, (t < length mem)%nat ->
    exists reg', solo reg (flat_map (plus_assign t) xs ++ p) mem = solo reg' p (list_set mem t (nth t mem 0 + sum_over (fun x => x) xs)).
  Proof.
    induction xs as [|x xs IH]; intros t reg mem p H; cbn [flat_map app plus_assign solo exec1].
    - exists reg. rewrite sum_over_nil. replace (nth t mem 0 + 0) with (nth t mem 0) by ring. rewrite list_set_same. reflexivity.
    - destruct (IH t (nth t mem 0) (list_set mem t (nth t mem 0 + x)) p) as [reg' ->]; [rewrite list_set_length; assumption|].
      exists reg'. f_equal. rewrite list_set_nth, Nat.eqb_refl by assumption. rewrite sum_over_cons.
      replace (nth t mem 0 + (x + sum_over (fun x => x) xs)) with (nth t mem 0 + x + sum_over (fun x => x) xs) by ring.
      rewrite list_set_set. reflexivity.
  Qed.

  Lemma sum_list_set (mem : list K) t x : (t < length mem)%nat ->
    sum_over (fun x => x) (list_set mem t (nth t mem 0 + x)) = sum_over (fun x => x) mem + x.
  Proof.
    revert t. induction mem as [|y mem IH]; intros [|t] H; cbn [length list_set nth] in *; try lia; rewrite !sum_over_cons.
    - ring.
    - rewrite IH by lia. ring.
  Qed.

  Definition red_prog (g : Z -> list K) (p : nat * list Z) : list (mop K) := flat_map (plus_assign (fst p)) (flat_map g (snd p)).
  Lemma red_prog_cell g p o : In o (red_prog g p) -> cell o = fst p.
  Proof.
    unfold red_prog. intros H. apply in_flat_map in H. destruct H as [x [_ [<-|[<-|[]]]]]; reflexivity.
  Qed.
  Lemma solos_reduce g : forall w t (mem : list K), (t + length w <= length mem)%nat ->
    let m := solos (map (fun p => (0, red_prog g p)) (combine (seq t (length w)) w)) mem in
    length m = length mem /\
    sum_over (fun x => x) m = sum_over (fun x => x) mem + sum_over (fun i => sum_over (fun x => x) (g i)) (concat w).
  Proof.
    induction w as [|its w IH]; intros t mem H; cbn zeta; cbn [length seq combine map concat].
    - unfold solos. cbn [fold_left]. rewrite sum_over_nil. split; [reflexivity|ring].
    - unfold solos. cbn [fold_left fst snd]. unfold red_prog at 2 4. cbn [fst snd].
      cbn [length] in H.
      destruct (solo_plus (flat_map g its) t 0 mem []) as [reg' E]; [lia|].
      rewrite app_nil_r in E. rewrite E. cbn [solo].
      destruct (IH (S t) (list_set mem t (nth t mem 0 + sum_over (fun x => x) (flat_map g its)))) as [L S]; [rewrite list_set_length; lia|].
      unfold solos in L, S. rewrite L, S, list_set_length. split; [reflexivity|].
      rewrite sum_list_set by lia. rewrite sum_over_app, sum_over_flat_map. ring.
  Qed.

  Lemma nth_error_combine_seq {A} (w : list A) : forall t i p, nth_error (combine (seq t (length w)) w) i = Some p -> fst p = (t + i)%nat.
  Proof.
    induction w as [|x w IH]; intros t [|i] p H; cbn in H; try discriminate.
    - inversion H. cbn. lia.
    - apply IH in H. lia.
  Qed.

  Theorem par_reduce_value T lo hi s (adds : Z -> outcome (list K)) g results r :
    shares T lo hi s -> (T <= length results)%nat ->
    (forall i, In i (zrange lo hi) -> adds i = Ok (g i)) ->
    par_reduce s adds results = Some r ->
    exists results', r = Ok results' /\ length results' = length results /\
      sum_over (fun x => x) results' = sum_over (fun x => x) results + sum_over (fun i => sum_over (fun x => x) (g i)) (zrange lo hi).
  Proof.
    intros [HT HP] HL Hg. unfold par_reduce, par_for.
    rewrite (omap_ok _ (red_prog g)).
    2:{ intros [t its] Hin. cbn [fst snd]. unfold red_prog. cbn [fst snd].
        rewrite (oconcat_ok _ (fun i => flat_map (plus_assign t) (g i))).
        - clear. f_equal. induction its as [|i its IH]; cbn [flat_map]; [reflexivity|]. rewrite flat_map_app, IH. reflexivity.
        - intros i Hi. rewrite Hg; [reflexivity|]. eapply Permutation_in; [exact HP|].
          apply in_concat. exists its. split; [|assumption]. apply in_combine_r in Hin. assumption. }
    intros H. eapply par_value in H.
    - unfold start in H. rewrite map_map in H. destruct (solos_reduce g (who s) 0 results) as [L S]; [lia|].
      eexists. split; [exact H|]. split; [exact L|]. rewrite S. f_equal. apply sum_over_perm, HP.
    - unfold start. rewrite map_map. intros i j a b c Hij Ha Hb [o [Ho Hc]] [o' [Ho' Hc']].
      rewrite nth_error_map in Ha, Hb.
      destruct (nth_error (combine _ _) i) as [p|] eqn:Ei in Ha; [|discriminate].
      destruct (nth_error (combine _ _) j) as [p'|] eqn:Ej in Hb; [|discriminate].
      cbn in Ha, Hb. inversion Ha. inversion Hb. subst a b. cbn [snd] in Ho, Ho'.
      apply red_prog_cell in Ho, Ho'. apply nth_error_combine_seq in Ei, Ej. lia.
    - intros p o Hp Ho. apply in_map_iff in Hp. destruct Hp as [q [<- Hq]]. apply red_prog_cell in Ho.
      apply In_nth_error in Hq. destruct Hq as [i Hi].
      assert (i < length (combine (seq 0 (length (who s))) (who s)))%nat by (apply nth_error_Some; congruence).
      rewrite combine_length, seq_length in H0. apply nth_error_combine_seq in Hi. lia.
  Qed.

  Lemma accumulate_sum (l : list K) : accumulate l = sum_over (fun x => x) l.
  Proof.
    unfold accumulate. assert (H : forall a, fold_left radd l a = a + sum_over (fun x => x) l).
    { induction l as [|x l IH]; intros a; cbn [fold_left]; [rewrite sum_over_nil; ring|]. rewrite IH, sum_over_cons. ring. }
    rewrite H. ring.
  Qed.
  Lemma par_reduce_finishes w (adds : Z -> outcome (list K)) results : exists tr, par_reduce (mkSch w tr) adds results <> None.
  Proof.
    unfold par_reduce, par_for. cbn [who trace]. destruct (omap _ _) as [progs|]; [|exists []; discriminate].
    apply par_finishes.
  Qed.
End P.
