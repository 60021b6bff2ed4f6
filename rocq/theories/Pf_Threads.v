(** PROOFS: what threads that add to their own elements compute, for an addition without any laws. *)
From Coq Require Import List ZArith Permutation Lia.
From Verif Require Import Base M_Matrix M_Ode Pf_Ode M_OpenMP Spec_OpenMP Pf_OpenMP M_RoundedMeasurement.
Local Open Scope list_scope.

Section P.
  Context {V X : Type} (zero : V) (add : V -> X -> V).
  Notation rop := (rop X).
  Notation rthread := (rthread V X).
  Notation rexec1 := (rexec1 zero add).
  Notation rstep := (rstep zero add).
  Notation rstart := (rstart (X := X) zero).

  Fixpoint rsolo (reg : V) (p : list rop) (mem : list V) : list V :=
    match p with
    | [] => mem
    | o :: p' => let (reg', mem') := rexec1 o reg mem in rsolo reg' p' mem'
    end.
  Definition rsolos (ths : list rthread) (mem : list V) : list V :=
    fold_left (fun m th => rsolo (fst th) (snd th) m) ths mem.
  Definition ruses (th : rthread) (c : nat) : Prop := exists o, In o (snd th) /\ rcell o = c.
  Definition rapart (ths : list rthread) : Prop :=
    forall i j a b c, i <> j -> nth_error ths i = Some a -> nth_error ths j = Some b -> ruses a c -> ruses b c -> False.

  Lemma rsolo_set p : forall reg mem c x, (forall o, In o p -> rcell o <> c) ->
    rsolo reg p (list_set mem c x) = list_set (rsolo reg p mem) c x.
  Proof.
    induction p as [|o p IH]; intros reg mem c x H; cbn [rsolo]; [reflexivity|].
    assert (Ho : rcell o <> c) by (apply H; left; reflexivity).
    assert (Hp : forall o, In o p -> rcell o <> c) by (intros; apply H; right; assumption).
    destruct o as [d|d y]; cbn [rcell M_RoundedMeasurement.rexec1] in *.
    - rewrite nth_list_set_ne by lia. apply IH, Hp.
    - rewrite list_set_comm by lia. apply IH, Hp.
  Qed.
  Lemma rsolos_set ths : forall mem c x, (forall th, In th ths -> ~ ruses th c) ->
    rsolos ths (list_set mem c x) = list_set (rsolos ths mem) c x.
  Proof.
    induction ths as [|th ths IH]; intros mem c x H; cbn; [reflexivity|].
    rewrite rsolo_set.
    - apply IH. intros; apply H; right; assumption.
    - intros o Ho Hc. apply (H th); [left; reflexivity|]. exists o. auto.
  Qed.
  Lemma rsolos_nth ths : forall mem c, (forall th, In th ths -> ~ ruses th c) -> nth c (rsolos ths mem) zero = nth c mem zero.
  Proof.
    induction ths as [|[reg p] ths IH]; intros mem c H; cbn; [reflexivity|].
    change (fold_left _ ths ?m) with (rsolos ths m). rewrite IH by (intros; apply H; right; assumption).
    assert (Hp : forall o, In o p -> rcell o <> c).
    { intros o Ho Hc. apply (H (reg, p)); [left; reflexivity|]. exists o. auto. }
    clear IH H. revert reg mem. induction p as [|o p IH]; intros reg mem; cbn; [reflexivity|].
    assert (Ho : rcell o <> c) by (apply Hp; left; reflexivity).
    destruct o as [d|d y]; cbn [rcell M_RoundedMeasurement.rexec1] in *; rewrite IH by (intros; apply Hp; right; assumption);
      try rewrite nth_list_set_ne by lia; reflexivity.
  Qed.

  Lemma rstep_inv ths mem t : rapart ths ->
    rapart (fst (rstep (ths, mem) t)) /\
    rsolos (fst (rstep (ths, mem) t)) (snd (rstep (ths, mem) t)) = rsolos ths mem.
  Proof.
    intros HA. unfold M_RoundedMeasurement.rstep. cbn [fst snd].
    destruct (nth_error ths t) as [[reg [|o p]]|] eqn:E; cbn [fst snd]; try (split; [assumption|reflexivity]).
    destruct (rexec1 o reg mem) as [reg' mem'] eqn:Ex. cbn [fst snd].
    split.
    - intros i j a b c Hij Ha Hb Ua Ub. rewrite nth_error_list_set in Ha, Hb.
      assert (Hsub : forall k th, (if Nat.eqb t k then match nth_error ths k with Some _ => Some (reg', p) | None => None end
        else nth_error ths k) = Some th -> ruses th c -> exists th', nth_error ths k = Some th' /\ ruses th' c).
      { intros k th Hk [o' [Ho' Hc]]. destruct (Nat.eqb_spec t k) as [->|].
        - rewrite E in Hk. inversion Hk. subst. exists (reg, o :: p). split; [assumption|]. exists o'. split; [right; assumption|reflexivity].
        - exists th. split; [assumption|]. exists o'. auto. }
      destruct (Hsub _ _ Ha Ua) as [a' [Ha' Ua']]. destruct (Hsub _ _ Hb Ub) as [b' [Hb' Ub']].
      eapply HA; eauto.
    - destruct (list_set_split ths t (reg, o :: p) (reg', p) E) as [l1 [l2 [-> [L ->]]]].
      unfold rsolos. rewrite !fold_left_app. cbn [fold_left fst snd rsolo].
      change (fold_left (fun m th => rsolo (fst th) (snd th) m) l1 mem') with (rsolos l1 mem').
      change (fold_left (fun m th => rsolo (fst th) (snd th) m) l1 mem) with (rsolos l1 mem).
      assert (Hno : forall th, In th l1 -> ~ ruses th (rcell o)).
      { intros th Hin U. apply In_nth_error in Hin. destruct Hin as [i Hi].
        assert (i < length l1)%nat by (apply nth_error_Some; congruence).
        apply (HA i t th (reg, o :: p) (rcell o)); [lia| |assumption|assumption|].
        - rewrite nth_error_app1 by assumption. assumption.
        - exists o. split; [left|]; reflexivity. }
      f_equal. destruct o as [d|d y]; cbn [rcell M_RoundedMeasurement.rexec1] in *; inversion Ex; subst; clear Ex.
      + rewrite (rsolos_nth l1 _ d Hno). reflexivity.
      + rewrite rsolos_set by assumption. reflexivity.
  Qed.
  Lemma fold_rstep_inv tr : forall ths mem, rapart ths ->
    let c := fold_left rstep tr (ths, mem) in rsolos (fst c) (snd c) = rsolos ths mem.
  Proof.
    induction tr as [|t tr IH]; intros ths mem HA; cbn [fold_left]; [reflexivity|].
    destruct (rstep_inv ths mem t HA) as [HA' E]. destruct (rstep (ths, mem) t) as [ths' mem'].
    cbn [fst snd] in *. cbn zeta. rewrite <- E. exact (IH ths' mem' HA').
  Qed.
  Lemma rsolos_finished ths mem : rfinished ths = true -> rsolos ths mem = mem.
  Proof.
    revert mem. induction ths as [|[reg p] ths IH]; intros mem H; cbn in *; [reflexivity|].
    destruct p; [|discriminate]. cbn. apply IH, H.
  Qed.
  Lemma rrun_value progs tr mem r :
    rapart (rstart progs) ->
    (forall p o, In p progs -> In o p -> (rcell o < length mem)%nat) ->
    rrun zero add progs tr mem = Some r -> r = Ok (rsolos (rstart progs) mem).
  Proof.
    intros HA HB. unfold rrun.
    replace (forallb _ progs) with true.
    2:{ symmetry. apply forallb_forall. intros p Hp. apply forallb_forall. intros o Ho. apply Nat.ltb_lt. eauto. }
    pose proof (fold_rstep_inv tr _ mem HA) as E. cbn zeta in E.
    destruct (fold_left rstep tr (rstart progs, mem)) as [ths mem'].
    cbn [fst snd] in E. destruct (rfinished ths) eqn:F; [|intros H; discriminate H]. intros H. injection H as <-.
    rewrite <- E. rewrite rsolos_finished by assumption. reflexivity.
  Qed.

  (** some interleaving lets all threads finish *)
  Fixpoint rseq_trace (t : nat) (progs : list (list rop)) : list nat :=
    match progs with [] => [] | p :: ps => repeat t (length p) ++ rseq_trace (S t) ps end.
  Lemma rrun_thread p : forall (l1 l2 : list rthread) reg mem, exists reg' mem',
    fold_left rstep (repeat (length l1) (length p)) (l1 ++ (reg, p) :: l2, mem) = (l1 ++ (reg', []) :: l2, mem').
  Proof.
    induction p as [|o p IH]; intros l1 l2 reg mem; cbn [repeat length fold_left]; [exists reg, mem; reflexivity|].
    unfold M_RoundedMeasurement.rstep at 2. cbn [fst snd]. rewrite nth_error_app2, Nat.sub_diag by lia. cbn [nth_error].
    destruct (rexec1 o reg mem) as [reg1 mem1].
    assert (Q : forall l1 : list rthread, list_set (l1 ++ (reg, o :: p) :: l2) (length l1) (reg1, p) = l1 ++ (reg1, p) :: l2).
    { clear. induction l1 as [|z l1 IH]; cbn; [reflexivity|]. rewrite IH. reflexivity. }
    specialize (Q l1).
    destruct (IH l1 l2 reg1 mem1) as [r' [m' E]]. exists r', m'. rewrite <- E. f_equal. f_equal. exact Q.
  Qed.
  Lemma rseq_trace_run progs : forall l1 mem, forallb (fun th : rthread => match snd th with [] => true | _ => false end) l1 = true ->
    rfinished (fst (fold_left rstep (rseq_trace (length l1) progs) (l1 ++ rstart progs, mem))) = true.
  Proof.
    induction progs as [|p ps IH]; intros l1 mem H; cbn [rseq_trace M_RoundedMeasurement.rstart map fold_left].
    - rewrite app_nil_r. exact H.
    - rewrite fold_left_app. destruct (rrun_thread p l1 (rstart ps) zero mem) as [reg' [mem' E]].
      match goal with |- context[fold_left rstep (repeat ?a ?b) ?c] =>
        replace (fold_left rstep (repeat a b) c) with (l1 ++ ((reg', []) : rthread) :: rstart ps, mem') by (symmetry; exact E) end.
      replace (S (length l1)) with (length (l1 ++ [((reg', []) : rthread)])) by (rewrite app_length; cbn; lia).
      replace (l1 ++ ((reg', []) : rthread) :: rstart ps) with ((l1 ++ [((reg', []) : rthread)]) ++ rstart ps)
        by (rewrite <- app_assoc; reflexivity).
      apply IH. rewrite forallb_app, H. reflexivity.
  Qed.
  Lemma rrun_finishes progs mem : exists tr, rrun zero add progs tr mem <> None.
  Proof.
    exists (rseq_trace 0 progs). unfold rrun. destruct (forallb _ progs); [|discriminate].
    pose proof (rseq_trace_run progs [] mem eq_refl) as H. cbn [app length] in H.
    destruct (fold_left rstep (rseq_trace 0 progs) (rstart progs, mem)) as [ths mem'].
    cbn [fst] in H. rewrite H. discriminate.
  Qed.

  (** *** Reductions: every element holds the sum of a list of summands, added from left to right *)
  Definition sum_up (l : list X) : V := fold_left add l zero.
  Lemma rsolo_plus xs : forall t reg mem p, (t < length mem)%nat ->
    exists reg', rsolo reg (flat_map (rplus_assign t) xs ++ p) mem = rsolo reg' p (list_set mem t (fold_left add xs (nth t mem zero))).
  Proof.
    induction xs as [|x xs IH]; intros t reg mem p H; cbn [flat_map app rplus_assign rsolo M_RoundedMeasurement.rexec1 fold_left].
    - exists reg. rewrite list_set_same. reflexivity.
    - destruct (IH t (nth t mem zero) (list_set mem t (add (nth t mem zero) x)) p) as [reg' ->]; [rewrite list_set_length; assumption|].
      exists reg'. f_equal. rewrite list_set_nth, Nat.eqb_refl by assumption. rewrite list_set_set. reflexivity.
  Qed.
  Lemma list_set_map {A B} (f : A -> B) l i x : list_set (map f l) i (f x) = map f (list_set l i x).
  Proof. revert i. induction l as [|y l IH]; intros [|i]; cbn; try reflexivity. rewrite IH. reflexivity. Qed.
  Lemma concat_list_set {A} (Ls : list (list A)) t ys : (t < length Ls)%nat ->
    Permutation (concat (list_set Ls t (nth t Ls [] ++ ys))) (concat Ls ++ ys).
  Proof.
    revert t. induction Ls as [|l Ls IH]; intros [|t] H; cbn [length list_set nth concat] in *; try lia.
    - rewrite <- !app_assoc. apply Permutation_app_head, Permutation_app_comm.
    - rewrite <- app_assoc. apply Permutation_app_head, IH. lia.
  Qed.
  Definition rred_prog (g : Z -> list X) (p : nat * list Z) : list rop := flat_map (rplus_assign (fst p)) (flat_map g (snd p)).
  Lemma rred_prog_cell g p o : In o (rred_prog g p) -> rcell o = fst p.
  Proof.
    unfold rred_prog. intros H. apply in_flat_map in H. destruct H as [x [_ [<-|[<-|[]]]]]; reflexivity.
  Qed.
  Lemma rsolos_reduce g : forall w t Ls, (t + length w <= length Ls)%nat ->
    exists Ls', rsolos (map (fun p => (zero, rred_prog g p)) (combine (seq t (length w)) w)) (map sum_up Ls) = map sum_up Ls' /\
      length Ls' = length Ls /\ Permutation (concat Ls') (concat Ls ++ flat_map g (concat w)).
  Proof.
    induction w as [|its w IH]; intros t Ls H; cbn [length seq combine map concat].
    - exists Ls. unfold rsolos. cbn. rewrite app_nil_r. auto.
    - unfold rsolos. cbn [fold_left fst snd]. unfold rred_prog at 2. cbn [fst snd]. cbn [length] in H.
      destruct (rsolo_plus (flat_map g its) t zero (map sum_up Ls) []) as [reg' E]; [rewrite map_length; lia|].
      rewrite app_nil_r in E. rewrite E. cbn [rsolo].
      rewrite (nth_indep _ zero (sum_up [])) by (rewrite map_length; lia). rewrite map_nth.
      replace (fold_left add (flat_map g its) (sum_up (nth t Ls []))) with (sum_up (nth t Ls [] ++ flat_map g its))
        by (unfold sum_up; apply fold_left_app).
      rewrite list_set_map.
      destruct (IH (S t) (list_set Ls t (nth t Ls [] ++ flat_map g its))) as (Ls' & Q & L & P); [rewrite list_set_length; lia|].
      exists Ls'. unfold rsolos in Q. split; [exact Q|]. rewrite list_set_length in L. split; [exact L|].
      rewrite P. rewrite concat_list_set by lia. rewrite flat_map_app, app_assoc. reflexivity.
  Qed.
  Lemma rreduce_value T lo hi s (adds : Z -> outcome (list X)) g Ls r :
    shares T lo hi s -> (T <= length Ls)%nat ->
    (forall i, In i (zrange lo hi) -> adds i = Ok (g i)) ->
    rpar_reduce zero add s adds (map sum_up Ls) = Some r ->
    exists Ls', r = Ok (map sum_up Ls') /\ length Ls' = length Ls /\
      Permutation (concat Ls') (concat Ls ++ flat_map g (zrange lo hi)).
  Proof.
    intros [HT HP] HL Hg. unfold rpar_reduce.
    rewrite (omap_ok _ (rred_prog g)).
    2:{ intros [t its] Hin. cbn [fst snd]. unfold rred_prog. cbn [fst snd].
        rewrite (oconcat_ok _ (fun i => flat_map (rplus_assign t) (g i))).
        - clear. f_equal. induction its as [|i its IH]; cbn [flat_map]; [reflexivity|]. rewrite flat_map_app, IH. reflexivity.
        - intros i Hi. rewrite Hg; [reflexivity|]. eapply Permutation_in; [exact HP|].
          apply in_concat. exists its. split; [|assumption]. apply in_combine_r in Hin. assumption. }
    intros H. eapply rrun_value in H.
    - unfold M_RoundedMeasurement.rstart in H. rewrite map_map in H. destruct (rsolos_reduce g (who s) 0 Ls) as (Ls' & Q & L & P); [lia|].
      exists Ls'. rewrite Q in H. split; [exact H|]. split; [exact L|]. rewrite P. apply Permutation_app_head. apply Permutation_flat_map, HP.
    - unfold M_RoundedMeasurement.rstart. rewrite map_map. intros i j a b c Hij Ha Hb [o [Ho Hc]] [o' [Ho' Hc']].
      rewrite nth_error_map in Ha, Hb.
      destruct (nth_error (combine _ _) i) as [p|] eqn:Ei in Ha; [|discriminate].
      destruct (nth_error (combine _ _) j) as [p'|] eqn:Ej in Hb; [|discriminate].
      cbn in Ha, Hb. inversion Ha. inversion Hb. subst a b. cbn [snd] in Ho, Ho'.
      apply rred_prog_cell in Ho, Ho'. apply nth_error_combine_seq in Ei, Ej. lia.
    - intros p o Hp Ho. apply in_map_iff in Hp. destruct Hp as [q [<- Hq]]. apply rred_prog_cell in Ho. rewrite map_length.
      apply In_nth_error in Hq. destruct Hq as [i Hi].
      assert (i < length (combine (seq 0 (length (who s))) (who s)))%nat by (apply nth_error_Some; congruence).
      rewrite combine_length, seq_length in H0. apply nth_error_combine_seq in Hi. lia.
  Qed.
  Lemma rreduce_finishes w adds results : exists tr, rpar_reduce zero add (mkSch w tr) adds results <> None.
  Proof.
    unfold rpar_reduce. cbn [who trace]. destruct (omap _ _) as [progs|]; [|exists []; discriminate].
    apply rrun_finishes.
  Qed.
End P.
