(** Proofs about loops in which iteration i writes element i only, and about the Fermi jump. *)
From Verif Require Import Base M_Operator M_Lattice Spec_Lattice M_Basis Pf_Basis M_Matrix Pf_Matrix M_Ode Pf_Ode M_Dispersion
  M_OpenMP Spec_OpenMP Pf_OpenMP M_SiteOccupation Pf_SiteOccupation M_FermiJump.
Local Open Scope list_scope.

Section El.
  Context {K : StarRing}.
  Local Open Scope ring_scope_.
  Add Ring KrEl : (rth K).
  Variables (x : Z -> K) (adds : Z -> list K).
  Definition elem_prog (i : Z) : list (mop K) := Put (Z.to_nat i) (x i) :: flat_map (plus_assign (Z.to_nat i)) (adds i).
  Definition value (i : Z) : K := x i + sum_over (fun y => y) (adds i).
  Definition writes (l : list Z) (mem : list K) : list K := fold_left (fun m i => list_set m (Z.to_nat i) (value i)) l mem.

  Lemma elem_cell i o : In o (elem_prog i) -> cell o = Z.to_nat i.
  Proof.
    intros [<-|H]; [reflexivity|]. apply in_flat_map in H. destruct H as [y [_ [<-|[<-|[]]]]]; reflexivity.
  Qed.
  Lemma solo_elem i reg mem p : (Z.to_nat i < length mem)%nat ->
    exists reg', solo reg (elem_prog i ++ p) mem = solo reg' p (list_set mem (Z.to_nat i) (value i)).
  Proof.
    intros H. unfold elem_prog. cbn [app solo exec1].
    destruct (solo_plus (adds i) (Z.to_nat i) reg (list_set mem (Z.to_nat i) (x i)) p) as [reg' ->]; [rewrite list_set_length; exact H|].
    exists reg'. f_equal. rewrite list_set_nth, Nat.eqb_refl, list_set_set by exact H. reflexivity.
  Qed.
  Lemma solo_elems l : forall reg mem, (forall i, In i l -> (Z.to_nat i < length mem)%nat) ->
    solo reg (flat_map elem_prog l) mem = writes l mem.
  Proof.
    induction l as [|i l IH]; intros reg mem H; cbn [flat_map]; [reflexivity|].
    destruct (solo_elem i reg mem (flat_map elem_prog l)) as [reg' ->]; [apply H; left; reflexivity|].
    rewrite IH by (intros j Hj; rewrite list_set_length; apply H; right; exact Hj). reflexivity.
  Qed.
  Lemma writes_length l : forall mem, length (writes l mem) = length mem.
  Proof. induction l as [|i l IH]; intros mem; cbn; [reflexivity|]. unfold writes in IH. rewrite IH. apply list_set_length. Qed.
  Lemma solos_elems w : forall mem, (forall i, In i (concat w) -> (Z.to_nat i < length mem)%nat) ->
    solos (map (fun its => (0, flat_map elem_prog its)) w) mem = writes (concat w) mem.
  Proof.
    induction w as [|its w IH]; intros mem H; cbn [map concat]; [reflexivity|].
    unfold solos. cbn [fold_left fst snd].
    cbn [concat] in H. rewrite solo_elems by (intros i Hi; apply H, in_or_app; left; exact Hi).
    etransitivity; [apply IH; intros i Hi; rewrite writes_length; apply H, in_or_app; right; exact Hi|].
    unfold writes. rewrite fold_left_app. reflexivity.
  Qed.
  Lemma writes_out l : forall mem c, (forall i, In i l -> Z.to_nat i <> c) -> nth c (writes l mem) 0 = nth c mem 0.
  Proof.
    induction l as [|i l IH]; intros mem c H; cbn; [reflexivity|]. unfold writes in IH.
    rewrite IH by (intros j Hj; apply H; right; exact Hj). apply nth_list_set_ne. apply H. left; reflexivity.
  Qed.
  Lemma writes_in l : forall mem i, NoDup l -> (forall j, In j l -> (0 <= j)%Z) -> In i l -> (Z.to_nat i < length mem)%nat ->
    nth (Z.to_nat i) (writes l mem) 0 = value i.
  Proof.
    induction l as [|j l IH]; intros mem i ND HP Hi Hl; [destruct Hi|]. inversion ND as [|? ? Hn Hd]; subst.
    destruct Hi as [->|Hi].
    - cbn. change (nth (Z.to_nat i) (writes l (list_set mem (Z.to_nat i) (value i))) 0 = value i). rewrite writes_out.
      + rewrite list_set_nth, Nat.eqb_refl by exact Hl. reflexivity.
      + intros k Hk E. assert (k = i) by (pose proof (HP k (or_intror Hk)); pose proof (HP i (or_introl eq_refl)); lia). subst. contradiction.
    - cbn. apply (IH (list_set mem (Z.to_nat j) (value j)) i Hd); [intros k Hk; apply HP; right; exact Hk|exact Hi|rewrite list_set_length; exact Hl].
  Qed.

  Lemma elems_progs T lo hi s body : shares T lo hi s -> (forall i, In i (zrange lo hi) -> body i = Ok (elem_prog i)) ->
    omap (fun p : nat * list Z => oconcat body (snd p)) (combine (seq 0 (length (who s))) (who s)) = Ok (map (fun its => flat_map elem_prog its) (who s)).
  Proof.
    intros [HT HP] HB. rewrite (omap_ok _ (fun p => flat_map elem_prog (snd p))).
    - f_equal. rewrite <- (map_map snd (fun its => flat_map elem_prog its)). f_equal. clear. generalize 0%nat.
      induction (who s) as [|a w IH]; intros n; cbn; [reflexivity|]. rewrite IH. reflexivity.
    - intros [t its] Hin. cbn [snd]. rewrite (oconcat_ok _ elem_prog); [reflexivity|].
      intros i Hi. apply HB. eapply Permutation_in; [exact HP|]. apply in_concat. exists its. split; [|exact Hi].
      apply in_combine_r in Hin. exact Hin.
  Qed.
  Lemma shares_nodup T lo hi s : shares T lo hi s -> NoDup (concat (who s)).
  Proof.
    intros [_ HP]. eapply Permutation_NoDup; [symmetry; exact HP|]. unfold zrange. apply FinFun.Injective_map_NoDup; [|apply seq_NoDup].
    intros a b. lia.
  Qed.
  Lemma concat_apart (w : list (list Z)) i j a b z : NoDup (concat w) -> i <> j -> nth_error w i = Some a -> nth_error w j = Some b ->
    In z a -> In z b -> False.
  Proof.
    revert i j. induction w as [|l w IH]; intros i j ND Hij Ha Hb Za Zb; [destruct i; discriminate|].
    cbn [concat] in ND. destruct i as [|i], j as [|j]; cbn in Ha, Hb; [lia| | |].
    - inversion Ha; subst. apply nth_error_In in Hb. assert (In z (concat w)) by (apply in_concat; eauto).
      clear -ND Za H. induction a as [|y a IH]; [destruct Za|]. cbn in ND. inversion ND; subst. destruct Za as [->|Za].
      + apply H2, in_or_app. right; exact H.
      + apply IH; assumption.
    - inversion Hb; subst. apply nth_error_In in Ha. assert (In z (concat w)) by (apply in_concat; eauto).
      clear -ND Zb H. induction b as [|y b IH]; [destruct Zb|]. cbn in ND. inversion ND; subst. destruct Zb as [->|Zb].
      + apply H2, in_or_app. right; exact H.
      + apply IH; assumption.
    - apply (IH i j); try assumption; [|lia]. clear -ND. induction l as [|y l IH]; [exact ND|]. cbn in ND. inversion ND. auto.
  Qed.

  (** the loop fills the elements lo..hi-1 with their values and leaves the others alone *)
  Theorem par_elements T lo hi s body (mem : list K) r : (0 <= lo)%Z -> (hi <= Z.of_nat (length mem))%Z -> shares T lo hi s ->
    (forall i, In i (zrange lo hi) -> body i = Ok (elem_prog i)) ->
    par_for s (fun _ => body) mem = Some r ->
    exists mem', r = Ok mem' /\ length mem' = length mem /\
      forall i, (0 <= i)%Z -> nth (Z.to_nat i) mem' 0 = if ((lo <=? i) && (i <? hi))%Z%bool then value i else nth (Z.to_nat i) mem 0.
  Proof.
    intros Hlo Hhi HS HB. unfold par_for. rewrite (elems_progs T lo hi s body HS HB). intros H.
    assert (InW : forall i, In i (concat (who s)) <-> (lo <= i < hi)%Z).
    { intros i. destruct HS as [_ HP]. split; intros Hi.
      - apply zrange_in. eapply Permutation_in; [exact HP|exact Hi].
      - eapply Permutation_in; [symmetry; exact HP|]. apply zrange_in, Hi. }
    eapply par_value in H.
    - unfold start in H. rewrite map_map in H. rewrite solos_elems in H by (intros i Hi; apply InW in Hi; lia).
      exists (writes (concat (who s)) mem). split; [exact H|]. split; [apply writes_length|].
      intros i Hi. destruct (Z.leb_spec lo i) as [L|L]; [destruct (Z.ltb_spec i hi) as [U|U]|]; cbn [andb].
      + apply writes_in; [apply (shares_nodup T lo hi s HS)|intros j Hj; apply InW in Hj; lia|apply InW; lia|lia].
      + apply writes_out. intros j Hj. apply InW in Hj. lia.
      + apply writes_out. intros j Hj. apply InW in Hj. lia.
    - unfold start. rewrite map_map. intros i j a b c Hij Ha Hb [o [Ho Hc]] [o' [Ho' Hc']].
      rewrite nth_error_map in Ha, Hb. destruct (nth_error (who s) i) as [p|] eqn:Ei; [|discriminate].
      destruct (nth_error (who s) j) as [p'|] eqn:Ej; [|discriminate]. inversion Ha. inversion Hb. subst a b. cbn [snd] in Ho, Ho'.
      apply in_flat_map in Ho, Ho'. destruct Ho as (z & Hz & Ho), Ho' as (z' & Hz' & Ho'). apply elem_cell in Ho, Ho'.
      assert (Cz : In z (concat (who s))) by (apply in_concat; exists p; split; [eapply nth_error_In; exact Ei|exact Hz]).
      assert (Cz' : In z' (concat (who s))) by (apply in_concat; exists p'; split; [eapply nth_error_In; exact Ej|exact Hz']).
      apply InW in Cz, Cz'. assert (z = z') by lia. subst z'.
      exact (concat_apart _ i j p p' z (shares_nodup T lo hi s HS) Hij Ei Ej Hz Hz').
    - intros p o Hp Ho. apply in_map_iff in Hp. destruct Hp as (its & <- & Hits). apply in_flat_map in Ho. destruct Ho as (z & Hz & Ho).
      apply elem_cell in Ho. assert (Cz : In z (concat (who s))) by (apply in_concat; exists its; auto). apply InW in Cz. lia.
  Qed.
  (** an element outside of the array: undefined, whatever the schedule *)
  Theorem par_elements_oob T lo hi s body (mem : list K) : (0 <= lo)%Z -> (Z.of_nat (length mem) < hi)%Z -> (lo < hi)%Z -> shares T lo hi s ->
    (forall i, In i (zrange lo hi) -> body i = Ok (elem_prog i)) ->
    par_for s (fun _ => body) mem = Some UB.
  Proof.
    intros Hlo Hhi Hne HS HB. unfold par_for. rewrite (elems_progs T lo hi s body HS HB). unfold run_par.
    match goal with |- (if ?b then _ else _) = _ => replace b with false; [reflexivity|symmetry] end.
    apply not_true_iff_false. rewrite forallb_forall. intros Q.
    assert (I : In (hi - 1)%Z (concat (who s))) by (destruct HS as [_ HP]; eapply Permutation_in; [symmetry; exact HP|apply zrange_in; lia]).
    apply in_concat in I. destruct I as (its & Hits & Hin).
    specialize (Q (flat_map elem_prog its) (in_map _ _ _ Hits)). rewrite forallb_forall in Q.
    specialize (Q (Put (Z.to_nat (hi - 1)) (x (hi - 1)%Z))). cbn [cell] in Q.
    assert ((Z.to_nat (hi - 1) <? length mem)%nat = true); [|apply Nat.ltb_lt in H; lia].
    apply Q. apply in_flat_map. exists (hi - 1)%Z. split; [exact Hin|left; reflexivity].
  Qed.
  Lemma par_for_finishes w (body : nat -> Z -> outcome (list (mop K))) mem : exists tr, par_for (mkSch w tr) body mem <> None.
  Proof.
    unfold par_for. cbn [who trace]. destruct (omap _ _) as [progs|]; [|exists []; discriminate]. apply par_finishes.
  Qed.
End El.

Section FJ.
  Context {F : StarRing}.
  Local Open Scope ring_scope_.
  Add Ring FrFJ : (rth F).
  Let CF := cplx_ring F.
  Add Ring CrFJ : (rth CF).
  Variables (rho : Z -> Z -> F) (lat : lattice) (N : Z) (h : list (F * F)).
  Hypothesis HL : regular lat N.
  Hypothesis HS : (N + N * N * N < two64)%Z.
  Hypothesis Hh : Z.of_nat (length h) = (N + N * N * N)%Z.
  Notation vv := (vv h).
  Definition pref (j k : Z) : F := if (j =? k)%Z then two * rho j k - 1 else two * rho j k.
  Definition jk_adds (i : Z) : list CF :=
    flat_map (fun j => flat_map (fun k => [fmul (pref j k) (vv (get_3op_index N i j k)) : CF]) (zrange 0 N)) (zrange 0 N).
  Lemma front_read j : (0 <= j < N)%Z -> front (basis3 lat) j = Ok (hop true j true).
  Proof. intros Hj. unfold front. rewrite (read1 lat N h HL j Hj). reflexivity. Qed.
  Lemma body_value i : In i (zrange 0 N) ->
    body (evr rho) (basis3 lat) N h i = Ok (elem_prog (K := CF) vv jk_adds i).
  Proof.
    intros Hi. apply zrange_in in Hi. assert (HN := N_pos lat N HL). unfold body.
    assert (V : forall i, (0 <= i < N + N * N * N)%Z -> vread (A := cplx_ring F) h i = Ok (vv i)) by (intros; apply (vread_nth h _ (0, 0)); lia).
    rewrite V by nia. cbn [obind].
    rewrite (oconcat_ok _ (fun j => flat_map (fun k => [fmul (pref j k) (vv (get_3op_index N i j k)) : CF]) (zrange 0 N))).
    - reflexivity.
    - intros j Hj. apply zrange_in in Hj.
      rewrite (oconcat_ok _ (fun k => [fmul (pref j k) (vv (get_3op_index N i j k)) : CF])); [reflexivity|].
      intros k Hk. apply zrange_in in Hk. rewrite !front_read by assumption. cbn [obind].
      destruct (get_3op_index_range lat N HL HS i j k) as [G1 G2]; try assumption.
      rewrite V by nia. reflexivity.
  Qed.
  (** h_i^NO *)
  Definition h_no (i : Z) : CF :=
    vv i + sum_over (fun j => sum_over (fun k => ((pref j k, 0) : CF) * vv (get_3op_index N i j k)) (zrange 0 N)) (zrange 0 N).
  Lemma value_h_no i : value (K := CF) vv jk_adds i = h_no i.
  Proof.
    unfold value, h_no, jk_adds. f_equal. rewrite sum_over_flat_map. apply sum_over_ext. intros j _.
    rewrite sum_over_flat_map. apply sum_over_ext. intros k _. rewrite sum_over_cons, sum_over_nil. unfold fmul.
    destruct (vv (get_3op_index N i j k)) as [a b]. cbn. f_equal; ring.
  Qed.
  Definition jump_value (coef : list (F * F)) : F :=
    norm (sum_over (K := CF) (fun i => (Pf_SiteOccupation.vv coef i : CF) * h_no i) (zrange 0 N)).
  Lemma sum_loop T s (coef h' : list CF) r (g : Z -> CF) : shares T 0 N s ->
    Z.of_nat (length coef) = N -> (N <= Z.of_nat (length h'))%Z -> (forall i, (0 <= i < N)%Z -> nth (Z.to_nat i) h' (0, 0) = g i) ->
    jump_sum coef h' T s = Some r ->
    r = Ok (norm (sum_over (K := CF) (fun i => (Pf_SiteOccupation.vv coef i : CF) * g i) (zrange 0 N))).
  Proof.
    intros Hs Hc Hl Hg H. unfold jump_sum in H.
    match type of H with pbind (par_reduce _ ?a _) _ = _ => destruct (par_reduce (K := cplx_ring F) s a (zeros T)) as [r1'|] eqn:R1; [|discriminate] end.
    eapply (par_reduce_value T 0 N s _ (fun i => [(Pf_SiteOccupation.vv coef i : CF) * g i])) in R1;
      [|exact Hs|apply Nat.eq_le_incl; symmetry; apply repeat_length|].
    - destruct R1 as (x1 & -> & L1 & Q1). cbn [pbind] in H. injection H as <-. f_equal. f_equal.
      rewrite (accumulate_sum (K := CF)). etransitivity; [exact Q1|].
      assert (Z0 : sum_over (K := CF) (fun x => x) (zeros T) = 0) by (apply sum_over_zero; intros x Hx; apply repeat_spec in Hx; exact Hx). rewrite Z0.
      rewrite (sum_over_ext _ (fun i => sum_over (fun x => x) [(Pf_SiteOccupation.vv coef i : CF) * g i])
        (fun i => (Pf_SiteOccupation.vv coef i : CF) * g i)) by (intros i _; rewrite sum_over_cons, sum_over_nil; match goal with |- @eq _ ?a ?b => change (@eq (car CF) a b) end; ring).
      match goal with |- @eq _ ?a ?b => change (@eq (car CF) a b) end. ring.
    - intros i Hi. apply zrange_in in Hi. 
      assert (V : forall l : list (cplx_ring F), (i < Z.of_nat (length l))%Z -> vread (A := cplx_ring F) l i = Ok (nth (Z.to_nat i) l (0, 0))) by (intros; apply vread_nth; lia).
      rewrite (V coef) by (eapply Z.lt_le_trans; [apply Hi|apply Z.eq_le_incl; symmetry; exact Hc]).
      rewrite (V h') by (eapply Z.lt_le_trans; [apply Hi|exact Hl]). cbn [obind].
      do 2 f_equal. apply (f_equal2 rmul); [reflexivity|]. apply Hg. lia.
  Qed.
  Theorem jump3_value T s1 s2 (coef : list (F * F)) st r : shares T 0 N s1 -> shares T 0 N s2 -> Z.of_nat (length coef) = N ->
    (match st with None => True | Some l => (N <= Z.of_nat (length l))%Z end) ->
    fermi_jump3 (evr rho) (basis3 lat) N coef h T s1 s2 st = Some r ->
    exists l, r = Ok (jump_value coef, l) /\ length l = match st with None => Z.to_nat N | Some l0 => length l0 end.
  Proof.
    intros H1 H2 Hc Hst H. unfold fermi_jump3 in H. assert (HN := N_pos lat N HL).
    set (m0 := match st with None => zeros (Z.to_nat N) | Some l => l end) in H.
    assert (Lm : (N <= Z.of_nat (length m0))%Z) by (unfold m0; destruct st; [exact Hst|unfold zeros; rewrite repeat_length; lia]).
    destruct (par_for s1 _ m0) as [r1|] eqn:R1; [|discriminate].
    eapply (par_elements (K := CF) vv jk_adds T 0 N s1) in R1; [|lia|exact Lm|exact H1|intros i Hi; apply body_value, Hi].
    destruct R1 as (mem' & -> & L' & V). cbn [pbind] in H.
    destruct (jump_sum coef mem' T s2) as [r2|] eqn:R2; [|discriminate].
    apply (sum_loop T s2 coef mem' r2 h_no H2 Hc) in R2.
    - subst r2. cbn [pbind] in H. injection H as <-. exists mem'. split; [reflexivity|]. etransitivity; [exact L'|]. unfold m0. destruct st; [reflexivity|].
      apply repeat_length.
    - etransitivity; [exact Lm|]. apply Z.eq_le_incl. f_equal. symmetry. exact L'.
    - intros i Hi. etransitivity; [apply V; lia|]. destruct (Z.leb_spec 0 i); [|lia]. destruct (Z.ltb_spec i N); [|lia]. apply value_h_no.
  Qed.
  Theorem jump3_oob T s1 s2 (coef : list (F * F)) l : shares T 0 N s1 -> (Z.of_nat (length l) < N)%Z ->
    fermi_jump3 (evr rho) (basis3 lat) N coef h T s1 s2 (Some l) = Some UB.
  Proof.
    intros H1 Hl. unfold fermi_jump3. assert (HN := N_pos lat N HL).
    rewrite (par_elements_oob (K := CF) vv jk_adds T 0 N s1); [reflexivity|lia|exact Hl|lia|exact H1|intros i Hi; apply body_value, Hi].
  Qed.
End FJ.
