(** Proofs for C95: what the loops of the rounded Fermi jump compute, for every schedule. *)
From Coq Require Import Reals List ZArith Permutation Lia.
From Verif Require Import Base M_Operator M_Lattice Spec_Lattice M_Basis Pf_Basis M_Matrix Pf_Matrix M_Ode Pf_Ode M_Dispersion
  M_OpenMP Spec_OpenMP Pf_OpenMP M_SiteOccupation Pf_SiteOccupation M_FermiJump Pf_FermiJump
  Spec_Stability M_Rounding M_RoundedMeasurement Pf_Threads M_RoundedJump.
Local Open Scope list_scope.

Section El.
  Context {V X : Type} (zero : V) (add : V -> X -> V).
  Variables (x0 : Z -> X) (v0 : Z -> V) (xs : Z -> list X).
  Hypothesis put : forall reg i, add reg (x0 i) = v0 i.
  Definition relem_prog (i : Z) : list (rop X) := RAdd (Z.to_nat i) (x0 i) :: flat_map (rplus_assign (Z.to_nat i)) (xs i).
  Definition rvalue (i : Z) : V := fold_left add (xs i) (v0 i).
  Definition rwrites (l : list Z) (mem : list V) : list V := fold_left (fun m i => list_set m (Z.to_nat i) (rvalue i)) l mem.
  Local Notation rsolo := (rsolo zero add).
  Local Notation rsolos := (rsolos zero add).

  Lemma relem_cell i o : In o (relem_prog i) -> rcell o = Z.to_nat i.
  Proof. intros [<-|H]; [reflexivity|]. apply in_flat_map in H. destruct H as [y [_ [<-|[<-|[]]]]]; reflexivity. Qed.
  Lemma rsolo_elem i reg mem p : (Z.to_nat i < length mem)%nat ->
    exists reg', rsolo reg (relem_prog i ++ p) mem = rsolo reg' p (list_set mem (Z.to_nat i) (rvalue i)).
  Proof.
    intros H. unfold relem_prog. cbn [app Pf_Threads.rsolo rexec1].
    destruct (rsolo_plus zero add (xs i) (Z.to_nat i) reg (list_set mem (Z.to_nat i) (add reg (x0 i))) p) as [reg' ->]; [rewrite list_set_length; exact H|].
    exists reg'. f_equal. rewrite list_set_nth, Nat.eqb_refl, list_set_set, put by exact H. reflexivity.
  Qed.
  Lemma rsolo_elems l : forall reg mem, (forall i, In i l -> (Z.to_nat i < length mem)%nat) ->
    rsolo reg (flat_map relem_prog l) mem = rwrites l mem.
  Proof.
    induction l as [|i l IH]; intros reg mem H; cbn [flat_map]; [reflexivity|].
    destruct (rsolo_elem i reg mem (flat_map relem_prog l)) as [reg' ->]; [apply H; left; reflexivity|].
    rewrite IH by (intros j Hj; rewrite list_set_length; apply H; right; exact Hj). reflexivity.
  Qed.
  Lemma rwrites_length l : forall mem, length (rwrites l mem) = length mem.
  Proof. induction l as [|i l IH]; intros mem; cbn; [reflexivity|]. unfold rwrites in IH. rewrite IH. apply list_set_length. Qed.
  Lemma rsolos_elems w : forall mem, (forall i, In i (concat w) -> (Z.to_nat i < length mem)%nat) ->
    rsolos (map (fun its => (zero, flat_map relem_prog its)) w) mem = rwrites (concat w) mem.
  Proof.
    induction w as [|its w IH]; intros mem H; cbn [map concat]; [reflexivity|].
    unfold Pf_Threads.rsolos. cbn [fold_left fst snd].
    cbn [concat] in H. rewrite rsolo_elems by (intros i Hi; apply H, in_or_app; left; exact Hi).
    etransitivity; [apply IH; intros i Hi; rewrite rwrites_length; apply H, in_or_app; right; exact Hi|].
    unfold rwrites. rewrite fold_left_app. reflexivity.
  Qed.
  Lemma nth_set_ne (l : list V) : forall i c x, i <> c -> nth c (list_set l i x) zero = nth c l zero.
  Proof. induction l as [|y l IH]; intros [|i] [|c] x H; cbn; try reflexivity; [lia|]. apply IH. lia. Qed.
  Lemma nth_set_eq (l : list V) : forall i x, (i < length l)%nat -> nth i (list_set l i x) zero = x.
  Proof. induction l as [|y l IH]; intros [|i] x H; cbn in *; try lia; [reflexivity|]. apply IH. lia. Qed.
  Lemma rwrites_out l : forall mem c, (forall i, In i l -> Z.to_nat i <> c) -> nth c (rwrites l mem) zero = nth c mem zero.
  Proof.
    induction l as [|i l IH]; intros mem c H; cbn; [reflexivity|]. unfold rwrites in IH.
    rewrite IH by (intros j Hj; apply H; right; exact Hj). apply nth_set_ne. apply H. left; reflexivity.
  Qed.
  Lemma rwrites_in l : forall mem i, NoDup l -> (forall j, In j l -> (0 <= j)%Z) -> In i l -> (Z.to_nat i < length mem)%nat ->
    nth (Z.to_nat i) (rwrites l mem) zero = rvalue i.
  Proof.
    induction l as [|j l IH]; intros mem i ND HP Hi Hl; [destruct Hi|]. inversion ND as [|? ? Hn Hd]; subst.
    destruct Hi as [->|Hi].
    - cbn. change (nth (Z.to_nat i) (rwrites l (list_set mem (Z.to_nat i) (rvalue i))) zero = rvalue i). rewrite rwrites_out.
      + apply nth_set_eq, Hl.
      + intros k Hk E. assert (k = i) by (pose proof (HP k (or_intror Hk)); pose proof (HP i (or_introl eq_refl)); lia). subst. contradiction.
    - cbn. apply (IH (list_set mem (Z.to_nat j) (rvalue j)) i Hd); [intros k Hk; apply HP; right; exact Hk|exact Hi|rewrite list_set_length; exact Hl].
  Qed.
  Theorem rpar_elements T lo hi s body (mem : list V) r : (0 <= lo)%Z -> (hi <= Z.of_nat (length mem))%Z -> shares T lo hi s ->
    (forall i, In i (zrange lo hi) -> body i = Ok (relem_prog i)) ->
    rpar_for zero add s body mem = Some r ->
    exists mem', r = Ok mem' /\ length mem' = length mem /\
      forall i, (0 <= i)%Z -> nth (Z.to_nat i) mem' zero = if ((lo <=? i) && (i <? hi))%Z%bool then rvalue i else nth (Z.to_nat i) mem zero.
  Proof.
    intros Hlo Hhi HS HB. unfold rpar_for.
    assert (InW : forall i, In i (concat (who s)) <-> (lo <= i < hi)%Z).
    { intros i. destruct HS as [_ HP]. split; intros Hi.
      - apply zrange_in. eapply Permutation_in; [exact HP|exact Hi].
      - eapply Permutation_in; [symmetry; exact HP|]. apply zrange_in, Hi. }
    rewrite (omap_ok _ (fun its => flat_map relem_prog its)).
    2: { intros its Hin. apply (oconcat_ok _ relem_prog). intros i Hi. apply HB, zrange_in, InW, in_concat. exists its. split; assumption. }
    intros H. eapply rrun_value in H.
    - unfold rstart in H. rewrite map_map in H. rewrite rsolos_elems in H by (intros i Hi; apply InW in Hi; lia).
      exists (rwrites (concat (who s)) mem). split; [exact H|]. split; [apply rwrites_length|].
      intros i Hi. destruct (Z.leb_spec lo i) as [L|L]; [destruct (Z.ltb_spec i hi) as [U|U]|]; cbn [andb].
      + apply rwrites_in; [apply (shares_nodup T lo hi s HS)|intros j Hj; apply InW in Hj; lia|apply InW; lia|lia].
      + apply rwrites_out. intros j Hj. apply InW in Hj. lia.
      + apply rwrites_out. intros j Hj. apply InW in Hj. lia.
    - unfold rstart. rewrite map_map. intros i j a b c Hij Ha Hb [o [Ho Hc]] [o' [Ho' Hc']].
      rewrite nth_error_map in Ha, Hb. destruct (nth_error (who s) i) as [p|] eqn:Ei; [|discriminate].
      destruct (nth_error (who s) j) as [p'|] eqn:Ej; [|discriminate]. inversion Ha. inversion Hb. subst a b. cbn [snd] in Ho, Ho'.
      apply in_flat_map in Ho, Ho'. destruct Ho as (z & Hz & Ho), Ho' as (z' & Hz' & Ho'). apply relem_cell in Ho, Ho'.
      assert (Cz : In z (concat (who s))) by (apply in_concat; exists p; split; [eapply nth_error_In; exact Ei|exact Hz]).
      assert (Cz' : In z' (concat (who s))) by (apply in_concat; exists p'; split; [eapply nth_error_In; exact Ej|exact Hz']).
      apply InW in Cz, Cz'. assert (z = z') by lia. subst z'.
      exact (concat_apart _ i j p p' z (shares_nodup T lo hi s HS) Hij Ei Ej Hz Hz').
    - intros p o Hp Ho. apply in_map_iff in Hp. destruct Hp as (its & <- & Hits). apply in_flat_map in Ho. destruct Ho as (z & Hz & Ho).
      apply relem_cell in Ho. assert (Cz : In z (concat (who s))) by (apply in_concat; exists its; auto). apply InW in Cz. lia.
  Qed.
  Lemma rpar_for_finishes w (body : Z -> outcome (list (rop X))) mem : exists tr, rpar_for zero add (mkSch w tr) body mem <> None.
  Proof.
    unfold rpar_for. cbn [who trace]. destruct (omap _ _) as [progs|]; [|exists []; discriminate]. apply rrun_finishes.
  Qed.
End El.
