(** PROOFS: the result of a reduction is determined by which thread executes which iterations in which order. *)
From Coq Require Import List ZArith Permutation Lia.
From Verif Require Import Base M_Matrix M_Ode Pf_Ode M_OpenMP Spec_OpenMP Pf_OpenMP M_RoundedMeasurement Pf_Threads Pf_RoundedMeasurement4.
Local Open Scope list_scope.

Lemma omap_nth {A B} (f : A -> outcome B) l : forall ys t y, omap f l = Ok ys -> nth_error ys t = Some y -> exists x, nth_error l t = Some x /\ f x = Ok y.
Proof.
  induction l as [|a l IH]; intros ys t y E N; cbn in E.
  - injection E as <-. destruct t; discriminate.
  - destruct (f a) as [b|] eqn:Fa; [|discriminate]. cbn in E. destruct (omap f l) as [ys'|] eqn:Fl; [|discriminate]. cbn in E. injection E as <-.
    destruct t as [|t]; cbn in N.
    + injection N as <-. exists a. auto.
    + eapply IH; eauto.
Qed.
Lemma oconcat_all {A B} (P : B -> Prop) (f : A -> outcome (list B)) l : forall ys, (forall x y, f x = Ok y -> Forall P y) -> oconcat f l = Ok ys -> Forall P ys.
Proof.
  induction l as [|a l IH]; intros ys HP E; cbn in E.
  - injection E as <-. constructor.
  - destruct (f a) as [b|] eqn:Fa; [|discriminate]. cbn in E. destruct (oconcat f l) as [ys'|] eqn:Fl; [|discriminate]. cbn in E. injection E as <-.
    apply Forall_app. split; [eapply HP, Fa|eapply IH; [exact HP|reflexivity]].
Qed.

Section P.
  Context {V X : Type} (zero : V) (add : V -> X -> V).
  Lemma rreduce_interleaving s s' adds mem r r' : who s = who s' -> rpar_reduce zero add s adds mem = Some r -> rpar_reduce zero add s' adds mem = Some r' -> r = r'.
  Proof.
    unfold rpar_reduce. intros <-. destruct (omap _ _) as [progs|] eqn:O; [|congruence]. intros E E'.
    destruct (forallb (fun p => forallb (fun o => Nat.ltb (rcell o) (length mem)) p) progs) eqn:Fb.
    2:{ unfold rrun in E, E'. rewrite Fb in *. congruence. }
    assert (Bd : forall p o, In p progs -> In o p -> (rcell o < length mem)%nat).
    { intros p o Hp Ho. rewrite forallb_forall in Fb. specialize (Fb p Hp). rewrite forallb_forall in Fb. apply Nat.ltb_lt, Fb, Ho. }
    assert (Cells : forall t p o, nth_error progs t = Some p -> In o p -> rcell o = t).
    { intros t p o Hp Ho. destruct (omap_nth _ _ _ _ _ O Hp) as ((t' & its) & N & C). cbn [fst snd] in C. apply nth_error_combine_seq in N. cbn [fst] in N. cbn in N. subst t'.
      assert (F : Forall (fun o => rcell o = t) p).
      { eapply oconcat_all; [|exact C]. intros i y Ey. cbv beta in Ey. destruct (adds i) as [xs|]; [|discriminate Ey]. cbn in Ey. injection Ey as <-.
        apply Forall_forall. intros o' Ho'. apply in_flat_map in Ho'. destruct Ho' as (x & _ & [<-|[<-|[]]]); reflexivity. }
      rewrite Forall_forall in F. apply F, Ho. }
    assert (Ap : rapart (rstart (X := X) zero progs)).
    { intros i j a b c Hij Ha Hb (o & Ho & Hc) (o' & Ho' & Hc'). unfold rstart in *. rewrite nth_error_map in Ha, Hb.
      destruct (nth_error progs i) as [p|] eqn:Ei; [|discriminate]. destruct (nth_error progs j) as [p'|] eqn:Ej; [|discriminate].
      cbn in Ha, Hb. injection Ha as <-. injection Hb as <-. cbn [snd] in *. pose proof (Cells _ _ _ Ei Ho). pose proof (Cells _ _ _ Ej Ho'). lia. }
    rewrite (rrun_value _ _ _ _ _ _ Ap Bd E), (rrun_value _ _ _ _ _ _ Ap Bd E'). reflexivity.
  Qed.

  Lemma rsolos_exact g : forall w pre, rsolos zero add (map (fun p => (zero, rred_prog g p)) (combine (seq (length pre) (length w)) w)) (pre ++ repeat zero (length w)) =
    pre ++ map (fun its => sum_up zero add (flat_map g its)) w.
  Proof.
    induction w as [|its w IH]; intros pre; cbn [length seq combine map repeat].
    - unfold rsolos. cbn. reflexivity.
    - unfold rsolos. cbn [fold_left fst snd]. unfold rred_prog at 2. cbn [fst snd].
      destruct (rsolo_plus zero add (flat_map g its) (length pre) zero (pre ++ zero :: repeat zero (length w)) []) as (reg & E); [rewrite app_length; cbn; lia|].
      rewrite app_nil_r in E. rewrite E. cbn [rsolo].
      replace (list_set (pre ++ zero :: repeat zero (length w)) (length pre) (fold_left add (flat_map g its) (nth (length pre) (pre ++ zero :: repeat zero (length w)) zero)))
        with ((pre ++ [sum_up zero add (flat_map g its)]) ++ repeat zero (length w)).
      + replace (S (length pre)) with (length (pre ++ [sum_up zero add (flat_map g its)])) by (rewrite app_length; cbn; lia).
        etransitivity; [apply (IH (pre ++ [sum_up zero add (flat_map g its)]))|]. rewrite <- app_assoc. reflexivity.
      + rewrite app_nth2, Nat.sub_diag by lia. cbn [nth]. unfold sum_up. rewrite <- app_assoc. cbn [app].
        generalize (fold_left add (flat_map g its) zero) as y. generalize (repeat zero (length w)) as z. clear. intros z y. induction pre as [|a pre IH]; cbn; [reflexivity|]. rewrite IH. reflexivity.
  Qed.
  (** every thread adds the summands of its iterations from left to right *)
  Lemma rreduce_exact s adds g T r : length (who s) = T -> (forall i, In i (concat (who s)) -> adds i = Ok (g i)) ->
    rpar_reduce zero add s adds (repeat zero T) = Some r -> r = Ok (map (fun its => sum_up zero add (flat_map g its)) (who s)).
  Proof.
    intros L Hg. unfold rpar_reduce. rewrite (omap_ok _ (rred_prog g)).
    2:{ intros [t its] Hin. cbn [fst snd]. unfold rred_prog. cbn [fst snd].
        rewrite (oconcat_ok _ (fun i => flat_map (rplus_assign t) (g i))).
        - clear. f_equal. induction its as [|i its IH]; cbn [flat_map]; [reflexivity|]. rewrite flat_map_app, IH. reflexivity.
        - intros i Hi. rewrite Hg; [reflexivity|]. apply in_concat. exists its. split; [|assumption]. apply in_combine_r in Hin. assumption. }
    intros E. eapply rrun_value in E.
    - rewrite E. f_equal. unfold rstart. rewrite map_map. subst T. apply (rsolos_exact g (who s) []).
    - unfold rstart. rewrite map_map. intros i j a b c Hij Ha Hb [o [Ho Hc]] [o' [Ho' Hc']].
      rewrite nth_error_map in Ha, Hb.
      destruct (nth_error (combine _ _) i) as [p|] eqn:Ei in Ha; [|discriminate].
      destruct (nth_error (combine _ _) j) as [p'|] eqn:Ej in Hb; [|discriminate].
      cbn in Ha, Hb. inversion Ha. inversion Hb. subst a b. cbn [snd] in Ho, Ho'.
      apply rred_prog_cell in Ho, Ho'. apply nth_error_combine_seq in Ei, Ej. lia.
    - intros p o Hp Ho. apply in_map_iff in Hp. destruct Hp as [q [<- Hq]]. apply rred_prog_cell in Ho. rewrite repeat_length.
      apply In_nth_error in Hq. destruct Hq as [i Hi].
      assert (i < length (combine (seq 0 (length (who s))) (who s)))%nat by (apply nth_error_Some; congruence).
      rewrite combine_length, seq_length in H. apply nth_error_combine_seq in Hi. lia.
  Qed.
End P.
