(** Proofs for C95: numbers with a relative error, measured against a bound on the magnitudes. *)
From Coq Require Import Reals List Lia Lra Permutation.
From Verif Require Import M_Rounding Spec_Rounding Pf_RoundedSum.
Local Open Scope R_scope.
Local Open Scope list_scope.
Import ListNotations.

Section S.
  Context (u eta H phi : R) (ar : arith).
  Hypothesis u0 : 0 <= u.
  Hypothesis p0 : 0 <= phi.
  Hypothesis e0 : eta <= u * phi.
  Hypothesis acc : accurate u eta H ar.
  Definition vw (k : nat) : R := (1 + 2 * u) ^ k.
  Lemma vw_ge k : 1 <= vw k.
  Proof. unfold vw. apply pow_R1_Rle. lra. Qed.
  Lemma vw_mono k l : (k <= l)%nat -> vw k <= vw l.
  Proof. intros L. unfold vw. apply Rle_pow; [lra|exact L]. Qed.
  Lemma vw_S k : vw (S k) = vw k + 2 * u * vw k.
  Proof. unfold vw. cbn. ring. Qed.
  Lemma vw_add j k : vw (j + k) = vw j * vw k.
  Proof. apply pow_add. Qed.

  (** y is computed for x with at most k roundings, magnitudes at most X *)
  Definition D (k : nat) (X y x : R) : Prop := phi <= X /\ Rabs x <= X /\ Rabs (y - x) <= (vw k - 1) * X.
  Lemma D_abs k X y x : D k X y x -> Rabs y <= vw k * X.
  Proof.
    intros (_ & A & B). replace y with ((y - x) + x) by ring. eapply Rle_trans; [apply Rabs_triang|]. lra.
  Qed.
  Lemma D_X k X y x : D k X y x -> 0 <= X.
  Proof. intros (A & _). lra. Qed.
  Lemma D_exact x X : phi <= X -> Rabs x <= X -> D 0 X x x.
  Proof. intros A B. split; [exact A|]. split; [exact B|]. replace (x - x) with 0 by ring. rewrite Rabs_R0. unfold vw. cbn. lra. Qed.
  Lemma D_weak k l X Y y x : (k <= l)%nat -> X <= Y -> D k X y x -> D l Y y x.
  Proof.
    intros L HX C. pose proof (D_X _ _ _ _ C) as X0. destruct C as (A & B & C). split; [lra|]. split; [lra|].
    pose proof (vw_mono k l L). pose proof (vw_ge k). eapply Rle_trans; [exact C|]. apply Rmult_le_compat; lra.
  Qed.
  Lemma D_opp k X y x : D k X y x -> D k X (- y) (- x).
  Proof.
    intros (A & B & C). split; [exact A|]. split; [rewrite Rabs_Ropp; exact B|]. replace (- y - - x) with (- (y - x)) by ring. rewrite Rabs_Ropp. exact C.
  Qed.
  Lemma D_round k X z y x : vw k * X <= H -> within u eta H z y -> D k X y x -> D (S k) X z x.
  Proof.
    intros HB W C. pose proof (D_abs _ _ _ _ C) as Y. pose proof (D_X _ _ _ _ C) as X0. destruct C as (A & B & C).
    split; [exact A|]. split; [exact B|]. specialize (W (Rle_trans _ _ _ Y HB)).
    replace (z - x) with ((z - y) + (y - x)) by ring. eapply Rle_trans; [apply Rabs_triang|]. rewrite vw_S.
    assert (u * Rabs y <= u * (vw k * X)) by (apply Rmult_le_compat_l; [exact u0|exact Y]).
    assert (eta <= u * (vw k * X)).
    { eapply Rle_trans; [exact e0|]. apply Rmult_le_compat_l; [exact u0|]. pose proof (vw_ge k).
      assert (1 * X <= vw k * X) by (apply Rmult_le_compat_r; lra). lra. }
    lra.
  Qed.
  Lemma D_plus k X Y y x y' x' : D k X y x -> D k Y y' x' -> D k (X + Y) (y + y') (x + x').
  Proof.
    intros C C'. pose proof (D_X _ _ _ _ C') as Y0. destruct C as (A & B & C), C' as (A' & B' & C').
    split; [lra|]. split; [eapply Rle_trans; [apply Rabs_triang|lra]|].
    replace (y + y' - (x + x')) with ((y - x) + (y' - x')) by ring. eapply Rle_trans; [apply Rabs_triang|]. lra.
  Qed.
  Lemma D_add k X Y y x y' x' : vw k * (X + Y) <= H -> D k X y x -> D k Y y' x' -> D (S k) (X + Y) (f_add ar y y') (x + x').
  Proof. intros HB C C'. apply (D_round k _ _ (y + y')); [exact HB|apply acc|apply D_plus; assumption]. Qed.
  Lemma D_mul j k X Y y x y' x' : phi <= X * Y -> vw (j + k) * (X * Y) <= H -> D j X y x -> D k Y y' x' ->
    D (S (j + k)) (X * Y) (f_mul ar y y') (x * x').
  Proof.
    intros HP HB C C'. apply (D_round _ _ _ (y * y')); [exact HB|apply acc|].
    pose proof (D_X _ _ _ _ C) as X0. pose proof (D_X _ _ _ _ C') as Y0. pose proof (D_abs _ _ _ _ C') as Hy'.
    destruct C as (A & B & C), C' as (A' & B' & C'). split; [exact HP|].
    split; [rewrite Rabs_mult; apply Rmult_le_compat; try apply Rabs_pos; assumption|].
    replace (y * y' - x * x') with ((y - x) * y' + x * (y' - x')) by ring. eapply Rle_trans; [apply Rabs_triang|]. rewrite !Rabs_mult, vw_add.
    assert (Rabs (y - x) * Rabs y' <= (vw j - 1) * X * (vw k * Y)) by (apply Rmult_le_compat; try apply Rabs_pos; assumption).
    assert (Rabs x * Rabs (y' - x') <= X * ((vw k - 1) * Y)) by (apply Rmult_le_compat; try apply Rabs_pos; assumption).
    lra.
  Qed.

  Inductive DL (k : nat) : list R -> list R -> R -> Prop :=
  | DL_nil : DL k [] [] 0
  | DL_cons : forall w y x ys xs W V, D k w y x -> DL k ys xs W -> V = w + W -> DL k (y :: ys) (x :: xs) V.
  Lemma DL_pos k ys xs W : DL k ys xs W -> 0 <= W.
  Proof. induction 1 as [|w y x ys xs W V C CC IH E]; [lra|]. pose proof (D_X _ _ _ _ C). lra. Qed.
  Lemma DL_len k ys xs W : DL k ys xs W -> length xs = length ys.
  Proof. induction 1 as [|w y x ys xs W V C CC IH E]; [reflexivity|]. cbn. rewrite IH. reflexivity. Qed.
  Lemma DL_app k ys xs W ys' xs' W' : DL k ys xs W -> DL k ys' xs' W' -> DL k (ys ++ ys') (xs ++ xs') (W + W').
  Proof.
    induction 1 as [|w y x ys xs W V C CC IH E]; intros G; cbn [app]; [rewrite Rplus_0_l; exact G|].
    apply (DL_cons k w _ _ _ _ (W + W')); [exact C|apply IH, G|lra].
  Qed.
  Lemma DL_split k ys ys' : forall xs W, DL k (ys ++ ys') xs W -> exists xs1 xs2 W1 W2, xs = xs1 ++ xs2 /\ W = W1 + W2 /\ DL k ys xs1 W1 /\ DL k ys' xs2 W2.
  Proof.
    induction ys as [|y ys IH]; intros xs W G; cbn [app] in G.
    - exists [], xs, 0, W. split; [reflexivity|]. split; [ring|]. split; [constructor|exact G].
    - inversion G as [|w y1 x ys1 xs1 W1 V C CC E]; subst. destruct (IH _ _ CC) as (a & b & Wa & Wb & -> & -> & Ga & Gb).
      exists (x :: a), b, (w + Wa), Wb. split; [reflexivity|]. split; [ring|]. split; [apply (DL_cons k w _ _ _ _ Wa); auto|exact Gb].
  Qed.
  Lemma DL_perm k ys ys' : Permutation ys ys' -> forall xs W, DL k ys xs W -> exists xs', Permutation xs xs' /\ DL k ys' xs' W.
  Proof.
    induction 1 as [|y ys ys' P IH|y z ys|ys1 ys2 ys3 P1 IH1 P2 IH2]; intros xs W G.
    - exists xs. split; [reflexivity|exact G].
    - inversion G as [|w y1 x ys1 xs1 W1 V C CC E]; subst. destruct (IH _ _ CC) as (xs' & Px & G'). exists (x :: xs').
      split; [constructor; exact Px|]. apply (DL_cons k w _ _ _ _ W1); auto.
    - inversion G as [|w y1 x ys1 xs1 W1 V C CC E]; subst. inversion CC as [|w' y1' x' ys1' xs1' W1' V' C' CC' E']; subst.
      exists (x' :: x :: xs1'). split; [constructor|]. apply (DL_cons k w' _ _ _ _ (w + W1')); [exact C'| |lra].
      apply (DL_cons k w _ _ _ _ W1'); auto.
    - destruct (IH1 _ _ G) as (a & Pa & Ga). destruct (IH2 _ _ Ga) as (b & Pb & Gb). exists b. split; [eapply Permutation_trans; eassumption|exact Gb].
  Qed.
  Lemma DL_map {A} k (f g w : A -> R) l : (forall a, In a l -> D k (w a) (f a) (g a)) -> DL k (map f l) (map g l) (rsum (map w l)).
  Proof.
    induction l as [|a l IH]; intros C; cbn [map]; [constructor|]. apply (DL_cons k (w a) _ _ _ _ (rsum (map w l))); [apply C; left; reflexivity| |reflexivity].
    apply IH. intros b Hb. apply C. right. exact Hb.
  Qed.
  Lemma fold_D k ys xs W : DL k ys xs W -> forall m X y x, (k <= m)%nat -> vw (m + length ys) * (X + W) <= H -> D m X y x ->
    D (m + length ys) (X + W) (fold_left (f_add ar) ys y) (x + rsum xs).
  Proof.
    induction 1 as [|w y x ys xs W V C CC IH E]; intros m X y0 x0 L HB G; cbn [fold_left length].
    - rewrite Nat.add_0_r. change (rsum []) with 0. rewrite !Rplus_0_r. exact G.
    - subst V. pose proof (DL_pos _ _ _ _ CC) as W0. pose proof (D_X _ _ _ _ C) as w0. pose proof (D_X _ _ _ _ G) as X0.
      change (rsum (x :: xs)) with (x + rsum xs). rewrite <- !Rplus_assoc. rewrite Nat.add_succ_r. cbn [length] in HB. rewrite Nat.add_succ_r in HB.
      apply (IH (S m) (X + w)); [lia|cbn [Nat.add]; rewrite Rplus_assoc; exact HB|].
      apply D_add; [|exact G|apply (D_weak k m w w); [exact L|lra|exact C]].
      eapply Rle_trans; [|exact HB]. apply Rmult_le_compat; [pose proof (vw_ge m); lra|lra|apply vw_mono; lia|lra].
  Qed.
  Lemma rsum_app l m : rsum (l ++ m) = rsum l + rsum m.
  Proof. induction l as [|x l IH]; cbn [app]; [change (rsum []) with 0; ring|]. change (x + rsum (l ++ m) = x + rsum l + rsum m). rewrite IH. ring. Qed.
  Lemma rsum_perm l m : Permutation l m -> rsum l = rsum m.
  Proof.
    induction 1 as [|x a b P IH|x y a|a b c P1 IH1 P2 IH2]; [reflexivity| | |congruence].
    - change (x + rsum a = x + rsum b). rewrite IH. reflexivity.
    - change (y + (x + rsum a) = x + (y + rsum a)). ring.
  Qed.
  (** the sums of the threads *)
  Lemma threads_D k n Ls : forall xs W, DL k (concat Ls) xs W -> (forall l, In l Ls -> (length l <= n)%nat) -> vw (k + n) * (phi + W) <= H ->
    exists zs, rsum zs = rsum xs /\ DL (k + n) (map (fun l => fold_left (f_add ar) l 0) Ls) zs (W + INR (length Ls) * phi).
  Proof.
    induction Ls as [|l Ls IH]; intros xs W G Hn HB; cbn [concat] in G.
    - inversion G; subst. exists []. split; [reflexivity|]. cbn [map length INR]. rewrite Rmult_0_l, Rplus_0_r. constructor.
    - destruct (DL_split _ _ _ _ _ G) as (x1 & x2 & W1 & W2 & -> & -> & G1 & G2). pose proof (DL_pos _ _ _ _ G1). pose proof (DL_pos _ _ _ _ G2).
      destruct (IH x2 W2 G2) as (zs & Ez & Gz).
      + intros l' Hl'. apply Hn. right. exact Hl'.
      + eapply Rle_trans; [|exact HB]. apply Rmult_le_compat_l; [pose proof (vw_ge (k + n)); lra|lra].
      + exists ((0 + rsum x1) :: zs). split; [change (0 + rsum x1 + rsum zs = rsum (x1 ++ x2)); rewrite rsum_app, Ez; ring|].
        cbn [map]. apply (DL_cons _ (phi + W1) _ _ _ _ (W2 + INR (length Ls) * phi)); [|exact Gz|].
        * specialize (Hn l (or_introl eq_refl)).
          assert (F : D (k + length l) (phi + W1) (fold_left (f_add ar) l 0) (0 + rsum x1)).
          { apply (fold_D k l x1 W1 G1 k phi); [lia| |].
            - eapply Rle_trans; [|exact HB]. apply Rmult_le_compat; [pose proof (vw_ge (k + length l)); lra|lra|apply vw_mono; lia|lra].
            - apply (D_weak 0 k phi phi); [lia|lra|]. apply D_exact; [lra|rewrite Rabs_R0; exact p0]. }
          eapply D_weak; [|apply Rle_refl|exact F]. lia.
        * cbn [length]. rewrite S_INR. ring.
  Qed.
  Lemma total_D k n T Ls ys xs W : Permutation (concat Ls) ys -> DL k ys xs W -> length ys = n -> length Ls = T ->
    vw (k + n + T) * (W + INR (S T) * phi) <= H ->
    D (k + n + T) (W + INR (S T) * phi) (fold_left (f_add ar) (map (fun l => fold_left (f_add ar) l 0) Ls) 0) (rsum xs).
  Proof.
    intros P G Ly LT HB. pose proof (DL_pos _ _ _ _ G) as W0. rewrite S_INR in HB. assert (IT := pos_INR T). assert (0 <= INR T * phi) by (apply Rmult_le_pos; assumption).
    destruct (DL_perm _ _ _ (Permutation_sym P) _ _ G) as (xs' & Px & G').
    destruct (threads_D k n Ls xs' W G') as (zs & Ez & Gz).
    - intros l Hl. rewrite <- Ly, <- (Permutation_length P). clear -Hl. induction Ls as [|a Ls IH]; [destruct Hl|]. cbn [concat]. rewrite app_length.
      destruct Hl as [->|Hl]; [lia|]. specialize (IH Hl). lia.
    - eapply Rle_trans; [|exact HB]. apply Rmult_le_compat; [pose proof (vw_ge (k + n)); lra|lra|apply vw_mono; lia|lra].
    - rewrite LT in Gz. rewrite (rsum_perm _ _ Px), <- Ez. replace (rsum zs) with (0 + rsum zs) by ring.
      rewrite S_INR. replace (W + (INR T + 1) * phi) with (phi + (W + INR T * phi)) by ring.
      assert (LM : length (map (fun l => fold_left (f_add ar) l 0) Ls) = T) by (rewrite map_length; exact LT).
      rewrite <- LM at 1. apply (fold_D (k + n) _ _ _ Gz (k + n) phi); [lia| |].
      + rewrite LM. eapply Rle_trans; [|exact HB]. apply Req_le. ring.
      + apply (D_weak 0 _ phi phi); [lia|lra|]. apply D_exact; [lra|rewrite Rabs_R0; exact p0].
  Qed.
End S.
