(** Proofs: Wick's theorem for Slater determinants. *)
From Verif Require Import Base Spec_Fock FockFacts M_Operator Pf_Commutator M_Basis Spec_Lattice Spec_Algebra Pf_Trace Spec_Slater.
Local Open Scope list_scope.

Section Gen.
  Context {K : StarRing}.
  Local Open Scope ring_scope_.
  Add Ring KrSl : (rth K).
  Variable half : K.
  Hypothesis Hhalf : half + half = 1.
  Variable M : nat.
  Notation st := (states M).
  Notation app_ := (apply (K := K) M).
  Notation op x := (apply (K := K) M [x]).
  Notation bk := (braket (K := K) M).
  Definition eqv (f g : vec (K := K)) : Prop := forall t, In t st -> f t = g t.
  Definition zv : vec (K := K) := fun _ => 0.

  Lemma apply_ext w f g t : eqv f g -> app_ w f t = app_ w g t.
  Proof. intros H. apply sum_over_ext. intros s Hs. rewrite (H s Hs). reflexivity. Qed.
  Lemma bk_ext f f' g g' : eqv f f' -> eqv g g' -> bk f g = bk f' g'.
  Proof. intros H H'. apply sum_over_ext. intros s Hs. rewrite (H s Hs), (H' s Hs). reflexivity. Qed.
  Lemma apply_sum {A} w (c : A -> K) (G : A -> vec (K := K)) l t :
    app_ w (fun s => sum_over (fun a => c a * G a s) l) t = sum_over (fun a => c a * app_ w (G a) t) l.
  Proof.
    unfold apply. transitivity (sum_over (fun s => sum_over (fun a => c a * (amp w s t * G a s)) l) (basis_states M)).
    - apply sum_over_ext. intros s _. rewrite <- sum_over_mul_l. apply sum_over_ext. intros a _. ring.
    - rewrite sum_over_swap. apply sum_over_ext. intros a _. apply sum_over_mul_l.
  Qed.
  Lemma apply_lin w a b f g t : app_ w (fun s => a * f s + b * g s) t = a * app_ w f t + b * app_ w g t.
  Proof. unfold apply. rewrite <- !sum_over_mul_l, <- sum_over_add. apply sum_over_ext. intros. ring. Qed.
  Lemma apply_zero w t : app_ w zv t = 0.
  Proof. apply sum_over_zero. intros. unfold zv. ring. Qed.
  Lemma apply_app A B f t : below M B -> app_ (A ++ B) f t = app_ A (app_ B f) t.
  Proof.
    intros HB. unfold apply.
    transitivity (sum_over (fun s => sum_over (fun r => amp A r t * (amp B s r * f s)) st) st).
    - apply sum_over_ext. intros s Hs. rewrite (insert_states M) by assumption. rewrite <- sum_over_mul_r.
      apply sum_over_ext. intros. ring.
    - rewrite sum_over_swap. apply sum_over_ext. intros r _. rewrite <- sum_over_mul_l. reflexivity.
  Qed.
  Lemma apply_nil f t : In t st -> app_ [] f t = f t.
  Proof.
    intros Ht. unfold apply. rewrite (sum_over_ext _ _ (fun s => if N.eqb s t then f s else 0)).
    - apply (sum_pick N.eqb N.eqb_eq f t st (states_nodup M) Ht).
    - intros s _. unfold amp. cbn [act sgn]. rewrite N.eqb_sym. destruct (N.eqb s t); ring.
  Qed.
  Lemma below1 x : (snd x < M)%nat -> below M [x].
  Proof. intros. constructor; [assumption|constructor]. Qed.
  Lemma op_car x y f t : (snd x < M)%nat -> (snd y < M)%nat -> In t st ->
    op x (op y f) t + op y (op x f) t = dL x y * f t.
  Proof.
    intros Hx Hy Ht. rewrite <- !(apply_app [_] [_]) by (apply below1; assumption). cbn [app].
    unfold apply. rewrite <- sum_over_add.
    rewrite (sum_over_ext _ _ (fun s => dL x y * (amp [] s t * f s))).
    - rewrite sum_over_mul_l. f_equal. apply (apply_nil f t Ht).
    - intros s _. destruct x as [c k], y as [c' k'].
      pose proof (amp_car K [] [] c k c' k' s t) as E. cbn [app] in E.
      transitivity ((amp [(c, k); (c', k')] s t + amp [(c', k'); (c, k)] s t) * f s); [ring|].
      rewrite E. unfold dL. cbn [fst snd]. destruct (_ && _)%bool; ring.
  Qed.
  Lemma amp_conj w s t : kconj (amp (K := K) w s t) = amp w s t.
  Proof. unfold amp. destruct (act w s) as [[sg r]|]; [|apply conj_0]. destruct (N.eqb t r); [apply conj_sgn|apply conj_0]. Qed.
  Lemma adjoint c k f h : bk f (op (c, k) h) = bk (op (negb c, k) f) h.
  Proof.
    unfold braket, apply.
    transitivity (sum_over (fun t => sum_over (fun s => kconj (f t) * (amp [(c, k)] s t * h s)) (basis_states M)) (basis_states M)).
    { apply sum_over_ext. intros t _. rewrite <- sum_over_mul_l. reflexivity. }
    rewrite sum_over_swap. apply sum_over_ext. intros s _. rewrite conj_sum_over, <- sum_over_mul_r. apply sum_over_ext. intros t _.
    rewrite conj_mul, amp_conj. change [(negb c, k)] with (adj [(c, k)]). rewrite amp_adj. ring.
  Qed.
  Lemma bk_sum_r {A} f (c : A -> K) (G : A -> vec (K := K)) l :
    bk f (fun s => sum_over (fun a => c a * G a s) l) = sum_over (fun a => c a * bk f (G a)) l.
  Proof.
    unfold braket. transitivity (sum_over (fun s => sum_over (fun a => c a * (kconj (f s) * G a s)) l) (basis_states M)).
    - apply sum_over_ext. intros s _. rewrite <- sum_over_mul_l. apply sum_over_ext. intros. ring.
    - rewrite sum_over_swap. apply sum_over_ext. intros a _. apply sum_over_mul_l.
  Qed.
  Lemma bk_sum_l {A} g (c : A -> K) (G : A -> vec (K := K)) l :
    bk (fun s => sum_over (fun a => c a * G a s) l) g = sum_over (fun a => kconj (c a) * bk (G a) g) l.
  Proof.
    unfold braket. transitivity (sum_over (fun s => sum_over (fun a => kconj (c a) * (kconj (G a s) * g s)) l) (basis_states M)).
    - apply sum_over_ext. intros s _. rewrite conj_sum_over, <- sum_over_mul_r. apply sum_over_ext. intros. rewrite conj_mul. ring.
    - rewrite sum_over_swap. apply sum_over_ext. intros a _. apply sum_over_mul_l.
  Qed.
  Lemma bk_zero_r f g : eqv g zv -> bk f g = 0.
  Proof. intros H. apply sum_over_zero. intros s Hs. rewrite (H s Hs). unfold zv. ring. Qed.
  Lemma bk_zero_l f g : eqv f zv -> bk f g = 0.
  Proof. intros H. apply sum_over_zero. intros s Hs. rewrite (H s Hs). unfold zv. rewrite conj_0. ring. Qed.

  (** *** Fields: linear combinations of ladder operators over labelled modes *)
  Context {A : Type} (eqA : A -> A -> bool) (eqA_iff : forall x y, eqA x y = true <-> x = y).
  Variables (labs : list A) (m : A -> nat).
  Hypothesis labs_nodup : NoDup labs.
  Hypothesis m_lt : forall a, In a labs -> (m a < M)%nat.
  Hypothesis m_inj : forall a b, In a labs -> In b labs -> m a = m b -> a = b.

  Definition lin (c : bool) (w : A -> K) (f : vec (K := K)) : vec (K := K) :=
    fun t => sum_over (fun a => w a * op (c, m a) f t) labs.
  Lemma lin_ext c w f g t : eqv f g -> lin c w f t = lin c w g t.
  Proof. intros H. apply sum_over_ext. intros a _. rewrite (apply_ext _ f g t H). reflexivity. Qed.
  Lemma lin_zero c w f t : eqv f zv -> lin c w f t = 0.
  Proof. intros H. apply sum_over_zero. intros a _. rewrite (apply_ext _ f zv t H), apply_zero. ring. Qed.
  Lemma sum_delta (f : A -> K) a : In a labs -> sum_over (fun b => (if eqA b a then 1 else 0) * f b) labs = f a.
  Proof.
    intros Ha. rewrite <- (sum_pick eqA eqA_iff f a labs labs_nodup Ha). apply sum_over_ext. intros b _.
    destruct (eqA b a); ring.
  Qed.
  Lemma dL_labs c c' a b : In a labs -> In b labs ->
    dL (K := K) (c, m a) (c', m b) = if Bool.eqb c (negb c') then (if eqA b a then 1 else 0) else 0.
  Proof.
    intros Ha Hb. unfold dL. cbn [fst snd]. destruct (Bool.eqb c (negb c')); cbn [andb]; [|reflexivity].
    destruct (Nat.eqb_spec (m a) (m b)) as [E|E].
    - apply m_inj in E; try assumption. subst. rewrite (proj2 (eqA_iff b b) eq_refl). reflexivity.
    - destruct (eqA b a) eqn:Q; [|reflexivity]. apply eqA_iff in Q. subst. contradiction.
  Qed.
  Lemma lin_car c c' w w' f t : In t st ->
    lin c w (lin c' w' f) t + lin c' w' (lin c w f) t =
    (if Bool.eqb c (negb c') then sum_over (fun a => w a * w' a) labs else 0) * f t.
  Proof.
    intros Ht. unfold lin.
    transitivity (sum_over (fun a => sum_over (fun b => w a * w' b * (op (c, m a) (op (c', m b) f) t + op (c', m b) (op (c, m a) f) t)) labs) labs).
    - transitivity (sum_over (fun a => sum_over (fun b => w a * w' b * op (c, m a) (op (c', m b) f) t) labs) labs +
        sum_over (fun b => sum_over (fun a => w a * w' b * op (c', m b) (op (c, m a) f) t) labs) labs).
      + f_equal; apply sum_over_ext; intros a _; rewrite apply_sum, <- sum_over_mul_l; apply sum_over_ext; intros b _; unfold apply; ring.
      + rewrite (sum_over_swap _ (fun b a => w a * w' b * op (c', m b) (op (c, m a) f) t)), <- sum_over_add.
        apply sum_over_ext. intros a _. rewrite <- sum_over_add. apply sum_over_ext. intros b _. ring.
    - rewrite (sum_over_ext _ _ (fun a => (if Bool.eqb c (negb c') then w a * w' a else 0) * f t)).
      + rewrite sum_over_mul_r. f_equal. destruct (Bool.eqb c (negb c')); [reflexivity|]. apply sum_over_zero. reflexivity.
      + intros a Ha.
        rewrite (sum_over_ext _ _ (fun b => (if eqA b a then 1 else 0) * ((if Bool.eqb c (negb c') then w a * w' b else 0) * f t))).
        * apply (sum_delta (fun b => (if Bool.eqb c (negb c') then w a * w' b else 0) * f t) a Ha).
        * intros b Hb. rewrite op_car by (try assumption; cbn; apply m_lt; assumption). rewrite dL_labs by assumption.
          destruct (Bool.eqb c (negb c')), (eqA b a); ring.
  Qed.

  Lemma sum_nth_pick {B} (F : B -> K) v : forall l i, (i < length l)%nat ->
    (forall j f, nth_error l j = Some f -> F f = if Nat.eqb j i then v else 0) -> sum_over F l = v.
  Proof.
    induction l as [|x l IH]; intros i Hi H; [cbn in Hi; lia|]. rewrite sum_over_cons. destruct i as [|i].
    - rewrite (H 0%nat x eq_refl). cbn [Nat.eqb]. rewrite sum_over_zero; [ring|].
      intros y Hy. apply In_nth_error in Hy. destruct Hy as [j Hj]. rewrite (H (S j) y Hj). reflexivity.
    - rewrite (H 0%nat x eq_refl). cbn [Nat.eqb]. rewrite (IH i); [ring|cbn in Hi; lia|]. intros j f Hj. exact (H (S j) f Hj).
  Qed.

  Variable chis : list (A -> K).
  Fixpoint det (l : list (A -> K)) : vec (K := K) :=
    match l with [] => vacuum | chi :: l' => lin true chi (det l') end.
  Definition ip (f g : A -> K) : K := sum_over (fun a => kconj (f a) * g a) labs.

  Lemma vac_kill k t : op (false, k) vacuum t = 0.
  Proof.
    apply sum_over_zero. intros s _. unfold vacuum. destruct (N.eqb_spec s 0) as [->|]; [|ring].
    unfold amp. cbn [act]. unfold ladder, occ. rewrite N.bits_0. ring.
  Qed.
  (** annihilators orthogonal to all filled orbitals give zero *)
  Lemma kill_ann w l : (forall chi, In chi l -> sum_over (fun a => w a * chi a) labs = 0) -> eqv (lin false w (det l)) zv.
  Proof.
    induction l as [|chi l IH]; intros H t Ht; cbn [det].
    - unfold lin. apply sum_over_zero. intros a _. rewrite vac_kill. ring.
    - pose proof (lin_car false true w chi (det l) t Ht) as E. cbn [negb Bool.eqb] in E.
      rewrite (H chi) in E by (left; reflexivity).
      rewrite (lin_zero true chi (lin false w (det l)) t) in E by (apply IH; intros; apply H; right; assumption).
      unfold zv. transitivity (lin false w (lin true chi (det l)) t + 0); [ring|]. rewrite E. ring.
  Qed.
  (** creators of a filled orbital give zero *)
  Lemma kill_cre chi l : In chi l -> eqv (lin true chi (det l)) zv.
  Proof.
    induction l as [|chi' l IH]; intros H t Ht; [destruct H|]. cbn [det].
    pose proof (lin_car true true chi chi' (det l) t Ht) as E. cbn [negb Bool.eqb] in E. destruct H as [->|H].
    - unfold zv. set (x := lin true chi (lin true chi (det l)) t) in *.
      transitivity ((half + half) * x); [rewrite Hhalf; ring|]. transitivity (half * (x + x)); [ring|]. rewrite E. ring.
    - rewrite (lin_zero true chi' (lin true chi (det l)) t) in E by (apply IH; exact H).
      unfold zv. transitivity (lin true chi (lin true chi' (det l)) t + 0); [ring|]. rewrite E. ring.
  Qed.
  Lemma bk_lin f c w g : bk f (lin c w g) = bk (lin (negb c) (fun a => kconj (w a)) f) g.
  Proof.
    unfold lin. rewrite bk_sum_r, bk_sum_l. apply sum_over_ext. intros a _. rewrite conj_inv, adjoint. reflexivity.
  Qed.
  Definition ortho (l : list (A -> K)) : Prop :=
    forall i j f g, nth_error l i = Some f -> nth_error l j = Some g -> ip f g = if Nat.eqb i j then 1 else 0.
  Lemma vac_norm : bk vacuum vacuum = 1.
  Proof.
    unfold braket. rewrite (sum_over_ext _ _ (fun s => if N.eqb s 0 then 1 else 0)).
    - apply (sum_pick N.eqb N.eqb_eq (fun _ => 1) 0%N st (states_nodup M)). apply states_bits. intros. unfold occ. apply N.bits_0.
    - intros s _. unfold vacuum. destruct (N.eqb s 0); rewrite ?conj_1, ?conj_0; ring.
  Qed.
  Lemma det_norm l : ortho l -> bk (det l) (det l) = 1.
  Proof.
    induction l as [|chi l IH]; intros H; cbn [det]; [apply vac_norm|].
    rewrite bk_lin. cbn [negb].
    assert (E : eqv (lin false (fun a => kconj (chi a)) (lin true chi (det l))) (det l)).
    { intros t Ht. pose proof (lin_car false true (fun a => kconj (chi a)) chi (det l) t Ht) as E. cbn [negb Bool.eqb] in E.
      rewrite (lin_zero true chi (lin false (fun a => kconj (chi a)) (det l)) t) in E.
      - transitivity (lin false (fun a => kconj (chi a)) (lin true chi (det l)) t + 0); [ring|]. rewrite E.
        change (sum_over (fun a => kconj (chi a) * chi a) labs) with (ip chi chi).
        rewrite (H 0%nat 0%nat chi chi eq_refl eq_refl). cbn. ring.
      - apply kill_ann. intros chi' Hin. apply In_nth_error in Hin. destruct Hin as [i Hi].
        exact (H 0%nat (S i) chi chi' eq_refl Hi). }
    rewrite (bk_ext _ _ _ _ E (fun t _ => eq_refl)). apply IH.
    intros i j f h Hi Hj. exact (H (S i) (S j) f h Hi Hj).
  Qed.

  Hypothesis orth : ortho chis.
  Notation psi := (det chis).
  (** the density matrix *)
  Definition G (a b : A) : K := sum_over (fun chi => kconj (chi a) * chi b) chis.
  Definition E (w : list (bool * nat)) : K := bk psi (app_ w psi).
  Definition mu (c : bool) (a b : A) : K := if c then G a b else (if eqA b a then 1 else 0) - G b a.

  Lemma minus_kills c a : In a labs -> eqv (lin c (mu c a) psi) zv.
  Proof.
    intros Ha. destruct c; cbn [mu].
    - intros t Ht. unfold lin, zv.
      transitivity (sum_over (fun chi => kconj (chi a) * lin true chi psi t) chis).
      + unfold lin. rewrite (sum_over_ext _ (fun chi => kconj (chi a) * sum_over (fun b => chi b * op (true, m b) psi t) labs)
          (fun chi => sum_over (fun b => kconj (chi a) * (chi b * op (true, m b) psi t)) labs)) by (intros; symmetry; apply sum_over_mul_l).
        rewrite sum_over_swap. apply sum_over_ext. intros b _. unfold mu, G. rewrite <- sum_over_mul_r. apply sum_over_ext. intros. ring.
      + apply sum_over_zero. intros chi Hin. rewrite (kill_cre chi chis Hin t Ht). unfold zv. ring.
    - apply kill_ann. intros chi Hin.
      rewrite (sum_over_ext _ _ (fun b => (if eqA b a then 1 else 0) * chi b - G b a * chi b)) by (intros; unfold mu; ring).
      rewrite sum_over_sub, sum_delta by exact Ha.
      apply In_nth_error in Hin. destruct Hin as [i Hi].
      assert (Q : sum_over (fun b => G b a * chi b) labs = chi a); [|rewrite Q; ring].
      unfold G. rewrite (sum_over_ext _ _ (fun b => sum_over (fun f => f a * (kconj (f b) * chi b)) chis)).
      2:{ intros b _. rewrite <- sum_over_mul_r. apply sum_over_ext. intros. ring. }
      rewrite sum_over_swap.
      rewrite (sum_over_ext _ _ (fun f => f a * ip f chi)) by (intros; unfold ip; apply sum_over_mul_l).
      apply (sum_nth_pick _ (chi a) chis i).
      + apply nth_error_Some. congruence.
      + intros j f Hj. rewrite (orth j i f chi Hj Hi). destruct (Nat.eqb_spec j i) as [->|]; [|ring].
        replace f with chi by congruence. ring.
  Qed.

  Lemma plus_kills c a : In a labs ->
    eqv (lin (negb c) (fun b => kconj ((if eqA b a then 1 else 0) - mu c a b)) psi) zv.
  Proof.
    intros Ha t Ht. rewrite <- (minus_kills (negb c) a Ha t Ht). apply sum_over_ext. intros b _. f_equal.
    assert (HG : forall x y, kconj (G x y) = G y x).
    { intros x y. unfold G. rewrite conj_sum_over. apply sum_over_ext. intros. rewrite conj_mul, conj_inv. ring. }
    assert (H1 : kconj (if eqA b a then 1 else 0 : K) = if eqA b a then 1 else 0) by (destruct (eqA b a); [apply conj_1|apply conj_0]).
    destruct c; cbn [negb mu]; rewrite ?conj_sub, ?HG, H1; ring.
  Qed.

  Lemma E_cons c a w : In a labs -> below M w -> E ((c, m a) :: w) = sum_over (fun b => mu c a b * E ((c, m b) :: w)) labs.
  Proof.
    intros Ha Hw.
    assert (Z : bk (lin (negb c) (fun b => kconj ((if eqA b a then 1 else 0) - mu c a b)) psi) (app_ w psi) = 0)
      by (apply bk_zero_l, plus_kills, Ha).
    unfold lin in Z. rewrite bk_sum_l in Z.
    rewrite (sum_over_ext _ _ (fun b => (if eqA b a then 1 else 0) * E ((c, m b) :: w) - mu c a b * E ((c, m b) :: w))) in Z.
    - rewrite sum_over_sub, (sum_delta (fun b => E ((c, m b) :: w)) a Ha) in Z.
      transitivity (E ((c, m a) :: w) - sum_over (fun b => mu c a b * E ((c, m b) :: w)) labs + sum_over (fun b => mu c a b * E ((c, m b) :: w)) labs);
        [ring|]. rewrite Z. ring.
    - intros b Hb. rewrite conj_inv, <- adjoint. unfold E. 
      rewrite (bk_ext psi psi (app_ ((c, m b) :: w) psi) (op (c, m b) (app_ w psi))).
      + ring.
      + intros t _. reflexivity.
      + intros t _. apply (apply_app [(c, m b)] w psi t Hw).
  Qed.
  Lemma E_snoc c a w : In a labs -> sum_over (fun b => mu c a b * E (w ++ [(c, m b)])) labs = 0.
  Proof.
    intros Ha. transitivity (bk psi (app_ w (lin c (mu c a) psi))).
    - unfold lin. rewrite (bk_ext psi psi _ (fun t => sum_over (fun b => mu c a b * app_ w (op (c, m b) psi) t) labs)).
      + rewrite bk_sum_r. apply sum_over_ext. intros b Hb. f_equal. apply bk_ext; intros t _; [reflexivity|].
        apply apply_app, below1, m_lt, Hb.
      + intros t _. reflexivity.
      + intros t _. apply apply_sum.
    - apply bk_zero_r. intros t _. rewrite (apply_ext w _ zv t (minus_kills c a Ha)). apply apply_zero.
  Qed.
  Lemma E_car L R x y : E (L ++ x :: y :: R) + E (L ++ y :: x :: R) = dL x y * E (L ++ R).
  Proof.
    unfold E, braket. rewrite <- sum_over_add, <- sum_over_mul_l. apply sum_over_ext. intros t _.
    unfold apply. transitivity (kconj (psi t) * (sum_over (fun s => amp (L ++ x :: y :: R) s t * psi s) (basis_states M) +
      sum_over (fun s => amp (L ++ y :: x :: R) s t * psi s) (basis_states M))); [ring|].
    rewrite <- sum_over_add. rewrite (sum_over_ext _ _ (fun s => dL x y * (amp (L ++ R) s t * psi s))).
    - rewrite sum_over_mul_l. ring.
    - intros s _. destruct x as [c k], y as [c' k'].
      transitivity ((amp (L ++ (c, k) :: (c', k') :: R) s t + amp (L ++ (c', k') :: (c, k) :: R) s t) * psi s); [ring|].
      rewrite amp_car. unfold dL. cbn [fst snd]. destruct (_ && _)%bool; ring.
  Qed.
  Lemma E_nil : E [] = 1.
  Proof.
    unfold E. rewrite (bk_ext psi psi _ psi); [apply det_norm, orth|intros t _; reflexivity|].
    intros t Ht. apply apply_nil, Ht.
  Qed.

  (** contraction of two letters *)
  Definition ctr (c : bool) (a : A) (y : bool * nat) : K := sum_over (fun b => mu c a b * dL (c, m b) y) labs.
  (** Wick's theorem *)
  Theorem wick_step c a w : In a labs -> below M w ->
    E ((c, m a) :: w) = possum w (fun l y p q => par (l - 1) * ctr c a y * E (p ++ q)).
  Proof.
    intros Ha Hw. rewrite E_cons by assumption.
    rewrite (sum_over_ext _ _ (fun b => mu c a b * possum w (fun l y p q => par (l - 1) * dL (c, m b) y * E (p ++ q)) +
      par (length w) * (mu c a b * E (w ++ [(c, m b)])))).
    - rewrite sum_over_add, sum_over_mul_l, E_snoc by exact Ha.
      transitivity (sum_over (fun b => mu c a b * possum w (fun l y p q => par (l - 1) * dL (c, m b) y * E (p ++ q))) labs); [ring|].
      clear Hw. unfold possum. set (R := seq 1 (length w)).
      rewrite (sum_over_ext _ _ (fun b => sum_over (fun l => mu c a b * match nth_error w (l - 1) with
         | Some y => par (l - 1) * dL (c, m b) y * E (firstn (l - 1) w ++ skipn l w) | None => 0 end) R)) by (intros; symmetry; apply sum_over_mul_l).
      rewrite sum_over_swap. apply sum_over_ext. intros l _. destruct (nth_error w (l - 1)) as [y|].
      + unfold ctr. rewrite (sum_over_ext _ _ (fun b => mu c a b * dL (c, m b) y * (par (l - 1) * E (firstn (l - 1) w ++ skipn l w)))) by (intros; ring).
        rewrite sum_over_mul_r. ring.
      + apply sum_over_zero. intros. ring.
    - intros b Hb. pose proof (move_through dL E E_car (c, m b) w [] []) as Q. cbn [app] in Q. rewrite app_nil_r in Q.
      rewrite Q. rewrite (possum_ext w (fun l y p q => par (l - 1) * dL (c, m b) y * E (p ++ q ++ []))
        (fun l y p q => par (l - 1) * dL (c, m b) y * E (p ++ q))) by (intros; rewrite app_nil_r; reflexivity). ring.
  Qed.
  Lemma ctr_value c a c' b : In a labs -> In b labs ->
    ctr c a (c', m b) = if Bool.eqb c (negb c') then (if c then G a b else (if eqA b a then 1 else 0) - G b a) else 0.
  Proof.
    intros Ha Hb. unfold ctr.
    rewrite (sum_over_ext _ _ (fun x => (if eqA x b then 1 else 0) * (if Bool.eqb c (negb c') then mu c a x else 0))).
    - rewrite (sum_delta (fun x => if Bool.eqb c (negb c') then mu c a x else 0) b Hb). destruct (Bool.eqb c (negb c')); reflexivity.
    - intros x Hx. rewrite dL_labs by assumption. destruct (eqA x b) eqn:Q1, (eqA b x) eqn:Q2;
        try (apply eqA_iff in Q1; subst; rewrite (proj2 (eqA_iff b b) eq_refl) in Q2; discriminate);
        try (apply eqA_iff in Q2; subst; rewrite (proj2 (eqA_iff x x) eq_refl) in Q1; discriminate);
        destruct (Bool.eqb c (negb c')); ring.
  Qed.
End Gen.
