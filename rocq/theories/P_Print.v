(** THEOREMS: C80 (printed operators, monomials and terms can be read back). *)
From Coq Require Import Ascii String.
From Verif Require Import Base M_Operator M_Commutator M_Basis M_SiteOccupation M_Text Spec_Text Pf_Text M_Io Pf_Io M_Print Spec_Print.
Local Open Scope list_scope.

Lemma print_op_gen arrows ks o : ks <> [] -> typed ks o ->
  exists v vs, p_indices o = v :: vs /\ print_op arrows o = print_head (p_creator o) ++ print_helper arrows v vs ++ str "}".
Proof.
  intros Hk T. unfold typed in T. unfold print_op. destruct (p_indices o) as [|v [|w [|x vs]]]; [subst; contradiction|..].
  - exists v, []. split; reflexivity.
  - exists v, [w]. split; [reflexivity|]. cbn [print_helper]. rewrite <- !app_assoc. reflexivity.
  - exists v, (w :: x :: vs). split; reflexivity.
Qed.
Lemma head_cut c d x y : print_head c ++ x = print_head d ++ y -> c = d /\ x = y.
Proof. destruct c, d; cbn; intros H; inversion H; auto. Qed.
(** ** Indices *)
Definition index_free (c : ascii) (v : ivalue) : Prop := forall t, v = VText t -> ~ In c t.
Lemma sdec_in c z : In c (sdec z) -> c = ascii_of_nat 45 \/ digit c.
Proof.
  unfold sdec. pose proof (dec_digits z) as D1. pose proof (dec_digits (- z)) as D2. rewrite Forall_forall in D1, D2.
  destruct (z <? 0)%Z; [intros [<-|H]|intros H]; auto.
Qed.
Lemma index_avoid arrows c v : (c = comma \/ c = brace) -> index_free c v -> ~ In c (print_index arrows v).
Proof.
  intros Hc Hf H. destruct v as [b|z|t]; cbn [print_index] in H.
  - destruct Hc as [->| ->], arrows, b; cbn in H; repeat (destruct H as [H|H]; [discriminate|]); exact H.
  - apply sdec_in in H. destruct Hc as [->| ->], H as [H|H]; try discriminate; unfold digit in H; cbn in H; lia.
  - exact (Hf t eq_refl H).
Qed.
Lemma sdec_inj a b : sdec a = sdec b -> a = b.
Proof.
  unfold sdec. intros H.
  assert (N : forall z x, dec z <> ascii_of_nat 45 :: x).
  { intros z x E. pose proof (dec_digits z) as D. rewrite E in D. inversion D; subst. unfold digit in *. cbn in *. lia. }
  destruct (Z.ltb_spec a 0), (Z.ltb_spec b 0).
  - injection H as H. apply dec_inj in H; lia.
  - symmetry in H. apply N in H. contradiction.
  - apply N in H. contradiction.
  - apply dec_inj in H; lia.
Qed.
Lemma index_inj arrows v w : kind_of v = kind_of w -> print_index arrows v = print_index arrows w -> v = w.
Proof.
  destruct v as [b|z|t], w as [b'|z'|t']; cbn; try discriminate; intros _ H.
  - destruct arrows, b, b'; cbn in H; try reflexivity; discriminate.
  - f_equal. apply sdec_inj, H.
  - congruence.
Qed.
Lemma helper_inj arrows : forall vs v ws w, (forall x, In x (v :: vs) \/ In x (w :: ws) -> index_free comma x) ->
  map kind_of (v :: vs) = map kind_of (w :: ws) ->
  print_helper arrows v vs = print_helper arrows w ws -> v :: vs = w :: ws.
Proof.
  induction vs as [|v' vs IH]; intros v ws w Hf T H; destruct ws as [|w' ws]; cbn in T; try discriminate.
  - injection T as T1. cbn in H. f_equal. exact (index_inj arrows v w T1 H).
  - assert (T1 : kind_of v = kind_of w) by congruence. assert (T2 : map kind_of (v' :: vs) = map kind_of (w' :: ws)) by (cbn; congruence).
    cbn [print_helper] in H. change (str ",") with [comma] in H. cbn [app] in H.
    apply cut_unique in H; [|apply index_avoid; [left; reflexivity|apply Hf; left; left; reflexivity]|apply index_avoid; [left; reflexivity|apply Hf; right; left; reflexivity]].
    destruct H as [H1 H2]. rewrite (index_inj arrows v w T1 H1). f_equal. apply IH; [|exact T2|exact H2].
    intros x [Hx|Hx]; apply Hf; [left|right]; right; exact Hx.
Qed.
Lemma helper_avoid arrows : forall vs v, (forall x, In x (v :: vs) -> index_free brace x) -> ~ In brace (print_helper arrows v vs).
Proof.
  induction vs as [|v' vs IH]; intros v Hf; cbn [print_helper].
  - apply index_avoid; [right; reflexivity|apply Hf; left; reflexivity].
  - intros H. apply in_app_or in H as [H|H]; [revert H; apply index_avoid; [right; reflexivity|apply Hf; left; reflexivity]|].
    destruct H as [H|H]; [discriminate|]. revert H. apply IH. intros x Hx. apply Hf. right. exact Hx.
Qed.
Lemma avoid_free cs c o x : names_avoid cs o -> In c cs -> In x (p_indices o) -> index_free c x.
Proof. intros H Hc Hx t ->. exact (H t Hx c Hc). Qed.
Lemma pop_eq a b : p_creator a = p_creator b -> p_indices a = p_indices b -> a = b.
Proof. destruct a, b; cbn; congruence. Qed.

(** ** One operator *)
Theorem C80_operator : forall arrows ks a b, ks <> [] -> typed ks a -> typed ks b ->
  names_avoid [comma] a -> names_avoid [comma] b -> print_op arrows a = print_op arrows b -> a = b.
Proof.
  intros arrows ks a b Hk Ta Tb Na Nb H.
  destruct (print_op_gen arrows ks a Hk Ta) as (v & vs & Ea & Pa). destruct (print_op_gen arrows ks b Hk Tb) as (w & ws & Eb & Pb).
  rewrite Pa, Pb in H. apply head_cut in H as [Hc H]. apply app_inv_tail in H. apply pop_eq; [exact Hc|]. rewrite Ea, Eb.
  unfold typed in Ta, Tb. apply (helper_inj arrows); [|congruence|exact H].
  intros x [Hx|Hx]; [rewrite <- Ea in Hx; apply (avoid_free [comma] _ a)|rewrite <- Eb in Hx; apply (avoid_free [comma] _ b)]; auto; left; reflexivity.
Qed.
Print Assumptions C80_operator.
Lemma op_cut arrows ks a b r s : ks <> [] -> clean ks a -> clean ks b ->
  print_op arrows a ++ r = print_op arrows b ++ s -> a = b /\ r = s.
Proof.
  intros Hk [Ta Na] [Tb Nb] H.
  destruct (print_op_gen arrows ks a Hk Ta) as (v & vs & Ea & Pa). destruct (print_op_gen arrows ks b Hk Tb) as (w & ws & Eb & Pb).
  rewrite Pa, Pb, <- !app_assoc in H. apply head_cut in H as [Hc H]. change (str "}") with [brace] in H. cbn [app] in H.
  assert (Fa : forall c x, In c [comma; brace] -> In x (v :: vs) -> index_free c x) by (intros c x Hcc Hx; rewrite <- Ea in Hx; exact (avoid_free _ c a x Na Hcc Hx)).
  assert (Fb : forall c x, In c [comma; brace] -> In x (w :: ws) -> index_free c x) by (intros c x Hcc Hx; rewrite <- Eb in Hx; exact (avoid_free _ c b x Nb Hcc Hx)).
  apply cut_unique in H; [|apply helper_avoid; intros x Hx; apply Fa; [right; left; reflexivity|exact Hx]|apply helper_avoid; intros x Hx; apply Fb; [right; left; reflexivity|exact Hx]].
  destruct H as [H1 H2]. split; [|exact H2]. apply pop_eq; [exact Hc|]. rewrite Ea, Eb. unfold typed in Ta, Tb.
  apply (helper_inj arrows); [|congruence|exact H1]. intros x [Hx|Hx]; [apply Fa|apply Fb]; try exact Hx; left; reflexivity.
Qed.

(** ** Separated lists *)
Lemma print_list_cons t l : l <> [] -> print_list (t :: l) = obind_text (t ++ [space]) (print_list l).
Proof. intros H. destruct l as [|u l]; [contradiction|]. cbn [print_list obind_text]. cbn [removelast flat_map]. rewrite <- !app_assoc. reflexivity. Qed.
Lemma print_list_ok l : l <> [] -> exists t, print_list l = Ok t.
Proof. destruct l; [contradiction|]. intros _. eexists. reflexivity. Qed.
Section Sep.
  Context {A : Type} (item : A -> text) (ok : A -> Prop) (first : ascii).
  Hypothesis cut : forall a b r s, ok a -> ok b -> item a ++ r = item b ++ s -> a = b /\ r = s.
  Hypothesis fst_char : forall a, ok a -> exists x, item a = first :: x.
  (** the text [r] after the list does not look like a further item *)
  Definition stops (r : text) : Prop := forall x, r <> space :: first :: x.
  Lemma sep_first l t : l <> [] -> Forall ok l -> print_list (map item l) = Ok t -> exists x, t = first :: x.
  Proof.
    intros Hl Ho H. destruct l as [|a l]; [contradiction|]. inversion Ho; subst. destruct (fst_char a H2) as (x & Ex).
    destruct l as [|b l]; cbn [map] in H.
    - injection H as <-. cbn. rewrite Ex. eexists. reflexivity.
    - rewrite print_list_cons in H by discriminate. destruct (print_list_ok (item b :: map item l) ltac:(discriminate)) as (u & Eu). rewrite Eu in H.
      cbn [obind_text] in H. injection H as <-. rewrite Ex. eexists. reflexivity.
  Qed.
  Lemma sep_cut : forall l l' t t' r r', l <> [] -> l' <> [] -> Forall ok l -> Forall ok l' -> stops r -> stops r' ->
    print_list (map item l) = Ok t -> print_list (map item l') = Ok t' -> t ++ r = t' ++ r' -> l = l' /\ r = r'.
  Proof.
    induction l as [|a l IH]; intros l' t t' r r' Hl Hl' Ho Ho' Hr Hr' E E' H; [contradiction|].
    destruct l' as [|b l']; [contradiction|]. inversion Ho as [|? ? Oa Ol]; subst. inversion Ho' as [|? ? Ob Ol']; subst.
    assert (D : forall c k u, Forall ok (c :: k) -> print_list (map item (c :: k)) = Ok u ->
       (k = [] /\ u = item c) \/ (k <> [] /\ exists w x, print_list (map item k) = Ok w /\ w = first :: x /\ u = item c ++ [space] ++ w)).
    { intros c k u Hk Eu. destruct k as [|d k]; [left; injection Eu as <-; auto|right; split; [discriminate|]].
      inversion Hk as [|? ? Oc Ok']; subst. destruct (print_list_ok (map item (d :: k)) ltac:(discriminate)) as (w & Ew).
      destruct (sep_first (d :: k) w ltac:(discriminate) Ok' Ew) as (x & Ex). exists w, x. split; [exact Ew|]. split; [exact Ex|].
      cbn [map] in Eu. rewrite print_list_cons in Eu by discriminate. cbn [map] in Ew. rewrite Ew in Eu. cbn [obind_text] in Eu. injection Eu as <-. rewrite <- app_assoc. reflexivity. }
    destruct (D a l t Ho E) as [[-> ->]|(Nl & w & x & Ew & Ex & ->)]; destruct (D b l' t' Ho' E') as [[-> ->]|(Nl' & w' & x' & Ew' & Ex' & ->)].
    - apply cut in H as [-> ->]; auto.
    - rewrite <- app_assoc in H. apply cut in H as [_ H]; auto. subst w'. exfalso. exact (Hr _ H).
    - rewrite <- app_assoc in H. apply cut in H as [_ H]; auto. subst w. exfalso. symmetry in H. exact (Hr' _ H).
    - rewrite <- !app_assoc in H. apply cut in H as [-> H]; auto. cbn in H. injection H as H.
      destruct (IH l' w w' r r' Nl Nl' Ol Ol' Hr Hr' Ew Ew' H) as [-> ->]. auto.
  Qed.
End Sep.
Lemma op_first arrows ks o : ks <> [] -> clean ks o -> exists x, print_op arrows o = ascii_of_nat 99 :: x.
Proof. intros Hk [T _]. destruct (print_op_gen arrows ks o Hk T) as (v & vs & _ & ->). eexists. reflexivity. Qed.

(** ** Monomials: an empty one must not be printed *)
Theorem C80_monomial : forall arrows ks m m', ks <> [] -> Forall (clean ks) m -> Forall (clean ks) m' ->
  (print_monomial arrows m = UB <-> m = []) /\
  (m <> [] -> m' <> [] -> print_monomial arrows m = print_monomial arrows m' -> m = m').
Proof.
  intros arrows ks m m' Hk Hm Hm'. split.
  - unfold print_monomial. destruct m; cbn; split; intros H; (reflexivity || discriminate).
  - intros N N' H. unfold print_monomial in H. destruct (print_list_ok (map (print_op arrows) m)) as (t & E); [destruct m; [contradiction|discriminate]|].
    rewrite E in H. symmetry in H.
    apply (sep_cut (print_op arrows) (clean ks) (ascii_of_nat 99) (fun a b r s => op_cut arrows ks a b r s Hk) (fun a => op_first arrows ks a Hk) m m' t t [] []); auto; intros x; discriminate.
Qed.
Print Assumptions C80_monomial.

(** ** Terms *)
Lemma byte_cut b p p' r r' : ~ In b p -> ~ In b p' -> b <> space -> p ++ space :: b :: r = p' ++ space :: b :: r' -> p = p' /\ r = r'.
Proof.
  intros Hp Hp' Hb H. assert (E : (p ++ [space]) ++ b :: r = (p' ++ [space]) ++ b :: r') by (rewrite <- !app_assoc; exact H).
  apply cut_unique in E.
  - destruct E as [E ->]. apply app_inj_tail in E as [-> _]. auto.
  - intros Q. apply in_app_or in Q as [Q|[Q|[]]]; [auto|congruence].
  - intros Q. apply in_app_or in Q as [Q|[Q|[]]]; [auto|congruence].
Qed.
Theorem C80_term : forall arrows ks p p' m m', ks <> [] -> Forall (clean ks) m -> Forall (clean ks) m' ->
  ~ In (ascii_of_nat 226) p -> ~ In (ascii_of_nat 226) p' ->
  (print_term arrows p m = UB <-> m = []) /\
  (m <> [] -> m' <> [] -> print_term arrows p m = print_term arrows p' m' -> p = p' /\ m = m').
Proof.
  intros arrows ks p p' m m' Hk Hm Hm' Hp Hp'. destruct (C80_monomial arrows ks m m' Hk Hm Hm') as [E I]. unfold print_term.
  split; [rewrite <- E; destruct (print_monomial arrows m); cbn; split; intros H; (reflexivity || discriminate)|].
  intros N N' H. unfold print_monomial in *.
  destruct (print_list_ok (map (print_op arrows) m)) as (t & T); [destruct m; [contradiction|discriminate]|].
  destruct (print_list_ok (map (print_op arrows) m')) as (t' & T'); [destruct m'; [contradiction|discriminate]|].
  rewrite T, T' in *. cbn [obind_text] in H. injection H as H. unfold cdot, bytes in H. cbn [map] in H. rewrite <- !app_assoc in H. cbn [app] in H.
  apply byte_cut in H; [|exact Hp|exact Hp'|discriminate]. destruct H as [-> H]. injection H as H. split; [reflexivity|]. apply I; auto. rewrite H. reflexivity.
Qed.
Print Assumptions C80_term.

(** ** Symbolic terms *)
Definition delta_byte : ascii := ascii_of_nat 206.
Definition dot_byte : ascii := ascii_of_nat 226.
Lemma kr_cut a b r s : kronecker_avoids [comma; brace] a -> kronecker_avoids [comma; brace] b ->
  print_kronecker a ++ r = print_kronecker b ++ s -> a = b /\ r = s.
Proof.
  intros Ha Hb H. unfold print_kronecker in H. rewrite <- !app_assoc in H. cbn in H. injection H as H.
  apply cut_unique in H; [|apply Ha; left; reflexivity|apply Hb; left; reflexivity]. destruct H as [H1 H].
  apply cut_unique in H; [|apply Ha; right; left; reflexivity|apply Hb; right; left; reflexivity]. destruct H as [H2 H].
  split; [|exact H]. destruct a as [a1 a2], b as [b1 b2]. cbn in *. apply str_inj in H1, H2. congruence.
Qed.
(** cut at the first of two bytes *)
Lemma cut_first {A} (P : A -> Prop) a : forall b x y r s, Forall (fun z => ~ P z) a -> Forall (fun z => ~ P z) b -> P x -> P y ->
  a ++ x :: r = b ++ y :: s -> a = b /\ x = y /\ r = s.
Proof.
  induction a as [|z a IH]; intros b x y r s Ha Hb Px Py E; destruct b as [|w b]; cbn in E; inversion E; subst; auto.
  - exfalso. inversion Hb; subst. auto.
  - exfalso. inversion Ha; subst. auto.
  - inversion Ha; inversion Hb; subst. destruct (IH b x y r s) as (-> & -> & ->); auto.
Qed.
Definition special (c : ascii) : Prop := c = delta_byte \/ c = dot_byte.
Theorem C80_symbolic_term : forall (K : StarRing) (eqK : K -> K -> bool) show signed arrows ks (p p' : spre K) m m',
  (forall x y, eqK x y = true <-> x = y) -> (forall x y, show x = show y -> x = y) ->
  (forall x, ~ In dot_byte (show x) /\ ~ In delta_byte (show x)) ->
  ks <> [] -> Forall (clean ks) m -> Forall (clean ks) m' -> m <> [] -> m' <> [] ->
  Forall (kronecker_avoids [comma; brace]) (sp_kr p) -> Forall (kronecker_avoids [comma; brace]) (sp_kr p') ->
  exists t, print_symbolic_term eqK show signed arrows p m = Ok t /\
  (print_symbolic_term eqK show signed arrows p' m' = Ok t -> p = p' /\ m = m').
Proof.
  intros K eqK show signed arrows ks p p' m m' He Hs Hb Hk Hm Hm' N N' Kp Kp'.
  unfold print_symbolic_term, print_term.
  destruct (print_list_ok (map (print_op arrows) m)) as (u & U); [destruct m; [contradiction|discriminate]|].
  destruct (print_list_ok (map (print_op arrows) m')) as (u' & U'); [destruct m'; [contradiction|discriminate]|].
  assert (Mon : forall x, print_monomial arrows m = Ok x -> print_monomial arrows m' = Ok x -> m = m').
  { intros x X X'. apply (C80_monomial arrows ks m m' Hk Hm Hm'); auto. congruence. }
  destruct (sep_first (print_op arrows) (clean ks) (ascii_of_nat 99) (fun a => op_first arrows ks a Hk) m u N Hm U) as (u1 & Eu).
  destruct (sep_first (print_op arrows) (clean ks) (ascii_of_nat 99) (fun a => op_first arrows ks a Hk) m' u' N' Hm' U') as (u1' & Eu').
  fold (print_monomial arrows m) in U. fold (print_monomial arrows m') in U'. rewrite U, U'. unfold print_prefactor.
  assert (KF : forall k, kronecker_avoids [comma; brace] k -> exists x, print_kronecker k = delta_byte :: x) by (intros k _; eexists; reflexivity).
  (* the shape of a printed prefactor with deltas *)
  set (sgn_ := fun v : K => if (signed && eqK v (- (1))%K)%bool then str "-" else if negb (eqK v 1%K) then show v ++ cdot else []).
  assert (Free : forall v, Forall (fun z => ~ special z) (show v ++ [space])).
  { intros v. apply Forall_app. split; [|constructor; [intros [Q|Q]; discriminate|constructor]]. apply Forall_forall. intros z Hz [->| ->]; destruct (Hb v); contradiction. }
  assert (SG : forall v, sgn_ v = str "-" /\ v = (- (1))%K /\ signed = true \/ sgn_ v = [] /\ v = 1%K \/ sgn_ v = show v ++ cdot).
  { intros v. unfold sgn_. destruct signed; cbn [andb].
    - destruct (eqK v (- (1))%K) eqn:E1; [left; rewrite He in E1; auto|]. destruct (eqK v 1%K) eqn:E2; [right; left; rewrite He in E2; auto|right; right; reflexivity].
    - destruct (eqK v 1%K) eqn:E2; [right; left; rewrite He in E2; auto|right; right; reflexivity]. }
  assert (SGinj : forall v v' d d', sgn_ v ++ delta_byte :: d = sgn_ v' ++ delta_byte :: d' -> v = v' /\ d = d').
  { intros v v' d d' H.
    assert (C1 : cdot = space :: dot_byte :: [ascii_of_nat 139; ascii_of_nat 133; space]) by reflexivity.
    assert (Fm : Forall (fun z => ~ special z) (str "-")) by (constructor; [intros [Q|Q]; discriminate|constructor]).
    assert (Sd : special delta_byte) by (left; reflexivity). assert (Sb : special dot_byte) by (right; reflexivity).
    assert (R : forall v d, (show v ++ cdot) ++ delta_byte :: d = (show v ++ [space]) ++ dot_byte :: [ascii_of_nat 139; ascii_of_nat 133; space; delta_byte] ++ d)
      by (intros; rewrite C1, <- !app_assoc; reflexivity).
    destruct (SG v) as [(E & Ev & _)|[(E & Ev)|E]]; rewrite E in H; destruct (SG v') as [(E' & Ev' & _)|[(E' & Ev')|E']]; rewrite E' in H; rewrite ?R in H; clear E E'.
    - cbn in H. injection H as H. split; congruence.
    - cbn in H. discriminate.
    - apply (cut_first special) in H as (_ & Q & _); auto. discriminate.
    - cbn in H. discriminate.
    - cbn in H. injection H as H. split; congruence.
    - apply (cut_first special [] _ delta_byte dot_byte) in H as (_ & Q & _); auto. discriminate.
    - apply (cut_first special) in H as (_ & Q & _); auto. discriminate.
    - apply (cut_first special _ [] dot_byte delta_byte) in H as (_ & Q & _); auto. discriminate.
    - apply (cut_first special) in H as (Q1 & _ & Q2); auto. apply app_inj_tail in Q1 as [Q1 _]. cbn in Q2. injection Q2 as Q2. split; [apply Hs, Q1|exact Q2]. }
  assert (Dd : forall v v' d w, sgn_ v ++ delta_byte :: d <> show v' ++ cdot ++ ascii_of_nat 99 :: w).
  { intros v v' d w H.
    assert (C1 : show v' ++ cdot ++ ascii_of_nat 99 :: w = (show v' ++ [space]) ++ dot_byte :: [ascii_of_nat 139; ascii_of_nat 133; space; ascii_of_nat 99] ++ w) by (rewrite <- !app_assoc; reflexivity).
    rewrite C1 in H. clear C1.
    assert (Fm : Forall (fun z => ~ special z) (str "-")) by (constructor; [intros [Q|Q]; discriminate|constructor]).
    assert (Sd : special delta_byte) by (left; reflexivity). assert (Sb : special dot_byte) by (right; reflexivity).
    destruct (SG v) as [(E & _)|[(E & _)|E]]; rewrite E in H.
    - apply (cut_first special) in H as (_ & Q & _); auto. discriminate.
    - apply (cut_first special [] _ delta_byte dot_byte) in H as (_ & Q & _); auto. discriminate.
    - replace ((show v ++ cdot) ++ delta_byte :: d) with ((show v ++ [space]) ++ dot_byte :: [ascii_of_nat 139; ascii_of_nat 133; space; delta_byte] ++ d) in H by (rewrite <- !app_assoc; reflexivity).
      apply (cut_first special) in H as (_ & _ & Q); auto. cbn in Q. discriminate. }
  destruct p as [v k], p' as [v' k']. cbn [sp_value sp_kr] in *.
  assert (St : forall w, stops delta_byte (cdot ++ w)) by (intros w x; discriminate).
  destruct k as [|k0 k], k' as [|k0' k'].
  - exists ((show v ++ cdot) ++ u). split; [reflexivity|]. cbn [obind_text]. intros H. injection H as H. subst u u'.
    rewrite <- !app_assoc in H. unfold cdot, bytes in H. cbn [map app] in H. apply byte_cut in H; [|apply Hb|apply Hb|discriminate].
    destruct H as [H1 H2]. injection H2 as H2. apply Hs in H1. subst v' u1'. split; [reflexivity|]. exact (Mon _ U U').
  - exists ((show v ++ cdot) ++ u). split; [reflexivity|]. destruct (print_list_ok (map print_kronecker (k0' :: k')) ltac:(discriminate)) as (g' & G').
    destruct (sep_first print_kronecker (kronecker_avoids [comma; brace]) delta_byte KF (k0' :: k') g' ltac:(discriminate) Kp' G') as (x' & X').
    rewrite G'. cbn [obind_text]. intros H. exfalso. injection H as H. fold (sgn_ v') in H. subst g' u. rewrite <- !app_assoc in H. cbn [app] in H.
    exact (Dd v' v _ _ H).
  - destruct (print_list_ok (map print_kronecker (k0 :: k)) ltac:(discriminate)) as (g & G).
    destruct (sep_first print_kronecker (kronecker_avoids [comma; brace]) delta_byte KF (k0 :: k) g ltac:(discriminate) Kp G) as (x & X).
    rewrite G. cbn [obind_text]. eexists. split; [reflexivity|]. intros H. exfalso. injection H as H. fold (sgn_ v) in H. subst g u'. rewrite <- !app_assoc in H. cbn [app] in H.
    symmetry in H. exact (Dd v v' _ _ H).
  - destruct (print_list_ok (map print_kronecker (k0 :: k)) ltac:(discriminate)) as (g & G).
    destruct (sep_first print_kronecker (kronecker_avoids [comma; brace]) delta_byte KF (k0 :: k) g ltac:(discriminate) Kp G) as (x & X).
    destruct (print_list_ok (map print_kronecker (k0' :: k')) ltac:(discriminate)) as (g' & G').
    destruct (sep_first print_kronecker (kronecker_avoids [comma; brace]) delta_byte KF (k0' :: k') g' ltac:(discriminate) Kp' G') as (x' & X').
    rewrite G, G'. cbn [obind_text]. eexists. split; [reflexivity|]. intros H. injection H as H. fold (sgn_ v) in H. fold (sgn_ v') in H. rewrite <- !app_assoc in H.
    rewrite X, X' in H. cbn [app] in H. apply SGinj in H as [-> H]. 
    assert (H' : g ++ cdot ++ u = g' ++ cdot ++ u') by (rewrite X, X'; cbn [app]; rewrite H; reflexivity).
    apply (sep_cut print_kronecker (kronecker_avoids [comma; brace]) delta_byte kr_cut KF (k0 :: k) (k0' :: k') g g') in H'; auto; try discriminate.
    destruct H' as [-> H']. apply app_inv_head in H'. split; [reflexivity|]. apply (Mon u); congruence.
Qed.
Print Assumptions C80_symbolic_term.

(** ** Terms of Hubbard operators (site number, spin) with an integer prefactor: nothing has to be
    excluded *)
Lemma hub_clean o : clean [KInt; KBool] (hubbard_op o).
Proof. split; [reflexivity|]. intros t [H|[H|[]]]; discriminate. Qed.
Lemma hub_inj a b : hubbard_op a = hubbard_op b -> a = b.
Proof. destruct a as [c [i s]], b as [c' [i' s']]. unfold hubbard_op, index1, index2. cbn. congruence. Qed.
Lemma hub_inj_list : forall m m', map hubbard_op m = map hubbard_op m' -> m = m'.
Proof. induction m as [|a m IH]; destruct m' as [|b m']; cbn; intros H; try discriminate; [reflexivity|]. injection H as H1 H2. f_equal; [apply hub_inj; unfold hubbard_op; congruence|auto]. Qed.
Theorem C80_hubbard : forall arrows (z z' : Z) (m m' : list (op hub)), m <> [] -> m' <> [] ->
  exists t, print_term arrows (sdec z) (map hubbard_op m) = Ok t /\
  (print_term arrows (sdec z') (map hubbard_op m') = Ok t -> z = z' /\ m = m').
Proof.
  intros arrows z z' m m' N N'.
  assert (Cl : forall l : list (op hub), Forall (clean [KInt; KBool]) (map hubbard_op l)) by (intros l; apply Forall_forall; intros x Hx; apply in_map_iff in Hx as (o & <- & _); apply hub_clean).
  assert (F : forall y, ~ In (ascii_of_nat 226) (sdec y)) by (intros y H; apply sdec_in in H as [H|H]; [discriminate|unfold digit in H; cbn in H; lia]).
  destruct (C80_term arrows [KInt; KBool] (sdec z) (sdec z') (map hubbard_op m) (map hubbard_op m') ltac:(discriminate) (Cl m) (Cl m') (F z) (F z')) as [E I].
  assert (M : map hubbard_op m <> []) by (destruct m; [contradiction|discriminate]). assert (M' : map hubbard_op m' <> []) by (destruct m'; [contradiction|discriminate]).
  destruct (print_term arrows (sdec z) (map hubbard_op m)) as [t|] eqn:T; [|exfalso; apply M, E; reflexivity].
  exists t. split; [reflexivity|]. intros H. destruct (I M M' (eq_sym H)) as [I1 I2]. split; [apply sdec_inj, I1|apply hub_inj_list, I2].
Qed.
Print Assumptions C80_hubbard.

(** ** Defect: names with a comma or a brace are not escaped *)
Theorem C80_names_refuted :
  (exists a b, typed [KText; KText] a /\ typed [KText; KText] b /\ a <> b /\ forall arrows, print_op arrows a = print_op arrows b) /\
  (exists m m', Forall (typed [KText]) m /\ Forall (typed [KText]) m' /\ length m = 1%nat /\ length m' = 2%nat /\
     forall arrows, print_monomial arrows m = print_monomial arrows m') /\
  (exists k k', k <> k' /\ print_kronecker k = print_kronecker k').
Proof.
  split; [|split].
  - exists (mkPop true [VText (str "a,b"); VText (str "c")]), (mkPop true [VText (str "a"); VText (str "b,c")]).
    split; [reflexivity|]. split; [reflexivity|]. split; [discriminate|]. reflexivity.
  - exists [mkPop false [VText (str "a} c_{b")]], [mkPop false [VText (str "a")]; mkPop false [VText (str "b")]].
    repeat split; repeat constructor.
  - exists (mkKr "a,b" "c"), (mkKr "a" "b,c"). split; [discriminate|reflexivity].
Qed.
Print Assumptions C80_names_refuted.
