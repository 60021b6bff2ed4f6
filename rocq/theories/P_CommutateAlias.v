(** THEOREMS: C97 (commutate into the container which holds an argument). *)
From Verif Require Import Base Instances M_Operator M_Commutator M_Alias M_CommutateAlias Spec_CommutateAlias.
Local Open Scope list_scope.

Lemma flat_map_prod {A B C} (f : A -> B -> list C) l m : flat_map (fun p => f (fst p) (snd p)) (list_prod l m) = flat_map (fun x => flat_map (fun y => f x y) m) l.
Proof.
  induction l as [|x l IH]; [reflexivity|]. cbn [list_prod flat_map]. rewrite flat_map_app, IH. f_equal.
  clear. induction m as [|y m IH]; [reflexivity|]. cbn [map flat_map fst snd]. rewrite IH. reflexivity.
Qed.
Lemma prod_rel {A B C D} (R : A -> B -> Prop) (S : C -> D -> Prop) l l' m m' : Forall2 R l l' -> Forall2 S m m' ->
  Forall2 (fun p q => R (fst p) (fst q) /\ S (snd p) (snd q)) (list_prod l m) (list_prod l' m').
Proof.
  intros Fl Fm. induction Fl as [|x y l l' H Fl IH]; [constructor|]. cbn [list_prod]. apply Forall2_app; [|exact IH].
  clear -H Fm. induction Fm as [|u v m m' H' Fm IH]; [constructor|]. cbn [map]. constructor; [split; assumption|exact IH].
Qed.
Section Proof.
  Context {T : IndexTuple} {P : Type} (pmul : P -> P -> P) (psign : P -> bool -> P).
  Context (anticommutates : op T -> op T -> bool) (anticommutator : op T -> op T -> P -> P) (growth : nat -> nat).
  Local Notation tm := (term T P).
  Local Notation ops := (M_Operator.operators (T := T) (P := P)).
  Local Notation body := (comm_body pmul psign anticommutates anticommutator).
  Local Notation into := (commutate_into pmul psign anticommutates anticommutator growth).
  Context (a b : ref tm) (ta tb : tm).
  Local Notation n := (length (ops ta)).
  Local Notation m := (length (ops tb)).
  Local Notation pre := (pmul (M_Operator.prefactor ta) (M_Operator.prefactor tb)).
  Local Notation abody := (alias_body psign anticommutates anticommutator growth n m pre a b).
  Fixpoint run (ps : list (nat * nat)) (c : vec tm) : outcome (vec tm) :=
    match ps with
    | [] => Ok c
    | p :: ps' => match abody c (fst p) (snd p) with UB => UB | Ok c' => run ps' c' end
    end.
  Lemma run_app ps qs c : run (ps ++ qs) c = match run ps c with UB => UB | Ok c' => run qs c' end.
  Proof. revert c. induction ps as [|p ps IH]; intros c; [reflexivity|]. cbn [app run]. destruct (abody c (fst p) (snd p)); [apply IH|reflexivity]. Qed.
  Lemma each_run ks ls c : each (fun c k => each (fun c l => abody c k l) ls c) ks c = run (list_prod ks ls) c.
  Proof.
    revert c. induction ks as [|k ks IH]; intros c; [reflexivity|]. cbn [each list_prod]. rewrite run_app.
    replace (each (fun c l => abody c k l) ls c) with (run (map (fun y => (k, y)) ls) c); [destruct (run _ c); [apply IH|reflexivity]|].
    clear. revert c. induction ls as [|l ls IH]; intros c; [reflexivity|]. cbn [map run each fst snd]. destruct (abody c k l); [apply IH|reflexivity].
  Qed.
  Definition alive (c : vec tm) : Prop := read c a = Ok ta /\ read c b = Ok tb.
  Definition fine (p : nat * nat) : Prop := 1 <= fst p <= n /\ 1 <= snd p <= m.
  Definition pushes (c : vec tm) (l : list tm) : vec tm := fold_left (push_back growth) l c.
  Lemma pushes_items l : forall c, items (pushes c l) = items c ++ l.
  Proof.
    induction l as [|t l IH]; intros c; [symmetry; apply app_nil_r|]. unfold pushes in *. cbn [fold_left]. rewrite IH.
    replace (items (push_back growth c t)) with (items c ++ [t]) by (unfold push_back; destruct (Nat.ltb _ _); reflexivity). rewrite <- app_assoc. reflexivity.
  Qed.
  Lemma body_alive c p : alive c -> fine p -> abody c (fst p) (snd p) = Ok (pushes c (body ta tb (fst p) (snd p))).
  Proof.
    intros (A & B) (F1 & F2). unfold alias_body, comm_body. rewrite A, B.
    destruct (nth_error (ops ta) (fst p - 1)) as [x|] eqn:Ex; [|apply nth_error_None in Ex; lia].
    destruct (nth_error (ops tb) (snd p - 1)) as [y|] eqn:Ey; [|apply nth_error_None in Ey; lia].
    destruct (anticommutates x y); reflexivity.
  Qed.
  Lemma body_size k l : length (body ta tb k l) <= 1.
  Proof. unfold comm_body. destruct (nth_error _ _); [|cbn; lia]. destruct (nth_error _ _); [|cbn; lia]. destruct (anticommutates _ _); cbn; lia. Qed.
  Lemma read_room (c : vec tm) t r z : length (items c) < capacity c -> read c r = Ok z -> read (push_back growth c t) r = Ok z.
  Proof.
    intros H. unfold push_back. destruct (Nat.ltb_spec (length (items c)) (capacity c)) as [_|]; [|lia]. destruct r as [z'|i k]; [trivial|]. cbn [read moves items].
    destruct (Nat.eqb _ _); [|discriminate]. destruct (nth_error (items c) i) as [z''|] eqn:E; [|discriminate]. rewrite nth_error_app1 by (apply nth_error_Some; congruence). rewrite E. trivial.
  Qed.
  Lemma read_moved (c : vec tm) t i k z : length (items c) = capacity c -> read c (Element i k) = Ok z -> read (push_back growth c t) (Element i k) = UB.
  Proof.
    intros H. unfold push_back. destruct (Nat.ltb_spec (length (items c)) (capacity c)) as [|_]; [lia|]. cbn [read moves items].
    destruct (Nat.eqb_spec (moves c) k) as [->|]; [|discriminate]. destruct (Nat.eqb_spec (S k) k); [lia|reflexivity].
  Qed.
  Definition new (ps : list (nat * nat)) : list tm := flat_map (fun p => body ta tb (fst p) (snd p)) ps.
  (** a and b lie outside of the container *)
  Lemma run_outside ps : Forall fine ps -> a = Outside ta -> b = Outside tb -> forall c, run ps c = Ok (pushes c (new ps)).
  Proof.
    intros F Ea Eb. induction F as [|p ps Hp F IH]; intros c; [reflexivity|]. cbn [run new flat_map].
    rewrite body_alive by (split; [rewrite Ea|rewrite Eb] || assumption; reflexivity). rewrite IH. unfold pushes. rewrite fold_left_app. reflexivity.
  Qed.
  (** a or b is an element of the container *)
  Lemma run_element ps : Forall fine ps -> (exists i k, a = Element i k \/ b = Element i k) -> forall c, alive c -> length (items c) <= capacity c ->
    run ps c = if Nat.leb (length (items c) + length (new (removelast ps))) (capacity c) then Ok (pushes c (new ps)) else UB.
  Proof.
    intros F El. induction F as [|p ps Hp F IH]; intros c A Hc.
    - cbn [removelast new flat_map length run]. rewrite Nat.add_0_r. destruct (Nat.leb_spec (length (items c)) (capacity c)); [reflexivity|lia].
    - cbn [run]. rewrite (body_alive c p A Hp). pose proof (body_size (fst p) (snd p)) as S1. cbn [new flat_map]. fold (new ps).
      destruct ps as [|q ps].
      + cbn [removelast new flat_map length run]. rewrite Nat.add_0_r, app_nil_r. destruct (Nat.leb_spec (length (items c)) (capacity c)); [reflexivity|lia].
      + replace (removelast (p :: q :: ps)) with (p :: removelast (q :: ps)) by reflexivity. cbn [new flat_map]. fold (new (removelast (q :: ps))).
        destruct (body ta tb (fst p) (snd p)) as [|t [|? ?]] eqn:Eb; [| |cbn in S1; lia].
        * cbn [app]. apply (IH c A Hc).
        * unfold pushes at 1. cbn [fold_left app length]. destruct (Nat.ltb_spec (length (items c)) (capacity c)) as [Lt|Ge].
          -- rewrite (IH (push_back growth c t)).
             ++ unfold push_back at 1 2. destruct (Nat.ltb_spec (length (items c)) (capacity c)); [|lia]. cbn [items capacity]. rewrite app_length. cbn [length].
                replace (length (items c) + 1 + length (new (removelast (q :: ps)))) with (length (items c) + S (length (new (removelast (q :: ps))))) by lia. reflexivity.
             ++ destruct A as (A1 & A2). split; apply read_room; assumption.
             ++ unfold push_back. destruct (Nat.ltb_spec (length (items c)) (capacity c)); [|lia]. cbn [items capacity]. rewrite app_length. cbn [length]. lia.
          -- destruct (Nat.leb_spec (length (items c) + S (length (new (removelast (q :: ps))))) (capacity c)); [lia|]. cbn [run].
             destruct A as (A1 & A2). assert (Eq : length (items c) = capacity c) by lia. destruct El as (i & k & [Ea|Ebb]); unfold alias_body.
             ++ rewrite Ea in *. rewrite (read_moved c t i k ta Eq A1). reflexivity.
             ++ rewrite Ebb in *. rewrite (read_moved c t i k tb Eq A2). destruct (read (push_back growth c t) a); reflexivity.
  Qed.
  Lemma pairs_fine : Forall fine (list_prod (seq 1 n) (seq 1 m)).
  Proof. apply Forall_forall. intros [k l] H. apply in_prod_iff in H as (H1 & H2). apply in_seq in H1. apply in_seq in H2. unfold fine. cbn [fst snd]. lia. Qed.
  Lemma new_all : new (list_prod (seq 1 n) (seq 1 m)) = flat_map (fun k => flat_map (fun l => body ta tb k l) (seq 1 m)) (seq 1 n).
  Proof. apply (flat_map_prod (fun k l => body ta tb k l)). Qed.
  Lemma body_count k l x y : nth_error (ops ta) (k - 1) = Some x -> nth_error (ops tb) (l - 1) = Some y ->
    length (body ta tb k l) = length (filter (fun p => negb (anticommutates (fst p) (snd p))) [(x, y)]).
  Proof. intros E1 E2. unfold comm_body. rewrite E1, E2. cbn [filter fst snd]. destruct (anticommutates x y); reflexivity. Qed.
  Lemma seq_prod : forall (la lb : list (op T)), Forall2 (fun p q => nth_error la (fst p - 1) = Some (fst q) /\ nth_error lb (snd p - 1) = Some (snd q))
    (list_prod (seq 1 (length la)) (seq 1 (length lb))) (list_prod la lb).
  Proof.
    intros la lb.
    assert (Q : forall (l : list (op T)), Forall2 (fun k x => nth_error l (k - 1) = Some x) (seq 1 (length l)) l).
    { intros l. assert (G : forall pre q, l = pre ++ q -> Forall2 (fun k x => nth_error l (k - 1) = Some x) (seq (S (length pre)) (length q)) q).
      { intros pr q. revert pr. induction q as [|x q IH]; intros pr E; [constructor|]. cbn [length seq]. constructor.
        - rewrite E. replace (S (length pr) - 1) with (length pr) by lia. rewrite nth_error_app2, Nat.sub_diag by lia. reflexivity.
        - replace (S (S (length pr))) with (S (length (pr ++ [x]))) by (rewrite app_length; cbn; lia). apply IH. rewrite <- app_assoc. exact E. }
      exact (G [] l eq_refl). }
    exact (prod_rel _ _ _ _ _ _ (Q la) (Q lb)).
  Qed.
  Lemma count_pairs ps (qs : list (op T * op T)) : Forall2 (fun p q => nth_error (ops ta) (fst p - 1) = Some (fst q) /\ nth_error (ops tb) (snd p - 1) = Some (snd q)) ps qs ->
    length (new ps) = length (filter (fun p => negb (anticommutates (fst p) (snd p))) qs).
  Proof.
    intros F. induction F as [|p [x y] ps qs (E1 & E2) F IH]; [reflexivity|]. cbn [fst snd] in *. unfold new. cbn [flat_map]. rewrite app_length, (body_count _ _ x y E1 E2).
    fold (new ps). rewrite IH. cbn [filter fst snd]. destruct (negb (anticommutates x y)); reflexivity.
  Qed.
  Lemma Forall2_removelast {A B} (R : A -> B -> Prop) l l' : Forall2 R l l' -> Forall2 R (removelast l) (removelast l').
  Proof. intros F. induction F as [|x y l l' H F IH]; [constructor|]. destruct F; [constructor|]. constructor; assumption. Qed.
  Lemma count_early : length (new (removelast (list_prod (seq 1 n) (seq 1 m)))) = early_contractions anticommutates (ops ta) (ops tb).
  Proof. apply count_pairs, Forall2_removelast, seq_prod. Qed.
  Lemma count_all : length (new (list_prod (seq 1 n) (seq 1 m))) = contractions anticommutates (ops ta) (ops tb).
  Proof. apply count_pairs, seq_prod. Qed.
End Proof.

(** both terms lie outside of the container: the call is defined and adds the terms of commutate *)
Theorem C97_outside : forall (T : IndexTuple) (P : Type) pmul psign (anticommutates : op T -> op T -> bool) anticommutator growth (a b : term T P) (c : vec (term T P)),
  exists c', commutate_into pmul psign anticommutates anticommutator growth (Outside a) (Outside b) c = Ok c' /\
    items c' = commutate_release pmul psign anticommutates anticommutator a b (items c).
Proof.
  intros T P pmul psign anti comm growth a b c. unfold commutate_into. cbn [read]. rewrite each_run.
  rewrite (run_outside pmul psign anti comm growth (Outside a) (Outside b) a b _ (pairs_fine a b) eq_refl eq_refl).
  eexists. split; [reflexivity|]. rewrite pushes_items, new_all. reflexivity.
Qed.
(** an argument is an element of the container: the call is defined if and only if the spare capacity holds
    the terms of all pairs but the last one, and then the result is that for copies of the arguments *)
Theorem C97_element : forall (T : IndexTuple) (P : Type) pmul psign (anticommutates : op T -> op T -> bool) anticommutator growth
    (a b : ref (term T P)) (ta tb : term T P) (c : vec (term T P)) i,
  a = element c i \/ b = element c i -> read c a = Ok ta -> read c b = Ok tb -> length (items c) <= capacity c ->
  let result := commutate_into pmul psign anticommutates anticommutator growth a b c in
  (result <> UB <-> early_contractions anticommutates (M_Operator.operators ta) (M_Operator.operators tb) <= capacity c - length (items c)) /\
  forall c', result = Ok c' -> items c' = commutate_release pmul psign anticommutates anticommutator ta tb (items c).
Proof.
  intros T P pmul psign anti comm growth a b ta tb c i Hi Ha Hb Hc result.
  assert (E : result = if Nat.leb (length (items c) + early_contractions anti (M_Operator.operators ta) (M_Operator.operators tb)) (capacity c)
                       then Ok (pushes growth c (new pmul psign anti comm ta tb (list_prod (seq 1 (length (M_Operator.operators ta))) (seq 1 (length (M_Operator.operators tb)))))) else UB).
  { unfold result, commutate_into. rewrite Ha, Hb, each_run. rewrite <- (count_early pmul psign anti comm ta tb). apply run_element; [apply pairs_fine| |split; assumption|assumption].
    exists i, (moves c). exact Hi. }
  rewrite E. destruct (Nat.leb_spec (length (items c) + early_contractions anti (M_Operator.operators ta) (M_Operator.operators tb)) (capacity c)).
  - split; [split; [lia|discriminate]|]. intros c' [= <-]. rewrite pushes_items, new_all. reflexivity.
  - split; [split; [congruence|lia]|discriminate].
Qed.
(** after reserve() with room for all new terms the call is defined *)
Theorem C97_reserved : forall (T : IndexTuple) (P : Type) pmul psign (anticommutates : op T -> op T -> bool) anticommutator growth
    (a b : ref (term T P)) (ta tb : term T P) (c : vec (term T P)) i,
  a = element c i \/ b = element c i -> read c a = Ok ta -> read c b = Ok tb ->
  length (items c) + contractions anticommutates (M_Operator.operators ta) (M_Operator.operators tb) <= capacity c ->
  exists c', commutate_into pmul psign anticommutates anticommutator growth a b c = Ok c' /\
    items c' = commutate_release pmul psign anticommutates anticommutator ta tb (items c) /\
    length (items c') = length (items c) + contractions anticommutates (M_Operator.operators ta) (M_Operator.operators tb).
Proof.
  intros T P pmul psign anti comm growth a b ta tb c i Hi Ha Hb Hc.
  destruct (C97_element T P pmul psign anti comm growth a b ta tb c i Hi Ha Hb ltac:(lia)) as ((_ & D) & R).
  assert (L : early_contractions anti (M_Operator.operators ta) (M_Operator.operators tb) <= contractions anti (M_Operator.operators ta) (M_Operator.operators tb)).
  { unfold early_contractions, contractions. generalize (list_prod (M_Operator.operators ta) (M_Operator.operators tb)) as l. induction l as [|x l IH]; [cbn; lia|].
    destruct l as [|y l]; [cbn [removelast filter length]; lia|]. replace (removelast (x :: y :: l)) with (x :: removelast (y :: l)) by reflexivity.
    cbn [filter] in *. destruct (negb (anti (fst x) (snd x))); cbn [length]; lia. }
  specialize (D ltac:(lia)). destruct (commutate_into _ _ _ _ _ _ _ _) as [c'|]; [|congruence]. specialize (R c' eq_refl). exists c'. split; [reflexivity|]. split; [exact R|].
  rewrite R. unfold commutate_release. rewrite app_length. f_equal. rewrite <- (new_all pmul psign anti comm ta tb). apply count_all.
Qed.
(** a full container, as after push_back or initialisation: undefined behaviour as soon as a pair other than
    the last one does not anticommute *)
Theorem C97_full_refuted : forall (T : IndexTuple) (P : Type) pmul psign (anticommutates : op T -> op T -> bool) anticommutator growth
    (a b : ref (term T P)) (ta tb : term T P) (c : vec (term T P)) i,
  a = element c i \/ b = element c i -> read c a = Ok ta -> read c b = Ok tb -> length (items c) = capacity c ->
  early_contractions anticommutates (M_Operator.operators ta) (M_Operator.operators tb) <> 0 ->
  commutate_into pmul psign anticommutates anticommutator growth a b c = UB.
Proof.
  intros T P pmul psign anti comm growth a b ta tb c i Hi Ha Hb Hc H0.
  destruct (C97_element T P pmul psign anti comm growth a b ta tb c i Hi Ha Hb ltac:(lia)) as ((D & _) & _).
  destruct (commutate_into _ _ _ _ _ _ _ _) as [c'|]; [|reflexivity]. exfalso. apply H0. specialize (D ltac:(discriminate)). lia.
Qed.

(** h = c1+ c2 as the only element of a vector, t = c2+ c1, and the call commutate(v[0], t, v): undefined if
    the vector has room for less than two terms: after the two new terms the loops still read v[0] for the
    last pair.  u = c2+ alone has one pair less, and its only new term may move the elements. *)
Example C97_example :
  let o d i := @mkOp (idx1 Z_ord) d i in
  let h := mkTerm (P := Zring) 1%Z [o true 1%Z; o false 2%Z] in
  let t := mkTerm (P := Zring) 1%Z [o true 2%Z; o false 1%Z] in
  let v room := mkV _ [h] (1 + room) 0 in
  let call t room := commutate_into (P := Zring) rmul (fun p s => rmul p (sgn s)) anticommutates anticommutator (fun n => 2 * n)
                     (element (v room) 0) (Outside t) (v room) in
  let r1 := mkTerm (P := Zring) (-1)%Z [o true 2%Z; o false 2%Z] in
  let r2 := mkTerm (P := Zring) 1%Z [o true 1%Z; o false 1%Z] in
  let u := mkTerm (P := Zring) 1%Z [o true 2%Z] in
  call t 0 = UB /\ call t 1 = UB /\ call t 2 = Ok (mkV _ [h; r1; r2] 3 0) /\
  call u 0 = Ok (mkV _ [h; mkTerm (P := Zring) 1%Z [o true 1%Z]] 2 1).
Proof. repeat split; vm_compute; reflexivity. Qed.
Print Assumptions C97_element.
Print Assumptions C97_reserved.
