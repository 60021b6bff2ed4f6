(** THEOREMS: C47, C48 (the excited Fermi sea). *)
From Verif Require Import Base Spec_Fock FockFacts M_Operator M_Basis Spec_Lattice Pf_Lattice Spec_Algebra Spec_Matrix M_FermiSea Pf_FermiSea.
Local Open Scope list_scope.

(** The public member functions that change the object, and the operators they stand for. *)
Inductive sea_call :=
| CallMonomial (m : monomial hub)
| CallOperator (o : op hub)
| CallCreate (x : Z * bool)
| CallAnnihilate (x : Z * bool).
Definition operators_of (c : sea_call) : list (op hub) :=
  match c with
  | CallMonomial m => m
  | CallOperator o => [o]
  | CallCreate x => [hop true (fst x) (snd x)]
  | CallAnnihilate x => [hop false (fst x) (snd x)]
  end.
(** the product of all operators; the first call acts first, so it stands on the right *)
Definition product (calls : list sea_call) : list (op hub) := flat_map operators_of (rev calls).
Definition on_sites (L : Z) (calls : list sea_call) : Prop :=
  Forall (fun o => site L (index1 o)) (product calls).

(** The Fermi sea: the orbitals below the Fermi energy are occupied. *)
Definition is_fermi_sea {Fl} (lt : Fl -> Fl -> bool) (eps : Z -> Fl) (ef : Fl) (mode : hub -> nat) (L : Z) (s0 : N) : Prop :=
  forall i spin, site L i -> occ s0 (mode (i, spin)) = lt (eps i) ef.

Section S.
  Context {Fl : Type} (lt : Fl -> Fl -> bool) (sort : list (Z * bool) -> list (Z * bool)).
  Variables (eps : Z -> Fl) (ef : Fl).
  Definition call (st : sea) (c : sea_call) : sea :=
    match c with
    | CallMonomial m => snd (apply_monomial lt sort eps ef m st)
    | CallOperator o => snd (apply_operator lt sort eps ef o st)
    | CallCreate x => snd (create_particle lt eps ef x st)
    | CallAnnihilate x => snd (annihilate_particle lt eps ef x st)
    end.
  (** a fresh object and a sequence of calls *)
  Definition run (calls : list sea_call) : sea := fold_left call calls fermi_sea.
  (** what the object says about an orbital *)
  Definition present (st : sea) (x : Z * bool) : Prop :=
    if lt (eps (fst x)) ef then ~ In x (annihilated st) else In x (created st).
End S.

Lemma call_good {Fl} (lt : Fl -> Fl -> bool) sort eps ef mode L s0 : (forall l, Permutation (sort l) l) ->
  numbers_orbitals mode L -> is_fermi_sea lt eps ef mode L s0 ->
  forall c st t, rep lt eps ef mode L s0 st t -> Forall (fun o => site L (index1 o)) (operators_of c) ->
  good lt eps ef mode L s0 (call lt sort eps ef st c) (act (ladders mode (operators_of c)) t).
Proof.
  intros Hs Hm Hf c st t R Hc. destruct c as [m|o|x|x]; cbn [operators_of] in *.
  - exact (monomial_rep lt sort eps ef Hs mode L s0 Hm m st t R Hc).
  - inversion Hc; subst. exact (operator_rep lt sort eps ef Hs mode L s0 Hm o st t R H1).
  - inversion Hc as [|? ? H1 H2]; subst. pose proof (step_rep lt eps ef mode L s0 Hm (hop true (fst x) (snd x)) st t R H1) as Q.
    unfold ladders. cbn [map act]. destruct x as [i b]. cbn [fst snd hop creator indices] in *.
    unfold step_op in Q. cbn [creator indices hop] in Q. cbn [call].
    match goal with |- context [ladder true ?k t] => destruct (ladder true k t) as [[sg t']|] end; exact Q.
  - inversion Hc as [|? ? H1 H2]; subst. pose proof (step_rep lt eps ef mode L s0 Hm (hop false (fst x) (snd x)) st t R H1) as Q.
    unfold ladders. cbn [map act]. destruct x as [i b]. cbn [fst snd hop creator indices] in *.
    unfold step_op in Q. cbn [creator indices hop] in Q. cbn [call].
    match goal with |- context [ladder false ?k t] => destruct (ladder false k t) as [[sg t']|] end; exact Q.
Qed.
Lemma call_vanished {Fl} (lt : Fl -> Fl -> bool) sort eps ef c st : vanishes st = true -> call lt sort eps ef st c = st.
Proof.
  intros H. destruct c; cbn [call]; unfold apply_monomial, apply_operator, create_particle, annihilate_particle; rewrite H; reflexivity.
Qed.
Lemma product_snoc calls c : product (calls ++ [c]) = operators_of c ++ product calls.
Proof. unfold product. rewrite rev_app_distr. reflexivity. Qed.
Lemma run_snoc {Fl} (lt : Fl -> Fl -> bool) sort eps ef calls c :
  run lt sort eps ef (calls ++ [c]) = call lt sort eps ef (run lt sort eps ef calls) c.
Proof. unfold run. rewrite fold_left_app. reflexivity. Qed.
Lemma run_good {Fl} (lt : Fl -> Fl -> bool) sort eps ef mode L s0 : (forall l, Permutation (sort l) l) ->
  numbers_orbitals mode L -> is_fermi_sea lt eps ef mode L s0 ->
  forall calls, on_sites L calls -> good lt eps ef mode L s0 (run lt sort eps ef calls) (act (ladders mode (product calls)) s0).
Proof.
  intros Hs Hm Hf. induction calls as [|c calls IH] using rev_ind; intros Hc.
  - apply rep0. intros [i b] Hx. apply Hf, Hx.
  - unfold on_sites in *. rewrite run_snoc, product_snoc in *. apply Forall_app in Hc as [H1 H2]. specialize (IH H2).
    unfold ladders in *. rewrite map_app, act_app. destruct (act _ s0) as [[sg t]|]; cbn [good] in IH.
    + pose proof (call_good lt sort eps ef mode L s0 Hs Hm Hf c _ t IH H1) as Q. unfold ladders in Q.
      destruct (act _ t) as [[sg' t']|]; exact Q.
    + cbn [good]. rewrite call_vanished by exact IH. exact IH.
Qed.
Lemma holds_present {Fl} (lt : Fl -> Fl -> bool) eps ef st x : holds lt eps ef st x = true <-> present lt eps ef st x.
Proof.
  unfold holds, present, is_initially_occupied. destruct (lt (eps (fst x)) ef).
  - rewrite negb_true_iff. apply found_false.
  - apply found_in.
Qed.

(** Vanishing is Pauli blocking; otherwise the object describes the occupation of the product
    state, and recognises the Fermi sea. *)
Theorem C47_tracks_occupation : forall {Fl} (lt : Fl -> Fl -> bool) sort eps ef mode L s0 calls,
  (forall l, Permutation (sort l) l) -> numbers_orbitals mode L -> is_fermi_sea lt eps ef mode L s0 -> on_sites L calls ->
  match act (ladders mode (product calls)) s0 with
  | None => vanishes (run lt sort eps ef calls) = true /\ is_initial_fermi_sea (run lt sort eps ef calls) = false
  | Some (_, t) =>
      vanishes (run lt sort eps ef calls) = false /\
      (forall i spin, site L i -> occ t (mode (i, spin)) = true <-> present lt eps ef (run lt sort eps ef calls) (i, spin)) /\
      NoDup (created (run lt sort eps ef calls)) /\ NoDup (annihilated (run lt sort eps ef calls)) /\
      (forall x, In x (created (run lt sort eps ef calls)) -> site L (fst x) /\ lt (eps (fst x)) ef = false) /\
      (forall x, In x (annihilated (run lt sort eps ef calls)) -> site L (fst x) /\ lt (eps (fst x)) ef = true) /\
      (is_initial_fermi_sea (run lt sort eps ef calls) = true <-> t = s0)
  end.
Proof.
  intros Fl lt sort eps ef mode L s0 calls Hs Hm Hf Hc. pose proof (run_good lt sort eps ef mode L s0 Hs Hm Hf calls Hc) as Q.
  destruct (act (ladders mode (product calls)) s0) as [[sg t]|]; cbn [good] in Q.
  - split; [exact (r_van _ _ _ _ _ _ _ _ Q)|]. split.
    { intros i spin H. rewrite <- holds_present, <- (r_occ _ _ _ _ _ _ _ _ Q (i, spin) H). reflexivity. }
    split; [exact (r_cr _ _ _ _ _ _ _ _ Q)|]. split; [exact (r_an _ _ _ _ _ _ _ _ Q)|].
    split; [exact (r_cin _ _ _ _ _ _ _ _ Q)|]. split; [exact (r_ain _ _ _ _ _ _ _ _ Q)|].
    apply (rep_initial lt eps ef mode L s0 ltac:(intros [i b] Hx; apply Hf, Hx) _ _ Q).
  - split; [exact Q|]. unfold is_initial_fermi_sea. rewrite Q. reflexivity.
Qed.

Lemma ladders_conjugate mode (m : monomial hub) : ladders mode (mono_conjugate m) = adj (ladders mode m).
Proof. unfold ladders, mono_conjugate, adj. rewrite !map_map, !map_rev, map_map. reflexivity. Qed.
Lemma rep_unique {Fl} (lt : Fl -> Fl -> bool) eps ef mode L s0 st st' t :
  rep lt eps ef mode L s0 st t -> rep lt eps ef mode L s0 st' t ->
  Permutation (created st) (created st') /\ Permutation (annihilated st) (annihilated st').
Proof.
  intros R R'. assert (E : forall x, site L (fst x) -> holds lt eps ef st x = holds lt eps ef st' x).
  { intros x Hx. rewrite <- (r_occ _ _ _ _ _ _ _ _ R x Hx). apply (r_occ _ _ _ _ _ _ _ _ R' x Hx). }
  split; (apply NoDup_Permutation; [first [exact (r_cr _ _ _ _ _ _ _ _ R)|exact (r_an _ _ _ _ _ _ _ _ R)]|first [exact (r_cr _ _ _ _ _ _ _ _ R')|exact (r_an _ _ _ _ _ _ _ _ R')]|]); intros x; rewrite <- !found_in; split; intros H.
  - destruct (r_cin _ _ _ _ _ _ _ _ R x ltac:(apply found_in, H)) as [Hx Ix]. specialize (E x Hx). unfold holds in E. rewrite Ix in E. congruence.
  - destruct (r_cin _ _ _ _ _ _ _ _ R' x ltac:(apply found_in, H)) as [Hx Ix]. specialize (E x Hx). unfold holds in E. rewrite Ix in E. congruence.
  - destruct (r_ain _ _ _ _ _ _ _ _ R x ltac:(apply found_in, H)) as [Hx Ix]. specialize (E x Hx). unfold holds in E. rewrite Ix, H in E.
    destruct (found x (annihilated st')); [reflexivity|discriminate].
  - destruct (r_ain _ _ _ _ _ _ _ _ R' x ltac:(apply found_in, H)) as [Hx Ix]. specialize (E x Hx). unfold holds in E. rewrite Ix, H in E.
    destruct (found x (annihilated st)); [reflexivity|discriminate].
Qed.

(** Applying a monomial and then its conjugate undoes it, at any point of the history. *)
Theorem C47_conjugate_undoes : forall {Fl} (lt : Fl -> Fl -> bool) sort eps ef mode L s0 calls m,
  (forall l, Permutation (sort l) l) -> numbers_orbitals mode L -> is_fermi_sea lt eps ef mode L s0 -> on_sites L (calls ++ [CallMonomial m]) ->
  let before := run lt sort eps ef calls in
  let mid := run lt sort eps ef (calls ++ [CallMonomial m]) in
  let after := run lt sort eps ef (calls ++ [CallMonomial m; CallMonomial (mono_conjugate m)]) in
  vanishes mid = false ->
  vanishes after = false /\ Permutation (created after) (created before) /\ Permutation (annihilated after) (annihilated before).
Proof.
  intros Fl lt sort eps ef mode L s0 calls m Hs Hm Hf Hc before mid after Hv.
  assert (Hc' : on_sites L (calls ++ [CallMonomial m; CallMonomial (mono_conjugate m)])).
  { change [CallMonomial m; CallMonomial (mono_conjugate m)] with ([CallMonomial m] ++ [CallMonomial (mono_conjugate m)]).
    unfold on_sites in *. rewrite app_assoc, product_snoc. apply Forall_app. split; [|exact Hc].
    rewrite product_snoc in Hc. apply Forall_app in Hc as [Hc _]. cbn [operators_of] in *. unfold mono_conjugate.
    apply Forall_map. apply Forall_rev. eapply Forall_impl; [|exact Hc]. intros o Ho. exact Ho. }
  assert (H0 : on_sites L calls) by (unfold on_sites in *; rewrite product_snoc in Hc; apply Forall_app in Hc; apply Hc).
  pose proof (run_good lt sort eps ef mode L s0 Hs Hm Hf _ H0) as Q0. pose proof (run_good lt sort eps ef mode L s0 Hs Hm Hf _ Hc) as Q1.
  pose proof (run_good lt sort eps ef mode L s0 Hs Hm Hf _ Hc') as Q2. fold before in Q0. fold mid in Q1. fold after in Q2.
  rewrite product_snoc in Q1. cbn [operators_of] in Q1.
  change [CallMonomial m; CallMonomial (mono_conjugate m)] with ([CallMonomial m] ++ [CallMonomial (mono_conjugate m)]) in Q2.
  rewrite app_assoc, !product_snoc in Q2. cbn [operators_of] in Q2. unfold ladders in Q1, Q2. rewrite !map_app in Q2. rewrite map_app in Q1.
  rewrite !act_app in Q2. rewrite act_app in Q1. unfold ladders in Q0. destruct (act (map _ (product calls)) s0) as [[sg t]|].
  - destruct (act (map _ m) t) as [[sg1 t1]|] eqn:E1; cbn [good] in Q1; [|congruence].
    pose proof (ladders_conjugate mode m) as LC. unfold ladders in LC.
    assert (E2 : act (map (fun o : op hub => (creator o, mode (indices o))) (mono_conjugate m)) t1 = Some (sg1, t)) by (etransitivity; [apply (f_equal (fun w => act w t1)); exact LC|apply act_adj, E1]).
    rewrite E2 in Q2. cbn [good] in Q2, Q0. split; [exact (r_van _ _ _ _ _ _ _ _ Q2)|]. apply (rep_unique lt eps ef mode L s0 _ _ t Q2 Q0).
  - cbn [good] in Q1. congruence.
Qed.
(** In particular the Fermi sea comes back. *)
Theorem C47_back_to_fermi_sea : forall {Fl} (lt : Fl -> Fl -> bool) sort eps ef mode L s0 m,
  (forall l, Permutation (sort l) l) -> numbers_orbitals mode L -> is_fermi_sea lt eps ef mode L s0 -> on_sites L [CallMonomial m] ->
  is_initial_fermi_sea (run lt sort eps ef [CallMonomial m; CallMonomial (mono_conjugate m)]) = negb (vanishes (run lt sort eps ef [CallMonomial m])).
Proof.
  intros Fl lt sort eps ef mode L s0 m Hs Hm Hf Hc. destruct (vanishes (run lt sort eps ef [CallMonomial m])) eqn:E.
  - change [CallMonomial m; CallMonomial (mono_conjugate m)] with ([CallMonomial m] ++ [CallMonomial (mono_conjugate m)]).
    rewrite run_snoc, call_vanished by exact E. unfold is_initial_fermi_sea. rewrite E. reflexivity.
  - destruct (C47_conjugate_undoes lt sort eps ef mode L s0 [] m Hs Hm Hf Hc E) as (H1 & H2 & H3). cbn [app] in *.
    unfold run at 2 in H2. unfold run at 2 in H3. cbn [fold_left fermi_sea created annihilated] in H2, H3.
    apply Permutation_sym, Permutation_nil in H2. apply Permutation_sym, Permutation_nil in H3.
    unfold is_initial_fermi_sea. rewrite H1, H2, H3. reflexivity.
Qed.

(** The return values: create_particle and annihilate_particle say whether the particle could be
    created/annihilated; apply_monomial and apply_operator say the opposite (true = this call made
    the state vanish), except on an already vanished object, where they return false too. *)
Theorem C48_return_values : forall {Fl} (lt : Fl -> Fl -> bool) sort eps ef st,
  (forall x, fst (create_particle lt eps ef x st) = negb (vanishes (snd (create_particle lt eps ef x st)))) /\
  (forall x, fst (annihilate_particle lt eps ef x st) = negb (vanishes (snd (annihilate_particle lt eps ef x st)))) /\
  (forall m, fst (apply_monomial lt sort eps ef m st) =
     (negb (vanishes st) && vanishes (snd (apply_monomial lt sort eps ef m st)))%bool) /\
  (forall o, fst (apply_operator lt sort eps ef o st) =
     (negb (vanishes st) && vanishes (snd (apply_operator lt sort eps ef o st)))%bool).
Proof.
  intros Fl lt sort eps ef st. repeat split.
  - intros x. unfold create_particle. destruct (vanishes st) eqn:E; [cbn [fst snd]; rewrite E; reflexivity|].
    destruct (is_initially_occupied lt eps ef x); [destruct (found x (annihilated st))|destruct (found x (created st))]; reflexivity.
  - intros x. unfold annihilate_particle. destruct (vanishes st) eqn:E; [cbn [fst snd]; rewrite E; reflexivity|].
    destruct (is_initially_occupied lt eps ef x); [destruct (found x (annihilated st))|destruct (found x (created st))]; reflexivity.
  - intros m. unfold apply_monomial. destruct (vanishes st); reflexivity.
  - intros o. unfold apply_operator. destruct (vanishes st); reflexivity.
Qed.
(** "true means success" is false of apply_monomial: for every dispersion, the empty monomial
    succeeds and returns false, and a doubled operator fails and returns true. *)
Theorem C48_true_means_success_refuted : forall {Fl} (lt : Fl -> Fl -> bool) sort eps ef i spin c,
  fst (apply_monomial lt sort eps ef [] fermi_sea) = false /\
  vanishes (snd (apply_monomial lt sort eps ef [] fermi_sea)) = false /\
  fst (apply_monomial lt sort eps ef [hop c i spin; hop c i spin] fermi_sea) = true /\
  vanishes (snd (apply_monomial lt sort eps ef [hop c i spin; hop c i spin] fermi_sea)) = true.
Proof.
  intros Fl lt sort eps ef i spin c. repeat split.
  - unfold apply_monomial. cbn [vanishes fermi_sea rev app apply_loop]. unfold step_op. cbn [creator indices hop].
    destruct c; unfold create_particle, annihilate_particle; cbn [vanishes fermi_sea created annihilated found existsb];
      destruct (is_initially_occupied lt eps ef (i, spin)) eqn:E; cbn [snd vanishes sorted fst]; try reflexivity;
      rewrite ?E; cbn [created annihilated found existsb app]; unfold found; cbn [existsb]; rewrite idx_eqb_refl; reflexivity.
  - unfold apply_monomial. cbn [vanishes fermi_sea rev app apply_loop]. unfold step_op. cbn [creator indices hop].
    destruct c; unfold create_particle, annihilate_particle; cbn [vanishes fermi_sea created annihilated found existsb];
      destruct (is_initially_occupied lt eps ef (i, spin)) eqn:E; cbn [snd vanishes sorted fst]; try reflexivity;
      rewrite ?E; cbn [created annihilated found existsb app]; unfold found; cbn [existsb]; rewrite idx_eqb_refl; reflexivity.
Qed.
