(** Proofs about the excited Fermi sea. *)
From Verif Require Import Base Spec_Fock FockFacts M_Operator M_Basis Spec_Lattice Pf_Lattice Spec_Algebra Spec_Matrix M_FermiSea.
Local Open Scope list_scope.

Lemma idx_eqb_eq a b : idx_eqb a b = true <-> a = b.
Proof.
  destruct a as [i s], b as [j t]. unfold idx_eqb. cbn [fst snd]. rewrite andb_true_iff, Z.eqb_eq, eqb_true_iff.
  split; [intros [-> ->]; reflexivity|intros H; inversion H; auto].
Qed.
Lemma idx_eqb_refl a : idx_eqb a a = true. Proof. apply idx_eqb_eq. reflexivity. Qed.
Lemma found_in i l : found i l = true <-> In i l.
Proof.
  unfold found. rewrite existsb_exists. split.
  - intros (x & Hx & E). apply idx_eqb_eq in E. subst. exact Hx.
  - intros H. exists i. split; [exact H|apply idx_eqb_refl].
Qed.
Lemma erase_in i l x : NoDup l -> (In x (erase i l) <-> In x l /\ x <> i).
Proof.
  induction l as [|y l IH]; intros ND; cbn [erase]; [cbn; tauto|]. inversion ND; subst.
  destruct (idx_eqb i y) eqn:E.
  - apply idx_eqb_eq in E. subst y. cbn. split.
    + intros H. split; [auto|]. intros ->. contradiction.
    + intros [[->|H] Hn]; [contradiction|exact H].
  - assert (y <> i) by (intros ->; rewrite idx_eqb_refl in E; discriminate).
    cbn. rewrite IH by assumption. split; [intros [->|[H' Hn]]; auto|intros [[->|H'] Hn]; auto].
Qed.
Lemma erase_nodup i l : NoDup l -> NoDup (erase i l).
Proof.
  induction l as [|y l IH]; intros ND; cbn [erase]; [exact ND|]. inversion ND; subst. destruct (idx_eqb i y); [assumption|].
  constructor; [|apply IH; assumption]. intros Q. apply erase_in in Q; [|assumption]. destruct Q. contradiction.
Qed.

Section P.
  Context {Fl : Type} (lt : Fl -> Fl -> bool) (sort : list (Z * bool) -> list (Z * bool)).
  Variables (dispersion : Z -> Fl) (fermi_energy : Fl).
  Hypothesis sort_ok : forall l, Permutation (sort l) l.
  Notation init := (is_initially_occupied lt dispersion fermi_energy).
  Variables (mode : hub -> nat) (L : Z) (s0 : N).
  Hypothesis mode_inj : numbers_orbitals mode L.
  (** s0 is the Fermi sea *)
  Hypothesis Hs0 : forall x, site L (fst x) -> occ s0 (mode x) = init x.

  Definition holds (st : sea) (x : Z * bool) : bool :=
    if init x then negb (found x (annihilated st)) else found x (created st).
  (** the state st stands for the basis state t *)
  Record rep (st : sea) (t : N) : Prop := mkRep {
    r_van : vanishes st = false;
    r_cr : NoDup (created st); r_an : NoDup (annihilated st);
    r_cin : forall x, In x (created st) -> site L (fst x) /\ init x = false;
    r_ain : forall x, In x (annihilated st) -> site L (fst x) /\ init x = true;
    r_occ : forall x, site L (fst x) -> occ t (mode x) = holds st x;
    r_out : forall k, (forall x, site L (fst x) -> mode x <> k) -> occ t k = occ s0 k }.

  Lemma rep0 : rep fermi_sea s0.
  Proof.
    split; cbn; try constructor; try contradiction; try reflexivity. intros x Hx. rewrite Hs0 by exact Hx. unfold holds. cbn. destruct (init x); reflexivity.
  Qed.
  Lemma found_false x l : found x l = false <-> ~ In x l.
  Proof. rewrite <- found_in. destruct (found x l); split; congruence. Qed.
  Lemma same_mode x y : site L (fst x) -> site L (fst y) -> mode x = mode y -> x = y.
  Proof. destruct x as [i a], y as [j b]. cbn. intros Hx Hy E. destruct (mode_inj i a j b Hx Hy E) as [-> ->]. reflexivity. Qed.

  Lemma occ_set t k c : occ (N.setbit t (N.of_nat k)) c = if Nat.eqb c k then true else occ t c.
  Proof.
    unfold occ. rewrite N.setbit_eqb. destruct (Nat.eqb_spec c k) as [->|H].
    - rewrite N.eqb_refl. reflexivity.
    - destruct (N.eqb_spec (N.of_nat k) (N.of_nat c)); [exfalso; apply H; lia|]. reflexivity.
  Qed.
  Lemma occ_clear t k c : occ (N.clearbit t (N.of_nat k)) c = if Nat.eqb c k then false else occ t c.
  Proof.
    unfold occ. rewrite N.clearbit_eqb. destruct (Nat.eqb_spec c k) as [->|H].
    - rewrite N.eqb_refl. cbn. apply andb_false_r.
    - destruct (N.eqb_spec (N.of_nat k) (N.of_nat c)); [exfalso; apply H; lia|]. cbn. apply andb_true_r.
  Qed.

  (** new lists for an index that changes *)
  Lemma rep_change st t b (i : Z * bool) cr an t' : rep st t -> site L (fst i) ->
    NoDup cr -> NoDup an ->
    (forall x, In x cr -> site L (fst x) /\ init x = false) -> (forall x, In x an -> site L (fst x) /\ init x = true) ->
    (forall x, site L (fst x) -> x <> i -> holds (mkSea false cr an) x = holds st x) -> holds (mkSea false cr an) i = b ->
    (forall c, occ t' c = if Nat.eqb c (mode i) then b else occ t c) ->
    rep (mkSea false cr an) t'.
  Proof.
    intros R Hi N1 N2 C1 C2 Ho Hb Ht. split; cbn [created annihilated vanishes]; try assumption; [reflexivity| |].
    - intros x Hx. rewrite Ht. destruct (Nat.eqb_spec (mode x) (mode i)) as [E|E].
      + apply same_mode in E; [|assumption|assumption]. subst x. symmetry. exact Hb.
      + rewrite Ho; [apply (r_occ _ _ R x Hx)|exact Hx|]. intros ->. contradiction.
    - intros k Hk. rewrite Ht. destruct (Nat.eqb_spec k (mode i)) as [->|E]; [exfalso; exact (Hk i Hi eq_refl)|]. apply (r_out _ _ R k Hk).
  Qed.
  Lemma nodup_snoc {A} (l : list A) x : NoDup l -> ~ In x l -> NoDup (l ++ [x]).
  Proof. intros H Hx. apply (Permutation_NoDup (l := x :: l)); [apply Permutation_cons_append|constructor; assumption]. Qed.
  Lemma found_snoc x i l : found x (l ++ [i]) = (found x l || idx_eqb x i)%bool.
  Proof. unfold found. rewrite existsb_app. cbn. rewrite orb_false_r. reflexivity. Qed.
  Lemma found_erase x i l : NoDup l -> found x (erase i l) = (found x l && negb (idx_eqb x i))%bool.
  Proof.
    intros ND. apply eq_true_iff_eq. rewrite andb_true_iff, negb_true_iff, !found_in, (erase_in i l x ND). split.
    - intros [H1 H2]. split; [exact H1|]. apply not_true_iff_false. rewrite idx_eqb_eq. exact H2.
    - intros [H1 H2]. split; [exact H1|]. intros E. apply idx_eqb_eq in E. congruence.
  Qed.
  Lemma idx_ne x i : x <> i -> idx_eqb x i = false.
  Proof. intros H. apply not_true_iff_false. rewrite idx_eqb_eq. exact H. Qed.

  Lemma step_rep (o : op hub) st t : rep st t -> site L (fst (indices o)) ->
    match ladder (creator o) (mode (indices o)) t with
    | None => vanishes (step_op lt dispersion fermi_energy o st) = true
    | Some (_, t') => rep (step_op lt dispersion fermi_energy o st) t'
    end.
  Proof.
    intros R Hi. destruct o as [c i]. cbn [creator indices] in *. unfold step_op, ladder. cbn [creator indices].
    rewrite (r_occ _ _ R i Hi). unfold holds. destruct c; [unfold create_particle|unfold annihilate_particle]; rewrite (r_van _ _ R).
    - destruct (init i) eqn:Ei.
      + destruct (found i (annihilated st)) eqn:Ef; cbn [negb snd]; [|reflexivity].
        apply (rep_change st t true i (created st) (erase i (annihilated st))); try exact R; try exact Hi; try exact (r_cr _ _ R); try exact (r_an _ _ R); try exact (r_cin _ _ R); try exact (r_ain _ _ R).
        * apply erase_nodup, (r_an _ _ R).
        * intros x Hx. apply erase_in in Hx; [|exact (r_an _ _ R)]. apply (r_ain _ _ R), Hx.
        * intros x Hx Hne. unfold holds. cbn [created annihilated]. rewrite found_erase by exact (r_an _ _ R). rewrite (idx_ne x i Hne), andb_true_r. reflexivity.
        * unfold holds. cbn [created annihilated]. rewrite Ei, found_erase by exact (r_an _ _ R). rewrite idx_eqb_refl, andb_false_r. reflexivity.
        * intros c. apply occ_set.
      + destruct (found i (created st)) eqn:Ef; cbn [negb snd]; [reflexivity|].
        apply (rep_change st t true i (created st ++ [i]) (annihilated st)); try exact R; try exact Hi; try exact (r_cr _ _ R); try exact (r_an _ _ R); try exact (r_cin _ _ R); try exact (r_ain _ _ R).
        * apply nodup_snoc; [exact (r_cr _ _ R)|apply found_false, Ef].
        * intros x Hx. apply in_app_or in Hx. destruct Hx as [Hx|[<-|[]]]; [apply (r_cin _ _ R), Hx|auto].
        * intros x Hx Hne. unfold holds. cbn [created annihilated]. rewrite found_snoc, (idx_ne x i Hne), orb_false_r. reflexivity.
        * unfold holds. cbn [created annihilated]. rewrite Ei, found_snoc, idx_eqb_refl, orb_true_r. reflexivity.
        * intros c. apply occ_set.
    - destruct (init i) eqn:Ei.
      + destruct (found i (annihilated st)) eqn:Ef; cbn [negb snd]; [reflexivity|].
        apply (rep_change st t false i (created st) (annihilated st ++ [i])); try exact R; try exact Hi; try exact (r_cr _ _ R); try exact (r_an _ _ R); try exact (r_cin _ _ R); try exact (r_ain _ _ R).
        * apply nodup_snoc; [exact (r_an _ _ R)|apply found_false, Ef].
        * intros x Hx. apply in_app_or in Hx. destruct Hx as [Hx|[<-|[]]]; [apply (r_ain _ _ R), Hx|auto].
        * intros x Hx Hne. unfold holds. cbn [created annihilated]. rewrite found_snoc, (idx_ne x i Hne), orb_false_r. reflexivity.
        * unfold holds. cbn [created annihilated]. rewrite Ei, found_snoc, idx_eqb_refl, orb_true_r. reflexivity.
        * intros c. apply occ_clear.
      + destruct (found i (created st)) eqn:Ef; cbn [negb snd]; [|reflexivity].
        apply (rep_change st t false i (erase i (created st)) (annihilated st)); try exact R; try exact Hi; try exact (r_cr _ _ R); try exact (r_an _ _ R); try exact (r_cin _ _ R); try exact (r_ain _ _ R).
        * apply erase_nodup, (r_cr _ _ R).
        * intros x Hx. apply erase_in in Hx; [|exact (r_cr _ _ R)]. apply (r_cin _ _ R), Hx.
        * intros x Hx Hne. unfold holds. cbn [created annihilated]. rewrite found_erase by exact (r_cr _ _ R). rewrite (idx_ne x i Hne), andb_true_r. reflexivity.
        * unfold holds. cbn [created annihilated]. rewrite Ei, found_erase by exact (r_cr _ _ R). rewrite idx_eqb_refl, andb_false_r. reflexivity.
        * intros c. apply occ_clear.
  Qed.
  Lemma found_perm x l l' : Permutation l l' -> found x l = found x l'.
  Proof.
    intros H. apply eq_true_iff_eq. rewrite !found_in. split; intros Q.
    - eapply Permutation_in; [exact H|exact Q].
    - eapply Permutation_in; [symmetry; exact H|exact Q].
  Qed.
  Lemma sorted_rep st t : rep st t -> rep (sorted sort st) t.
  Proof.
    intros R. unfold sorted. rewrite (r_van _ _ R). split; cbn [created annihilated vanishes]; try reflexivity.
    - eapply Permutation_NoDup; [symmetry; apply sort_ok|exact (r_cr _ _ R)].
    - eapply Permutation_NoDup; [symmetry; apply sort_ok|exact (r_an _ _ R)].
    - intros x Hx. apply (r_cin _ _ R). eapply Permutation_in; [apply sort_ok|exact Hx].
    - intros x Hx. apply (r_ain _ _ R). eapply Permutation_in; [apply sort_ok|exact Hx].
    - intros x Hx. rewrite (r_occ _ _ R x Hx). unfold holds. cbn [created annihilated].
      rewrite (found_perm x _ _ (sort_ok (annihilated st))), (found_perm x _ _ (sort_ok (created st))). reflexivity.
    - exact (r_out _ _ R).
  Qed.

  (** a word acts *)
  Definition good (st : sea) (a : option (bool * N)) : Prop :=
    match a with None => vanishes st = true | Some (_, t) => rep st t end.
  Notation lads := (ladders (T := hub) mode).
  Lemma loop_rep : forall (ops : list (op hub)) st t, rep st t -> Forall (fun o => site L (index1 o)) ops ->
    good (apply_loop lt dispersion fermi_energy ops st) (act (lads (rev ops)) t).
  Proof.
    induction ops as [|o ops IH]; intros st t R H; cbn [apply_loop rev]; [exact R|].
    inversion H as [|? ? Ho Hs]; subst. unfold ladders. rewrite map_app. cbn [map]. rewrite act_app. cbn [act].
    pose proof (step_rep o st t R Ho) as Q. destruct (ladder (creator o) (mode (indices o)) t) as [[sg t']|].
    - cbn zeta. rewrite (r_van _ _ Q). specialize (IH _ _ Q Hs). unfold ladders in IH.
      destruct (act _ t') as [[sg' t'']|]; exact IH.
    - cbn zeta. rewrite Q. exact Q.
  Qed.
  Lemma sorted_good st a : good st a -> good (sorted sort st) a.
  Proof.
    destruct a as [[sg t]|]; cbn [good].
    - apply sorted_rep.
    - intros H. unfold sorted. rewrite H. exact H.
  Qed.
  Lemma monomial_rep (m : monomial hub) st t : rep st t -> Forall (fun o => site L (index1 o)) m ->
    good (snd (apply_monomial lt sort dispersion fermi_energy m st)) (act (lads m) t).
  Proof.
    intros R H. unfold apply_monomial. rewrite (r_van _ _ R). cbn [snd]. apply sorted_good.
    pose proof (loop_rep (rev m) st t R) as Q. rewrite rev_involutive in Q. apply Q. apply Forall_rev, H.
  Qed.
  Lemma operator_rep (o : op hub) st t : rep st t -> site L (index1 o) ->
    good (snd (apply_operator lt sort dispersion fermi_energy o st)) (act (lads [o]) t).
  Proof.
    intros R H. unfold apply_operator. rewrite (r_van _ _ R). cbn [snd]. apply sorted_good.
    pose proof (step_rep o st t R H) as Q. cbn [ladders map act].
    destruct (ladder (creator o) (mode (indices o)) t) as [[sg t']|]; exact Q.
  Qed.
  Lemma rep_initial st t : rep st t -> is_initial_fermi_sea st = true <-> t = s0.
  Proof.
    intros R. unfold is_initial_fermi_sea. rewrite (r_van _ _ R). cbn [negb andb]. split.
    - intros H. destruct (created st) eqn:Ec; [|discriminate]. destruct (annihilated st) eqn:Ea; [|discriminate].
      apply N.bits_inj. intros n. rewrite <- (N2Nat.id n). change (occ t (N.to_nat n) = occ s0 (N.to_nat n)).
      destruct (existsb (fun i => (Nat.eqb (mode (i, true)) (N.to_nat n) || Nat.eqb (mode (i, false)) (N.to_nat n))%bool) (Zseq L)) eqn:Ex.
      + apply existsb_exists in Ex. destruct Ex as (i & Hi & E). apply orb_true_iff in E.
        assert (Si : site L i) by (apply Zseq_in, Hi).
        destruct E as [E|E]; apply Nat.eqb_eq in E; rewrite <- E.
        * rewrite (r_occ _ _ R (i, true) Si), (Hs0 (i, true) Si). unfold holds. rewrite Ec, Ea. cbn [found existsb negb]. match goal with |- (if ?a then _ else _) = ?b => change b with a; destruct a; reflexivity end.
        * rewrite (r_occ _ _ R (i, false) Si), (Hs0 (i, false) Si). unfold holds. rewrite Ec, Ea. cbn [found existsb negb]. match goal with |- (if ?a then _ else _) = ?b => change b with a; destruct a; reflexivity end.
      + apply (r_out _ _ R). intros [i b] Hi E. apply not_true_iff_false in Ex. apply Ex. apply existsb_exists. exists i. split; [apply Zseq_in, Hi|].
        apply orb_true_iff. destruct b; [left|right]; apply Nat.eqb_eq; exact E.
    - intros ->. destruct (created st) as [|x l] eqn:Ec.
      + destruct (annihilated st) as [|x l] eqn:Ea; [reflexivity|]. exfalso.
        destruct (r_ain _ _ R x) as [Hx Ix]; [rewrite Ea; left; reflexivity|].
        pose proof (r_occ _ _ R x Hx) as Q. rewrite (Hs0 x Hx) in Q. unfold holds in Q. rewrite Ix, Ea in Q. cbn in Q. rewrite idx_eqb_refl in Q. discriminate.
      + exfalso. destruct (r_cin _ _ R x) as [Hx Ix]; [rewrite Ec; left; reflexivity|].
        pose proof (r_occ _ _ R x Hx) as Q. rewrite (Hs0 x Hx) in Q. unfold holds in Q. rewrite Ix, Ec in Q. cbn in Q. rewrite idx_eqb_refl in Q. discriminate.
  Qed.
  (** at the end: is it the Fermi sea again? *)
  Lemma good_initial st a : good st a -> is_initial_fermi_sea st = true <-> exists sg, a = Some (sg, s0).
  Proof.
    destruct a as [[sg t]|]; cbn [good]; intros H.
    - rewrite (rep_initial st t H). split; [intros ->; eauto|intros (x & E); congruence].
    - unfold is_initial_fermi_sea. rewrite H. cbn. split; [discriminate|intros (x & E); discriminate].
  Qed.
End P.
