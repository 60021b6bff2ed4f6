(** PROOFS for C105: what the threads of the program leave in the memory. *)
From Coq Require Import Reals List ZArith Permutation Lia.
From Verif Require Import Base Spec_Lattice M_Operator M_Lattice M_Basis M_Matrix M_Ode Pf_Ode M_Dispersion M_Expectation M_OpenMP Spec_OpenMP Pf_OpenMP Spec_Stability
  M_Text M_Io M_Rounding M_Double M_RoundedMeasurement M_Theory M_DispersionProgram Pf_Matrix Pf_Threads Pf_Basis P_Basis M_TheoryProgram.
Local Open Scope list_scope.

Section Cells.
  Context {V X : Type} (zero : V) (add : V -> X -> V).
  Definition pa (p : nat * X) : list (rop X) := rplus_assign (fst p) (snd p).
  Definition on (c : nat) (l : list (nat * X)) : list X := map snd (filter (fun p => Nat.eqb (fst p) c) l).
  Lemma on_app c l l' : on c (l ++ l') = on c l ++ on c l'.
  Proof. unfold on. rewrite filter_app, map_app. reflexivity. Qed.
  Lemma on_flat {A} c (f : A -> list (nat * X)) l : on c (flat_map f l) = flat_map (fun a => on c (f a)) l.
  Proof. induction l as [|a l IH]; cbn [flat_map]; [reflexivity|]. rewrite on_app, IH. reflexivity. Qed.
  Lemma on_none c l : (forall p, In p l -> fst p <> c) -> on c l = [].
  Proof.
    unfold on. induction l as [|p l IH]; intros H; [reflexivity|]. cbn [filter]. destruct (Nat.eqb_spec (fst p) c) as [E|E]; [exfalso; apply (H p); [left; reflexivity|exact E]|].
    apply IH. intros q Hq. apply H. right. exact Hq.
  Qed.
  Lemma rsolo_cells l : forall reg mem, (forall p, In p l -> (fst p < length mem)%nat) ->
    length (rsolo zero add reg (flat_map pa l) mem) = length mem /\
    forall c, nth c (rsolo zero add reg (flat_map pa l) mem) zero = fold_left add (on c l) (nth c mem zero).
  Proof.
    induction l as [|[d x] l IH]; intros reg mem H; [split; reflexivity|].
    change (flat_map pa ((d, x) :: l)) with (RLoad d :: RAdd d x :: flat_map pa l). cbn [rsolo rexec1].
    destruct (IH (nth d mem zero) (list_set mem d (add (nth d mem zero) x))) as (L & E).
    { intros p Hp. rewrite list_set_length. apply H. right. exact Hp. }
    rewrite list_set_length in L. split; [exact L|]. intros c. rewrite E. unfold on. cbn [filter fst]. destruct (Nat.eqb_spec d c) as [<-|Ne].
    - cbn [map fold_left snd]. rewrite list_set_nth, Nat.eqb_refl; [reflexivity|]. apply (H (d, x)). left. reflexivity.
    - rewrite nth_list_set_ne by exact Ne. reflexivity.
  Qed.
  Lemma rsolos_cells ls : forall mem, (forall l p, In l ls -> In p l -> (fst p < length mem)%nat) ->
    length (rsolos zero add (rstart zero (map (flat_map pa) ls)) mem) = length mem /\
    forall c, nth c (rsolos zero add (rstart zero (map (flat_map pa) ls)) mem) zero = fold_left add (on c (concat ls)) (nth c mem zero).
  Proof.
    induction ls as [|l ls IH]; intros mem H; [split; reflexivity|]. cbn [map concat]. unfold rstart, rsolos. cbn [map fold_left fst snd].
    destruct (rsolo_cells l zero mem) as (L & E). { intros p Hp. apply (H l); [left; reflexivity|exact Hp]. }
    destruct (IH (rsolo zero add zero (flat_map pa l) mem)) as (L' & E').
    { intros l' p Hl Hp. rewrite L. apply (H l'); [right; exact Hl|exact Hp]. }
    unfold rstart, rsolos in L', E'. split; [congruence|]. intros c. rewrite E', E, on_app, fold_left_app. reflexivity.
  Qed.
  (** threads that only touch their own elements *)
  Lemma run_cells (ls : list (list (nat * X))) tr mem r :
    (forall l p, In l ls -> In p l -> (fst p < length mem)%nat) ->
    (forall i j l l' p q, i <> j -> nth_error ls i = Some l -> nth_error ls j = Some l' -> In p l -> In q l' -> fst p <> fst q) ->
    rrun zero add (map (flat_map pa) ls) tr mem = Some r ->
    exists mem', r = Ok mem' /\ length mem' = length mem /\ forall c, nth c mem' zero = fold_left add (on c (concat ls)) (nth c mem zero).
  Proof.
    intros HB HA HR.
    assert (Cell : forall l o, In o (flat_map pa l) -> exists p, In p l /\ rcell o = fst p).
    { intros l o Ho. apply in_flat_map in Ho as ([c x] & Hp & [<-|[<-|[]]]); exists (c, x); split; auto. }
    apply rrun_value in HR.
    - eexists. split; [exact HR|]. apply rsolos_cells, HB.
    - intros i j a b c Hij Ha Hb (o & Ho & Hc) (o' & Ho' & Hc'). unfold rstart in Ha, Hb. rewrite map_map, nth_error_map in Ha, Hb.
      destruct (nth_error ls i) as [l|] eqn:Ei; [|discriminate]. destruct (nth_error ls j) as [l'|] eqn:Ej; [|discriminate]. injection Ha as <-. injection Hb as <-. cbn [snd] in Ho, Ho'.
      destruct (Cell _ _ Ho) as (p & Hp & Ep). destruct (Cell _ _ Ho') as (q & Hq & Eq). apply (HA i j l l' p q Hij Ei Ej Hp Hq). congruence.
    - intros p o Hp Ho. apply in_map_iff in Hp as (l & <- & Hl). destruct (Cell _ _ Ho) as (q & Hq & ->). apply (HB l); assumption.
  Qed.
End Cells.

Lemma concat_flats {A B} (f : A -> list B) Ls : concat (map (flat_map f) Ls) = flat_map f (concat Ls).
Proof. induction Ls as [|l Ls IH]; cbn; [reflexivity|]. rewrite IH, flat_map_app. reflexivity. Qed.
Section Program.
  Context (garbage : R -> R) (bessel : Z -> R -> R) (table : list R) (N : Z) (dt : R) (steps : Z).
  Hypothesis HN : (0 < N < two64)%Z.
  Notation ar := (double_arith garbage).
  Lemma front_site i : site N i -> th_front N i = Ok i.
  Proof.
    intros Hi. unfold th_front, vread. destruct (Z.ltb_spec i 0) as [C|_]; [destruct Hi; lia|].
    rewrite (basis1_nth (chain_lattice N) N (shipped_regular _ _ (ship_chain N HN)) i Hi). reflexivity.
  Qed.
  Context (e : Z -> Z -> R).
  Hypothesis He : forall i j, site N i -> site N j -> ev1 N table i j = Ok (e i j).
  (** the summand of sites i and j in the given step *)
  Definition term (step i j : Z) : CR := cf_scale ar (e i j) (cf_mul ar (th_h_val garbage bessel N dt i step) (th_h_val_conj garbage bessel N dt j step)).
  Definition cells (t : nat) (i : Z) : list (nat * summand) :=
    flat_map (fun j => map (fun step => ((t * Z.to_nat steps + Z.to_nat step)%nat, CSum (term step i j))) (zrange 0 steps)) (zrange 0 N).
  Lemma iteration_cells t i : site N i -> th_iteration garbage bessel table N dt steps t i = Ok (flat_map pa (cells t i)).
  Proof.
    intros Hi. unfold th_iteration, cells.
    rewrite (oconcat_ok _ (fun j => flat_map pa (map (fun step => ((t * Z.to_nat steps + Z.to_nat step)%nat, CSum (term step i j))) (zrange 0 steps)))).
    - f_equal. induction (zrange 0 N) as [|j l IH]; cbn [flat_map]; [reflexivity|]. rewrite flat_map_app, IH. reflexivity.
    - intros j Hj. apply zrange_in in Hj. rewrite (front_site i Hi). cbn [obind]. rewrite (front_site j) by exact Hj. cbn [obind]. rewrite He by (unfold site; try assumption; lia). cbn [obind]. f_equal.
      rewrite !flat_map_concat_map, map_map. reflexivity.
  Qed.
  Lemma cells_thread t i p : In p (cells t i) -> exists step, (0 <= step < steps)%Z /\ fst p = (t * Z.to_nat steps + Z.to_nat step)%nat.
  Proof.
    unfold cells. intros H. apply in_flat_map in H as (j & _ & H). apply in_map_iff in H as (step & <- & Hs). apply zrange_in in Hs. exists step. split; [exact Hs|reflexivity].
  Qed.
  Definition row (step i : Z) : list summand := map (fun j => CSum (term step i j)) (zrange 0 N).
  Lemma zrange_pick (A : Type) (f : Z -> nat * A) lo hi (c : nat) k : (lo <= k < hi)%Z -> (forall s, (lo <= s < hi)%Z -> fst (f s) = c <-> s = k) ->
    on c (map f (zrange lo hi)) = [snd (f k)].
  Proof.
    intros Hk Hf. rewrite (zrange_app lo k hi) by lia. rewrite map_app, on_app. rewrite (zrange_cons k hi) by lia. cbn [map].
    rewrite (on_none c (map f (zrange lo k))), app_nil_l.
    2:{ intros p Hp. apply in_map_iff in Hp as (s & <- & Hs). apply zrange_in in Hs. intros E. apply Hf in E; lia. }
    change (f k :: map f (zrange (k + 1) hi)) with ([f k] ++ map f (zrange (k + 1) hi)). rewrite on_app, (on_none c (map f (zrange (k + 1) hi))), app_nil_r.
    2:{ intros p Hp. apply in_map_iff in Hp as (s & <- & Hs). apply zrange_in in Hs. intros E. apply Hf in E; lia. }
    unfold on. cbn [filter]. replace (Nat.eqb (fst (f k)) c) with true by (symmetry; apply Nat.eqb_eq, Hf; [exact Hk|reflexivity]). reflexivity.
  Qed.
  Lemma on_cells t i k : (0 <= k < steps)%Z -> on (t * Z.to_nat steps + Z.to_nat k) (cells t i) = row k i.
  Proof.
    intros Hk. unfold cells, row. rewrite on_flat. induction (zrange 0 N) as [|j l IH]; cbn [flat_map map]; [reflexivity|]. rewrite IH.
    rewrite (zrange_pick summand _ 0 steps _ k Hk); [reflexivity|]. intros s Hs. cbn [fst]. lia.
  Qed.
  Lemma on_cells_other t t' i k : (0 <= k < steps)%Z -> t' <> t -> on (t * Z.to_nat steps + Z.to_nat k) (cells t' i) = [].
  Proof.
    intros Hk Ht. apply on_none. intros p Hp E. destruct (cells_thread _ _ _ Hp) as (s & Hs & F). rewrite F in E. apply Ht. nia.
  Qed.
  (** the summands that go to one element *)
  Lemma on_threads w k : (0 <= k < steps)%Z -> forall t0 t, (t0 <= t)%nat ->
    on (t * Z.to_nat steps + Z.to_nat k) (concat (map (fun p => flat_map (cells (fst p)) (snd p)) (combine (seq t0 (length w)) w))) = flat_map (row k) (nth (t - t0) w []).
  Proof.
    intros Hk. assert (Other : forall t t' its, t' <> t -> on (t * Z.to_nat steps + Z.to_nat k) (flat_map (cells t') its) = []).
    { intros t t' its Ne. rewrite on_flat. induction its as [|i its IH]; cbn [flat_map]; [reflexivity|]. rewrite on_cells_other, IH by assumption. reflexivity. }
    assert (Later : forall w t0 t, (t < t0)%nat -> on (t * Z.to_nat steps + Z.to_nat k) (concat (map (fun p => flat_map (cells (fst p)) (snd p)) (combine (seq t0 (length w)) w))) = []).
    { induction w0 as [|its w0 IH]; intros t0 t L; [reflexivity|]. cbn [length seq combine map concat fst snd]. rewrite on_app, Other by lia. apply IH. lia. }
    induction w as [|its w IH]; intros t0 t L; [destruct (t - t0)%nat; reflexivity|]. cbn [length seq combine map concat fst snd]. rewrite on_app.
    destruct (Nat.eq_dec t0 t) as [<-|Ne].
    - rewrite Later by lia. rewrite app_nil_r, Nat.sub_diag. cbn [nth]. rewrite on_flat. apply flat_map_ext. intros i. apply on_cells, Hk.
    - rewrite Other by exact Ne. rewrite IH by lia. replace (t - t0)%nat with (S (t - S t0)) by lia. reflexivity.
  Qed.
  Lemma concat_nth_pad {A} (w : list (list A)) T : (length w <= T)%nat -> concat (map (fun t => nth t w []) (seq 0 T)) = concat w.
  Proof.
    revert T. induction w as [|l w IH]; intros T L.
    - rewrite (map_ext _ (fun _ => [])) by (intros []; reflexivity). induction (seq 0 T); cbn; [reflexivity|assumption].
    - destruct T as [|T]; [cbn in L; lia|]. cbn [seq map concat nth]. rewrite <- seq_shift, map_map. cbn [nth]. rewrite IH by (cbn in L; lia). reflexivity.
  Qed.
  (** the lists of summands that were added up, one per thread *)
  Definition parts (T0 : nat) (s : schedule) (k : Z) : list (list summand) := map (fun t => flat_map (row k) (nth t (who s) [])) (seq 0 T0).
  Lemma parts_perm T0 s k : shares T0 0 N s -> length (parts T0 s k) = T0 /\ Permutation (concat (parts T0 s k)) (flat_map (row k) (zrange 0 N)).
  Proof.
    intros [L P]. unfold parts. split; [rewrite map_length, seq_length; reflexivity|].
    rewrite <- (map_map (fun t => nth t (who s) []) (flat_map (row k))), concat_flats.
    rewrite concat_nth_pad by exact L. apply Permutation_flat_map, P.
  Qed.
  (** the programs of the threads *)
  Definition work (w : list (list Z)) : list (list (nat * summand)) := map (fun p => flat_map (cells (fst p)) (snd p)) (combine (seq 0 (length w)) w).
  Lemma programs_work w : (forall i, In i (concat w) -> site N i) ->
    omap (fun p => oconcat (th_iteration garbage bessel table N dt steps (fst p)) (snd p)) (combine (seq 0 (length w)) w) = Ok (map (flat_map pa) (work w)).
  Proof.
    intros Hw. rewrite (omap_ok _ (fun p => flat_map pa (flat_map (cells (fst p)) (snd p)))); [unfold work; rewrite map_map; reflexivity|].
    intros [t its] Hp. cbn [fst snd]. rewrite (oconcat_ok _ (fun i => flat_map pa (cells t i))).
    - f_equal. clear Hp. induction its as [|i its IH]; cbn [flat_map]; [reflexivity|]. rewrite flat_map_app, IH. reflexivity.
    - intros i Hi. apply iteration_cells, Hw, in_concat. exists its. split; [exact (in_combine_r _ _ _ _ Hp)|exact Hi].
  Qed.
  Lemma work_nth w t l : nth_error (work w) t = Some l -> (t < length w)%nat /\ l = flat_map (cells t) (nth t w []).
  Proof.
    unfold work. intros E. rewrite nth_error_map in E. destruct (nth_error (combine _ _) t) as [[t' its]|] eqn:Q; [|discriminate]. injection E as <-.
    assert (L : (t < length w)%nat) by (assert (t < length (combine (seq 0 (length w)) w))%nat by (apply nth_error_Some; congruence); rewrite combine_length, seq_length in H; lia).
    split; [exact L|]. cbn [fst snd].
    assert (G : forall (w : list (list Z)) a t, (t < length w)%nat -> nth_error (combine (seq a (length w)) w) t = Some ((a + t)%nat, nth t w [])).
    { clear. induction w as [|x w IH]; intros a [|t] L; cbn in *; try lia; [rewrite Nat.add_0_r; reflexivity|]. rewrite IH by lia. do 2 f_equal. lia. }
    rewrite (G w 0%nat t L) in Q. injection Q as <- <-. reflexivity.
  Qed.
  Lemma work_cell w t l p : nth_error (work w) t = Some l -> In p l -> (t < length w)%nat /\ (t * Z.to_nat steps <= fst p < S t * Z.to_nat steps)%nat.
  Proof.
    intros E Hp. apply work_nth in E as [L ->]. split; [exact L|]. apply in_flat_map in Hp as (i & _ & Hp). apply cells_thread in Hp as (step & Hs & ->). lia.
  Qed.
  Lemma results_value T0 s r : shares T0 0 N s -> th_results garbage bessel table N dt steps T0 s = Some r ->
    exists mem, r = Ok mem /\ forall k, (0 <= k < steps)%Z -> th_val garbage steps T0 mem k = f_accumulate ar (map (sum_up ((0, 0)%R : CR) (fplus ar)) (parts T0 s k)).
  Proof.
    intros [L P] H. unfold th_results in H. rewrite programs_work in H by (intros i Hi; apply (Permutation_in _ P) in Hi; apply zrange_in in Hi; exact Hi).
    apply run_cells in H.
    - destruct H as (mem & -> & _ & E). exists mem. split; [reflexivity|]. intros k Hk. unfold th_val, f_accumulate, parts. rewrite map_map. f_equal. apply map_ext. intros t.
      rewrite E. unfold sum_up. f_equal.
      + unfold work. rewrite on_threads by (try exact Hk; lia). rewrite Nat.sub_0_r. reflexivity.
      + destruct (nth_in_or_default (t * Z.to_nat steps + Z.to_nat k) (repeat ((0, 0)%R : CR) (T0 * Z.to_nat steps)) ((0, 0)%R : CR)) as [I|D]; [apply repeat_spec in I; exact I|exact D].
    - intros l p Hl Hp. apply In_nth_error in Hl as (t & Ht). destruct (work_cell _ _ _ _ Ht Hp) as (Lt & B). rewrite repeat_length. nia.
    - intros i j l l' p q Hij Hi Hj Hp Hq E. destruct (work_cell _ _ _ _ Hi Hp) as (_ & B1). destruct (work_cell _ _ _ _ Hj Hq) as (_ & B2). rewrite E in B1. nia.
  Qed.
  (** a thread that has no vector of results of its own *)
  Lemma results_ub T0 s t : (0 < steps)%Z -> (forall i, In i (concat (who s)) -> site N i) -> (T0 <= t)%nat -> nth t (who s) [] <> [] -> th_results garbage bessel table N dt steps T0 s = Some UB.
  Proof.
    intros Hs Hw Ht Hne. unfold th_results. rewrite programs_work by exact Hw. unfold rrun.
    replace (forallb _ (map (flat_map pa) (work (who s)))) with false; [reflexivity|]. symmetry. apply Bool.not_true_iff_false. intros F.
    rewrite forallb_forall in F. assert (Lt : (t < length (who s))%nat) by (destruct (Nat.lt_ge_cases t (length (who s))) as [G|G]; [exact G|rewrite nth_overflow in Hne by exact G; congruence]).
    destruct (nth_error (work (who s)) t) as [l|] eqn:E.
    2:{ apply nth_error_None in E. unfold work in E. rewrite map_length, combine_length, seq_length in E. lia. }
    pose proof (work_nth _ _ _ E) as [_ El]. specialize (F (flat_map pa l) (in_map _ _ _ (nth_error_In _ _ E))). rewrite forallb_forall in F.
    destruct (nth t (who s) []) as [|i its] eqn:En; [congruence|].
    assert (I : In ((t * Z.to_nat steps + Z.to_nat 0)%nat, CSum (term 0 i 0)) l).
    { rewrite El. apply in_flat_map. exists i. split; [left; reflexivity|]. unfold cells. apply in_flat_map. exists 0%Z. split; [apply zrange_in; lia|].
      apply in_map_iff. exists 0%Z. split; [reflexivity|apply zrange_in; lia]. }
    specialize (F (RLoad (t * Z.to_nat steps + Z.to_nat 0))). rewrite repeat_length in F.
    assert (Z0 : Nat.ltb (rcell (X := summand) (RLoad (t * Z.to_nat steps + Z.to_nat 0))) (T0 * Z.to_nat steps) = true) by (apply F, in_flat_map; eexists; split; [exact I|left; reflexivity]).
    apply Nat.ltb_lt in Z0. cbn [rcell] in Z0. nia.
  Qed.
  Lemma results_complete T0 w : exists tr, th_results garbage bessel table N dt steps T0 (mkSch w tr) <> None.
  Proof. unfold th_results. cbn [who trace]. destruct (omap _ _) as [progs|]; [|exists []; discriminate]. apply rrun_finishes. Qed.
End Program.
