(** Proofs about stored options. *)
From Coq Require Import Ascii String.
From Verif Require Import Base M_Text Spec_Text Spec_LatticeReal Pf_Text M_Io Pf_Io P_Io P_Checkpoint M_Cli.
Local Open Scope list_scope.

(** SPECIFICATION: the first value given for a key *)
Fixpoint first_value (ps : parsed) (k : text) : option text :=
  match ps with
  | [] => None
  | (k', v) :: ps' => if list_eq_dec ascii_dec k' k then Some v else first_value ps' k
  end.
(** the first default declared for a key *)
Fixpoint default_value (os : options) (k : text) : option text :=
  match os with
  | [] => None
  | (k', Some d) :: os' => if list_eq_dec ascii_dec k' k then Some d else default_value os' k
  | (_, None) :: os' => default_value os' k
  end.
Definition or_else {A} (a b : option A) : option A := match a with Some _ => a | None => b end.

Lemma upd_same {A} (m : text -> A) k v : upd_text m k v k = v. Proof. unfold upd_text. rewrite path_eqb_refl. reflexivity. Qed.
Lemma upd_other {A} (m : text -> A) k v q : q <> k -> upd_text m k v q = m q. Proof. intros H. unfold upd_text. rewrite path_eqb_neq by exact H. reflexivity. Qed.
Lemma first_value_app a b k : first_value (a ++ b) k = or_else (first_value a k) (first_value b k).
Proof. induction a as [|[k' v] a IH]; [reflexivity|]. cbn. destruct (list_eq_dec ascii_dec k' k); [reflexivity|exact IH]. Qed.
Lemma in_parsed_ok ps k : in_parsed ps k = match first_value ps k with Some _ => true | None => false end.
Proof. induction ps as [|[k' v] ps IH]; [reflexivity|]. cbn. unfold path_eqb. destruct (list_eq_dec ascii_dec k' k); [reflexivity|exact IH]. Qed.

(** the state after storing [given] and the defaults *)
Definition holds (os : options) (given : parsed) (vm : variables) : Prop :=
  forall k, k <> [] ->
    value vm k = or_else (first_value given k) (default_value os k) /\
    final vm k = in_parsed given k /\
    (first_value given k = None -> value vm k <> None -> defaulted vm k = true).
(** the same before the defaults *)
Lemma store_defaults_ok os : forall vm k,
  value (store_defaults os vm) k = or_else (value vm k) (default_value os k) /\
  final (store_defaults os vm) k = final vm k /\
  defaulted (store_defaults os vm) k = match value vm k with Some _ => defaulted vm k | None => match default_value os k with Some _ => true | None => defaulted vm k end end.
Proof.
  induction os as [|[k' [d|]] os IH]; intros vm k; cbn [store_defaults default_value].
  - destruct (value vm k); auto.
  - destruct (value vm k') as [w|] eqn:E.
    + destruct (IH vm k) as (A & B & C). rewrite A, B, C. destruct (list_eq_dec ascii_dec k' k) as [->|N]; [rewrite E; auto|auto].
    + destruct (IH (mkV (upd_text (value vm) k' (Some d)) (upd_text (defaulted vm) k' true) (final vm)) k) as (A & B & C). rewrite A, B, C. cbn [value defaulted final].
      destruct (list_eq_dec ascii_dec k' k) as [->|N]; [rewrite !upd_same, E; auto|]. rewrite !upd_other by congruence. auto.
  - apply IH.
Qed.
(** options already final are skipped *)
Lemma store_skip ps1 : forall ps2 vm nf, Forall (fun p => fst p = [] \/ final vm (fst p) = true) ps1 ->
  store_given (ps1 ++ ps2) vm nf = store_given ps2 vm nf.
Proof.
  induction ps1 as [|[k v] ps1 IH]; intros ps2 vm nf H; [reflexivity|]. cbn [app store_given]. pose proof (Forall_inv H) as Hk. cbn [fst] in Hk.
  apply Forall_inv_tail in H. destruct (is_empty k) eqn:Ek; [apply IH, H|]. destruct Hk as [->| ->]; [discriminate|]. apply IH, H.
Qed.
(** one more line of the response file *)
Lemma store_one os given vm ps k v : holds os given vm -> Forall (fun p => fst p = [] \/ in_parsed given (fst p) = true) ps ->
  exists vm', store os (ps ++ [(k, v)]) vm = Some vm' /\ holds os (given ++ [(k, v)]) vm'.
Proof.
  intros H Hps. unfold store. rewrite store_skip.
  2:{ eapply Forall_impl; [|exact Hps]. cbv beta. intros [q w] [Q|Q]; cbn [fst] in *; [left; exact Q|]. destruct q as [|c q]; [left; reflexivity|right].
      destruct (H (c :: q) ltac:(discriminate)) as (_ & -> & _). exact Q. }
  cbn [store_given]. destruct k as [|c k0].
  - cbn [is_empty]. eexists. split; [reflexivity|]. intros q Hq. destruct (H q Hq) as (A & B & C).
    destruct (store_defaults_ok os (mkV (value vm) (defaulted vm) (fun k => (final vm k || false)%bool)) q) as (D & E & F). rewrite D, E, F. cbn [value final defaulted].
    rewrite first_value_app. cbn [first_value]. destruct (list_eq_dec ascii_dec [] q) as [<-|N]; [contradiction|].
    rewrite in_parsed_ok, first_value_app. cbn [first_value]. destruct (list_eq_dec ascii_dec [] q) as [<-|_]; [contradiction|].
    rewrite in_parsed_ok in B. rewrite A, B. destruct (first_value given q) as [w|] eqn:Eg; cbn [or_else orb]; [repeat split; intros; congruence|].
    destruct (default_value os q) as [d|] eqn:Ed; cbn [or_else] in *; repeat split; try (intros _ Hn; apply C; [reflexivity|rewrite A; exact Hn]); try reflexivity; try (intros _ Q; congruence).
  - cbn [is_empty]. set (k := c :: k0). assert (Hk : k <> []) by discriminate. destruct (H k Hk) as (A & B & C).
    destruct (final vm k) eqn:Ef.
    + eexists. split; [reflexivity|]. intros q Hq. destruct (H q Hq) as (A' & B' & C').
      destruct (store_defaults_ok os (mkV (value vm) (defaulted vm) (fun k => (final vm k || false)%bool)) q) as (D & E & F). rewrite D, E, F. cbn [value final defaulted].
      rewrite in_parsed_ok in B. rewrite !in_parsed_ok, !first_value_app. cbn [first_value]. rewrite in_parsed_ok in B'. rewrite A', B'. destruct (first_value given q) as [w|] eqn:Eg; cbn [or_else orb]; [repeat split; intros; congruence|].
      destruct (list_eq_dec ascii_dec k q) as [->|N]; [rewrite Eg in B; discriminate|].
      destruct (default_value os q) as [d|] eqn:Ed; cbn [or_else] in *; repeat split; try (intros _ Hn; apply C'; [reflexivity|rewrite A'; exact Hn]); try reflexivity; try (intros _ Q; congruence).
    + rewrite in_parsed_ok in B. destruct (first_value given k) as [w|] eqn:Eg; [discriminate|]. cbn [or_else] in A.
      set (vm1 := mkV (upd_text (value vm) k (Some v)) (upd_text (defaulted vm) k false) (final vm)).
      assert (S : match value vm k with Some _ => if defaulted vm k then store_given [] vm1 (upd_text (fun _ : text => false) k true) else None | None => store_given [] vm1 (upd_text (fun _ : text => false) k true) end = Some (vm1, upd_text (fun _ => false) k true)).
      { destruct (value vm k) as [d|] eqn:Ev; [|reflexivity]. rewrite C; [reflexivity|reflexivity|]. discriminate. }
      match goal with |- exists vm', match ?X with _ => _ end = _ /\ _ => replace X with (Some (vm1, upd_text (fun _ : text => false) k true)) end.
      eexists. split; [reflexivity|]. intros q Hq. destruct (H q Hq) as (A' & B' & C').
      destruct (store_defaults_ok os (mkV (value vm1) (defaulted vm1) (fun k1 => (final vm1 k1 || upd_text (fun _ : text => false) k true k1)%bool)) q) as (D & E & F). rewrite D, E, F. cbn [value final defaulted vm1].
      rewrite !in_parsed_ok, !first_value_app. cbn [first_value]. destruct (list_eq_dec ascii_dec k q) as [<-|N].
      * rewrite !upd_same, Eg. cbn [or_else]. rewrite orb_true_r. repeat split. intros Q. discriminate.
      * rewrite !upd_other by congruence. rewrite in_parsed_ok in B'. rewrite orb_false_r, A', B'. destruct (first_value given q) as [w|] eqn:Egq; cbn [or_else]; [repeat split; intros; congruence|].
        destruct (default_value os q) as [d|] eqn:Ed; cbn [or_else] in *; repeat split; try (intros _ Hn; apply C'; [reflexivity|rewrite A'; exact Hn]); try reflexivity; try (intros _ Q; congruence).
Qed.
(** the first call of store *)
Lemma store_given_fresh : forall ps vm nf, NoDup (map fst ps) -> Forall (fun p => fst p <> []) ps ->
  (forall k, In k (map fst ps) -> value vm k = None /\ final vm k = false) ->
  exists vm' nf', store_given ps vm nf = Some (vm', nf') /\ forall k,
    value vm' k = or_else (first_value ps k) (value vm k) /\ final vm' k = final vm k /\
    nf' k = (in_parsed ps k || nf k)%bool.
Proof.
  induction ps as [|[k v] ps IH]; intros vm nf Hnd Hne Hf; cbn [store_given].
  - eexists _, _. split; [reflexivity|]. intros q. cbn. auto.
  - pose proof (Forall_inv Hne) as Hk. cbn [fst] in Hk. destruct (is_empty k) eqn:Ek; [destruct k; [contradiction|discriminate]|]. clear Ek.
    destruct (Hf k) as [Hv Hfin]; [left; reflexivity|]. rewrite Hv, Hfin. cbn [map fst] in Hnd. inversion Hnd as [|? ? Hin Hnd']; subst.
    destruct (IH (mkV (upd_text (value vm) k (Some v)) (upd_text (defaulted vm) k false) (final vm)) (upd_text nf k true) Hnd' (Forall_inv_tail Hne)) as (vm' & nf' & E & Q).
    { intros q Hq. assert (N : q <> k) by (intros ->; contradiction). cbn [value final]. rewrite upd_other by exact N. apply Hf. right. exact Hq. }
    exists vm', nf'. split; [exact E|]. intros q. destruct (Q q) as (A & B & C). rewrite A, B, C. cbn [value final first_value in_parsed existsb fst].
    unfold path_eqb. destruct (list_eq_dec ascii_dec k q) as [<-|N].
    + rewrite !upd_same. assert (Z : first_value ps k = None).
      { clear -Hin. induction ps as [|[k' v'] ps IH]; [reflexivity|]. cbn in *. destruct (list_eq_dec ascii_dec k' k) as [->|_]; [exfalso; apply Hin; left; reflexivity|]. apply IH. tauto. }
      rewrite Z. cbn [or_else]. rewrite orb_true_r. auto.
    + rewrite !upd_other by congruence. cbn [orb]. auto.
Qed.
Lemma store_first os cli : NoDup (map fst cli) -> Forall (fun p => fst p <> []) cli ->
  exists vm, store os cli no_variables = Some vm /\ holds os cli vm.
Proof.
  intros H1 H2. unfold store. destruct (store_given_fresh cli no_variables (fun _ => false) H1 H2) as (vm' & nf' & -> & Q); [intros k _; split; reflexivity|].
  eexists. split; [reflexivity|]. intros k Hk. destruct (Q k) as (A & B & C).
  destruct (store_defaults_ok os (mkV (value vm') (defaulted vm') (fun k0 => (final vm' k0 || nf' k0)%bool)) k) as (D & E & F). rewrite D, E, F. cbn [value final defaulted].
  rewrite A, B, C. cbn [no_variables value final]. rewrite orb_false_r. cbn [orb]. destruct (first_value cli k) as [w|] eqn:Eg; cbn [or_else].
  - repeat split. intros Q1. discriminate.
  - repeat split. intros _ Hn. destruct (default_value os k); [reflexivity|contradiction].
Qed.
Lemma holds_snoc_empty os given vm v : holds os (given ++ [([], v)]) vm -> holds os given vm.
Proof.
  intros H k Hk. destruct (H k Hk) as (A & B & C). rewrite in_parsed_ok in *. rewrite !first_value_app in *. cbn [first_value] in *.
  destruct (list_eq_dec ascii_dec [] k) as [<-|_]; [contradiction|]. destruct (first_value given k); cbn [or_else] in *; auto.
Qed.

(** ** reading a response file *)
Lemma parse_app os a b : parse_arguments os (a ++ b) =
  match parse_arguments os a, parse_arguments os b with Some x, Some y => Some (x ++ y) | _, _ => None end.
Proof.
  induction a as [|x a IH]; cbn [app parse_arguments]; [destruct (parse_arguments os b); reflexivity|].
  rewrite IH. destruct (parse_argument os x); [|reflexivity]. destruct (parse_arguments os a), (parse_arguments os b); reflexivity.
Qed.
Lemma in_parsed_app a b k : in_parsed (a ++ b) k = (in_parsed a k || in_parsed b k)%bool.
Proof. unfold in_parsed. apply existsb_app. Qed.
(** one iteration *)
Lemma response_iteration os cli args ps line p vm : parse_arguments os args = Some ps -> parse_argument os line = Some p ->
  holds os (cli ++ ps) vm ->
  exists vm', parse_arguments os (args ++ [line]) = Some (ps ++ [p]) /\ store os (ps ++ [p]) vm = Some vm' /\ holds os (cli ++ (ps ++ [p])) vm'.
Proof.
  intros H1 H2 H. destruct p as [k v]. destruct (store_one os (cli ++ ps) vm ps k v H) as (vm' & E1 & E2).
  - apply Forall_forall. intros [q w] Hq. right. cbn [fst]. rewrite in_parsed_app. apply orb_true_iff. right. unfold in_parsed. apply existsb_exists. exists (q, w). split; [exact Hq|apply path_eqb_refl].
  - exists vm'. split; [|split; [exact E1|rewrite app_assoc; exact E2]]. rewrite parse_app, H1. cbn [parse_arguments]. rewrite H2. reflexivity.
Qed.
Lemma response_lines os cli : forall complete last args ps qs q vm buf fuel, lines_ok complete last ->
  parse_arguments os args = Some ps -> parse_arguments os complete = Some qs -> parse_argument os last = Some q ->
  holds os (cli ++ ps) vm -> (S (length complete) <= fuel)%nat ->
  exists vm', response_loop fuel os (open_text (file complete last)) buf args vm = Some (Some vm') /\ holds os (cli ++ ps ++ qs ++ [q]) vm'.
Proof.
  induction complete as [|l complete IH]; intros last args ps qs q vm buf fuel [L1 L2] H1 H2 H3 H Hf; (destruct fuel as [|fuel]; [cbn in Hf; lia|]); cbn [response_loop].
  - cbn in H2. injection H2 as <-. rewrite getline_tail by exact L2. destruct (response_iteration os cli args ps last q vm H1 H3 H) as (vm' & E0 & E1 & E). rewrite E0. cbv iota beta. rewrite E1. exists vm'. split; [reflexivity|exact E].
  - cbn [parse_arguments] in H2. destruct (parse_argument os l) as [p|] eqn:El; [|discriminate]. destruct (parse_arguments os complete) as [qs'|] eqn:Ec; [|discriminate]. injection H2 as <-.
    rewrite getline_line by exact (Forall_inv L1). destruct (response_iteration os cli args ps l p vm H1 El H) as (vm' & E1 & E0 & E2). rewrite E1. cbv iota beta. rewrite E0. cbn [open_text eofbit]. change (mkI (file complete last) false false) with (open_text (file complete last)).
    destruct (IH last (args ++ [l]) (ps ++ [p]) qs' q vm' l fuel) as (vm'' & E3 & E4); [split; [exact (Forall_inv_tail L1)|exact L2]|exact E1|reflexivity|exact H3|exact E2|cbn in Hf; lia|].
    exists vm''. split; [exact E3|]. rewrite <- app_assoc in E4. exact E4.
Qed.
(** a line that is not accepted *)
Lemma response_bad os cli : forall complete last args ps vm buf fuel, lines_ok complete last ->
  parse_arguments os args = Some ps -> holds os (cli ++ ps) vm -> (exists line, In line (complete ++ [last]) /\ parse_argument os line = None) ->
  (S (length complete) <= fuel)%nat -> response_loop fuel os (open_text (file complete last)) buf args vm = Some None.
Proof.
  induction complete as [|l complete IH]; intros last args ps vm buf fuel [L1 L2] H1 H (line & Hin & Hb) Hf; (destruct fuel as [|fuel]; [cbn in Hf; lia|]); cbn [response_loop].
  - destruct Hin as [->|[]]. rewrite getline_tail by exact L2. rewrite parse_app, H1. cbn [parse_arguments]. rewrite Hb. reflexivity.
  - rewrite getline_line by exact (Forall_inv L1). destruct (parse_argument os l) as [p|] eqn:El.
    + destruct (response_iteration os cli args ps l p vm H1 El H) as (vm' & E1 & E0 & E2). rewrite E1. cbv iota beta. rewrite E0. cbn [open_text eofbit]. change (mkI (file complete last) false false) with (open_text (file complete last)).
      apply (IH last (args ++ [l]) (ps ++ [p]) vm' l fuel); [split; [exact (Forall_inv_tail L1)|exact L2]|exact E1|exact E2| |cbn in Hf; lia].
      destruct Hin as [->|Hin]; [congruence|]. exists line. split; assumption.
    + rewrite parse_app, H1. cbn [parse_arguments]. rewrite El. reflexivity.
Qed.
(** a file that cannot be opened *)
Lemma response_unopened os cli : forall fuel args ps vm, parse_arguments os args = Some ps -> Forall (fun p => fst p = []) ps -> holds os cli vm ->
  response_loop fuel os (mkI [] false true) [] args vm = None.
Proof.
  induction fuel as [|n IH]; intros args ps vm H1 H2 H; [reflexivity|]. cbn [response_loop]. unfold getline. cbn [eofbit failbit rest orb].
  assert (EP : parse_arguments os (args ++ [[]]) = Some (ps ++ [([], [])])) by (rewrite parse_app, H1; reflexivity).
  match goal with |- match ?X with _ => _ end = None => change X with (parse_arguments os (args ++ [[]])) end. rewrite EP. cbv iota beta.
  destruct (store_one os cli vm ps [] [] H) as (vm' & E1 & E2); [eapply Forall_impl; [|exact H2]; cbv beta; auto|].
  match goal with |- match ?X with _ => _ end = None => replace X with (Some vm') by (symmetry; exact E1) end. cbn [eofbit].
  apply (IH _ (ps ++ [([], [])]) vm'); [exact EP|apply Forall_app; split; [exact H2|constructor; [reflexivity|constructor]]|]. eapply holds_snoc_empty, E2.
Qed.
(** the lines of a written response file *)
Definition option_line (o : text * text) : text := str "--" ++ fst o ++ str "=" ++ snd o.
Lemma split_at_app x a b : ~ In x a -> split_at x (a ++ x :: b) = Some (a, b).
Proof.
  intros H. induction a as [|c a IH]; cbn [app split_at]; [rewrite Ascii.eqb_refl; reflexivity|].
  destruct (Ascii.eqb c x) eqn:E; [apply Ascii.eqb_eq in E; subst; exfalso; apply H; left; reflexivity|]. rewrite IH; [reflexivity|]. intros Q. apply H. right. exact Q.
Qed.
Lemma parse_option_line os k v : known os k = true -> ~ In "="%char k -> v <> [] -> parse_argument os (option_line (k, v)) = Some (k, v).
Proof.
  intros Hk He Hv. unfold option_line. cbn [fst snd str list_ascii_of_string app]. cbn [parse_argument]. cbn [Ascii.eqb Bool.eqb]. rewrite split_at_app by exact He. rewrite Hk. destruct v; [contradiction|reflexivity].
Qed.
