(** PROPERTIES C73-C76: program options, response files, the header and the paths of a run. *)
From Coq Require Import Ascii String.
From Verif Require Import Base M_Text Spec_Text Spec_LatticeReal Pf_Text P_Text M_Io Pf_Io P_Io P_Checkpoint M_Cli Pf_Cli.
Local Open Scope list_scope.

(** a command line as the parser delivers it: no key twice, no positional arguments *)
Definition well_formed (cli : parsed) : Prop := NoDup (map fst cli) /\ Forall (fun p => fst p <> []) cli.
(** what a line of a response file gives: --key=value an option, a line not beginning with - nothing *)
Definition line_gives (os : options) (line : text) (p : text * text) : Prop :=
  (exists k v, line = str "--" ++ k ++ str "=" ++ v /\ In k (map fst os) /\ ~ In "="%char k /\ v <> [] /\ p = (k, v)) \/
  ((forall r, line <> "-"%char :: r) /\ p = ([], line)).
(** [first_value ps k] is the value of the first occurrence of k in ps, [default_value os k] the
    declared default *)
Definition chosen (os : options) (cli response : parsed) (k : text) : option text :=
  match first_value cli k with
  | Some v => Some v
  | None => match first_value response k with
            | Some v => Some v
            | None => default_value os k
            end
  end.

Lemma known_ok os k : In k (map fst os) -> known os k = true.
Proof. intros H. apply in_map_iff in H as ([k' d] & E & H). cbn in E. subst. unfold known. apply existsb_exists. exists (k, d). split; [exact H|apply path_eqb_refl]. Qed.
Lemma line_gives_parse os line p : line_gives os line p -> parse_argument os line = Some p.
Proof.
  intros [(k & v & -> & Hk & He & Hv & ->)|[H ->]].
  - apply parse_option_line; [apply known_ok, Hk|exact He|exact Hv].
  - destruct line as [|c line]; [reflexivity|]. cbn [parse_argument]. destruct (Ascii.eqb c "-"%char) eqn:E; [apply Ascii.eqb_eq in E; subst; exfalso; exact (H line eq_refl)|reflexivity].
Qed.
Lemma lines_give_parse os lines ps : Forall2 (line_gives os) lines ps -> parse_arguments os lines = Some ps.
Proof. induction 1 as [|l p ls ps H1 H2 IH]; [reflexivity|]. cbn [parse_arguments]. rewrite (line_gives_parse os l p H1), IH. reflexivity. Qed.

(** ** C73 *)
(** Without a response file every option has the value given on the command line, else its
    default. *)
Theorem C73_command_line_then_default : forall os cli f infos fuel, well_formed cli ->
  chosen os cli [] (str "response_file") = None -> chosen os cli [] (str "out") <> None ->
  exists vm P f' h, run_application fuel os cli f infos = Some (Some (vm, P, f', h)) /\
    forall k, k <> [] -> value vm k = chosen os cli [] k.
Proof.
  intros os cli f infos fuel [H1 H2] Hr Ho. unfold run_application. destruct (store_first os cli H1 H2) as (vm & -> & H).
  assert (C : forall k, k <> [] -> value vm k = chosen os cli [] k). { intros k Hk. destruct (H k Hk) as (A & _). rewrite A. unfold chosen, or_else. cbn. destruct (first_value cli k); reflexivity. }
  rewrite !C by discriminate. rewrite Hr. destruct (chosen os cli [] (str "out")) as [out|]; [|contradiction]. do 4 eexists. split; [reflexivity|exact C].
Qed.
(** With a response file the command line comes first, then the first line of the file that gives
    the option, then the default. *)
Theorem C73_precedence : forall os cli f infos rp contents complete last ps, well_formed cli ->
  chosen os cli [] (str "response_file") = Some rp -> chosen os cli [] (str "out") <> None ->
  f rp = Some contents -> contents = file complete last -> lines_ok complete last -> Forall2 (line_gives os) (complete ++ [last]) ps ->
  exists vm P f' h, terminates_with (fun fuel => run_application fuel os cli f infos) (Some (vm, P, f', h)) /\
    forall k, k <> [] -> value vm k = chosen os cli ps k.
Proof.
  intros os cli f infos rp contents complete last ps [H1 H2] Hr Ho Hf -> HL HF. destruct (store_first os cli H1 H2) as (vm & Es & H).
  assert (C : forall k, k <> [] -> value vm k = chosen os cli [] k). { intros k Hk. destruct (H k Hk) as (A & _). rewrite A. unfold chosen, or_else. cbn. destruct (first_value cli k); reflexivity. }
  destruct (chosen os cli [] (str "out")) as [out|] eqn:Eo; [|contradiction].
  apply Forall2_app_inv_l in HF as (qs & q1 & F1 & F2 & ->). inversion F2 as [|? q ? ? F3 F4]; subst. inversion F4; subst.
  assert (R : exists vm', holds os (cli ++ qs ++ [q]) vm' /\ forall fuel, (S (length complete) <= fuel)%nat -> response_loop fuel os (open_text (file complete last)) [] [] vm = Some (Some vm')).
  { destruct (response_lines os cli complete last [] [] qs q vm [] (S (length complete)) HL eq_refl (lines_give_parse os _ _ F1) (line_gives_parse os _ _ F3)) as (vm' & E1 & E2); [rewrite app_nil_r; exact H|lia|].
    exists vm'. split; [exact E2|]. intros fuel Hfuel. revert E1 Hfuel. generalize (S (length complete)) as n, (open_text (file complete last)) as s, (@nil ascii) as b, (@nil text) as a. clear.
    intros n. revert vm fuel. induction n as [|n IH]; intros vm fuel s b a E Hf; [discriminate|]. destruct fuel as [|fuel]; [lia|]. cbn [response_loop] in *.
    destruct (getline s b) as [s' b']. destruct (parse_arguments os (a ++ [b'])) as [x|]; [|exact E]. destruct (store os x vm) as [v'|]; [|exact E]. destruct (eofbit s'); [exact E|]. apply IH; [exact E|lia]. }
  destruct R as (vm' & E2 & R). exists vm', (paths_of out), (set_file f out (Some [])), (app_header infos (all_options os cli)). split.
  - exists (S (length complete)). intros fuel Hfuel. unfold run_application. rewrite Es, !C by discriminate. rewrite Eo, Hr. unfold read_response_file, open_file. rewrite Hf. rewrite R by exact Hfuel. reflexivity.
  - intros k Hk. destruct (E2 k Hk) as (A & _). rewrite A, first_value_app. unfold chosen, or_else. destruct (first_value cli k); [reflexivity|]. destruct (first_value (qs ++ [q]) k); reflexivity.
Qed.
(** An option given twice on the command line is an error. *)
Theorem C73_given_twice : forall os cli1 k v cli2 v' cli3 f infos fuel, k <> [] ->
  run_application fuel os (cli1 ++ (k, v) :: cli2 ++ (k, v') :: cli3) f infos = Some None.
Proof.
  intros os cli1 k v cli2 v' cli3 f infos fuel Hk. unfold run_application, store.
  assert (A : forall ps vm nf, value vm k <> None -> defaulted vm k = false -> final vm k = false -> store_given (ps ++ (k, v') :: cli3) vm nf = None).
  { induction ps as [|[q w] ps IH]; intros vm nf V1 V2 V3; cbn [app store_given].
    - destruct (is_empty k) eqn:E; [destruct k; [contradiction|discriminate]|]. rewrite V3, V2. destruct (value vm k); [reflexivity|contradiction].
    - destruct (is_empty q); [apply IH; assumption|]. destruct (final vm q); [apply IH; assumption|].
      assert (B : store_given (ps ++ (k, v') :: cli3) (mkV (upd_text (value vm) q (Some w)) (upd_text (defaulted vm) q false) (final vm)) (upd_text nf q true) = None).
      { apply IH; cbn [value defaulted final]; [| |exact V3]; (destruct (list_eq_dec ascii_dec k q) as [->|N]; [rewrite upd_same|rewrite upd_other by exact N]); congruence. }
      destruct (value vm q) as [x|]; [destruct (defaulted vm q); [exact B|reflexivity]|exact B]. }
  assert (D : forall ps vm nf, final vm k = false -> store_given (ps ++ (k, v) :: cli2 ++ (k, v') :: cli3) vm nf = None).
  { induction ps as [|[q w] ps IH]; intros vm nf V3; cbn [app store_given].
    - destruct (is_empty k) eqn:E; [destruct k; [contradiction|discriminate]|]. rewrite V3.
      assert (B : store_given (cli2 ++ (k, v') :: cli3) (mkV (upd_text (value vm) k (Some v)) (upd_text (defaulted vm) k false) (final vm)) (upd_text nf k true) = None).
      { apply A; cbn [value defaulted final]; [rewrite upd_same; discriminate|apply upd_same|exact V3]. }
      destruct (value vm k) as [x|]; [destruct (defaulted vm k); [exact B|reflexivity]|exact B].
    - destruct (is_empty q); [apply IH; assumption|]. destruct (final vm q); [apply IH; assumption|].
      assert (B : store_given (ps ++ (k, v) :: cli2 ++ (k, v') :: cli3) (mkV (upd_text (value vm) q (Some w)) (upd_text (defaulted vm) q false) (final vm)) (upd_text nf q true) = None) by (apply IH; exact V3).
      destruct (value vm q) as [x|]; [destruct (defaulted vm q); [exact B|reflexivity]|exact B]. }
  rewrite D by reflexivity. reflexivity.
Qed.
(** (defect) If the response file does not exist, the program never gets beyond reading it. *)
Theorem C73_missing_response_file_refuted : forall os cli f infos rp, well_formed cli ->
  chosen os cli [] (str "response_file") = Some rp -> chosen os cli [] (str "out") <> None -> f rp = None ->
  forall fuel, run_application fuel os cli f infos = None.
Proof.
  intros os cli f infos rp [H1 H2] Hr Ho Hf fuel. unfold run_application. destruct (store_first os cli H1 H2) as (vm & -> & H).
  assert (C : forall k, k <> [] -> value vm k = chosen os cli [] k). { intros k Hk. destruct (H k Hk) as (A & _). rewrite A. unfold chosen, or_else. cbn. destruct (first_value cli k); reflexivity. }
  rewrite !C by discriminate. rewrite Hr. destruct (chosen os cli [] (str "out")) as [out|]; [|contradiction]. unfold read_response_file, open_file. rewrite Hf.
  rewrite (response_unopened os cli fuel [] [] vm eq_refl ltac:(constructor) H). reflexivity.
Qed.

(** A line --key=value of the response file with an empty value or with a key no option begins with
    (boost completes abbreviated keys) makes the program fail at start-up, wherever it stands. *)
Definition bad_line (os : options) (line : text) : Prop :=
  exists k v, line = str "--" ++ k ++ str "=" ++ v /\ ~ In "="%char k /\ (v = [] \/ forall k' t, In k' (map fst os) -> k' <> k ++ t).
Theorem C73_bad_line : forall os cli f infos rp complete last line, well_formed cli ->
  chosen os cli [] (str "response_file") = Some rp -> chosen os cli [] (str "out") <> None ->
  f rp = Some (file complete last) -> lines_ok complete last -> In line (complete ++ [last]) -> bad_line os line ->
  terminates_with (fun fuel => run_application fuel os cli f infos) None.
Proof.
  intros os cli f infos rp complete last line [H1 H2] Hr Ho Hf HL Hin (k & v & El & He & Hb). destruct (store_first os cli H1 H2) as (vm & Es & H).
  assert (C : forall k, k <> [] -> value vm k = chosen os cli [] k). { intros k0 Hk. destruct (H k0 Hk) as (A & _). rewrite A. unfold chosen, or_else. cbn. destruct (first_value cli k0); reflexivity. }
  destruct (chosen os cli [] (str "out")) as [out|] eqn:Eo; [|contradiction].
  assert (B : parse_argument os line = None).
  { subst line. cbn [str list_ascii_of_string app]. cbn [parse_argument]. cbn [Ascii.eqb Bool.eqb]. rewrite split_at_app by exact He.
    destruct Hb as [->|Hb]; [cbn [is_empty negb]; rewrite andb_false_r; reflexivity|]. replace (known os k) with false; [reflexivity|]. symmetry. unfold known.
    destruct (existsb _ os) eqn:E; [|reflexivity]. apply existsb_exists in E as ([k' d] & Hk & E). cbn [fst] in E. unfold path_eqb in E. destruct (list_eq_dec ascii_dec k' k) as [->|]; [|discriminate].
    exfalso. apply (Hb k []); [apply (in_map fst) in Hk; exact Hk|rewrite app_nil_r; reflexivity]. }
  exists (S (length complete)). intros fuel Hfuel. unfold run_application. rewrite Es, !C by discriminate. rewrite Eo, Hr. unfold read_response_file, open_file. rewrite Hf.
  rewrite (response_bad os cli complete last [] [] vm [] fuel HL eq_refl); [reflexivity|rewrite app_nil_r; exact H|exists line; split; assumption|exact Hfuel].
Qed.
Example C73_bad_line_example : bad_line [(str "dt", None); (str "out", Some (str "out.txt"))] (str "--dtt=1") /\ bad_line [(str "dt", None)] (str "--dt=").
Proof.
  split; [exists (str "dtt"), (str "1")|exists (str "dt"), []]; (split; [reflexivity|]); (split; [intros Q; cbn in Q; repeat destruct Q as [Q|Q]; discriminate || contradiction|]); [right|left; reflexivity].
  intros k' t [<-|[<-|[]]]; discriminate.
Qed.

(** ** C74: the response file of a run *)
(** options that can be written to and read from a line *)
Definition line_safe (os : options) : Prop :=
  Forall (fun o => fst o <> [] /\ ~ In "="%char (fst o) /\ no_newline (fst o) /\ match snd o with Some d => clean_text d /\ d <> [] | None => True end) os.
Definition safe_cli (os : options) (cli : parsed) : Prop :=
  Forall (fun p => In (fst p) (map fst os) /\ no_newline (snd p) /\ snd p <> []) cli.
Lemma plain_ok d : clean_text d -> plain d = true.
Proof. intros [H1 H2]. unfold plain. apply forallb_forall. intros c Hc. apply class_dot_ok. split; intros ->; contradiction. Qed.
Lemma all_options_first os cli : line_safe os -> forall k,
  first_value (all_options os cli) k = or_else (first_value cli k) (default_value os k).
Proof.
  intros Hs k. unfold all_options. rewrite first_value_app. destruct (first_value cli k) as [v|] eqn:E; [reflexivity|]. cbn [or_else].
  assert (P : in_parsed cli k = false) by (rewrite in_parsed_ok, E; reflexivity). clear E.
  induction Hs as [|[k' [d|]] os Ho Hs IH]; [reflexivity| |exact IH]. cbn [flat_map default_value]. rewrite first_value_app. cbn [fst snd] in Ho. destruct Ho as (_ & _ & _ & Hd & Hd').
  destruct (list_eq_dec ascii_dec k' k) as [->|N].
  - rewrite P. rewrite (plain_ok d Hd). destruct d; [contradiction|]. cbn [is_empty negb andb first_value]. destruct (list_eq_dec ascii_dec k k); [reflexivity|contradiction].
  - destruct (in_parsed cli k'); [exact IH|]. destruct (negb (is_empty d) && plain d)%bool; [|exact IH]. cbn [first_value]. destruct (list_eq_dec ascii_dec k' k); [contradiction|exact IH].
Qed.
Lemma response_text_file all : response_text all = file (map option_line all) [].
Proof.
  unfold response_text, file. rewrite app_nil_r. induction all as [|o all IH]; [reflexivity|]. cbn [flat_map map]. rewrite IH. f_equal. unfold option_line, newline. rewrite <- !app_assoc. reflexivity.
Qed.
Lemma all_options_safe os cli : line_safe os -> safe_cli os cli ->
  Forall (fun p => In (fst p) (map fst os) /\ no_newline (snd p) /\ snd p <> []) (all_options os cli).
Proof.
  intros Hs Hc. unfold all_options. apply Forall_app. split; [exact Hc|]. apply Forall_flat_map. apply Forall_forall. intros [k [d|]] Hin; [|constructor].
  unfold line_safe in Hs. rewrite Forall_forall in Hs. pose proof (Hs _ Hin) as (_ & _ & _ & Hd & Hd'). cbn [fst snd] in *.
  destruct (in_parsed cli k); [constructor|]. destruct (negb (is_empty d) && plain d)%bool; [|constructor]. constructor; [|constructor]. cbn [fst snd]. split; [apply in_map_iff; exists (k, Some d); split; [reflexivity|exact Hin]|]. split; [apply Hd|exact Hd'].
Qed.
(** A run without response file writes its options to the response path (C76); a second run that is
    given only this file has the same value for every option other than response_file. *)
Theorem C74_rerun_has_the_same_values : forall os cli f infos, well_formed cli -> line_safe os -> safe_cli os cli ->
  In (str "response_file") (map fst os) ->
  chosen os cli [] (str "response_file") = None -> forall out, chosen os cli [] (str "out") = Some out -> default_value os (str "out") <> None ->
  response_path (paths_of out) <> out -> forall fuel0 infos',
  exists vm P f' h, run_application fuel0 os cli f infos = Some (Some (vm, P, f', h)) /\
  exists vm2 P2 f2 h2, terminates_with (fun fuel => run_application fuel os [(str "response_file", response_path P)] f' infos') (Some (vm2, P2, f2, h2)) /\
    forall k, k <> [] -> k <> str "response_file" -> value vm2 k = value vm k.
Proof.
  intros os cli f infos [H1 H2] Hs Hc Hrf Hr out Ho Hdo Hne fuel0 infos'.
  destruct (C73_command_line_then_default os cli f infos fuel0 (conj H1 H2) Hr) as (vm & P & f' & h & E & V); [rewrite Ho; discriminate|].
  exists vm, P, f', h. split; [exact E|].
  assert (EP : P = paths_of out /\ f' (response_path P) = Some (response_text (all_options os cli))).
  { unfold run_application in E. destruct (store_first os cli H1 H2) as (vm0 & Es & H). rewrite Es in E.
    assert (C : forall k, k <> [] -> value vm0 k = chosen os cli [] k). { intros k Hk. destruct (H k Hk) as (A & _). rewrite A. unfold chosen, or_else. cbn. destruct (first_value cli k); reflexivity. }
    rewrite !C in E by discriminate. rewrite Hr, Ho in E. injection E as E1 E2 E3 E4. split; [symmetry; exact E2|]. rewrite <- E3, <- E2. rewrite set_other by exact Hne. apply set_same. }
  destruct EP as [-> Ef].
  pose proof (all_options_safe os cli Hs Hc) as Ha.
  assert (G : Forall2 (line_gives os) (map option_line (all_options os cli) ++ [[]]) (all_options os cli ++ [([], [])])).
  { apply Forall2_app; [|constructor; [right; split; [discriminate|reflexivity]|constructor]].
    clear -Ha Hs. induction Ha as [|[k v] all (Q1 & Q2 & Q3) Ha IH]; [constructor|]. cbn [map]. constructor; [|exact IH]. left. exists k, v. cbn [fst snd] in *. split; [reflexivity|]. split; [exact Q1|]. split; [|split; [exact Q3|reflexivity]].
    apply in_map_iff in Q1 as ([k' d] & <- & Q1). unfold line_safe in Hs. rewrite Forall_forall in Hs. apply (Hs _ Q1). }
  assert (L : lines_ok (map option_line (all_options os cli)) []).
  { split; [|intros []]. clear -Ha Hs. induction Ha as [|[k v] all (Q1 & Q2 & Q3) Ha IH]; [constructor|]. cbn [map]. constructor.
    - cbn [fst snd] in *. apply in_map_iff in Q1 as ([k' d] & <- & Q1). unfold line_safe in Hs. rewrite Forall_forall in Hs. destruct (Hs _ Q1) as (_ & _ & Hn & _). cbn [fst] in *.
      unfold option_line. cbn [fst snd str list_ascii_of_string app]. intros Q. destruct Q as [Q|[Q|Q]]; [discriminate|discriminate|]. apply in_app_or in Q as [Q|[Q|Q]]; [exact (Hn Q)|discriminate|exact (Q2 Q)].
    - exact IH. }
  assert (W : well_formed [(str "response_file", response_path (paths_of out))]) by (split; [constructor; [intros []|constructor]|constructor; [discriminate|constructor]]).
  assert (R1 : chosen os [(str "response_file", response_path (paths_of out))] [] (str "response_file") = Some (response_path (paths_of out))).
  { unfold chosen. cbn [first_value]. destruct (list_eq_dec ascii_dec (str "response_file") (str "response_file")); [reflexivity|contradiction]. }
  assert (R2 : chosen os [(str "response_file", response_path (paths_of out))] [] (str "out") <> None).
  { unfold chosen. cbn [first_value]. destruct (list_eq_dec ascii_dec (str "response_file") (str "out")) as [Q|_]; [discriminate|exact Hdo]. }
  destruct (C73_precedence os _ f' infos' _ _ _ _ _ W R1 R2 Ef (response_text_file _) L G) as (vm2 & P2 & f2 & h2 & T & V2).
  exists vm2, P2, f2, h2. split; [exact T|]. intros k Hk Hk2. rewrite V2, V by exact Hk. unfold chosen at 1. cbn [first_value]. destruct (list_eq_dec ascii_dec (str "response_file") k) as [<-|_]; [contradiction|].
    rewrite first_value_app, all_options_first by exact Hs. cbn [first_value]. destruct (list_eq_dec ascii_dec [] k) as [<-|_]; [contradiction|].
    unfold chosen. cbn [first_value]. unfold or_else. destruct (first_value cli k); [reflexivity|]. destruct (default_value os k) eqn:Ed; [reflexivity|reflexivity].
Qed.
(** (defect) The output file of a run with a response file is the one of the command line or the
    default; the line --out=... of the response file has no effect on it. *)
Theorem C74_out_of_response_file_ignored_refuted : forall os cli f infos rp fuel vm P f' h, well_formed cli ->
  chosen os cli [] (str "response_file") = Some rp ->
  run_application fuel os cli f infos = Some (Some (vm, P, f', h)) ->
  Some (output_path P) = chosen os cli [] (str "out") /\ f' (output_path P) = Some [].
Proof.
  intros os cli f infos rp fuel vm P f' h [H1 H2] Hr E. unfold run_application in E. destruct (store_first os cli H1 H2) as (vm0 & Es & H). rewrite Es in E.
  assert (C : forall k, k <> [] -> value vm0 k = chosen os cli [] k). { intros k Hk. destruct (H k Hk) as (A & _). rewrite A. unfold chosen, or_else. cbn. destruct (first_value cli k); reflexivity. }
  rewrite !C in E by discriminate. rewrite Hr in E. destruct (chosen os cli [] (str "out")) as [out|]; [|discriminate].
  destruct (read_response_file fuel f rp os vm0) as [[v|]|]; try discriminate. injection E as E1 E2 E3 E4. subst P f'. split; [reflexivity|apply set_same].
Qed.

(** ** C75: the header of the output file *)
Lemma app_header_file infos all : app_header infos all =
  file (map (fun li => fst li ++ ascii_of_nat 9 :: snd li) (combine info_labels infos) ++ str "#" :: str "# CLI options:" ::
        map (fun o => "#"%char :: ascii_of_nat 9 :: fst o ++ str " = " ++ snd o) all) [].
Proof.
  unfold app_header. rewrite file_app. f_equal.
  - unfold file. rewrite app_nil_r. induction (combine info_labels infos) as [|[l i] x IH]; [reflexivity|]. cbn [flat_map map fst snd]. rewrite IH. unfold tab, newline. repeat rewrite <- app_assoc. cbn [app]. repeat rewrite <- app_assoc. reflexivity.
  - rewrite !file_cons. unfold newline. cbn [app str list_ascii_of_string]. do 17 f_equal. unfold file. rewrite app_nil_r.
    induction all as [|[k v] all IH]; [reflexivity|]. cbn [flat_map map fst snd]. rewrite IH. unfold tab. cbn [app]. repeat rewrite <- app_assoc. cbn [app]. repeat rewrite <- app_assoc. reflexivity.
Qed.
(** Every line of the header is a comment if no text contains a line end, so that readers find the
    first row of data. *)
Theorem C75_header_lines_are_comments : forall infos all, Forall clean_text infos -> Forall (fun o => clean_text (fst o) /\ clean_text (snd o)) all ->
  exists lines, app_header infos all = file lines [] /\ Forall no_newline lines /\ Forall blank_or_comment lines.
Proof.
  intros infos all Hi Ha. eexists. split; [apply app_header_file|]. set (lines := _ ++ _).
  assert (G : Forall (fun l => exists u, l = "#"%char :: u /\ clean_text u) lines).
  { unfold lines. apply Forall_app. split.
    - apply Forall_forall. intros l Hl. apply in_map_iff in Hl as ([lab i] & <- & Hin). cbn [fst snd].
      pose proof (in_combine_l _ _ _ _ Hin) as Hlab. pose proof (in_combine_r _ _ _ _ Hin) as Hii. rewrite Forall_forall in Hi. specialize (Hi i Hii).
      assert (Q : exists u, lab = "#"%char :: u /\ clean_text u).
      { clear -Hlab. unfold info_labels in Hlab. cbn [map In] in Hlab. repeat (destruct Hlab as [<-|Hlab]; [eexists; split; [reflexivity|split; cbn; intros Q; repeat destruct Q as [Q|Q]; discriminate || contradiction]|]). contradiction. }
      destruct Q as (u & -> & Hu). eexists. split; [reflexivity|]. change (ascii_of_nat 9 :: i) with ([ascii_of_nat 9] ++ i). rewrite !clean_app. split; [exact Hu|]. split; [apply clean_lit; discriminate|exact Hi].
    - constructor; [exists []; split; [reflexivity|split; intros []]|]. constructor; [eexists; split; [reflexivity|split; cbn; intros Q; repeat destruct Q as [Q|Q]; discriminate || contradiction]|].
      apply Forall_forall. intros l Hl. apply in_map_iff in Hl as ([k v] & <- & Hin). rewrite Forall_forall in Ha. destruct (Ha _ Hin) as [Hk Hv]. cbn [fst snd] in *. eexists. split; [reflexivity|].
      change (clean_text ([ascii_of_nat 9] ++ k ++ str " = " ++ v)). rewrite !clean_app. repeat split; try apply Hk; try apply Hv; try (apply clean_lit; discriminate); cbn; intros Q; repeat destruct Q as [Q|Q]; discriminate || contradiction. }
  split; (eapply Forall_impl; [|exact G]); intros l (u & -> & [Hu1 Hu2]).
  - intros [Q|Q]; [discriminate|contradiction].
  - apply comment_line. split; assumption.
Qed.
(** The options listed in the header are the values used, in a run without response file; *)
Theorem C75_header_lists_used_values : forall os cli f infos fuel vm P f' h, well_formed cli -> line_safe os ->
  chosen os cli [] (str "response_file") = None -> run_application fuel os cli f infos = Some (Some (vm, P, f', h)) ->
  h = app_header infos (all_options os cli) /\
  (forall k v, In (k, v) cli -> k <> [] -> value vm k = Some v) /\
  (forall k, k <> [] -> value vm k = first_value (all_options os cli) k).
Proof.
  intros os cli f infos fuel vm P f' h [H1 H2] Hs Hr E. unfold run_application in E. destruct (store_first os cli H1 H2) as (vm0 & Es & H). rewrite Es in E.
  assert (C : forall k, k <> [] -> value vm0 k = chosen os cli [] k). { intros k Hk. destruct (H k Hk) as (A & _). rewrite A. unfold chosen, or_else. cbn. destruct (first_value cli k); reflexivity. }
  rewrite !C in E by discriminate. rewrite Hr in E. destruct (chosen os cli [] (str "out")) as [out|]; [|discriminate]. injection E as E1 E2 E3 E4. subst vm0 h. split; [reflexivity|]. split.
  - intros k v Hin Hk. rewrite C by exact Hk. unfold chosen. assert (Q : first_value cli k = Some v); [|rewrite Q; reflexivity].
    clear -H1 Hin. induction cli as [|[k' v'] cli IH]; [contradiction|]. cbn [first_value map fst] in *. inversion H1; subst. destruct (list_eq_dec ascii_dec k' k) as [->|N].
    + destruct Hin as [Q|Hin]; [congruence|]. exfalso. apply H2. apply in_map_iff. exists (k, v). auto.
    + destruct Hin as [Q|Hin]; [congruence|]. apply IH; assumption.
  - intros k Hk. rewrite C by exact Hk. rewrite all_options_first by exact Hs. unfold chosen, or_else. cbn. destruct (first_value cli k); reflexivity.
Qed.
(** (defect) with a response file they are not: an option set by the file is listed with its
    default. *)
Theorem C75_header_lists_defaults_refuted : forall os cli f infos rp complete last ps k d v, well_formed cli -> line_safe os ->
  chosen os cli [] (str "response_file") = Some rp -> chosen os cli [] (str "out") <> None ->
  f rp = Some (file complete last) -> lines_ok complete last -> Forall2 (line_gives os) (complete ++ [last]) ps ->
  k <> [] -> first_value cli k = None -> default_value os k = Some d -> first_value ps k = Some v ->
  exists vm P f' h, terminates_with (fun fuel => run_application fuel os cli f infos) (Some (vm, P, f', h)) /\
    value vm k = Some v /\ exists all, h = app_header infos all /\ first_value all k = Some d.
Proof.
  intros os cli f infos rp complete last ps k d v Hw Hs Hr Ho Hf HL HF Hk H1 H2 H3.
  destruct (C73_precedence os cli f infos rp _ complete last ps Hw Hr Ho Hf eq_refl HL HF) as (vm & P & f' & h & T & V). exists vm, P, f', h. split; [exact T|]. split.
  - rewrite V by exact Hk. unfold chosen. rewrite H1, H3. reflexivity.
  - exists (all_options os cli). split; [|rewrite all_options_first by exact Hs; rewrite H1; exact H2].
    destruct T as (n & T). specialize (T n (le_n n)). cbv beta in T. unfold run_application in T. destruct (store os cli no_variables); [|discriminate]. destruct (value _ (str "out")); [|discriminate].
    destruct (value _ (str "response_file")); [destruct (read_response_file n f _ os _) as [[x|]|]; try discriminate|]; injection T as _ _ _ <-; reflexivity.
Qed.

(** ** C76: the paths of a run *)
Lemma ext_rev_ok r : forall acc stem ext, ext_rev r acc = Some (stem, ext) -> Forall (fun c => c <> "."%char /\ c <> "/"%char) acc ->
  rev r ++ acc = stem ++ ext /\ exists e, ext = "."%char :: e /\ Forall (fun c => c <> "."%char /\ c <> "/"%char) e.
Proof.
  induction r as [|c r IH]; intros acc stem ext E Hacc; [discriminate|]. cbn [ext_rev] in E. destruct (Ascii.eqb c "/"%char) eqn:E1; [discriminate|]. destruct (Ascii.eqb c "."%char) eqn:E2.
  - injection E as <- <-. apply Ascii.eqb_eq in E2. subst c. split; [cbn [rev]; rewrite <- app_assoc; reflexivity|]. exists acc. auto.
  - apply Ascii.eqb_neq in E1, E2. destruct (IH (c :: acc) stem ext E) as [A B]; [constructor; auto|]. split; [|exact B]. cbn [rev]. rewrite <- app_assoc. exact A.
Qed.
(** The other paths are the output path with its extension (a dot and characters other than dot and
    slash, at the end) replaced. *)
Theorem C76_paths : forall out, exists stem ext, out = stem ++ ext /\
  (ext = [] \/ exists e, ext = "."%char :: e /\ Forall (fun c => c <> "."%char /\ c <> "/"%char) e) /\
  output_path (paths_of out) = out /\ response_path (paths_of out) = stem ++ str ".rsp" /\ log_path (paths_of out) = stem ++ str ".log" /\
  matrix_path (paths_of out) = stem ++ str "_matrix.blaze" /\ checkpoint_prefix (paths_of out) = stem ++ str "_checkpoint_" /\
  (response_path (paths_of out) = out <-> ext = str ".rsp") /\ (log_path (paths_of out) = out <-> ext = str ".log").
Proof.
  intros out. assert (S : exists stem ext, split_ext out = (stem, ext) /\ out = stem ++ ext /\ (ext = [] \/ exists e, ext = "."%char :: e /\ Forall (fun c => c <> "."%char /\ c <> "/"%char) e)).
  { unfold split_ext. destruct (path_eqb _ _ || path_eqb _ _)%bool; [exists out, []; rewrite app_nil_r; auto|]. destruct (ext_rev (rev out) []) as [[stem ext]|] eqn:E; [|exists out, []; rewrite app_nil_r; auto].
    exists stem, ext. split; [reflexivity|]. apply ext_rev_ok in E; [|constructor]. rewrite rev_involutive, app_nil_r in E. destruct E as [E1 E2]. auto. }
  destruct S as (stem & ext & E & Eo & Ee). exists stem, ext. split; [exact Eo|]. split; [exact Ee|]. unfold paths_of, change_extension. cbn [output_path response_path log_path matrix_path checkpoint_prefix]. rewrite E. cbn [fst]. rewrite app_nil_r.
  repeat split; try (intros Q; rewrite Eo in Q; apply app_inv_head in Q; symmetry; exact Q); intros ->; symmetry; exact Eo.
Qed.
(** After the constructor of a run without response file the response path holds the options and
    the output file is empty, provided the paths differ; *)
Theorem C76_files_after_start : forall os cli f infos fuel vm P f' h, well_formed cli -> chosen os cli [] (str "response_file") = None ->
  run_application fuel os cli f infos = Some (Some (vm, P, f', h)) ->
  f' (output_path P) = Some [] /\
  (response_path P <> output_path P -> f' (response_path P) = Some (response_text (all_options os cli))) /\
  (forall q, q <> output_path P -> q <> response_path P -> f' q = f q).
Proof.
  intros os cli f infos fuel vm P f' h [H1 H2] Hr E. unfold run_application in E. destruct (store_first os cli H1 H2) as (vm0 & Es & H). rewrite Es in E.
  assert (C : forall k, k <> [] -> value vm0 k = chosen os cli [] k). { intros k Hk. destruct (H k Hk) as (A & _). rewrite A. unfold chosen, or_else. cbn. destruct (first_value cli k); reflexivity. }
  rewrite !C in E by discriminate. rewrite Hr in E. destruct (chosen os cli [] (str "out")) as [out|]; [|discriminate]. injection E as E1 E2 E3 E4. subst P f'.
  split; [apply set_same|]. split; [intros N; rewrite set_other by exact N; apply set_same|]. intros q Q1 Q2. rewrite set_other, set_other by assumption. reflexivity.
Qed.
(** (defect) they do not for an output file *.rsp: the response file is lost.  The old contents of
    the output file is lost in every case (also if the run is meant to resume from a checkpoint). *)
Theorem C76_response_file_lost_refuted : forall os cli f infos fuel vm P f' h stem, well_formed cli -> chosen os cli [] (str "response_file") = None ->
  run_application fuel os cli f infos = Some (Some (vm, P, f', h)) -> output_path P = stem ++ str ".rsp" -> stem <> [] ->
  f' (response_path P) = Some [].
Proof.
  intros os cli f infos fuel vm P f' h stem Hw Hr E Ho Hs. destruct (C76_files_after_start _ _ _ _ _ _ _ _ _ Hw Hr E) as [A _].
  assert (Q : response_path P = output_path P); [|rewrite Q; exact A].
  assert (EP : exists out, P = paths_of out).
  { unfold run_application in E. destruct (store os cli no_variables); [|discriminate]. destruct (value _ (str "out")); [|discriminate].
    destruct (value _ (str "response_file")); [destruct (read_response_file fuel f _ os _) as [[x|]|]; try discriminate|]; injection E as _ <- _ _; eauto. }
  destruct EP as [out ->]. cbn [output_path paths_of] in Ho. subst out. cbn [response_path output_path paths_of]. unfold change_extension. f_equal.
  unfold split_ext. assert (N : (path_eqb (filename_rev (rev (stem ++ str ".rsp")) []) (str ".") || path_eqb (filename_rev (rev (stem ++ str ".rsp")) []) (str ".."))%bool = false).
  { rewrite rev_app_distr. cbn [str list_ascii_of_string rev app]. cbn [filename_rev Ascii.eqb Bool.eqb].
    assert (G : forall r acc, exists x, filename_rev r acc = x ++ acc). { induction r as [|c r IH]; intros acc; [exists []; reflexivity|]. cbn [filename_rev]. destruct (Ascii.eqb c "/"%char); [exists []; reflexivity|]. destruct (IH (c :: acc)) as [x Hx]. exists (x ++ [c]). rewrite Hx, <- app_assoc. reflexivity. }
    destruct (G (rev stem) (str ".rsp")) as [x Hx]. change (filename_rev (rev stem) ["."%char; "r"%char; "s"%char; "p"%char]) with (filename_rev (rev stem) (str ".rsp")). rewrite Hx.
    apply orb_false_iff. split; apply path_eqb_neq; intros Q; apply (f_equal (@length ascii)) in Q; rewrite app_length in Q; cbn in Q; lia. }
  rewrite N. rewrite rev_app_distr. cbn [str list_ascii_of_string rev app ext_rev Ascii.eqb Bool.eqb]. rewrite rev_involutive. reflexivity.
Qed.

(** ** C60 again: resuming in the programs.  read_vector_from_checkpoint (common.hpp 37-54) calls
    clean_output_file(output_path, 42) after the constructor has truncated the output file; at that
    time the file holds some beginning of the header.  (defect) The call never returns. *)
Lemma comment_prefix cs : Forall (fun l => blank_or_comment l /\ no_newline l) cs -> forall n,
  exists cs' last, firstn n (file cs []) = file cs' last /\ lines_ok cs' last /\ Forall blank_or_comment (cs' ++ [last]).
Proof.
  assert (P : forall l m, blank_or_comment l -> no_newline l -> blank_or_comment (firstn m l) /\ no_newline (firstn m l)).
  { intros l m H Hn. assert (N : forall (x : text) c, In c (firstn m x) -> In c x) by (intros x c Q; rewrite <- (firstn_skipn m x); apply in_or_app; left; exact Q).
    split; [|intros Q; apply Hn, N, Q]. destruct H as (w & t & -> & Hw & Ht). exists (firstn m w), (firstn (m - length w) t). split; [apply firstn_app|]. split.
    - apply Forall_forall. intros c Hc. rewrite Forall_forall in Hw. apply Hw. clear -Hc. rewrite <- (firstn_skipn m w). apply in_or_app. left. exact Hc.
    - destruct Ht as [->|(u & -> & H1 & H2)]; [left; apply firstn_nil|]. destruct (m - length w)%nat as [|j]; [left; reflexivity|]. right. exists (firstn j u). split; [reflexivity|].
      split; intros Q; [apply H1|apply H2]; rewrite <- (firstn_skipn j u); apply in_or_app; left; exact Q. }
  intros H. induction H as [|l cs [Hl Hn] Hcs IH]; intros n.
  - exists [], []. rewrite firstn_nil. split; [reflexivity|]. split; [split; [constructor|intros []]|]. constructor; [|constructor]. exists [], []. repeat split; [constructor|left; reflexivity].
  - rewrite file_cons. rewrite firstn_app. destruct (Nat.le_gt_cases n (length l)) as [Q|Q].
    + exists [], (firstn n l). replace (n - length l)%nat with 0%nat by lia. cbn [firstn]. rewrite app_nil_r. destruct (P l n Hl Hn) as [A B]. split; [reflexivity|]. split; [split; [constructor|exact B]|]. constructor; [exact A|constructor].
    + rewrite firstn_all2 by lia. destruct (n - length l)%nat as [|j] eqn:Ej; [lia|]. cbn [firstn]. destruct (IH j) as (cs' & last & E & [L1 L2] & F). exists (l :: cs'), last. split; [rewrite file_cons, E; reflexivity|].
      split; [split; [constructor; assumption|exact L2]|]. cbn [app]. constructor; assumption.
Qed.
Theorem C60_resume_never_returns_refuted : forall infos all n k fuel, Forall clean_text infos -> Forall (fun o => clean_text (fst o) /\ clean_text (snd o)) all ->
  (0 < n)%nat -> cleaned fuel n (firstn k (app_header infos all)) = None.
Proof.
  intros infos all n k fuel Hi Ha Hn. destruct (C75_header_lines_are_comments infos all Hi Ha) as (lines & -> & H1 & H2).
  destruct (comment_prefix lines) with (n := k) as (cs & last & -> & L & F); [apply Forall_forall; intros l Hl; rewrite Forall_forall in H1, H2; auto|].
  apply Forall_app in F as [F1 F2]. apply C60_fewer_measurements_never_returns_refuted; [exact L|exact (Forall_inv F2)|].
  assert (Z : measurements cs = []); [|rewrite Z; exact Hn]. clear -F1. induction F1 as [|l cs Hl Hcs IH]; [reflexivity|]. unfold measurements. cbn [filter]. apply skippable_ok in Hl. rewrite Hl. exact IH.
Qed.
