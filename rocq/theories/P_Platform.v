(** THEOREMS: C100 (what a program reports about build and environment, and what it needs to start), C101 (texts of exceptions). *)
From Coq Require Import Ascii String.
From Verif Require Import Base M_Matrix M_Text Spec_Text Spec_LatticeReal Pf_Text P_Text M_Io Pf_Io P_Io P_Checkpoint M_Cli Pf_Cli P_Cli M_Platform.
Local Open Scope list_scope.
Local Open Scope Z_scope.

(** a version major.minor.patch as text *)
Definition version3 (ma mi pa : Z) : text := dec ma ++ str "." ++ dec mi ++ str "." ++ dec pa.

(** ** C100: the versions *)
(** BOOST_VERSION is 100000 major + 100 minor + patch *)
Theorem C100_boost : forall b ma mi pa, 0 <= ma -> 0 <= mi < 1000 -> 0 <= pa < 100 -> boost_version b = 100000 * ma + 100 * mi + pa ->
  platform_boost b = version3 ma mi pa.
Proof.
  intros b ma mi pa H1 H2 H3 E. unfold platform_boost, version3, compose. rewrite E. cbn [fold_left app].
  replace ((100000 * ma + 100 * mi + pa) / 100000) with ma by (apply (Z.div_unique _ _ _ (100 * mi + pa)); lia).
  replace ((100000 * ma + 100 * mi + pa) / 100 mod 1000) with mi.
  - replace ((100000 * ma + 100 * mi + pa) mod 100) with pa by (apply (Z.mod_unique _ _ (1000 * ma + mi)); lia). rewrite <- !app_assoc. reflexivity.
  - replace ((100000 * ma + 100 * mi + pa) / 100) with (1000 * ma + mi) by (apply (Z.div_unique _ _ _ pa); lia). apply (Z.mod_unique _ _ ma); lia.
Qed.
(** different numbers give different texts *)
Theorem C100_versions_distinct : forall a b c a' b' c', 0 <= a -> 0 <= b -> 0 <= c -> 0 <= a' -> 0 <= b' -> 0 <= c' ->
  version3 a b c = version3 a' b' c' -> a = a' /\ b = b' /\ c = c'.
Proof.
  intros a b c a' b' c' Ha Hb Hc Ha' Hb' Hc' E. unfold version3 in E. cbn [str list_ascii_of_string app] in E.
  assert (N : forall n, ~ In "."%char (dec n)) by (intros n; apply (dec_not n 46); lia).
  apply (cut_unique "."%char) in E as [E1 E]; [|apply N..]. apply (cut_unique "."%char) in E as [E2 E3]; [|apply N..].
  split; [|split]; apply dec_inj; assumption.
Qed.
Theorem C100_clang_gcc : forall b ma mi pa,
  (comp_clang b = Some (ma, mi, pa) -> platform_compiler b = str "clang " ++ version3 ma mi pa) /\
  (comp_clang b = None -> comp_gnuc b = Some (ma, mi, pa) -> platform_compiler b = str "gcc " ++ version3 ma mi pa).
Proof.
  intros b ma mi pa. unfold platform_compiler, version3, compose. split; [intros ->|intros -> ->]; cbn [fold_left app]; rewrite <- !app_assoc; reflexivity.
Qed.
(** (defect) __INTEL_COMPILER is 100 major + 10 minor + patch; the text has 10 minor + patch in the place of the minor
    version, so it is right only if minor and patch are 0. *)
Theorem C100_intel_refuted : forall b ma mi pa, comp_clang b = None -> comp_gnuc b = None -> 0 < ma < 65536 -> 0 <= mi < 10 -> 0 <= pa < 10 ->
  intel_compiler b = Some (100 * ma + 10 * mi + pa) ->
  platform_compiler b = str "intel " ++ version3 ma (10 * mi + pa) pa /\
  (platform_compiler b = str "intel " ++ version3 ma mi pa <-> mi = 0 /\ pa = 0).
Proof.
  intros b ma mi pa H1 H2 Hma Hmi Hpa E.
  assert (P : platform_compiler b = str "intel " ++ version3 ma (10 * mi + pa) pa).
  { unfold platform_compiler. rewrite H1, H2, E. destruct (Z.eqb_spec (100 * ma + 10 * mi + pa) 0); [lia|]. unfold compose, version3. cbn [fold_left app].
    replace ((100 * ma + 10 * mi + pa) / 100) with ma by (apply (Z.div_unique _ _ _ (10 * mi + pa)); lia). rewrite Z.mod_small by lia.
    replace ((100 * ma + 10 * mi + pa) mod 100) with (10 * mi + pa) by (apply (Z.mod_unique _ _ ma); lia).
    replace ((100 * ma + 10 * mi + pa) mod 10) with pa by (apply (Z.mod_unique _ _ (10 * ma + mi)); lia). rewrite <- !app_assoc. reflexivity. }
  split; [exact P|]. rewrite P. split.
  - intros Q. apply app_inv_head in Q. apply C100_versions_distinct in Q as (_ & Q & _); lia.
  - intros [-> ->]. reflexivity.
Qed.

(** the other texts tell the builds apart *)
Theorem C100_texts_distinct : forall b b',
  (show_endian (byte_order b) = show_endian (byte_order b') -> byte_order b = byte_order b') /\
  (arch_x86_32 b = false -> arch_x86_32 b' = false -> platform_architecture b = platform_architecture b' -> arch_x86_64 b = arch_x86_64 b') /\
  (platform_operating_system b = platform_operating_system b' -> os_linux b = os_linux b') /\
  (forall v v', 0 < v -> 0 < v' -> lib_std_gnu b = Some v -> lib_std_gnu b' = Some v' -> platform_cpp_library b = platform_cpp_library b' -> v = v') /\
  (forall v v', 0 < v -> 0 < v' -> lib_std_gnu b = Some v -> lib_std_gnu b' = None -> lib_std_cxx b' = Some v' -> platform_cpp_library b <> platform_cpp_library b').
Proof.
  intros b b'. split; [destruct (byte_order b), (byte_order b'); intros E; (reflexivity || discriminate E)|].
  unfold platform_architecture, platform_operating_system, platform_cpp_library, compose. split; [intros -> ->; destruct (arch_x86_64 b), (arch_x86_64 b'); intros E; (reflexivity || discriminate E)|].
  split; [destruct (os_linux b), (os_linux b'); intros E; (reflexivity || discriminate E)|]. split; intros v v' Hv Hv' E E'.
  - rewrite E, E'. unfold given. destruct (Z.eqb_spec v 0); [lia|]. destruct (Z.eqb_spec v' 0); [lia|]. cbn [negb fold_left app]. intros Q. apply app_inv_head in Q. apply dec_inj; (lia || exact Q).
  - intros E2 Q. rewrite E, E', E2 in Q. unfold given in Q. destruct (Z.eqb_spec v 0); [lia|]. destruct (Z.eqb_spec v' 0); [lia|]. discriminate Q.
Qed.

(** the texts name what the build was made for: every value of [build], every library version.  (No build has
    LittleWord: platform.hpp 110 tests a macro that boost does not define.) *)
Theorem C100_values : forall b e,
  (os_linux b = true -> platform_operating_system b = str "Linux") /\
  (os_linux b = false -> platform_operating_system b = str "UntestedOS") /\
  (arch_x86_32 b = true -> platform_architecture b = str "x86_32") /\
  (arch_x86_32 b = false -> arch_x86_64 b = true -> platform_architecture b = str "x86_64") /\
  (arch_x86_32 b = false -> arch_x86_64 b = false -> platform_architecture b = str "UntestedArch") /\
  (forall v, 0 < v -> lib_std_gnu b = Some v -> platform_cpp_library b = str "libstdc++" ++ dec v) /\
  (forall v, 0 < v -> lib_std_gnu b = None -> lib_std_cxx b = Some v -> platform_cpp_library b = str "libc++" ++ dec v) /\
  (lib_std_gnu b = None -> lib_std_cxx b = None -> platform_cpp_library b = str "UnknownC++Library") /\
  (comp_clang b = None -> comp_gnuc b = None -> intel_compiler b = None -> platform_compiler b = str "UntestedCompiler") /\
  blaze_version b = dec (blaze_major b) ++ str "." ++ dec (blaze_minor b) /\
  show_endian Big = str "BigEndian" /\ show_endian Little = str "LittleEndian" /\
  show_endian BigWord = str "BigWordSwappedEndian" /\ show_endian LittleWord = str "LittleWordSwappedEndian" /\
  platform_max_threads e = dec (threads e).
Proof.
  intros b e. unfold platform_operating_system, platform_architecture, platform_cpp_library, platform_compiler, blaze_version, platform_max_threads, compose.
  split; [intros ->; reflexivity|]. split; [intros ->; reflexivity|]. split; [intros ->; reflexivity|]. split; [intros -> ->; reflexivity|]. split; [intros -> ->; reflexivity|].
  split; [intros v H ->; unfold given; destruct (Z.eqb_spec v 0); [lia|]; reflexivity|].
  split; [intros v H -> ->; unfold given; destruct (Z.eqb_spec v 0); [lia|]; reflexivity|].
  split; [intros -> ->; reflexivity|]. split; [intros -> -> ->; reflexivity|].
  split; [cbn [fold_left app]; rewrite <- !app_assoc; reflexivity|].
  repeat (split; [reflexivity|]). reflexivity.
Qed.

(** ** C100: starting a program *)
Lemma store_chosen os cli : well_formed cli -> exists vm, store os cli no_variables = Some vm /\ forall k, k <> [] -> value vm k = chosen os cli [] k.
Proof.
  intros [H1 H2]. destruct (store_first os cli H1 H2) as (vm & Es & H). exists vm. split; [exact Es|].
  intros k Hk. destruct (H k Hk) as (A & _). rewrite A. unfold chosen, or_else. cbn. destruct (first_value cli k); reflexivity.
Qed.
(** --help prints the help and exits with code 1, whatever the environment *)
Theorem C100_help : forall fuel b e name help logged os cli f, well_formed cli -> chosen os cli [] (str "help") <> None ->
  application fuel b e name help logged os cli f = Some (Exited 1 help).
Proof.
  intros fuel b e name help logged os cli f Hw Hh. destruct (store_chosen os cli Hw) as (vm & Es & V). unfold application. rewrite Es, V by discriminate.
  destruct (chosen os cli [] (str "help")); [reflexivity|contradiction].
Qed.
(** (defect) Without the environment variable LOGNAME (daemons, containers), or with a host name of 128 characters or
    more, every other start is undefined behaviour, also with --version. *)
Theorem C100_logname_refuted : forall fuel b e name help logged os cli f, well_formed cli ->
  chosen os cli [] (str "help") = None -> chosen os cli [] (str "version") <> None \/ chosen os cli [] (str "out") <> None ->
  logname e = None \/ (128 <= length (hostname e))%nat ->
  application fuel b e name help logged os cli f = Some Undefined.
Proof.
  intros fuel b e name help logged os cli f Hw Hh Ho He. destruct (store_chosen os cli Hw) as (vm & Es & V).
  assert (I : platform_infos b e name = UB).
  { unfold platform_infos, platform_user, platform_host. destruct (logname e); [|reflexivity]. destruct He as [He|He]; [discriminate|]. cbn [obind]. destruct (Z.ltb_spec (Z.of_nat (length (hostname e))) 128); [lia|reflexivity]. }
  unfold application. rewrite Es, !V by discriminate. rewrite Hh, I. destruct (chosen os cli [] (str "version")); [reflexivity|].
  destruct (chosen os cli [] (str "out")); [reflexivity|]. destruct Ho; contradiction.
Qed.
Lemma infos_defined b e name user : logname e = Some user -> (length (hostname e) < 128)%nat ->
  platform_infos b e name = Ok [name; ieompp_version b; platform_boost b; blaze_version b; platform_architecture b; platform_operating_system b;
                    platform_compiler b; platform_cpp_library b; user ++ str "@" ++ hostname e; show_endian (byte_order b); dec (threads e)].
Proof.
  intros Hu Hn. unfold platform_infos, platform_user, platform_host. rewrite Hu. cbn [obind]. destruct (Z.ltb_spec (Z.of_nat (length (hostname e))) 128); [reflexivity|lia].
Qed.
(** With LOGNAME and a shorter host name the program starts.  The header lists program, versions, architecture, operating
    system, compiler, library, user and host, byte order and number of threads in this order; (defect) the line
    "compiled by" names the user and host of the run.  The response path holds the options, the log file is started
    anew, the output file is empty, and no other file has changed. *)
Theorem C100_start : forall fuel b e name help logged os cli f user out, well_formed cli ->
  chosen os cli [] (str "help") = None -> chosen os cli [] (str "version") = None -> chosen os cli [] (str "response_file") = None ->
  chosen os cli [] (str "out") = Some out -> logname e = Some user -> (length (hostname e) < 128)%nat ->
  exists vm P f' h, application fuel b e name help logged os cli f = Some (Running (vm, P, f', h)) /\
    output_path P = out /\
    (forall k, k <> [] -> value vm k = chosen os cli [] k) /\
    h = app_header [name; ieompp_version b; platform_boost b; blaze_version b; platform_architecture b; platform_operating_system b;
                    platform_compiler b; platform_cpp_library b; user ++ str "@" ++ hostname e; show_endian (byte_order b); dec (threads e)] (all_options os cli) /\
    f' (output_path P) = Some [] /\
    (response_path P <> output_path P -> f' (response_path P) = Some (response_text (all_options os cli))) /\
    (log_path P <> output_path P -> f' (log_path P) = Some logged) /\
    (forall q, q <> output_path P -> q <> response_path P -> q <> log_path P -> f' q = f q).
Proof.
  intros fuel b e name help logged os cli f user out Hw Hh Hv Hr Ho Hu Hn. destruct (store_chosen os cli Hw) as (vm & Es & V).
  pose proof (infos_defined b e name user Hu Hn) as I.
  match type of I with _ = Ok ?l => set (infos := l) in * end.
  assert (R : run_application fuel os cli (set_file f (log_path (paths_of out)) (Some logged)) infos =
    Some (Some (vm, paths_of out, set_file (set_file (set_file f (log_path (paths_of out)) (Some logged)) (response_path (paths_of out)) (Some (response_text (all_options os cli)))) out (Some []), app_header infos (all_options os cli)))).
  { unfold run_application. rewrite Es, !V by discriminate. rewrite Ho, Hr. reflexivity. }
  exists vm, (paths_of out), (set_file (set_file (set_file f (log_path (paths_of out)) (Some logged)) (response_path (paths_of out)) (Some (response_text (all_options os cli)))) out (Some [])), (app_header infos (all_options os cli)).
  split; [|split; [reflexivity|split; [exact V|split; [reflexivity|]]]].
  - unfold application. rewrite Es, !V by discriminate. rewrite Hh, Hv, Ho, I. rewrite R. reflexivity.
  - assert (LR : log_path (paths_of out) <> response_path (paths_of out)).
    { cbn [log_path response_path paths_of]. unfold change_extension. intros Q. apply app_inv_head in Q. discriminate. }
    change (output_path (paths_of out)) with out. split; [apply set_same|]. split; [intros N; rewrite set_other by exact N; apply set_same|]. split.
    + intros N. rewrite set_other by exact N. rewrite set_other by exact LR. apply set_same.
    + intros q Q1 Q2 Q3. rewrite !set_other by assumption. reflexivity.
Qed.
(** --version prints the same values and exits with code 1 *)
Theorem C100_version : forall fuel b e name help logged os cli f user, well_formed cli ->
  chosen os cli [] (str "help") = None -> chosen os cli [] (str "version") <> None -> logname e = Some user -> (length (hostname e) < 128)%nat ->
  application fuel b e name help logged os cli f = Some (Exited 1
    (file [str "program:    " ++ [tab] ++ name; str "ieompp:     " ++ [tab] ++ ieompp_version b; str "boost:      " ++ [tab] ++ platform_boost b;
           str "blaze:      " ++ [tab] ++ blaze_version b; str "arch:       " ++ [tab] ++ platform_architecture b; str "os:         " ++ [tab] ++ platform_operating_system b;
           str "compiler:   " ++ [tab] ++ platform_compiler b; str "std lib:    " ++ [tab] ++ platform_cpp_library b; str "compiled by:" ++ [tab] ++ user ++ str "@" ++ hostname e;
           str "endianess   " ++ [tab] ++ show_endian (byte_order b); str "max threads:" ++ [tab] ++ dec (threads e)] [])).
Proof.
  intros fuel b e name help logged os cli f user Hw Hh Hv Hu Hn. destruct (store_chosen os cli Hw) as (vm & Es & V).
  unfold application. rewrite Es, !V by discriminate. rewrite Hh. destruct (chosen os cli [] (str "version")); [|contradiction].
  rewrite (infos_defined b e name user Hu Hn). f_equal. f_equal. unfold version_text, version_labels, file. cbn [map combine flat_map fst snd]. rewrite <- !app_assoc. reflexivity.
Qed.
(** (defect) With an output file *.log the log file is the output file, which is emptied after the log was started. *)
Theorem C100_log_lost_refuted : forall fuel b e name help logged os cli f user stem, well_formed cli ->
  chosen os cli [] (str "help") = None -> chosen os cli [] (str "version") = None -> chosen os cli [] (str "response_file") = None ->
  chosen os cli [] (str "out") = Some (stem ++ str ".log") -> stem <> [] -> logname e = Some user -> (length (hostname e) < 128)%nat ->
  exists vm P f' h, application fuel b e name help logged os cli f = Some (Running (vm, P, f', h)) /\
    log_path P = stem ++ str ".log" /\ f' (log_path P) = Some [].
Proof.
  intros fuel b e name help logged os cli f user stem Hw Hh Hv Hr Ho Hs Hu Hn.
  destruct (C100_start fuel b e name help logged os cli f user _ Hw Hh Hv Hr Ho Hu Hn) as (vm & P & f' & h & A & B & _ & _ & C & _).
  exists vm, P, f', h. split; [exact A|].
  assert (EP : P = paths_of (stem ++ str ".log")).
  { unfold application in A. destruct (store_chosen os cli Hw) as (vm0 & Es & V). rewrite Es, !V in A by discriminate. rewrite Hh, Hv, Ho, (infos_defined b e name user Hu Hn) in A.
    unfold run_application in A. rewrite Es, !V in A by discriminate. rewrite Ho, Hr in A. injection A as _ A _ _. symmetry. exact A. }
  assert (Q : log_path P = output_path P).
  { rewrite EP. cbn [log_path output_path paths_of]. unfold change_extension. f_equal.
    unfold split_ext. assert (N : (path_eqb (filename_rev (rev (stem ++ str ".log")) []) (str ".") || path_eqb (filename_rev (rev (stem ++ str ".log")) []) (str ".."))%bool = false).
    { rewrite rev_app_distr. cbn [str list_ascii_of_string rev app]. cbn [filename_rev Ascii.eqb Bool.eqb].
      assert (G : forall r acc, exists x, filename_rev r acc = x ++ acc). { induction r as [|c r IH]; intros acc; [exists []; reflexivity|]. cbn [filename_rev]. destruct (Ascii.eqb c "/"%char); [exists []; reflexivity|]. destruct (IH (c :: acc)) as [x Hx]. exists (x ++ [c]). rewrite Hx, <- app_assoc. reflexivity. }
      destruct (G (rev stem) (str ".log")) as [x Hx]. change (filename_rev (rev stem) ["."%char; "l"%char; "o"%char; "g"%char]) with (filename_rev (rev stem) (str ".log")). rewrite Hx.
      apply orb_false_iff. split; apply path_eqb_neq; intros Q; apply (f_equal (@length ascii)) in Q; rewrite app_length in Q; cbn in Q; lia. }
    rewrite N. rewrite rev_app_distr. cbn [str list_ascii_of_string rev app ext_rev Ascii.eqb Bool.eqb]. rewrite rev_involutive. reflexivity. }
  rewrite Q, B. split; [reflexivity|]. rewrite <- B. exact C.
Qed.

(** ** C101 *)
Lemma c_str_clean t : ~ In zero t -> c_str t = t.
Proof.
  induction t as [|c t IH]; intros H; [reflexivity|]. cbn [c_str]. destruct (Ascii.eqb c zero) eqn:E; [apply Ascii.eqb_eq in E; exfalso; apply H; left; exact E|].
  rewrite IH; [reflexivity|]. intros Q. apply H. right. exact Q.
Qed.
(** what() of an exception is file:line: message (texts without NUL) *)
Theorem C101_text : forall fn line msg, ~ In zero fn -> ~ In zero msg ->
  what (exception_message fn line msg) = fn ++ str ":" ++ dec line ++ str ": " ++ msg.
Proof.
  intros fn line msg H1 H2. unfold what, exception_message. apply c_str_clean. intros Q.
  repeat (apply in_app_or in Q as [Q|Q]); try contradiction; [|exact (dec_not line 0 ltac:(lia) Q)|]; cbn in Q; repeat destruct Q as [Q|Q]; discriminate || contradiction.
Qed.
(** two places in one file, or two messages, are told apart *)
Theorem C101_distinct : forall fn line msg line' msg', ~ In zero fn -> ~ In zero msg -> ~ In zero msg' -> 0 <= line -> 0 <= line' ->
  what (exception_message fn line msg) = what (exception_message fn line' msg') -> line = line' /\ msg = msg'.
Proof.
  intros fn line msg line' msg' H1 H2 H3 L L' E. rewrite !C101_text in E by assumption. apply app_inv_head in E. cbn [str list_ascii_of_string app] in E. injection E as E.
  apply (cut_unique ":"%char) in E as [E1 E2]; [|intros Q; pose proof (dec_digits line) as D; rewrite Forall_forall in D; apply D in Q; unfold digit in Q; cbn in Q; lia|intros Q; pose proof (dec_digits line') as D; rewrite Forall_forall in D; apply D in Q; unfold digit in Q; cbn in Q; lia].
  injection E2 as E2. split; [apply dec_inj; assumption|exact E2].
Qed.
(** a NUL in the message hides the rest *)
Theorem C101_nul : forall fn line a b, ~ In zero fn -> ~ In zero a -> what (exception_message fn line (a ++ zero :: b)) = what (exception_message fn line a).
Proof.
  intros fn line a b H1 H2. rewrite (C101_text fn line a) by assumption. unfold what, exception_message.
  assert (G : forall x y, ~ In zero x -> c_str (x ++ zero :: y) = x).
  { induction x as [|c x IH]; intros y Hx; [reflexivity|]. cbn [app c_str]. destruct (Ascii.eqb c zero) eqn:E; [apply Ascii.eqb_eq in E; exfalso; apply Hx; left; exact E|].
    rewrite IH; [reflexivity|]. intros Q. apply Hx. right. exact Q. }
  rewrite !app_assoc. apply G. rewrite <- !app_assoc. intros Q.
  repeat (apply in_app_or in Q as [Q|Q]); try contradiction; [|exact (dec_not line 0 ltac:(lia) Q)|]; cbn in Q; repeat destruct Q as [Q|Q]; discriminate || contradiction.
Qed.

(** ** a concrete case *)
Definition a_build : build := mkBuild (str "1.0") 106501 3 2 false true true None (Some (7, 2, 0)) None (Some 20170501) None Little.
Example C100_a_build : platform_boost a_build = str "1.65.1" /\ platform_compiler a_build = str "gcc 7.2.0" /\ platform_cpp_library a_build = str "libstdc++20170501".
Proof. split; [|split]; reflexivity. Qed.
Example C100_a_start : well_formed [(str "out", str "run.txt")] /\ chosen [(str "out", Some (str "x.txt"))] [(str "out", str "run.txt")] [] (str "help") = None /\
  chosen [(str "out", Some (str "x.txt"))] [(str "out", str "run.txt")] [] (str "out") = Some (str "run.txt").
Proof. split; [|split; reflexivity]. split; [repeat constructor; intros []|repeat constructor; discriminate]. Qed.
Example C101_a_text : what (exception_message (str "sparse.hpp") 41 (str "Invalid line")) = str "sparse.hpp:41: Invalid line".
Proof. reflexivity. Qed.
Print Assumptions C100_boost.
Print Assumptions C100_intel_refuted.
Print Assumptions C100_logname_refuted.
Print Assumptions C100_start.
Print Assumptions C100_version.
Print Assumptions C100_log_lost_refuted.
Print Assumptions C100_versions_distinct.
Print Assumptions C100_clang_gcc.
Print Assumptions C100_help.
Print Assumptions C101_text.
Print Assumptions C101_distinct.
Print Assumptions C101_nul.
