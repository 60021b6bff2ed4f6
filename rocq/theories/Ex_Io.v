(** Concrete cases meeting the hypotheses of the theorems about files and options. *)
From Coq Require Import Ascii String.
From Verif Require Import Base M_Text Spec_Text Spec_LatticeReal Pf_Text P_Text M_Io Pf_Io P_Io P_Checkpoint M_Cli Pf_Cli P_Cli.
Local Open Scope list_scope.

Ltac chars := cbn; intros Q; repeat destruct Q as [Q|Q]; discriminate || contradiction.
Lemma clean s : forallb class_dot (str s) = true -> clean_text (str s).
Proof. intros H. rewrite forallb_forall in H. split; intros Q; apply H in Q; discriminate. Qed.

Definition ints : tlist Z := matrix_insert (matrix_insert (new_tlist 2 3) 0 2 7%Z) 1 0 12%Z.
Example ex_C58 : write_triplet_list dec ints false = str "2
0	2	7
1	0	12
".
Proof. reflexivity. Qed.
Example ex_C58_printable : printable dec.
Proof. intros v. split; [apply (dec_not v 9); lia|apply (dec_not v 10); lia]. Qed.
Example ex_C59 : write_header (str "now") [[(str "lattice", str "chain"); (str "note", []); ([], str "lost")]; []; [(str "J", str "1")]] false (str "#") = str "# Created: now
#
# lattice: chain
# note
#
".
Proof. reflexivity. Qed.
(** the first measurement of a file with header: glued to the comment *)
Example ex_C60 : cleaned 9 1 (str "# head
0 1
1 2
") = Some (str "# head0 1").
Proof. reflexivity. Qed.
Example ex_C60_hypotheses : lines_ok (str "# head" :: [] ++ str "0 1" :: [str "1 2"]) [] /\ Forall no_cr (str " head" :: [] ++ [str "0 1"]) /\ ~ blank_or_comment (str "0 1").
Proof. split; [split; [repeat constructor; chars|intros []]|]. split; [repeat constructor; chars|]. intros Q. apply skippable_ok in Q. discriminate. Qed.
Example ex_C60_repeated : cleaned 9 3 (str "# head
0 1
1 2") = Some (str "# head0 11 21 2").
Proof. reflexivity. Qed.

(** a program with the options help, response_file, out, N and J *)
Definition os : options :=
  [(str "help", None); (str "response_file", None); (str "out", Some (str "prog.txt")); (str "N", Some (str "16")); (str "J", Some (str "1"))].
Definition cli : parsed := [(str "J", str "2"); (str "out", str "run/a.txt")].
Example ex_cli : well_formed cli /\ line_safe os /\ safe_cli os cli /\ chosen os cli [] (str "response_file") = None /\
  chosen os cli [] (str "out") = Some (str "run/a.txt") /\ response_path (paths_of (str "run/a.txt")) = str "run/a.rsp".
Proof.
  split; [split; [repeat constructor; cbn; intros Q; repeat destruct Q as [Q|Q]; discriminate || contradiction|repeat constructor; discriminate]|].
  split; [|split; [|repeat split]].
  - unfold line_safe, os. repeat apply Forall_cons; try apply Forall_nil; cbn [fst snd]; (split; [discriminate|split; [chars|split; [chars|try exact I]]]); (split; [apply clean; reflexivity|discriminate]).
  - unfold safe_cli, cli. repeat apply Forall_cons; try apply Forall_nil; cbn [fst snd]; (split; [cbn; tauto|split; [chars|discriminate]]).
Qed.
Example ex_C74 : response_text (all_options os cli) = str "--J=2
--out=run/a.txt
--N=16
".
Proof. reflexivity. Qed.
(** rerunning with this response file: the values of the first run are used, but the output goes to
    the default path, and the header lists J = 1 *)
Definition disk : fs := fun q => if path_eqb q (str "run/a.rsp") then Some (response_text (all_options os cli)) else None.
Definition infos : list text := repeat (str "x") 11.
Example ex_rerun : match run_application 9 os [(str "response_file", str "run/a.rsp")] disk infos with
  | Some (Some (vm, P, f', h)) => (value vm (str "J"), value vm (str "N"), value vm (str "out"), output_path P, first_value (all_options os [(str "response_file", str "run/a.rsp")]) (str "J"))
                                  = (Some (str "2"), Some (str "16"), Some (str "run/a.txt"), str "prog.txt", Some (str "1"))
  | _ => False
  end.
Proof. reflexivity. Qed.
Example ex_paths : (response_path (paths_of (str "a.b/c")), log_path (paths_of (str "x.log")), matrix_path (paths_of (str "d/out.txt")))
  = (str "a.b/c.rsp", str "x.log", str "d/out_matrix.blaze").
Proof. reflexivity. Qed.
