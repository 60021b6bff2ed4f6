(** The hypotheses of C84 are met: a 2 x 3 matrix of natural numbers in a file with comments. *)
From Coq Require Import Ascii String.
From Verif Require Import Base M_Text Spec_Text Spec_LatticeReal Pf_Text P_Text M_Io Pf_Io P_Io M_Matrix M_EigenIo Spec_EigenIo Pf_EigenIo P_EigenIo.
Local Open Scope Z_scope.
Local Open Scope list_scope.

(** operator>> of an unsigned integer, without overflow *)
Definition rdn (t : text) : option (Z * text) :=
  let (d, r) := take_digits t in if is_empty d then None else Some (horner d, r).
Definition nl : text := [newline].
Definition example_file : text :=
  str "# a matrix" ++ nl ++ nl ++ str " 2 x 3" ++ nl ++ str "2 entries" ++ nl ++ str "0 1 5" ++ nl ++ str "# second" ++ nl ++ str "1	2  70" ++ nl ++ str "the rest" ++ nl.
Example C84_example : exists s' m',
  terminates_with (fun fuel => read_matrix rdn (fun o => o) 2147483647 false fuel (open_text example_file) (mkEM _ 0 0 (fun _ _ => None)) 4) (Ok (s', m', Returned)) /\
  em_at m' 0 1 = Some 5 /\ em_at m' 1 2 = Some 70 /\ em_at m' 0 0 = None /\ em_rows m' = 2 /\ em_cols m' = 3.
Proof.
  exists (open_text (str "the rest" ++ nl)). eexists. split.
  - exists 4%nat. intros fuel Hf. do 4 (destruct fuel as [|fuel]; [lia|]). with_strategy transparent [two64] (vm_compute). reflexivity.
  - vm_compute. auto.
Qed.
(** the printed form of a natural number is understood by operator>> *)
Example C84_headed_numbers : forall v : N, (exists u, rdn (dec (Z.of_N v)) = Some (Z.of_N v, u)) /\ no_newline (dec (Z.of_N v)) /\ (forall c u, dec (Z.of_N v) = c :: u -> ~ space c).
Proof.
  intros v. pose proof (dec_numeral (Z.of_N v) ltac:(lia)) as (Ne & Nd & Nn). split; [|split].
  - exists []. unfold rdn. rewrite <- (app_nil_r (dec (Z.of_N v))) at 1. rewrite take_run by (exact Nd || intros; discriminate). destruct (dec (Z.of_N v)) eqn:E; [contradiction|]. cbn [is_empty]. rewrite horner_ok, Nn. reflexivity.
  - exact (dec_not _ 10 ltac:(lia)).
  - intros c u E. rewrite E in Nd. apply digit_not_space. exact (Forall_inv Nd).
Qed.
Example C84_storage : valid_storage false 2 3 [[(0, 5); (1, 6)]; []; [(1, 7)]] /\ valid_storage true 2 3 [[(2, 5)]; [(0, 1); (1, 2)]].
Proof.
  split; (split; [reflexivity|]); repeat (apply Forall_cons || apply Forall_nil || split || apply NoDup_cons || apply NoDup_nil || (cbn; lia)); cbn; intuition (try discriminate; try lia).
Qed.
(** a count of 10^20 and dimensions no index type holds *)
Example C84_huge : holds_lines (str "1x1" ++ nl ++ str "100000000000000000000" ++ nl) [str "1x1"; str "100000000000000000000"] /\
  count_line (str "100000000000000000000") (10 ^ 20) /\ dimension_line (str "1x1") 1 1 /\ dimension_line (str "1x100000000000000000000") 1 (10 ^ 20).
Proof.
  assert (A : forall x : text, Forall space x -> blank_or_comment x) by (intros x H; exists x, []; split; [rewrite app_nil_r; reflexivity|]; split; [exact H|left; reflexivity]).
  assert (N : forall d n, d <> [] -> Forall (fun c => class_d c = true) d -> number d = n -> numeral d n).
  { intros d n H1 H2 H3. split; [exact H1|]. split; [|exact H3]. eapply Forall_impl; [|exact H2]. intros c H. apply class_d_ok, H. }
  split; [|split; [|split]].
  - exists [str "1x1"; str "100000000000000000000"], []. split; [reflexivity|]. split.
    + split; [|intros []]. repeat constructor; unfold no_newline; vm_compute; intuition discriminate.
    + cbn [app]. constructor; [intros Q; apply skippable_ok in Q; vm_compute in Q; discriminate|]. constructor; [intros Q; apply skippable_ok in Q; vm_compute in Q; discriminate|].
      constructor; [apply A; constructor|constructor].
  - exists [], (str "100000000000000000000"), []. split; [reflexivity|]. split; [constructor|]. split; [apply N; [discriminate|repeat constructor|reflexivity]|intros; discriminate].
  - exists [], (str "1"), [], [], (str "1"), []. split; [reflexivity|]. do 4 (split; [constructor|]). split; (apply N; [discriminate|repeat constructor|reflexivity]).
  - exists [], (str "1"), [], [], (str "100000000000000000000"), []. split; [reflexivity|]. do 4 (split; [constructor|]). split; (apply N; [discriminate|repeat constructor|reflexivity]).
Qed.
(** a second line without a number *)
Example C84_no_count : holds_lines (str "1x1" ++ nl ++ str " n=1" ++ nl) [str "1x1"; str " n=1"] /\ str " n=1" = str " " ++ "n"%char :: str "=1" /\
  Forall space (str " ") /\ ~ space "n"%char /\ ~ digit "n"%char.
Proof.
  assert (A : forall x : text, Forall space x -> blank_or_comment x) by (intros x H; exists x, []; split; [rewrite app_nil_r; reflexivity|]; split; [exact H|left; reflexivity]).
  split; [|split; [reflexivity|split; [|split]]].
  - exists [str "1x1"; str " n=1"], []. split; [reflexivity|]. split.
    + split; [|intros []]. repeat constructor; unfold no_newline; vm_compute; intuition discriminate.
    + cbn [app]. constructor; [intros Q; apply skippable_ok in Q; vm_compute in Q; discriminate|]. constructor; [intros Q; apply skippable_ok in Q; vm_compute in Q; discriminate|].
      constructor; [apply A; constructor|constructor].
  - repeat constructor; apply class_s_ok; reflexivity.
  - intros Q. apply class_s_ok in Q. vm_compute in Q. discriminate.
  - intros Q. apply class_d_ok in Q. vm_compute in Q. discriminate.
Qed.
(** an entry line without a number after one with: row 0 is filled instead *)
Example C84_bad_entry : exists e : tentry Z, [e] = [] ++ [e] /\ NoDup (map (fun e => (e_row e, e_col e)) [e]) /\ Forall (fun e => 0 <= e_row e < 2 /\ 0 <= e_col e < 2) [e] /\
  entry_line rdn (str "1 1 5") (e_row e) (e_col e) (e_val e) /\ ~ (exists e', In e' [e] /\ e_row e' = 0 /\ e_col e' = e_col e).
Proof.
  exists (mkE _ 1 1 5). split; [reflexivity|]. split; [constructor; [intros []|constructor]|]. split; [repeat constructor; cbn; lia|]. split.
  - exists [], (str "1"), (str " "), (str "1"), (str " "), (str "5"), []. split; [reflexivity|].
    assert (W : Forall space (str " ")) by (repeat constructor; apply class_s_ok; reflexivity).
    assert (D : numeral (str "1") 1) by (split; [discriminate|split; [repeat constructor; apply class_d_ok; reflexivity|reflexivity]]).
    split; [constructor|]. split; [exact W|]. split; [exact W|]. split; [discriminate|]. split; [discriminate|]. split; [exact D|]. split; [exact D|]. split; [|reflexivity].
    intros c u Q. injection Q as <- _. intros Q. apply class_s_ok in Q. vm_compute in Q. discriminate.
  - intros (e' & [<-|[]] & Q & _). cbn in Q. lia.
Qed.
