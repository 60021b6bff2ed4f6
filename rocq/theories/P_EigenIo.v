(** PROPERTY C84: sparse matrices as text (io/eigen/sparse.hpp). *)
From Coq Require Import Ascii String.
From Verif Require Import Base M_Text Spec_Text Spec_LatticeReal Pf_Text P_Text M_Io Pf_Io P_Io M_Matrix M_EigenIo Spec_EigenIo Pf_EigenIo.
Local Open Scope Z_scope.
Local Open Scope list_scope.

Lemma two64_eq : two64 = 18446744073709551616.
Proof. with_strategy transparent [two64] reflexivity. Qed.
Section C84.
  Context {S : Type} (rd : text -> option (S * text)) (on_fail : option S -> option S) (storage_max : Z) (row_major : bool).
  Hypothesis storage : storage_max < two64 / 2.
  Lemma half : two64 / 2 <= two64 - 1.
  Proof. rewrite two64_eq. vm_compute. discriminate. Qed.
  Lemma start_ok h r c : dimension_line h r c -> r <= storage_max -> c <= storage_max ->
    0 <= r /\ 0 <= c /\ to_index (strtoul (sub1 h)) = r /\ to_index (strtoul (sub2 h)) = c /\ regex_match h dimension_regex = true.
  Proof.
    intros D Hr Hc. pose proof half. destruct (dimension_values h r c D) as [-> ->]; [lia|lia|].
    assert (M : regex_match h dimension_regex = true) by (apply dimension_match; eauto).
    destruct D as (w1 & d1 & w2 & w3 & d2 & w4 & _ & _ & _ & _ & _ & (_ & N1 & E1) & (_ & N2 & E2)).
    pose proof (number_nonneg d1 N1). pose proof (number_nonneg d2 N2). unfold to_index.
    destruct (Z.ltb_spec r (two64 / 2)); [|lia]. destruct (Z.ltb_spec c (two64 / 2)); [|lia]. repeat split; (lia || exact M).
  Qed.
  Lemma count_ok l n : count_line l n -> n < two64 / 2 -> to_index (strtoul l) = n.
  Proof.
    intros (w & d & t & -> & Hw & Hd & Ht) Hn. pose proof half. rewrite (strtoul_ok w d t n) by (assumption || lia). unfold to_index. destruct (Z.ltb_spec n (two64 / 2)); [reflexivity|lia].
  Qed.
  Lemma created r c (k : ematrix S -> ematrix S) : 0 <= r <= storage_max -> 0 <= c <= storage_max -> row_major = false \/ r <= c ->
    obind (em_new (S := S) storage_max r c) (fun m => em_reserve row_major m c) = Ok (mkEM _ r c (fun _ _ => None)).
  Proof.
    intros Hr Hc Ho. unfold em_new. replace ((0 <=? r) && (r <=? storage_max) && (0 <=? c) && (c <=? storage_max))%bool with true by (symmetry; rewrite !andb_true_iff, !Z.leb_le; lia).
    cbn [obind]. unfold em_reserve. cbn [em_rows em_cols]. destruct row_major; [destruct Ho as [Ho|Ho]; [discriminate|]|]; [destruct (Z.leb_spec r c)|destruct (Z.leb_spec c c)]; (reflexivity || lia).
  Qed.

  (** A file whose content lines are a dimension line, a line starting with the number of entries, and
      that many entry lines with different positions inside the matrix is read exactly; blank lines
      and comments may be anywhere, and the rest of the file is left in the stream. *)
  Lemma read_run h count lines es more r c s : still_holds s (h :: count :: lines ++ more) ->
    dimension_line h r c -> r <= storage_max -> c <= storage_max -> row_major = false \/ r <= c ->
    Forall2 (fun l e => entry_line rd l (e_row e) (e_col e) (e_val e)) lines es ->
    NoDup (map (fun e => (e_row e, e_col e)) es) -> Forall (fun e => 0 <= e_row e < r /\ 0 <= e_col e < c) es ->
    forall extra, count_line count (Z.of_nat (length lines + extra)) -> Z.of_nat (length lines + extra) < two64 / 2 ->
    forall m nnz, exists s' m', let old' := fold_left (fun _ e => Some (e_col e, e_val e)) es None in good r c es m' /\ still_holds s' more /\
      exists f0, forall fuel, (f0 <= fuel)%nat -> read_matrix rd on_fail storage_max row_major fuel s m nnz = read_entries rd on_fail fuel extra s' old' m'.
  Proof.
    intros H D Hr Hc Ho F ND B extra C Hn m nnz. destruct (start_ok h r c D Hr Hc) as (P1 & P2 & Q1 & Q2 & M).
    destruct (still_next s h _ H) as (s1 & H1 & f1 & T1). destruct (still_next s1 count _ H1) as (s2 & H2 & f2 & T2).
    destruct (entries_ok rd on_fail r c ltac:(lia) ltac:(lia) lines es F [] (mkEM _ r c (fun _ _ => None)) s2 more) with (old := @None (Z * S)) as (s' & m' & G & H' & f0 & T).
    - repeat split; intros Q; [discriminate|contradiction].
    - exact ND.
    - exact B.
    - exact H2.
    - exists s', m'. split; [exact G|]. split; [exact H'|]. exists (Nat.max f0 (Nat.max f1 f2)). intros fuel Hf. unfold read_matrix.
      rewrite T1 by lia. rewrite M, Q1, Q2. cbv zeta. rewrite (created r c (fun m => m)) by (assumption || lia). rewrite T2 by lia.
      rewrite (count_ok count _ C Hn), Nat2Z.id. apply T. lia.
  Qed.
End C84.

Theorem C84_read : forall {S} (rd : text -> option (S * text)) on_fail storage_max row_major t h count lines es more r c m nnz,
  storage_max < 2 ^ 63 ->
  holds_lines t (h :: count :: lines ++ more) -> dimension_line h r c -> count_line count (Z.of_nat (length es)) ->
  Forall2 (fun l e => entry_line rd l (e_row e) (e_col e) (e_val e)) lines es ->
  r <= storage_max -> c <= storage_max -> Z.of_nat (length es) < 2 ^ 63 -> (row_major = false \/ r <= c) ->
  NoDup (map (fun e => (e_row e, e_col e)) es) -> Forall (fun e => 0 <= e_row e < r /\ 0 <= e_col e < c) es ->
  exists s' m', terminates_with (fun fuel => read_matrix rd on_fail storage_max row_major fuel (open_text t) m nnz) (Ok (s', m', Returned)) /\
    em_rows m' = r /\ em_cols m' = c /\ (forall i j v, em_at m' i j = Some v <-> In (mkE _ i j v) es) /\ still_holds s' more.
Proof.
  intros S rd on_fail sm rm t h count lines es more r c m nnz Hs H D C F Hr Hc Hn Ho ND B.
  assert (HH : two64 / 2 = 2 ^ 63) by (rewrite two64_eq; reflexivity). assert (L : length lines = length es) by (clear -F; induction F; cbn; congruence).
  destruct (read_run rd on_fail sm rm ltac:(lia) h count lines es more r c (open_text t)) with (extra := O) (m := m) (nnz := nnz) as (s' & m' & (G1 & G2 & G3) & H' & f0 & T); try assumption.
  - left. exists t. split; [reflexivity|exact H].
  - rewrite Nat.add_0_r, L. exact C.
  - rewrite Nat.add_0_r, L. lia.
  - exists s', m'. split; [exists f0; intros fuel Hf; rewrite T by exact Hf; reflexivity|]. auto.
Qed.
(** A first content line of another form: IOException, and the matrix is left as it was. *)
Theorem C84_other_first_line : forall {S} (rd : text -> option (S * text)) on_fail storage_max row_major t h cs m nnz,
  holds_lines t (h :: cs) -> ~ (exists r c, dimension_line h r c) ->
  exists s', terminates_with (fun fuel => read_matrix rd on_fail storage_max row_major fuel (open_text t) m nnz) (Ok (s', m, ThrewIOException)).
Proof.
  intros S rd on_fail sm rm t h cs m nnz H N. destruct (holds_next t h cs H) as (s' & _ & f & T). exists s'. exists f. intros fuel Hf. unfold read_matrix. rewrite T by exact Hf.
  destruct (regex_match h dimension_regex) eqn:E; [apply dimension_match in E; contradiction|reflexivity].
Qed.
(** (defect) A file that ends too early: no content line at all, no count, or fewer entries than
    announced.  The call never returns. *)
Theorem C84_short_file_refuted : forall {S} (rd : text -> option (S * text)) on_fail storage_max row_major t m nnz,
  storage_max < 2 ^ 63 ->
  holds_lines t [] \/
  (exists h r c, holds_lines t [h] /\ dimension_line h r c /\ r <= storage_max /\ c <= storage_max /\ (row_major = false \/ r <= c)) \/
  (exists h r c count lines es n, holds_lines t (h :: count :: lines) /\ dimension_line h r c /\ r <= storage_max /\ c <= storage_max /\ (row_major = false \/ r <= c) /\
     count_line count n /\ n < 2 ^ 63 /\ Z.of_nat (length lines) < n /\
     Forall2 (fun l e => entry_line rd l (e_row e) (e_col e) (e_val e)) lines es /\
     NoDup (map (fun e => (e_row e, e_col e)) es) /\ Forall (fun e => 0 <= e_row e < r /\ 0 <= e_col e < c) es) ->
  forall fuel, read_matrix rd on_fail storage_max row_major fuel (open_text t) m nnz = None.
Proof.
  intros S rd on_fail sm rm t m nnz Hs. assert (HH : two64 / 2 = 2 ^ 63) by (rewrite two64_eq; reflexivity).
  assert (Mono : forall f0, (forall fuel, (f0 <= fuel)%nat -> read_matrix rd on_fail sm rm fuel (open_text t) m nnz = None) -> forall fuel, read_matrix rd on_fail sm rm fuel (open_text t) m nnz = None).
  { intros f0 Hf fuel. destruct (read_matrix rd on_fail sm rm fuel (open_text t) m nnz) as [x|] eqn:E; [|reflexivity]. exfalso.
    assert (ML : forall k, (fuel <= k)%nat -> read_matrix rd on_fail sm rm k (open_text t) m nnz = Some x).
    { intros k Hk. unfold read_matrix in E |- *. destruct (next_line fuel (open_text t)) as [[l s1]|] eqn:E1; [|discriminate]. unfold next_line in E1 |- *. rewrite (loop_mono _ _ _ _ E1 k Hk).
      destruct (regex_match l dimension_regex); [|exact E]. cbv zeta in E |- *. destruct (obind _ _); [|exact E].
      destruct (next_line fuel s1) as [[l2 s2]|] eqn:E2; [|discriminate]. unfold next_line in E2. rewrite (loop_mono _ _ _ _ E2 k Hk).
      revert E. generalize (Z.to_nat (to_index (strtoul l2))). intros n. generalize (@None (Z * S)) as old. intros old. clear E1 E2. revert s2 old a. induction n as [|n IH]; intros s2 old a E; [exact E|].
      cbn [read_entries] in E |- *. destruct (next_line fuel s2) as [[l3 s3]|] eqn:E3; [|discriminate]. unfold next_line in E3 |- *. rewrite (loop_mono _ _ _ _ E3 k Hk).
      destruct (parse_entry rd on_fail old l3) as [[[i j] v]|]; [|exact E]. destruct (em_insert a i j v); [|exact E]. apply IH. exact E. }
    pose proof (ML (Nat.max fuel f0) ltac:(lia)) as Q. rewrite Hf in Q by lia. discriminate. }
  intros [H|[(h & r & c & H & D & Hr & Hc & Ho)|(h & r & c & count & lines & es & n & H & D & Hr & Hc & Ho & C & Hn & Hl & F & ND & B)]].
  - intros fuel. unfold read_matrix. rewrite (still_none _ fuel); [reflexivity|]. left. eauto.
  - destruct (holds_next t h [] H) as (s1 & H1 & f & T). apply (Mono f). intros fuel Hf. unfold read_matrix. rewrite T by exact Hf.
    destruct (start_ok sm ltac:(lia) h r c D Hr Hc) as (P1 & P2 & Q1 & Q2 & M). rewrite M, Q1, Q2. cbv zeta.
    rewrite (created sm rm r c (fun m => m)) by (assumption || lia). rewrite (still_none s1 fuel H1). reflexivity.
  - destruct (read_run rd on_fail sm rm ltac:(lia) h count lines es [] r c (open_text t)) with (extra := (Z.to_nat n - length lines)%nat) (m := m) (nnz := nnz) as (s' & m' & _ & H' & f0 & T); try assumption.
    + left. exists t. rewrite app_nil_r. auto.
    + replace (length lines + (Z.to_nat n - length lines))%nat with (Z.to_nat n) by lia. rewrite Z2Nat.id by lia. exact C.
    + lia.
    + apply (Mono f0). intros fuel Hf. rewrite T by exact Hf. destruct (Z.to_nat n - length lines)%nat as [|k] eqn:Ek; [lia|]. cbn [read_entries]. rewrite (still_none s' fuel H'). reflexivity.
Qed.
(** (defect) row-major matrices with more rows than columns: Eigen is given too few reserve sizes. *)
Theorem C84_row_major_refuted : forall {S} (rd : text -> option (S * text)) on_fail storage_max t h cs r c m nnz,
  storage_max < 2 ^ 63 -> holds_lines t (h :: cs) -> dimension_line h r c -> r <= storage_max -> c < r ->
  terminates_with (fun fuel => read_matrix rd on_fail storage_max true fuel (open_text t) m nnz) UB.
Proof.
  intros S rd on_fail sm t h cs r c m nnz Hs H D Hr Hc. assert (HH : two64 / 2 = 2 ^ 63) by (rewrite two64_eq; reflexivity).
  destruct (holds_next t h cs H) as (s1 & _ & f & T). exists f. intros fuel Hf. unfold read_matrix. rewrite T by exact Hf.
  destruct (start_ok sm ltac:(lia) h r c D Hr ltac:(lia)) as (P1 & P2 & Q1 & Q2 & M). rewrite M, Q1, Q2. cbv zeta. unfold em_new.
  replace ((0 <=? r) && (r <=? sm) && (0 <=? c) && (c <=? sm))%bool with true by (symmetry; rewrite !andb_true_iff, !Z.leb_le; lia).
  cbn [obind]. unfold em_reserve. cbn [em_rows em_cols]. destruct (Z.leb_spec r c); [lia|reflexivity].
Qed.
(** (defect) A number of entries of 2^63 or more is not reported: it becomes a negative Index (strtoul stops
    at 2^64 - 1), no entry is read, and the entry lines are left in the stream. *)
Theorem C84_huge_count_refuted : forall {S} (rd : text -> option (S * text)) on_fail storage_max row_major t h count more r c n m nnz,
  storage_max < 2 ^ 63 ->
  holds_lines t (h :: count :: more) -> dimension_line h r c -> r <= storage_max -> c <= storage_max -> (row_major = false \/ r <= c) ->
  count_line count n -> 2 ^ 63 <= n ->
  exists s' m', terminates_with (fun fuel => read_matrix rd on_fail storage_max row_major fuel (open_text t) m nnz) (Ok (s', m', Returned)) /\
    em_rows m' = r /\ em_cols m' = c /\ (forall i j, em_at m' i j = None) /\ still_holds s' more.
Proof.
  intros S rd on_fail sm rm t h count more r c n m nnz Hs H D Hr Hc Ho (w & d & u & -> & Hw & Hd & Hu) Hn.
  assert (HH : two64 / 2 = 2 ^ 63) by (rewrite two64_eq; reflexivity). assert (H64 : two64 = 2 * 2 ^ 63) by (rewrite two64_eq; reflexivity).
  destruct (holds_next t h _ H) as (s1 & H1 & f1 & T1). destruct (still_next s1 _ _ H1) as (s2 & H2 & f2 & T2).
  destruct (start_ok sm ltac:(lia) h r c D Hr Hc) as (P1 & P2 & Q1 & Q2 & M).
  exists s2, (mkEM _ r c (fun _ _ => None)). split; [|auto]. exists (Nat.max f1 f2). intros fuel Hf. unfold read_matrix.
  rewrite T1 by lia. rewrite M, Q1, Q2. cbv zeta. rewrite (created sm rm r c (fun m => m)) by (assumption || lia). rewrite T2 by lia.
  rewrite (strtoul_any w d u n Hw Hd Hu). unfold to_index. destruct (Z.ltb_spec (Z.min n (two64 - 1)) (two64 / 2)) as [L|L]; [lia|].
  replace (Z.to_nat (Z.min n (two64 - 1) - two64)) with O by lia. reflexivity.
Qed.
(** (defect) A second line that does not begin with a number (optionally signed) is not reported: it counts as
    zero entries. *)
Theorem C84_no_count_refuted : forall {S} (rd : text -> option (S * text)) on_fail storage_max row_major t h w x u more r c m nnz,
  storage_max < 2 ^ 63 ->
  holds_lines t (h :: (w ++ x :: u) :: more) -> dimension_line h r c -> r <= storage_max -> c <= storage_max -> (row_major = false \/ r <= c) ->
  Forall space w -> ~ space x -> ~ digit x -> x <> "+"%char -> x <> "-"%char ->
  exists s' m', terminates_with (fun fuel => read_matrix rd on_fail storage_max row_major fuel (open_text t) m nnz) (Ok (s', m', Returned)) /\
    em_rows m' = r /\ em_cols m' = c /\ (forall i j, em_at m' i j = None) /\ still_holds s' more.
Proof.
  intros S rd on_fail sm rm t h w x u more r c m nnz Hs H D Hr Hc Ho Hw Hx1 Hx2 Hx3 Hx4.
  assert (HH : two64 / 2 = 2 ^ 63) by (rewrite two64_eq; reflexivity). assert (H64 : two64 = 2 * 2 ^ 63) by (rewrite two64_eq; reflexivity).
  destruct (holds_next t h _ H) as (s1 & H1 & f1 & T1). destruct (still_next s1 _ _ H1) as (s2 & H2 & f2 & T2).
  destruct (start_ok sm ltac:(lia) h r c D Hr Hc) as (P1 & P2 & Q1 & Q2 & M).
  exists s2, (mkEM _ r c (fun _ _ => None)). split; [|auto]. exists (Nat.max f1 f2). intros fuel Hf. unfold read_matrix.
  rewrite T1 by lia. rewrite M, Q1, Q2. cbv zeta. rewrite (created sm rm r c (fun m => m)) by (assumption || lia). rewrite T2 by lia.
  unfold strtoul. rewrite skip_spaces by exact Hw. rewrite skip_none by (intros c0 u0 Q; injection Q as <- _; exact Hx1).
  destruct (Ascii.eqb x "-"%char) eqn:E1; [apply Ascii.eqb_eq in E1; contradiction|]. destruct (Ascii.eqb x "+"%char) eqn:E2; [apply Ascii.eqb_eq in E2; contradiction|].
  change (take_digits (x :: u)) with (take_digits ([] ++ x :: u)). rewrite (take_run [] (x :: u) ltac:(constructor)) by (intros c0 u0 Q; injection Q as <- _; exact Hx2). cbn [fst]. change (horner []) with 0. cbv zeta. destruct (Z.leb_spec two64 0); [lia|]. unfold to_index. destruct (Z.ltb_spec 0 (two64 / 2)); [|lia]. reflexivity.
Qed.
(** (defect) An entry line that does not begin with a number is not reported.  As first entry it is undefined behaviour
    (column and value are uninitialised); later it stands for the element of row 0 with column and value of the entry
    before it, and that is undefined behaviour only if this position has been given already. *)
Theorem C84_bad_entry_refuted : forall {S} (rd : text -> option (S * text)) on_fail storage_max row_major t h count lines es w x u more r c n m nnz,
  storage_max < 2 ^ 63 ->
  holds_lines t (h :: count :: lines ++ (w ++ x :: u) :: more) -> dimension_line h r c -> r <= storage_max -> c <= storage_max -> (row_major = false \/ r <= c) ->
  count_line count n -> Z.of_nat (length es) < n < 2 ^ 63 ->
  Forall2 (fun l e => entry_line rd l (e_row e) (e_col e) (e_val e)) lines es ->
  NoDup (map (fun e => (e_row e, e_col e)) es) -> Forall (fun e => 0 <= e_row e < r /\ 0 <= e_col e < c) es ->
  Forall space w -> ~ space x -> ~ digit x -> x <> "+"%char -> x <> "-"%char ->
  let read := fun fuel => read_matrix rd on_fail storage_max row_major fuel (open_text t) m nnz in
  (es = [] -> terminates_with read UB) /\
  (forall es' e, es = es' ++ [e] ->
    ((exists e', In e' es /\ e_row e' = 0 /\ e_col e' = e_col e) -> terminates_with read UB) /\
    (~ (exists e', In e' es /\ e_row e' = 0 /\ e_col e' = e_col e) -> n = Z.of_nat (length es) + 1 ->
       exists s' m', terminates_with read (Ok (s', m', Returned)) /\ em_rows m' = r /\ em_cols m' = c /\
         (forall i j v, em_at m' i j = Some v <-> In (mkE _ i j v) (es ++ [mkE _ 0 (e_col e) (e_val e)])) /\ still_holds s' more)).
Proof.
  intros S rd on_fail sm rm t h count lines es w x u more r c n m nnz Hs H D Hr Hc Ho C Hn F ND B Hw Hx1 Hx2 Hx3 Hx4 read.
  assert (HH : two64 / 2 = 2 ^ 63) by (rewrite two64_eq; reflexivity). assert (L : length lines = length es) by (clear -F; induction F; cbn; congruence).
  pose proof L as L'. change (@length (list ascii) lines) with (@length text lines) in L'.
  destruct (read_run rd on_fail sm rm ltac:(lia) h count lines es ((w ++ x :: u) :: more) r c (open_text t)) with (extra := (Z.to_nat n - length lines)%nat) (m := m) (nnz := nnz) as (s' & m' & G & H' & f0 & T); try assumption.
  { left. exists t. split; [reflexivity|exact H]. }
  { match goal with |- count_line _ ?z => replace z with n by lia end. exact C. }
  { lia. }
  destruct (Z.to_nat n - length lines)%nat as [|k] eqn:Ek; [lia|].
  destruct (still_next s' _ _ H') as (s2 & H2 & f2 & T2).
  assert (Sc : scan_int (w ++ x :: u) = (0, None)).
  { unfold scan_int. rewrite skip_spaces by exact Hw. rewrite skip_none by (intros c0 u0 Q; injection Q as <- _; exact Hx1).
    destruct (Ascii.eqb x "-"%char) eqn:E1; [apply Ascii.eqb_eq in E1; contradiction|]. destruct (Ascii.eqb x "+"%char) eqn:E2; [apply Ascii.eqb_eq in E2; contradiction|].
    change (take_digits (x :: u)) with (take_digits ([] ++ x :: u)). rewrite (take_run [] (x :: u) ltac:(constructor)) by (intros c0 u0 Q; injection Q as <- _; exact Hx2). reflexivity. }
  cbn [read_entries] in T. split.
  - intros ->. exists (Nat.max f0 f2). intros fuel Hf. unfold read. rewrite T by lia. rewrite T2 by lia. unfold parse_entry. rewrite Sc. reflexivity.
  - intros es' e Ee. rewrite Ee, fold_left_app in T. cbn [fold_left] in T. destruct G as (G1 & G2 & G3).
    assert (Be : 0 <= e_row e < r /\ 0 <= e_col e < c) by (rewrite Forall_forall in B; apply B; rewrite Ee; apply in_or_app; right; left; reflexivity).
    assert (I : em_insert m' 0 (e_col e) (e_val e) = match em_at m' 0 (e_col e) with Some _ => UB | None => Ok (mkEM _ (em_rows m') (em_cols m') (fun a b => if ((a =? 0) && (b =? e_col e))%bool then Some (e_val e) else em_at m' a b)) end).
    { unfold em_insert. rewrite G1, G2. replace ((0 <=? 0) && (0 <? r) && (0 <=? e_col e) && (e_col e <? c))%bool with true by (symmetry; rewrite !andb_true_iff, !Z.leb_le, !Z.ltb_lt; lia). reflexivity. }
    split.
    + intros (e' & He' & R0 & C0). exists (Nat.max f0 f2). intros fuel Hf. unfold read. rewrite T by lia. rewrite T2 by lia. unfold parse_entry. rewrite Sc, I.
      destruct (em_at m' 0 (e_col e)) eqn:Ea; [reflexivity|]. exfalso. assert (Q : em_at m' 0 (e_col e) = Some (e_val e')); [|rewrite Ea in Q; discriminate].
      apply G3. rewrite <- R0, <- C0. destruct e'; exact He'.
    + intros Nn En. destruct (em_at m' 0 (e_col e)) as [v|] eqn:Ea.
      { exfalso. apply Nn. apply G3 in Ea. exists (mkE _ 0 (e_col e) v). auto. }
      exists s2. eexists. split.
      * exists (Nat.max f0 f2). intros fuel Hf. unfold read. rewrite T by lia. rewrite T2 by lia. unfold parse_entry. rewrite Sc, I. replace k with O by lia. reflexivity.
      * split; [exact G1|]. split; [exact G2|]. split; [|exact H2]. intros i j v. cbn [em_at]. rewrite in_app_iff, <- G3. cbn [In].
        destruct ((i =? 0) && (j =? e_col e))%bool eqn:Eq.
        -- apply andb_true_iff in Eq as [Q1 Q2]. apply Z.eqb_eq in Q1, Q2. subst i j. rewrite Ea. split.
           ++ intros Q. injection Q as <-. right. left. reflexivity.
           ++ intros [Q|[Q|[]]]; [discriminate|]. injection Q as <-. reflexivity.
        -- split; [intros Q; left; exact Q|]. intros [Q|[Q|[]]]; [exact Q|]. injection Q as <- <- _. rewrite !Z.eqb_refl in Eq. discriminate.
Qed.
(** (defect) Dimensions beyond the storage index type of the matrix are not reported either: Eigen is asked
    for a matrix it cannot have. *)
Theorem C84_huge_dimensions_refuted : forall {S} (rd : text -> option (S * text)) on_fail storage_max row_major t h cs r c m nnz,
  storage_max < 2 ^ 63 -> holds_lines t (h :: cs) -> dimension_line h r c -> storage_max < r \/ storage_max < c ->
  terminates_with (fun fuel => read_matrix rd on_fail storage_max row_major fuel (open_text t) m nnz) UB.
Proof.
  intros S rd on_fail sm rm t h cs r c m nnz Hs H D Hb.
  assert (HH : two64 / 2 = 2 ^ 63) by (rewrite two64_eq; reflexivity). assert (H64 : two64 = 2 * 2 ^ 63) by (rewrite two64_eq; reflexivity).
  destruct (holds_next t h cs H) as (s1 & _ & f & T). exists f. intros fuel Hf. unfold read_matrix. rewrite T by exact Hf.
  replace (regex_match h dimension_regex) with true by (symmetry; apply dimension_match; eauto).
  destruct (dimension_any h r c D) as [-> ->]. cbv zeta. unfold em_new, to_index.
  match goal with |- context [if ?b then _ else _] => match b with context [sm] => replace b with false end end; [reflexivity|].
  symmetry. rewrite !andb_false_iff, !Z.leb_gt.
  destruct (Z.ltb_spec (Z.min r (two64 - 1)) (two64 / 2)), (Z.ltb_spec (Z.min c (two64 - 1)) (two64 / 2)); lia.
Qed.
(** (defect) write_matrix writes neither the dimensions nor the number of entries.  Reading what it wrote
    throws if at least one element is stored, and never returns otherwise. *)
Theorem C84_not_read_back_refuted : forall {S} (rd : text -> option (S * text)) on_fail storage_max row_major (fmt : S -> text) outer m nnz,
  (concat outer <> [] -> exists s', terminates_with (fun fuel => read_matrix rd on_fail storage_max row_major fuel (open_text (write_matrix row_major fmt outer)) m nnz) (Ok (s', m, ThrewIOException))) /\
  (concat outer = [] -> forall fuel, read_matrix rd on_fail storage_max row_major fuel (open_text (write_matrix row_major fmt outer)) m nnz = None).
Proof.
  intros S rd on_fail sm rm fmt outer m nnz.
  assert (G : forall o k, (concat o = [] -> write_from rm fmt k o = []) /\
    (concat o <> [] -> exists a b u, write_from rm fmt k o = dec a ++ [tab] ++ dec b ++ [tab] ++ u)).
  { induction o as [|inner o IH]; intros k; cbn [concat write_from]; [split; [reflexivity|intros Q; contradiction]|]. destruct inner as [|e inner].
    - cbn [app flat_map]. apply IH.
    - split; [discriminate|]. intros _. cbn [flat_map]. repeat (rewrite <- app_assoc; cbn [app]). do 3 eexists. reflexivity. }
  destruct (G outer 0) as [G1 G2]. unfold write_matrix. split.
  - intros Q. destruct (G2 Q) as (a & b & u & ->). destruct (text_file (dec a ++ [tab] ++ dec b ++ [tab] ++ u)) as (complete & last & E & L).
    assert (Cx : forall ls, exists cs, content ls cs).
    { induction ls as [|l ls [cs IH]]; [exists []; constructor|]. destruct (is_skippable_line l) eqn:Es.
      - exists cs. constructor; [apply skippable_ok, Es|exact IH].
      - exists (l :: cs). constructor; [intros Z0; apply skippable_ok in Z0; congruence|exact IH]. }
    assert (N10 : no_newline (dec a ++ [tab] ++ dec b ++ [tab])).
    { intros I. apply in_app_or in I as [I|I]; [exact (dec_not _ 10 ltac:(lia) I)|]. cbn [app In] in I. destruct I as [I|I]; [discriminate|].
      apply in_app_or in I as [I|I]; [exact (dec_not _ 10 ltac:(lia) I)|]. cbn [In] in I. destruct I as [I|[]]; discriminate. }
    assert (First : exists v ls, complete ++ [last] = (dec a ++ [tab] ++ dec b ++ [tab] ++ v) :: ls).
    { destruct complete as [|l complete].
      - unfold file in E. cbn [flat_map app] in E. exists u, []. rewrite <- E. reflexivity.
      - unfold file in E. cbn [flat_map] in E. rewrite <- !app_assoc in E. cbn [app] in E. cbn [app].
        assert (X : forall p l r, no_newline p -> p ++ u = l ++ ascii_of_nat 10 :: r -> exists v, l = p ++ v).
        { clear. induction p as [|x p IH]; intros l r Hp E; [exists l; reflexivity|]. destruct l as [|y l]; cbn [app] in E; injection E as -> E.
          - exfalso. apply Hp. left. reflexivity.
          - destruct (IH l r) as [v ->]; [intros I; apply Hp; right; exact I|exact E|]. exists v. reflexivity. }
        edestruct (X (dec a ++ [tab] ++ dec b ++ [tab]) l) as [v ->]; [exact N10| |].
        + repeat (rewrite <- app_assoc; cbn [app]). exact E.
        + exists v. eexists. repeat (rewrite <- app_assoc; cbn [app]). reflexivity. }
    destruct First as (v & ls & First). destruct (Cx ls) as [cs Hcs].
    apply (C84_other_first_line rd on_fail sm rm _ (dec a ++ [tab] ++ dec b ++ [tab] ++ v) cs).
    + exists complete, last. split; [exact E|]. split; [exact L|]. rewrite First. constructor; [apply starts_with_digit|exact Hcs].
    + intros (r & c & D). assert (Hx : regex_match (dec a ++ [tab] ++ dec b ++ [tab] ++ v) dimension_regex = true) by (apply dimension_match; eauto). clear D.
      apply dimension_match in Hx as (r' & c' & w1 & d1 & w2 & w3 & d2 & w4 & Eq & S1 & S2 & S3 & S4 & N1 & N2).
      pose proof (dec_digits a) as Da. pose proof (dec_digits b) as Db.
      assert (T1 : take_digits (skip_space (dec a ++ [tab] ++ dec b ++ [tab] ++ v)) = (dec a, [tab] ++ dec b ++ [tab] ++ v)).
      { rewrite skip_none. 2:{ intros c0 u0 Q0. destruct (dec a) as [|c1 s1] eqn:Ed; [exact (False_ind _ (dec_nonempty a Ed))|]. cbn in Q0. injection Q0 as <- _. apply digit_not_space. exact (Forall_inv Da). }
        apply take_run; [exact Da|]. intros c0 u0 Q0. cbn in Q0. injection Q0 as <- _. unfold Spec_EigenIo.digit. cbn. lia. }
      rewrite Eq in T1. rewrite skip_spaces in T1 by exact S1. destruct N1 as (Ne1 & Nd1 & _).
      rewrite skip_none in T1. 2:{ intros c0 u0 Q0. destruct d1 as [|c1 s1]; [contradiction|]. cbn in Q0. injection Q0 as <- _. apply digit_not_space. exact (Forall_inv Nd1). }
      rewrite take_run in T1; [|exact Nd1|apply after_spaces; [exact S2|]; intros c0 u0 Q0; cbn in Q0; injection Q0 as <- _; unfold Spec_EigenIo.digit; cbn; lia].
      injection T1 as _ T1. apply (f_equal skip_space) in T1. rewrite skip_spaces in T1 by exact S2. cbn [app skip_space] in T1.
      replace (class_s "x"%char) with false in T1 by reflexivity. replace (class_s tab) with true in T1 by reflexivity.
      rewrite skip_none in T1. 2:{ intros c0 u0 Q0. destruct (dec b) as [|c1 s1] eqn:Ed; [exact (False_ind _ (dec_nonempty b Ed))|]. cbn in Q0. injection Q0 as <- _. apply digit_not_space. exact (Forall_inv Db). }
      destruct (dec b) as [|c1 s1] eqn:Ed; [exact (dec_nonempty b Ed)|]. cbn in T1. injection T1 as <- _. apply Forall_inv in Db. unfold Pf_Io.digit in Db. cbn in Db. lia.
  - intros Q fuel. rewrite G1 by exact Q. unfold read_matrix. rewrite (still_none _ fuel); [reflexivity|]. left. exists []. split; [reflexivity|].
    exists [], []. split; [reflexivity|]. split; [split; [constructor|intros []]|]. cbn [app]. constructor; [|constructor]. exists [], []. split; [reflexivity|]. split; [constructor|left; reflexivity].
Qed.

(** Put behind a line with the dimensions and a line with the number of stored elements, the output of
    write_matrix is read back element by element, for every value format that operator>> understands. *)
Fixpoint entries_from {S} (rm : bool) (k : Z) (outer : list (list (Z * S))) : list (tentry S) :=
  match outer with
  | [] => []
  | inner :: o => map (fun e => if rm then mkE _ k (fst e) (snd e) else mkE _ (fst e) k (snd e)) inner ++ entries_from rm (k + 1) o
  end.
Lemma entries_length {S} rm (outer : list (list (Z * S))) : forall k, length (entries_from rm k outer) = length (concat outer).
Proof. induction outer as [|i o IH]; intros k; cbn; [reflexivity|]. rewrite !app_length, map_length, IH. reflexivity. Qed.
Lemma entries_stored {S} rm (outer : list (list (Z * S))) i j v : forall k0,
  In (mkE _ i j v) (entries_from rm k0 outer) <-> exists k inner, nth_error outer k = Some inner /\
    (if rm then i = k0 + Z.of_nat k /\ In (j, v) inner else j = k0 + Z.of_nat k /\ In (i, v) inner).
Proof.
  induction outer as [|inner o IH]; intros k0; cbn [entries_from].
  - split; [intros []|]. intros (k & inner & H & _). destruct k; discriminate.
  - rewrite in_app_iff, in_map_iff, IH. split.
    + intros [((x & w) & E & H)|(k & inn & H1 & H2)].
      * exists O, inner. split; [reflexivity|]. destruct rm; cbn in E; injection E as -> -> ->; (split; [lia|exact H]).
      * exists (Datatypes.S k), inn. split; [exact H1|]. destruct rm; (destruct H2 as [-> H2]; split; [lia|exact H2]).
    + intros (k & inn & H1 & H2). destruct k as [|k]; cbn [nth_error] in H1.
      * injection H1 as ->. left. destruct rm; destruct H2 as [-> H2]; [exists (j, v)|exists (i, v)]; (split; [cbn; f_equal; lia|exact H2]).
      * right. exists k, inn. split; [exact H1|]. destruct rm; (destruct H2 as [-> H2]; split; [lia|exact H2]).
Qed.
Lemma entries_nodup {S} rm (outer : list (list (Z * S))) (Q : Forall (fun inner => NoDup (map fst inner)) outer) : forall k,
  NoDup (map (fun e => (e_row e, e_col e)) (entries_from rm k outer)).
Proof.
  induction Q as [|inner o H Q IH]; intros k; cbn [entries_from map]; [constructor|]. rewrite map_app, map_map.
  assert (App : forall (A : Type) (l1 l2 : list A), NoDup l1 -> NoDup l2 -> (forall x, In x l1 -> ~ In x l2) -> NoDup (l1 ++ l2)).
  { clear. intros A l1 l2 H1 H2 H. induction H1 as [|x l1 Hx H1 IH]; [exact H2|]. cbn. constructor.
    - intros I. apply in_app_or in I as [I|I]; [exact (Hx I)|]. exact (H x (or_introl eq_refl) I).
    - apply IH. intros y Hy. apply H. right. exact Hy. }
  apply App; [|apply IH|].
  - clear -H. induction inner as [|e inner IHi]; [constructor|]. cbn [map] in *. inversion H as [|? ? H1 H2]; subst. constructor; [|apply IHi, H2].
    intros I. apply H1. apply in_map_iff in I as (e' & E & I). apply in_map_iff. exists e'. split; [|exact I]. destruct rm; cbn in E; congruence.
  - intros [a b] I1 I2. apply in_map_iff in I1 as (e & E1 & I1). apply in_map_iff in I2 as ([a' b' v'] & E2 & I2). apply entries_stored in I2 as (k' & inn & H1 & H2).
    destruct rm; cbn in E1, E2; injection E1 as <- <-; injection E2 as -> ->; destruct H2 as [H2 _]; lia.
Qed.
Lemma entry_lines {S} (rd : text -> option (S * text)) fmt (good_fmt : forall v, (exists u, rd (fmt v) = Some (v, u)) /\ no_newline (fmt v) /\ (forall c u, fmt v = c :: u -> ~ space c)) rm
  (outer : list (list (Z * S))) : forall k, 0 <= k -> Forall (Forall (fun e => 0 <= fst e)) outer ->
  exists lines, write_from rm fmt k outer = flat_map (fun l => l ++ [ascii_of_nat 10]) lines /\ Forall no_newline lines /\ Forall (fun l => ~ blank_or_comment l) lines /\
    Forall2 (fun l e => entry_line rd l (e_row e) (e_col e) (e_val e)) lines (entries_from rm k outer).
Proof.
  assert (One : forall a b v, 0 <= a -> 0 <= b -> let l := dec a ++ [tab] ++ dec b ++ [tab] ++ fmt v in no_newline l /\ ~ blank_or_comment l /\ entry_line rd l a b v).
  { intros a b v Ha Hb l. destruct (good_fmt v) as ((u & R) & F1 & F2). split; [|split].
    - intros I. apply in_app_or in I as [I|I]; [exact (dec_not _ 10 ltac:(lia) I)|]. cbn [app In] in I. destruct I as [I|I]; [discriminate|].
      apply in_app_or in I as [I|I]; [exact (dec_not _ 10 ltac:(lia) I)|]. cbn [app In] in I. destruct I as [I|I]; [discriminate|exact (F1 I)].
    - apply starts_with_digit.
    - assert (Tb : Forall space [tab]) by (constructor; [unfold space; cbn; auto|constructor]).
      exists [], (dec a), [tab], (dec b), [tab], (fmt v), u. split; [reflexivity|]. split; [constructor|]. split; [exact Tb|]. split; [exact Tb|]. split; [discriminate|]. split; [discriminate|].
      split; [apply dec_numeral, Ha|]. split; [apply dec_numeral, Hb|]. split; [exact F2|exact R]. }
  induction outer as [|inner o IH]; intros k Hk Q; cbn [write_from entries_from].
  - exists []. split; [reflexivity|]. repeat split; constructor.
  - destruct (IH (k + 1) ltac:(lia) (Forall_inv_tail Q)) as (lines & -> & L1 & L2 & L3). apply Forall_inv in Q.
    induction Q as [|e inner He Q IHi]; cbn [flat_map map app].
    + exists lines. auto.
    + destruct IHi as (ls & E & M1 & M2 & M3).
      set (a := if rm then k else fst e). set (b := if rm then fst e else k).
      destruct (One a b (snd e)) as (O1 & O2 & O3); [subst a; destruct rm; lia|subst b; destruct rm; lia|].
      exists ((dec a ++ [tab] ++ dec b ++ [tab] ++ fmt (snd e)) :: ls). split; [|split; [|split]].
      * cbn [flat_map]. rewrite <- E. repeat (rewrite <- app_assoc; cbn [app]). reflexivity.
      * constructor; assumption.
      * constructor; assumption.
      * constructor; [|exact M3]. subst a b. destruct rm; exact O3.
Qed.
Theorem C84_headed : forall {S} (rd : text -> option (S * text)) on_fail (fmt : S -> text) storage_max row_major rows cols outer m nnz,
  (forall v, (exists u, rd (fmt v) = Some (v, u)) /\ no_newline (fmt v) /\ (forall c u, fmt v = c :: u -> ~ space c)) ->
  storage_max < 2 ^ 63 -> 0 <= rows <= storage_max -> 0 <= cols <= storage_max -> (row_major = false \/ rows <= cols) ->
  valid_storage row_major rows cols outer -> Z.of_nat (length (concat outer)) < 2 ^ 63 ->
  exists s' m', terminates_with (fun fuel => read_matrix rd on_fail storage_max row_major fuel
      (open_text (dec rows ++ ["x"%char] ++ dec cols ++ [newline] ++ dec (Z.of_nat (length (concat outer))) ++ [newline] ++ write_matrix row_major fmt outer)) m nnz)
      (Ok (s', m', Returned)) /\
    em_rows m' = rows /\ em_cols m' = cols /\ (forall i j v, em_at m' i j = Some v <-> stored row_major outer i j v).
Proof.
  intros S rd on_fail fmt sm rm rows cols outer m nnz GF Hs Hr Hc Ho [V1 V2] Hn.
  assert (NN : Forall (Forall (fun e : Z * S => 0 <= fst e)) outer).
  { eapply Forall_impl; [|exact V2]. intros inner [_ H]. eapply Forall_impl; [|exact H]. cbn. intros e He. lia. }
  destruct (entry_lines rd fmt GF rm outer 0 ltac:(lia) NN) as (lines & E & L1 & L2 & L3).
  set (h := dec rows ++ ["x"%char] ++ dec cols). set (n := dec (Z.of_nat (length (concat outer)))).
  assert (Xd : forall c u, ["x"%char] ++ dec cols = c :: u -> True) by auto.
  destruct (C84_read rd on_fail sm rm (file (h :: n :: lines) []) h n lines (entries_from rm 0 outer) [] rows cols m nnz) as (s' & m' & T & M1 & M2 & M3 & _); try assumption; try lia.
  - exists (h :: n :: lines), []. split; [reflexivity|]. split.
    + split; [|intros []]. constructor; [|constructor; [|exact L1]].
      * intros I. apply in_app_or in I as [I|I]; [exact (dec_not _ 10 ltac:(lia) I)|]. cbn [app In] in I. destruct I as [I|I]; [discriminate|exact (dec_not _ 10 ltac:(lia) I)].
      * exact (dec_not _ 10 ltac:(lia)).
    + cbn [app]. rewrite app_nil_r. constructor; [apply starts_with_digit|]. constructor; [rewrite <- (app_nil_r n); apply starts_with_digit|].
      clear -L2. induction L2 as [|l ls H L2 IH]; cbn [app]; [|constructor; assumption]. constructor; [|constructor]. exists [], []. split; [reflexivity|]. split; [constructor|left; reflexivity].
  - exists [], (dec rows), [], [], (dec cols), []. split; [unfold h; cbn [app]; rewrite app_nil_r; reflexivity|]. do 4 (split; [constructor|]). split; apply dec_numeral; lia.
  - exists [], n, []. split; [cbn; rewrite app_nil_r; reflexivity|]. split; [constructor|]. rewrite entries_length. split; [apply dec_numeral; lia|]. intros c u Q. discriminate.
  - rewrite entries_length. exact Hn.
  - apply entries_nodup. eapply Forall_impl; [|exact V2]. intros inner [H _]. exact H.
  - apply Forall_forall. intros [i j v] I. apply entries_stored in I as (k & inner & H1 & H2). cbn.
    pose proof (nth_error_In _ _ H1) as I. rewrite Forall_forall in V2. destruct (V2 inner I) as [_ B]. rewrite Forall_forall in B.
    assert (Hk : (k < length outer)%nat) by (apply nth_error_Some; congruence).
    destruct rm; destruct H2 as [-> H2]; apply B in H2; cbn in H2; lia.
  - exists s', m'. split; [|split; [exact M1|split; [exact M2|]]].
    + replace (dec rows ++ ["x"%char] ++ dec cols ++ [newline] ++ n ++ [newline] ++ write_matrix rm fmt outer) with (file (h :: n :: lines) []); [exact T|].
      unfold file, write_matrix. cbn [flat_map]. rewrite app_nil_r, E. unfold h. repeat (rewrite <- app_assoc; cbn [app]). reflexivity.
    + intros i j v. rewrite M3. apply (entries_stored rm outer i j v 0).
Qed.
