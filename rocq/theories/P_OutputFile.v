(** PROPERTY C122: the output files can be read back, row by row. *)
From Coq Require Import Reals Lra Lia Ascii String List ZArith Sorted.
From Verif Require Import Base M_Operator M_Lattice Spec_Lattice Pf_Lattice Spec_LatticeReal M_Basis Pf_Basis P_Basis M_Matrix M_Ode M_Dispersion M_OpenMP Spec_OpenMP M_Expectation P_Expectation M_SiteOccupation Pf_SiteOccupation P_SiteOccupation
  M_TimeLoop Spec_TimeLoop Pf_Matrix Spec_Matrix Pf_Matrix2 P_Matrix Spec_Stability Pf_Stability Pf_Stability2 Pf_Stability3 P_Stability Spec_Programs M_Programs Pf_Programs Pf_Programs2 P_Programs
  M_Rounding M_Double P_Rounding M_RoundedMeasurement Pf_RoundedMeasurement5 P_RoundedMeasurement P_RoundedMeasurement2 P_RoundedMeasurement4 M_DoublePrograms Pf_DoubleTime Spec_DoublePrograms Pf_DoublePrograms P_DoublePrograms.
From Verif Require Import M_Text M_Io Spec_Text M_Cli P_Io P_Cli M_Ostream Spec_Numeral P_Ostream M_OutputFile Spec_Table.
Import ListNotations.
Local Open Scope R_scope.
Local Open Scope list_scope.
Local Notation len u := (Z.of_nat (length u)).

Lemma pieces_some c l : exists p ps, pieces c l = p :: ps.
Proof. induction l as [|a l (p & ps & E)]; [exists [], []; reflexivity|]. cbn. rewrite E. destruct (Ascii.eqb a c); eauto. Qed.
Lemma pieces_one c l : ~ In c l -> pieces c l = [l].
Proof.
  induction l as [|a l IH]; intros H; [reflexivity|]. cbn. rewrite IH by (intros Q; apply H; right; exact Q). destruct (Ascii.eqb_spec a c) as [->|]; [exfalso; apply H; left; reflexivity|reflexivity].
Qed.
Lemma pieces_next c l r : ~ In c l -> pieces c (l ++ c :: r) = l :: pieces c r.
Proof.
  induction l as [|a l IH]; intros H; cbn [app pieces].
  - destruct (pieces_some c r) as (p & ps & ->). rewrite Ascii.eqb_refl. reflexivity.
  - rewrite IH by (intros Q; apply H; right; exact Q). destruct (Ascii.eqb_spec a c) as [->|]; [exfalso; apply H; left; reflexivity|reflexivity].
Qed.
Lemma pieces_lines c ls : Forall (fun l => ~ In c l) ls -> pieces c (flat_map (fun l => l ++ [c]) ls) = ls ++ [[]].
Proof.
  intros H. induction H as [|l ls Hl _ IH]; [reflexivity|]. cbn [flat_map]. rewrite <- app_assoc. cbn [app]. rewrite pieces_next by exact Hl. rewrite IH. reflexivity.
Qed.
Lemma pieces_row c l r : ~ In c l -> Forall (fun l => ~ In c l) r -> pieces c (l ++ flat_map (fun l => c :: l) r) = l :: r.
Proof.
  intros Hl H. revert l Hl. induction H as [|k r Hk _ IH]; intros l Hl; cbn [flat_map]; [rewrite app_nil_r; apply pieces_one, Hl|]. cbn [app]. rewrite pieces_next by exact Hl. f_equal. apply IH, Hk.
Qed.
Lemma number_not (n : nat) t : Forall number_character t -> In n [9%nat; 10%nat] -> ~ In (ascii_of_nat n) t.
Proof.
  intros F Hn Hc. rewrite Forall_forall in F. specialize (F _ Hc). unfold number_character in F. cbn in F, Hn. destruct Hn as [<-|[<-|[]]]; repeat (destruct F as [F|F]; [discriminate|]); exact F.
Qed.
Lemma show6_not n x : In n [9%nat; 10%nat] -> ~ In (ascii_of_nat n) (show6 x).
Proof. apply number_not, (C121_word x). Qed.
(** a row of numbers *)
Definition number_row (x : R) (l : list R) : text := show6 x ++ flat_map (fun t => ascii_of_nat 9 :: t) (map show6 l).
(** y is what the printed x says *)
Definition shown (x y : R) : Prop := numeral (show6 x) = Some y.
Lemma shown_near l r : Forall2 shown l r -> Forall2 near6 l r.
Proof. intros H. induction H as [|x y l r H _ IH]; constructor; [|exact IH]. destruct (C121_error x) as (z & E & N). unfold shown in H. rewrite H in E. injection E as <-. exact N. Qed.
Lemma shown_rows {A} (f : A -> list R) ms t : Forall2 (fun m r => Forall2 shown (f m) r) ms t -> Forall2 (fun m r => Forall2 near6 (f m) r) ms t.
Proof. intros H. induction H; constructor; [apply shown_near; assumption|assumption]. Qed.
Lemma all_read l : exists r, all_some (map numeral (map show6 l)) = Some r /\ Forall2 shown l r.
Proof.
  induction l as [|x l (r & E & F)]; [exists []; split; [reflexivity|constructor]|]. destruct (C121_error x) as (y & Ey & _). exists (y :: r). cbn [map all_some]. rewrite Ey, E. split; [reflexivity|]. constructor; [exact Ey|exact F].
Qed.
Lemma row_read x l : exists r, row (number_row x l) = Some r /\ Forall2 shown (x :: l) r.
Proof.
  unfold row, number_row. rewrite pieces_row; [|apply show6_not; left; reflexivity|apply Forall_forall; intros t Ht; apply in_map_iff in Ht as (y & <- & _); apply show6_not; left; reflexivity].
  exact (all_read (x :: l)).
Qed.
Lemma row_line x l : ~ In (ascii_of_nat 10) (number_row x l) /\ comment (number_row x l) = false.
Proof.
  unfold number_row. split.
  - intros H. apply in_app_or in H as [H|H]; [apply (show6_not 10 x) in H; [exact H|right; left; reflexivity]|]. apply in_flat_map in H as (t & Ht & H). apply in_map_iff in Ht as (y & <- & _). destruct H as [H|H]; [discriminate|]. apply (show6_not 10 y) in H; [exact H|right; left; reflexivity].
  - destruct (C121_word x) as (F & N & _). destruct (show6 x) as [|c t]; [contradiction|]. cbn. inversion F as [|? ? Hc _]; subst. destruct (Ascii.eqb_spec c "#") as [->|]; [|reflexivity]. exfalso. unfold number_character in Hc. cbn in Hc. repeat (destruct Hc as [Hc|Hc]; [discriminate|]). exact Hc.
Qed.
(** comments, and after them rows of numbers *)
Lemma table_read (heads : list text) (rows : list (R * list R)) :
  Forall (fun l => ~ In (ascii_of_nat 10) l /\ comment l = true) heads ->
  exists t, table (file heads [] ++ flat_map (fun m => number_row (fst m) (snd m) ++ [newline]) rows) = Some t /\ Forall2 (fun m r => Forall2 shown (fst m :: snd m) r) rows t.
Proof.
  intros H. set (bodies := map (fun m : R * list R => number_row (fst m) (snd m)) rows).
  assert (E : file heads [] ++ flat_map (fun m => number_row (fst m) (snd m) ++ [newline]) rows = flat_map (fun l => l ++ [ascii_of_nat 10]) (heads ++ bodies)).
  { unfold file, bodies. rewrite app_nil_r, flat_map_app. f_equal. rewrite flat_map_concat_map, flat_map_concat_map, map_map. reflexivity. }
  rewrite E. unfold table. rewrite pieces_lines.
  2:{ apply Forall_app. split; [eapply Forall_impl; [|exact H]; intros l [Q _]; exact Q|]. unfold bodies. apply Forall_forall. intros l Hl. apply in_map_iff in Hl as (m & <- & _). apply row_line. }
  rewrite removelast_last, filter_app.
  assert (F1 : filter (fun l => negb (comment l)) heads = []).
  { clear -H. induction H as [|l heads [_ Hl] _ IH]; [reflexivity|]. cbn. rewrite Hl. exact IH. }
  assert (F2 : filter (fun l => negb (comment l)) bodies = bodies).
  { unfold bodies. clear. induction rows as [|m rows IH]; [reflexivity|]. cbn [map filter]. rewrite (Logic.proj2 (row_line (fst m) (snd m))). cbn [negb]. rewrite IH. reflexivity. }
  rewrite F1, F2. cbn [app]. unfold bodies. clear. induction rows as [|[x l] rows (t & Et & Ft)]; [exists []; split; [reflexivity|constructor]|].
  destruct (row_read x l) as (r & Er & Fr). exists (r :: t). cbn [map all_some fst snd]. rewrite Er, Et. split; [reflexivity|]. constructor; [exact Fr|exact Ft].
Qed.
Lemma header_comments infos all : Forall clean_text infos -> Forall (fun o => clean_text (fst o) /\ clean_text (snd o)) all ->
  exists heads, app_header infos all = file heads [] /\ Forall (fun l => ~ In (ascii_of_nat 10) l /\ comment l = true) heads.
Proof.
  intros Hi Ha. eexists. split; [apply app_header_file|]. apply Forall_app. split; [|constructor; [|constructor]].
  - apply Forall_forall. intros l Hl. apply in_map_iff in Hl as ([lab i] & <- & Hin). cbn [fst snd].
    pose proof (in_combine_l _ _ _ _ Hin) as Hlab. pose proof (in_combine_r _ _ _ _ Hin) as Hii. rewrite Forall_forall in Hi. destruct (Hi i Hii) as [Hn _].
    assert (Q : ~ In (ascii_of_nat 10) lab /\ exists u, lab = "#"%char :: u).
    { clear -Hlab. unfold info_labels in Hlab. cbn [map In] in Hlab. repeat (destruct Hlab as [<-|Hlab]; [split; [cbn; intros Q; repeat destruct Q as [Q|Q]; discriminate || contradiction|eexists; reflexivity]|]). contradiction. }
    destruct Q as (Q & u & ->). split; [|reflexivity]. intros C. apply in_app_or in C as [C|C]; [exact (Q C)|]. destruct C as [C|C]; [discriminate|exact (Hn C)].
  - split; [cbn; intros [Q|Q]; [discriminate|contradiction]|reflexivity].
  - split; [cbn; intros Q; repeat destruct Q as [Q|Q]; discriminate || contradiction|reflexivity].
  - apply Forall_forall. intros l Hl. apply in_map_iff in Hl as ([k v] & <- & Hin). rewrite Forall_forall in Ha. destruct (Ha _ Hin) as [[Hk _] [Hv _]]. cbn [fst snd] in *. split; [|reflexivity].
    intros [C|[C|C]]; [discriminate|discriminate|]. apply in_app_or in C as [C|C]; [exact (Hk C)|]. apply in_app_or in C as [C|C]; [cbn in C; repeat destruct C as [C|C]; discriminate || contradiction|exact (Hv C)].
Qed.

Lemma Forall2_mapped {A B C} (f : A -> B) (P : B -> C -> Prop) l r : Forall2 P (map f l) r -> Forall2 (fun a c => P (f a) c) l r.
Proof. revert r. induction l as [|a l IH]; intros r H; inversion H; subst; constructor; [assumption|apply IH; assumption]. Qed.
Lemma columns_text : forall h : list (R * R), flat_map (fun el => [tab] ++ show6 (fst el) ++ [tab] ++ show6 (snd el)) h = flat_map (fun u => ascii_of_nat 9 :: u) (map show6 (parts h)).
Proof.
  induction h as [|[a b] h IH]; [reflexivity|]. refine (eq_trans (f_equal (fun z => (tab :: show6 a ++ tab :: show6 b) ++ z) IH) _). cbn. rewrite <- app_assoc. reflexivity.
Qed.
Lemma coefficients_shown : forall infos all ms, Forall clean_text infos -> Forall (fun o => clean_text (fst o) /\ clean_text (snd o)) all ->
  exists t, table (coefficients_file infos all ms) = Some t /\
    Forall2 (fun m r => Forall2 shown (fst m :: parts (snd m)) r) ms t.
Proof.
  intros infos all ms Hi Ha. destruct (header_comments infos all Hi Ha) as (heads & E & Hh). destruct (table_read heads (map (fun m : R * list (R * R) => (fst m, parts (snd m))) ms) Hh) as (t & Et & Ft).
  pose proof columns_text as P.
  exists t. split.
  - rewrite <- Et. f_equal. unfold coefficients_file. rewrite E. f_equal. clear -P. induction ms as [|m ms IH]; [reflexivity|]. cbn [flat_map map fst snd]. rewrite IH. f_equal. unfold coefficients_line, number_row. rewrite <- app_assoc. f_equal. exact (f_equal (fun z => z ++ [newline]) (P (snd m))).
  - clear -Ft. exact (Forall2_mapped _ _ ms t Ft).
Qed.
Lemma observable_shown : forall infos all ms, Forall clean_text infos -> Forall (fun o => clean_text (fst o) /\ clean_text (snd o)) all ->
  exists t, table (observable_file infos all ms) = Some t /\
    Forall2 (fun m r => Forall2 shown [fst m; snd m] r) ms t.
Proof.
  intros infos all ms Hi Ha. destruct (header_comments infos all Hi Ha) as (heads & E & Hh). destruct (table_read heads (map (fun m : R * R => (fst m, [snd m])) ms) Hh) as (t & Et & Ft).
  exists t. split.
  - rewrite <- Et. f_equal. unfold observable_file. rewrite E. f_equal. clear. induction ms as [|m ms IH]; [reflexivity|]. cbn [flat_map map fst snd]. rewrite IH. f_equal. unfold observable_line, number_row, tab. cbn [map flat_map]. rewrite app_nil_r, <- app_assoc. reflexivity.
  - clear -Ft. exact (Forall2_mapped _ _ ms t Ft).
Qed.

(** whatever was measured: the file is a table, with one row per measurement, and its rows hold the times and the
    values to six significant digits *)
Theorem C122_coefficients_read_back : forall infos all ms, Forall clean_text infos -> Forall (fun o => clean_text (fst o) /\ clean_text (snd o)) all ->
  exists t, table (coefficients_file infos all ms) = Some t /\
    Forall2 (fun m r => Forall2 near6 (fst m :: parts (snd m)) r) ms t.
Proof. intros infos all ms Hi Ha. destruct (coefficients_shown infos all ms Hi Ha) as (t & E & F). exists t. split; [exact E|]. exact (shown_rows (fun m : R * list (R * R) => fst m :: parts (snd m)) ms t F). Qed.
Theorem C122_observable_read_back : forall infos all ms, Forall clean_text infos -> Forall (fun o => clean_text (fst o) /\ clean_text (snd o)) all ->
  exists t, table (observable_file infos all ms) = Some t /\
    Forall2 (fun m r => Forall2 near6 [fst m; snd m] r) ms t.
Proof. intros infos all ms Hi Ha. destruct (observable_shown infos all ms Hi Ha) as (t & E & F). exists t. split; [exact E|]. exact (shown_rows (fun m : R * R => [fst m; snd m]) ms t F). Qed.
(** the times of a file: if all are below 10^(e+1) and each is more than 10^(e-5) later than the one before, the first column increases *)
Definition first_column (t : list (list R)) : list R := map (hd 0) t.
Lemma first_shown {A} (f : A -> list R) (g : A -> R) ms t : (forall m, exists l, f m = g m :: l) -> Forall2 (fun m r => Forall2 shown (f m) r) ms t ->
  Forall2 shown (map g ms) (first_column t).
Proof.
  intros Hf H. induction H as [|m r ms t Hr _ IH]; [constructor|]. cbn. constructor; [|exact IH]. destruct (Hf m) as (l & E). rewrite E in Hr. inversion Hr; subst. assumption.
Qed.
Definition apart (e : Z) (ts : list R) : Prop := Forall (fun x => Rabs x <= powerRZ 10 (e + 1)) ts /\ StronglySorted (fun x y => x + powerRZ 10 (e - 5) < y) ts.
Lemma shown_apart e l r : apart e l -> Forall2 shown l r -> StronglySorted Rlt r.
Proof.
  intros [B S] H. induction H as [|x y l r H F IH]; [constructor|]. inversion B as [|? ? Bx Bl]; subst. apply StronglySorted_inv in S as [S Sx]. constructor; [exact (IH Bl S)|].
  clear IH S B. induction F as [|x' y' l r H' _ IH]; constructor; pose proof (Forall_inv Bl) as B1; pose proof (Forall_inv_tail Bl) as B2; pose proof (Forall_inv Sx) as S1; pose proof (Forall_inv_tail Sx) as S2.
  - destruct (C121_resolved e x x') as (a & b & Ea & Eb & Q); [assumption|assumption|assumption|]. unfold shown in H, H'. rewrite H in Ea. rewrite H' in Eb. injection Ea as <-. injection Eb as <-. exact Q.
  - exact (IH S2 B2).
Qed.
Lemma shown_crowded e l r : Forall (fun x => powerRZ 10 e <= x <= powerRZ 10 (e + 1)) l -> (900001 < Z.of_nat (length l))%Z -> Forall2 shown l r ->
  exists i j, (i < j < length r)%nat /\ nth i r 0 = nth j r 0.
Proof.
  intros F L H. destruct (C121_crowded e l F L) as (i & j & Hij & E). assert (Lr : length l = length r) by (clear -H; induction H; cbn; congruence).
  exists i, j. split; [rewrite <- Lr; exact Hij|]. assert (N : forall k, (k < length l)%nat -> shown (nth k l 0) (nth k r 0)).
  { clear -H. induction H as [|x y l r H _ IH]; intros k Hk; [cbn in Hk; lia|]. destruct k; [exact H|]. cbn in *. apply IH. lia. }
  pose proof (N i ltac:(lia)) as A. pose proof (N j ltac:(lia)) as B. unfold shown in A, B. rewrite E in A. congruence.
Qed.
Theorem C122_times_increase : forall infos all e, Forall clean_text infos -> Forall (fun o => clean_text (fst o) /\ clean_text (snd o)) all ->
  (forall ms, apart e (map fst ms) -> exists t, table (coefficients_file infos all ms) = Some t /\ StronglySorted Rlt (first_column t)) /\
  (forall ms, apart e (map fst ms) -> exists t, table (observable_file infos all ms) = Some t /\ StronglySorted Rlt (first_column t)).
Proof.
  intros infos all e Hi Ha. split; intros ms H.
  - destruct (coefficients_shown infos all ms Hi Ha) as (t & E & F). exists t. split; [exact E|]. apply (shown_apart e (map fst ms)); [exact H|]. apply (first_shown (fun m : R * list (R * R) => fst m :: parts (snd m)) fst ms t); [intros m; eexists; reflexivity|exact F].
  - destruct (observable_shown infos all ms Hi Ha) as (t & E & F). exists t. split; [exact E|]. apply (shown_apart e (map fst ms)); [exact H|]. apply (first_shown (fun m : R * R => [fst m; snd m]) fst ms t); [intros m; eexists; reflexivity|exact F].
Qed.
(** (defect) if more than 900001 consecutive times lie between 10^e and 10^(e+1), two of these rows have the same time *)
Theorem C122_times_distinct_refuted : forall infos all e, Forall clean_text infos -> Forall (fun o => clean_text (fst o) /\ clean_text (snd o)) all ->
  forall before ms after : list (R * R), Forall (fun m => powerRZ 10 e <= fst m <= powerRZ 10 (e + 1)) ms -> (900001 < Z.of_nat (length ms))%Z ->
  exists t i j, table (observable_file infos all (before ++ ms ++ after)) = Some t /\ (length before <= i < j)%nat /\ (j < length before + length ms)%nat /\
    nth i (first_column t) 0 = nth j (first_column t) 0.
Proof.
  intros infos all e Hi Ha before ms after H L. destruct (observable_shown infos all (before ++ ms ++ after) Hi Ha) as (t & E & F).
  pose proof (first_shown (fun m : R * R => [fst m; snd m]) fst (before ++ ms ++ after) t ltac:(intros m; eexists; reflexivity) F) as G.
  rewrite !map_app in G. destruct (Forall2_app_inv_l _ _ G) as (c1 & c' & G1 & G' & Ec). destruct (Forall2_app_inv_l _ _ G') as (c2 & c3 & G2 & G3 & Ec').
  assert (Ln : forall {l r}, Forall2 shown l r -> length l = length r) by (clear; intros l r Q; induction Q; cbn; congruence).
  destruct (shown_crowded e (map fst ms) c2) as (i & j & Hij & Q); [apply Forall_map; exact H|rewrite map_length; exact L|exact G2|].
  apply Ln in G1, G2. rewrite map_length in G1, G2. exists t, (length before + i)%nat, (length before + j)%nat. split; [exact E|]. split; [lia|]. split; [lia|].
  rewrite Ec, Ec', G1. rewrite !app_nth2_plus. rewrite !app_nth1 by lia. exact Q.
Qed.
(** times from 1000 to 9999 with a step of 1/128: a run of 1279872 steps with a step size of 1/128 that measures in every step *)
Example C122_times_distinct_example : let ms := map (fun k => (1000 + IZR k / 128, 0)) (Zseq 1151872) in
  Forall (fun m => powerRZ 10 3 <= fst m <= powerRZ 10 (3 + 1)) ms /\ (900001 < Z.of_nat (length ms))%Z.
Proof.
  split.
  - apply Forall_map, Forall_forall. intros k Hk. apply Zseq_in in Hk. cbn [fst]. change (powerRZ 10 (3 + 1)) with (10 ^ 4). change (powerRZ 10 3) with (10 ^ 3).
    assert (0 <= IZR k <= 1151872) by (split; apply IZR_le; lia). lra.
  - rewrite map_length. unfold Zseq. rewrite map_length, seq_length. lia.
Qed.

(** trivial.txt: time, four coefficients and the number of particles in every row *)
Theorem C122_trivial_read_back : forall ms, exists t, table (flat_map trivial_line ms) = Some t /\
  Forall2 (fun m r => Forall2 near6 (fst (fst m) :: parts (snd (fst m) ++ [snd m])) r) ms t.
Proof.
  intros ms. destruct (table_read [] (map (fun m : R * list (R * R) * (R * R) => (fst (fst m), parts (snd (fst m) ++ [snd m]))) ms) ltac:(constructor)) as (t & Et & Ft).
  exists t. split; [|exact (shown_rows (fun m : R * list (R * R) * (R * R) => fst (fst m) :: parts (snd (fst m) ++ [snd m])) ms t (Forall2_mapped _ _ ms t Ft))].
  rewrite <- Et. unfold file. cbn [flat_map app]. f_equal. clear. induction ms as [|m ms IH]; [reflexivity|]. cbn [flat_map map fst snd]. rewrite IH. f_equal. unfold trivial_line, number_row. rewrite <- app_assoc. f_equal. exact (f_equal (fun z => z ++ [newline]) (columns_text _)).
Qed.

(** ** the programs *)
Lemma term_below {T} (f : T -> R) l i : (forall x, 0 <= f x) -> In i l -> f i <= sum_over (K := Rring) f l.
Proof.
  intros F. induction l as [|a l IH]; intros H; [destruct H|]. change (sum_over (K := Rring) f (a :: l)) with (f a + sum_over (K := Rring) f l).
  assert (P : 0 <= sum_over (K := Rring) f l).
  { clear -F. induction l as [|b l IH]; [apply Rle_refl|]. change (0 <= f b + sum_over (K := Rring) f l). specialize (F b). cbn in *. lra. }
  destruct H as [<-|H]; [cbn in *; lra|]. specialize (IH H). specialize (F a). cbn in *. lra.
Qed.
Lemma squares (a b : R) : 0 <= a * a + b * b.
Proof. nra. Qed.
Lemma square_below a b s : a * a + b * b <= s -> Rabs a <= sqrt s /\ Rabs b <= sqrt s.
Proof.
  intros H. split; rewrite <- sqrt_Rsqr_abs; apply sqrt_le_1_alt; unfold Rsqr; nra.
Qed.
Lemma part_close (h : list CR) (y : Z -> CR) i : (0 <= i < Z.of_nat (length h))%Z ->
  Rabs (fst (vget h i) - fst (y i)) <= distance2 h y /\ Rabs (snd (vget h i) - snd (y i)) <= distance2 h y.
Proof.
  intros H. unfold distance2. set (f := fun j : Z => _). apply square_below. apply (term_below f).
  - intros j. exact (squares _ _).
  - unfold zrange. apply in_map_iff. exists (Z.to_nat i). split; [lia|]. apply in_seq. lia.
Qed.
Lemma small_parts (a b : R) : a * a + b * b <= 2 -> Rabs a <= 3 / 2 /\ Rabs b <= 3 / 2.
Proof. intros H. destruct (square_below a b 2 H) as [A B]. assert (sqrt 2 <= 3 / 2). { rewrite <- (sqrt_square (3 / 2)) by lra. apply sqrt_le_1_alt. lra. } split; lra. Qed.
Lemma part_small (h : list CR) i : norm2 h <= 2 -> (0 <= i < Z.of_nat (length h))%Z -> Rabs (fst (vget h i)) <= 3 / 2 /\ Rabs (snd (vget h i)) <= 3 / 2.
Proof.
  intros N H. assert (Q : fst (vget h i) * fst (vget h i) + snd (vget h i) * snd (vget h i) <= 2).
  { eapply Rle_trans; [|exact N]. unfold norm2. apply (term_below (fun z : CR => fst z * fst z + snd z * snd z)); [intros z; exact (squares _ _)|]. unfold vget. apply nth_In. lia. }
  exact (small_parts _ _ Q).
Qed.

Lemma same_length {A B} {P : A -> B -> Prop} {l r} : Forall2 P l r -> length l = length r.
Proof. intros H. induction H; cbn; congruence. Qed.
Lemma near_nth l r j : Forall2 near6 l r -> (j < length l)%nat -> Rabs (nth j r 0 - nth j l 0) <= 5 / 1000000 * Rabs (nth j l 0).
Proof. intros H. revert j. induction H as [|x y l r Hx _ IH]; intros j Hj; [cbn in Hj; lia|]. destruct j as [|j]; [exact Hx|]. apply (IH j). cbn in Hj. lia. Qed.
Lemma parts_length h : length (parts h) = (2 * length h)%nat.
Proof. induction h as [|z h IH]; [reflexivity|]. cbn [parts flat_map app length] in *. unfold parts in IH. rewrite IH. lia. Qed.
Lemma parts_nth (h : list (R * R)) i : nth (2 * i) (parts h) 0 = fst (nth i h (0, 0)) /\ nth (2 * i + 1) (parts h) 0 = snd (nth i h (0, 0)).
Proof.
  revert i. induction h as [|z h IH]; intros i; [destruct i; split; try reflexivity; destruct (2 * _)%nat; reflexivity|]. destruct i as [|i]; [split; reflexivity|].
  replace (2 * S i)%nat with (S (S (2 * i))) by lia. replace (S (S (2 * i)) + 1)%nat with (S (S (2 * i + 1))) by lia. exact (IH i).
Qed.
(** a row with n complex columns: the time, at most d from t, and the real and imaginary parts of y, each at most D away *)
Definition solution_row (n : Z) (d D t : R) (y : Z -> CR) (r : list R) : Prop :=
  Z.of_nat (length r) = (1 + 2 * n)%Z /\ Rabs (nth 0 r 0 - t) <= d /\
  forall i, (0 <= i < n)%Z -> Rabs (nth (Z.to_nat (1 + 2 * i)) r 0 - fst (y i)) <= D /\ Rabs (nth (Z.to_nat (2 + 2 * i)) r 0 - snd (y i)) <= D.
Lemma row_of_solution n t' (h : list CR) t y d D r : len h = n -> norm2 h <= 2 -> distance2 h y <= D -> Rabs (t' - t) <= d ->
  Forall2 near6 (t' :: parts h) r -> solution_row n (d + 5 / 1000000 * (Rabs t + d)) (D + 1 / 100000) t y r.
Proof.
  intros Ln Nh Dh Dt F. assert (Lp : length (parts h) = (2 * Z.to_nat n)%nat). { refine (eq_trans (parts_length h) _). apply (f_equal (fun a => (2 * a)%nat)). apply Nat2Z.inj. refine (eq_trans Ln _). rewrite Z2Nat.id; [reflexivity|rewrite <- Ln; apply Nat2Z.is_nonneg]. }
  assert (Np : (0 <= n)%Z) by (rewrite <- Ln; apply Nat2Z.is_nonneg).
  assert (L : length r = S (2 * Z.to_nat n)) by (rewrite <- (same_length F); cbn [length]; rewrite Lp; reflexivity).
  split; [lia|]. split.
  - pose proof (near_nth _ _ 0 F ltac:(cbn; lia)) as Q. cbn [nth] in Q. assert (T : Rabs t' <= Rabs t + d). { replace t' with (t + (t' - t)) by ring. eapply Rle_trans; [apply Rabs_triang|]. lra. }
    replace (nth 0 r 0 - t) with ((nth 0 r 0 - t') + (t' - t)) by ring. eapply Rle_trans; [apply Rabs_triang|]. lra.
  - intros i Hi. assert (Hi' : (0 <= i < len h)%Z) by (rewrite Ln; exact Hi). destruct (part_close h y i Hi') as [C1 C2]. destruct (part_small h i Nh Hi') as [S1 S2]. destruct (parts_nth h (Z.to_nat i)) as [P1 P2].
    assert (G : forall j x v, (j < length (t' :: parts h))%nat -> nth j (t' :: parts h) 0 = x -> Rabs x <= 3 / 2 -> Rabs (x - v) <= distance2 h y -> Rabs (nth j r 0 - v) <= D + 1 / 100000).
    { intros j x v Hj Ex Sx Cx. pose proof (near_nth _ _ j F Hj) as Q. rewrite Ex in Q. replace (nth j r 0 - v) with ((nth j r 0 - x) + (x - v)) by ring. eapply Rle_trans; [apply Rabs_triang|]. lra. }
    split.
    + apply (G _ (fst (vget h i))); [cbn [length]; rewrite Lp; lia| |exact S1|exact C1]. replace (Z.to_nat (1 + 2 * i)) with (S (2 * Z.to_nat i)) by lia. exact P1.
    + apply (G _ (snd (vget h i))); [cbn [length]; rewrite Lp; lia| |exact S2|exact C2]. replace (Z.to_nat (2 + 2 * i)) with (S (2 * Z.to_nat i + 1)) by lia. exact P2.
Qed.
