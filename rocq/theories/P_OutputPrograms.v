(** PROPERTY C122: what can be read from the files of the programs. *)
From Coq Require Import Reals Lra Psatz Permutation Ascii String Sorted.
From Flocq Require Import Core.
From Verif Require Import Base M_Operator M_Lattice Spec_Lattice Pf_Lattice Spec_LatticeReal M_Basis Pf_Basis P_Basis M_Matrix M_Ode M_Dispersion M_OpenMP Spec_OpenMP M_Expectation P_Expectation M_SiteOccupation Pf_SiteOccupation P_SiteOccupation
  M_TimeLoop Spec_TimeLoop Pf_Matrix Spec_Matrix Pf_Matrix2 P_Matrix Spec_Stability Pf_Stability Pf_Stability2 Pf_Stability3 P_Stability Spec_Programs M_Programs Pf_Programs Pf_Programs2 P_Programs
  M_Rounding M_Double P_Rounding M_RoundedMeasurement Pf_RoundedMeasurement5 P_RoundedMeasurement P_RoundedMeasurement2 P_RoundedMeasurement4 M_DoublePrograms Pf_DoubleTime Spec_DoublePrograms Pf_DoublePrograms P_DoublePrograms.
From Verif Require Import M_Text M_Io Spec_Text M_Cli P_Io P_Cli M_Ostream Spec_Numeral P_Ostream M_OutputFile Spec_Table P_OutputFile P_DoublePrograms2.
From Verif Require Import M_LatticeReal P_DispersionProgram Spec_MomentumProgram M_DispersionProgram M_DoubleDispersion Spec_DoubleDispersion M_DoubleDispersionProgram P_DoubleDispersionProgram Ex_Matrix Ex_Io.
Import ListNotations.
Local Open Scope R_scope.
Local Open Scope list_scope.
Local Notation len u := (Z.of_nat (length u)).

Lemma read_solution n (h : nat -> list CR) (y : R -> Z -> CR) dt (tm d D : nat -> R) infos all (ks : list nat) (steps : nat) :
  Forall clean_text infos -> Forall (fun o => clean_text (fst o) /\ clean_text (snd o)) all -> (forall k, In k ks -> (k <= steps)%nat) ->
  (forall k, (k <= steps)%nat -> len (h k) = n /\ norm2 (h k) <= 2 /\ distance2 (h k) (y (INR k * dt)) <= D k /\ Rabs (tm k - INR k * dt) <= d k) ->
  exists t, table (coefficients_file infos all (map (fun k => (tm k, h k)) ks)) = Some t /\
    Forall2 (fun k r => solution_row n (d k + 5 / 1000000 * (Rabs (INR k * dt) + d k)) (D k + 1 / 100000) (INR k * dt) (y (INR k * dt)) r) ks t.
Proof.
  intros Hi Ha Hk H. destruct (C122_coefficients_read_back infos all (map (fun k => (tm k, h k)) ks) Hi Ha) as (t & E & F). exists t. split; [exact E|].
  apply Forall2_mapped in F. clear -F Hk H. revert Hk. induction F as [|k r ks t Hr _ IH]; intros Hk; [constructor|]. constructor; [|apply IH; intros j Hj; apply Hk; right; exact Hj].
  destruct (H k (Hk k (or_introl eq_refl))) as (A & B & C & E). cbn [fst snd] in Hr. exact (row_of_solution n (tm k) (h k) (INR k * dt) (y (INR k * dt)) (d k) (D k) r A B C E Hr).
Qed.
(** ** hubbard_real_1d_rk4_coefficients and hubbard_real_1d_kinetic_rk4_coefficients.  Row k of the table: the time of step k and the
    coefficients at that time, up to the discretisation error, the roundings and the six digits *)
Definition time_error (dt : R) (steps k : nat) : R := INR k * INR steps * dt / 2 ^ 52.
Definition read_time_error (dt : R) (steps k : nat) : R := time_error dt steps k + 5 / 1000000 * (Rabs (INR k * dt) + time_error dt steps k).
Theorem C122_full_coefficients : forall sort garbage N J U dt t_end interval steps infos all,
  sorts_by_column sort -> (3 <= N)%Z -> fits3 (chain_lattice N) N -> is_double J -> is_double (U / 2) -> double_times garbage dt t_end interval steps ->
  Forall clean_text infos -> Forall (fun o => clean_text (fst o) /\ clean_text (snd o)) all ->
  let L := 6 * Rabs J + Rabs U in L <= 2 ^ 500 -> dt ^ 2 * L ^ 2 <= 8 ->
  let n := (N + N * N * N)%Z in
  exists m y out t, init_matrix sort (real J : CR) (real U) (real (1/2)) (chain_lattice N) = Ok m /\
    the_solution n (entry (bm_scale imag_unit m)) y /\
    terminates_with (f_coefficients_full garbage sort N J U dt t_end interval) (Ok out) /\
    table (coefficients_file infos all out) = Some t /\
    Forall2 (fun k r => solution_row n (read_time_error dt steps k) (INR k * dt * dt ^ 4 * L ^ 5 / 120 + INR k / 2 ^ 40 + 1 / 100000) (INR k * dt) (y (INR k * dt)) r)
      (written interval steps) t.
Proof.
  intros sort garbage N J U dt t_end interval steps infos all Hs HN Hf HJ HU Ht Hi Ha L HL Hd n.
  destruct (full_double_lines sort garbage N J U dt t_end interval steps Hs HN Hf HJ HU Ht HL Hd) as (Eb & m & y & h & Em & Y & Te & _ & _ & S1).
  destruct (read_solution n h y dt (time_at (to_double garbage) dt) (time_error dt steps) (fun k => INR k * dt * dt ^ 4 * L ^ 5 / 120 + INR k / 2 ^ 40) infos all (written interval steps) steps Hi Ha (written_le interval steps)) as (t & E & F).
  { intros k Hk. destruct (S1 k Hk) as (A & B & C). split; [exact A|]. split; [exact B|]. split; [exact C|]. exact (time_close garbage dt t_end interval steps k Ht Hk). }
  exists m, y, (map (fun k => (time_at (to_double garbage) dt k, h k)) (written interval steps)), t. split; [exact Em|]. split; [exact Y|]. split; [|split; [exact E|exact F]].
  unfold f_coefficients_full. rewrite Eb. apply Te.
Qed.
Theorem C122_kinetic_coefficients : forall sort garbage N J dt t_end interval steps infos all,
  sorts_by_column sort -> (3 <= N)%Z -> (N * 2 < two64)%Z -> is_double J -> double_times garbage dt t_end interval steps ->
  Forall clean_text infos -> Forall (fun o => clean_text (fst o) /\ clean_text (snd o)) all ->
  let L := 2 * Rabs J in L <= 2 ^ 500 -> dt ^ 2 * L ^ 2 <= 8 ->
  exists m y out t, init_kinetic_matrix sort (real J : CR) (chain_lattice N) = Ok m /\
    the_solution N (entry (bm_scale imag_unit m)) y /\
    terminates_with (f_coefficients_kinetic garbage sort N J dt t_end interval) (Ok out) /\
    table (coefficients_file infos all out) = Some t /\
    Forall2 (fun k r => solution_row N (read_time_error dt steps k) (INR k * dt * dt ^ 4 * L ^ 5 / 120 + INR k / 2 ^ 40 + 1 / 100000) (INR k * dt) (y (INR k * dt)) r)
      (written interval steps) t.
Proof.
  intros sort garbage N J dt t_end interval steps infos all Hs HN Hf HJ Ht Hi Ha L HL Hd.
  destruct (kinetic_double_lines sort garbage N J dt t_end interval steps Hs HN Hf HJ Ht HL Hd) as (Eb & m & y & h & Em & Y & Te & _ & _ & S1).
  destruct (read_solution N h y dt (time_at (to_double garbage) dt) (time_error dt steps) (fun k => INR k * dt * dt ^ 4 * L ^ 5 / 120 + INR k / 2 ^ 40) infos all (written interval steps) steps Hi Ha (written_le interval steps)) as (t & E & F).
  { intros k Hk. destruct (S1 k Hk) as (A & B & C). split; [exact A|]. split; [exact B|]. split; [exact C|]. exact (time_close garbage dt t_end interval steps k Ht Hk). }
  exists m, y, (map (fun k => (time_at (to_double garbage) dt k, h k)) (written interval steps)), t. split; [exact Em|]. split; [exact Y|]. split; [|split; [exact E|exact F]].
  unfold f_coefficients_kinetic. rewrite Eb. apply Te.
Qed.

(** ** hubbard_dispersion_1d: the two columns of dispersion.txt are the wave vectors and the energies, to six digits; the first column does not decrease *)
Lemma near6_close x v y d : near6 x y -> Rabs (x - v) <= d -> Rabs (y - v) <= d + 5 / 1000000 * (Rabs v + d).
Proof.
  intros H D. assert (Rabs x <= Rabs v + d). { replace x with (v + (x - v)) by ring. eapply Rle_trans; [apply Rabs_triang|]. lra. }
  replace (y - v) with ((y - x) + (x - v)) by ring. eapply Rle_trans; [apply Rabs_triang|]. unfold near6 in H. lra.
Qed.
Definition dispersion_row (N i : Z) (r : list R) : Prop := exists a b, r = [a; b] /\
  Rabs (a - wave N i) <= / 2 ^ 45 + 5 / 1000000 * (Rabs (wave N i) + / 2 ^ 45) /\
  Rabs (b - - 2 * cos (wave N i)) <= / 2 ^ 44 + / 2 ^ 1073 + 5 / 1000000 * (Rabs (- 2 * cos (wave N i)) + (/ 2 ^ 44 + / 2 ^ 1073)).
Theorem C122_dispersion : forall garbage fcos N f, accurate_cosine fcos -> (0 < N <= 2 ^ 40)%Z ->
  exists content t, (exists fuel0, forall fuel, (fuel0 <= fuel)%nat -> exists f', double_dispersion_main garbage fcos show6 fuel N true f = Some (Ok (f', 0%Z)) /\
     f' (str "dispersion.txt") = Some content /\ forall p, p <> str "dispersion.txt" -> f' p = f p) /\
   table content = Some t /\ Forall2 (dispersion_row N) (Zseq N) t.
Proof.
  intros garbage fcos N f FC HN. destruct (C103_file garbage fcos N FC HN) as (k & eps & [Cl _] & W). destruct (W show6 f) as (fuel0 & W').
  destruct (table_read [] (map (fun i => (k i, [eps i])) (Zseq N)) ltac:(constructor)) as (t & Et & Ft).
  exists (two_columns show6 k eps N), t. split; [|split].
  - exists fuel0. intros fuel Hf. exact (Logic.proj1 (W' fuel Hf)).
  - rewrite <- Et. unfold file. cbn [flat_map app]. f_equal. unfold two_columns. clear. induction (Zseq N) as [|i l IH]; [reflexivity|]. cbn [flat_map map fst snd]. rewrite IH. f_equal. unfold number_row. cbn [map flat_map]. rewrite app_nil_r, <- app_assoc. reflexivity.
  - assert (G : forall i, In i (Zseq N) -> (0 <= i < N)%Z). { intros i Hi. apply Zseq_in in Hi. exact Hi. }
    apply Forall2_mapped in Ft. apply (shown_rows (fun i => [k i; eps i])) in Ft. clear Et W W'. revert G. induction Ft as [|i r l t Hr _ IH]; intros G; [constructor|]. constructor; [|apply IH; intros j Hj; apply G; right; exact Hj].
    destruct (Cl i (G i (or_introl eq_refl))) as [C1 C2]. inversion Hr as [|? a ? r1 Ha Hr1]; subst. inversion Hr1 as [|? b ? r2 Hb Hr2]; subst. inversion Hr2; subst.
    exists a, b. split; [reflexivity|]. split; [exact (near6_close _ _ _ _ Ha C1)|exact (near6_close _ _ _ _ Hb C2)].
Qed.

(** four sites, four steps of 1/64 and a line after every second one: three rows of 137 numbers; in the last the number behind the
    time is the real part of the first coefficient at time 1/16, up to 1/1000 *)
Example C122_full_example : forall garbage, let infos := repeat (str "x") 11 in let all := [(str "out", str "a.txt"); (str "dt", str "0.015625")] in
  exists m y out a b c, init_matrix isort (real 1 : CR) (real 1) (real (1/2)) (chain_lattice 4) = Ok m /\
    the_solution 68 (entry (bm_scale imag_unit m)) y /\
    terminates_with (f_coefficients_full garbage isort 4 1 1 (/ 64) (1 / 16) 2) (Ok out) /\
    table (coefficients_file infos all out) = Some [a; b; c] /\ length c = 137%nat /\
    Rabs (nth 0 c 0 - 1 / 16) <= 1 / 1000000 /\ Rabs (nth 1 c 0 - fst (y (1 / 16) 0%Z)) <= 1 / 1000.
Proof.
  intros garbage infos all.
  assert (F3 : fits3 (chain_lattice 4) 4) by (unfold fits3; apply big; reflexivity).
  assert (D1 : is_double 1) by (change 1 with (IZR 1); apply double_int; lia). assert (D2 : is_double (1 / 2)) by (apply generic_format_FLT; exists (Float radix2 1 (-1)); [unfold F2R; cbn [Fnum Fexp]; change (bpow radix2 (-1)) with (/ 2); lra|cbn; lia|cbn; lia]).
  assert (Ci : Forall clean_text infos) by (apply Forall_forall; intros x Hx; apply repeat_spec in Hx; subst; apply clean; reflexivity).
  assert (Ca : Forall (fun o => clean_text (fst o) /\ clean_text (snd o)) all) by (repeat constructor; apply clean; reflexivity).
  destruct (C122_full_coefficients isort garbage 4 1 1 (/ 64) (1 / 16) 2 4 infos all isort_ok ltac:(lia) F3 D1 D2 (example_times garbage) Ci Ca) as (m & y & out & t & Em & Y & T & E & F).
  - rewrite Rabs_R1. assert (2 ^ 4 <= 2 ^ 500) by (apply Rle_pow; [lra|lia]). lra.
  - rewrite Rabs_R1. lra.
  - change (written 2 4) with [0; 2; 4]%nat in F. inversion F as [|? a ? t1 Ha F1]; subst. inversion F1 as [|? b ? t2 Hb F2]; subst. inversion F2 as [|? c ? t3 Hc F4]; subst. inversion F4; subst.
    exists m, y, out, a, b, c. split; [exact Em|]. split; [exact Y|]. split; [exact T|]. split; [exact E|]. destruct Hc as (Lc & Tc & Vc). split; [lia|].
    replace (INR 4 * / 64) with (1 / 16) in * by (simpl; lra). split.
    + eapply Rle_trans; [exact Tc|]. unfold read_time_error, time_error. replace (INR 4) with 4 by (simpl; lra). replace (4 * / 64) with (1 / 16) by lra. rewrite Rabs_pos_eq by lra. lra.
    + destruct (Vc 0%Z ltac:(lia)) as [V _]. change (Z.to_nat (1 + 2 * 0)) with 1%nat in V. eapply Rle_trans; [exact V|]. rewrite Rabs_R1. replace (INR 4) with 4 by (simpl; lra). lra.
Qed.
