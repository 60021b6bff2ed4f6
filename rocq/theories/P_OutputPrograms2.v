(** PROPERTY C122, continued: the programs that write an observable, and theory.txt. *)
From Coq Require Import Reals Lra Psatz Permutation Ascii String Sorted.
From Flocq Require Import Core.
From Verif Require Import Base M_Operator M_Lattice Spec_Lattice Pf_Lattice Spec_LatticeReal M_Basis Pf_Basis P_Basis M_Matrix M_Ode M_Dispersion M_OpenMP Spec_OpenMP M_Expectation P_Expectation M_SiteOccupation Pf_SiteOccupation P_SiteOccupation
  M_TimeLoop Spec_TimeLoop Pf_Matrix Spec_Matrix Pf_Matrix2 P_Matrix Spec_Stability Pf_Stability Pf_Stability2 Pf_Stability3 P_Stability Spec_Programs M_Programs Pf_Programs Pf_Programs2 P_Programs
  M_Rounding M_Double P_Rounding M_RoundedMeasurement Pf_RoundedMeasurement5 P_RoundedMeasurement P_RoundedMeasurement2 P_RoundedMeasurement4 M_DoublePrograms Pf_DoubleTime Spec_DoublePrograms Pf_DoublePrograms P_DoublePrograms.
From Verif Require Import M_Text M_Io Spec_Text M_Cli P_Io P_Cli M_Ostream Spec_Numeral P_Ostream M_OutputFile Spec_Table P_OutputFile P_DoublePrograms2 P_OutputPrograms.
From Verif Require Import M_LatticeReal P_DispersionProgram Spec_MomentumProgram M_DispersionProgram M_DoubleDispersion Spec_DoubleDispersion M_DoubleDispersionProgram P_DoubleDispersionProgram Ex_Matrix Ex_Io.
From Verif Require Import Spec_RoundedMeasurement Spec_Bessel M_Theory Spec_TheoryProgram M_TheoryProgram P_Theory P_Checkpoint P_TheoryProgram.
Import ListNotations.
Local Open Scope R_scope.
Local Open Scope list_scope.
Local Notation len u := (Z.of_nat (length u)).

Definition measured_row (d E t v : R) (r : list R) : Prop := exists a b, r = [a; b] /\
  Rabs (a - t) <= d + 5 / 1000000 * (Rabs t + d) /\ Rabs (b - v) <= E + 5 / 1000000 * (Rabs v + E).
Lemma read_measured (T tm d v E : nat -> R) (o : nat -> option (outcome R)) infos all (ks : list nat) :
  Forall clean_text infos -> Forall (fun o => clean_text (fst o) /\ clean_text (snd o)) all ->
  (forall k, In k ks -> Rabs (tm k - T k) <= d k /\ forall r, o k = Some r -> exists x, r = Ok x /\ Rabs (x - v k) <= E k) -> (forall k, In k ks -> o k <> None) ->
  exists ms t, map (fun k => (tm k, o k)) ks = map (fun m => (fst m, Some (Ok (snd m)))) ms /\
    table (observable_file infos all ms) = Some t /\ Forall2 (fun k r => measured_row (d k) (E k) (T k) (v k) r) ks t.
Proof.
  intros Hi Ha H Ho.
  assert (G : exists xs, map (fun k => (tm k, o k)) ks = map (fun m => (fst m, Some (Ok (snd m)))) xs /\ Forall2 (fun k m => Rabs (fst m - T k) <= d k /\ Rabs (snd m - v k) <= E k) ks xs).
  { clear Hi Ha. induction ks as [|k ks IH]; [exists []; split; [reflexivity|constructor]|]. destruct IH as (xs & E1 & F1); [intros j Hj; apply H; right; exact Hj|intros j Hj; apply Ho; right; exact Hj|].
    destruct (H k (or_introl eq_refl)) as [D V]. specialize (Ho k (or_introl eq_refl)). destruct (o k) as [r|] eqn:Eo; [|congruence]. destruct (V r eq_refl) as (x & -> & Hx).
    exists ((tm k, x) :: xs). split; [cbn [map fst snd]; rewrite Eo, E1; reflexivity|]. constructor; [split; assumption|exact F1]. }
  destruct G as (ms & Em & Fm). destruct (C122_observable_read_back infos all ms Hi Ha) as (t & Et & Ft). exists ms, t. split; [exact Em|]. split; [exact Et|].
  clear -Fm Ft. revert t Ft. induction Fm as [|k m ks ms [D V] _ IH]; intros t Ft; inversion Ft as [|? r ? t1 Hr Ft1]; subst; constructor; [|apply IH; exact Ft1].
  inversion Hr as [|? a ? r1 Ca Hr1]; subst. inversion Hr1 as [|? b ? r2 Cb Hr2]; subst. inversion Hr2; subst. exists a, b. split; [reflexivity|].
  split; [exact (near6_close _ _ _ _ Ca D)|exact (near6_close _ _ _ _ Cb V)].
Qed.
(** ** hubbard_real_1d_rk4 and hubbard_real_1d_kinetic_rk4.  If the schedule lets every measurement end, the second column is the occupation *)
Theorem C122_full_occupation : forall sort garbage order sched N J U filling delta tab dt t_end interval steps infos all,
  sorts_by_column sort -> (3 <= N)%Z -> fits3 (chain_lattice N) N -> is_double J -> is_double (U / 2) -> double_times garbage dt t_end interval steps ->
  Permutation order (seq 0 (length (basis3 (chain_lattice N)))) -> shared_full N sched -> 0 <= filling <= 1 ->
  0 <= delta -> table_near delta tab (init_ev1 N 1 filling) ->
  Forall clean_text infos -> Forall (fun o => clean_text (fst o) /\ clean_text (snd o)) all ->
  let n := (N + N * N * N)%Z in (forall k, IZR (n * n + Z.of_nat (threads (sched k)) + 12) <= 2 ^ 50) ->
  let L := 6 * Rabs J + Rabs U in L <= 2 ^ 500 -> dt ^ 2 * L ^ 2 <= 8 ->
  exists m y lines, init_matrix sort (real J : CR) (real U) (real (1/2)) (chain_lattice N) = Ok m /\
    the_solution n (entry (bm_scale imag_unit m)) y /\
    terminates_with (f_occupation_full garbage sort order sched N J U tab dt t_end interval) (Ok lines) /\
    ((forall line, In line lines -> snd line <> None) ->
     exists ms t, lines = map (fun m => (fst m, Some (Ok (snd m)))) ms /\ table (observable_file infos all ms) = Some t /\
       Forall2 (fun k r => measured_row (time_error dt steps k)
          (15 * IZR n * (INR k * dt * dt ^ 4 * L ^ 5 / 120 + INR k / 2 ^ 40) + 42 * IZR n * delta + 17 * IZR (n * n + Z.of_nat (threads (sched k)) + 12) * IZR n / 2 ^ 50 + / 2 ^ 1000)
          (INR k * dt) (occupation N (sea N filling) n (y (INR k * dt))) r) (written interval steps) t).
Proof.
  intros sort garbage order sched N J U filling delta tab dt t_end interval steps infos all Hs HN Hf HJ HU Ht Ho Hsh Hfi Hd Hta Hi Ha n HT L HL HA.
  destruct (C94_full sort garbage order sched N J U filling delta tab dt t_end interval steps Hs HN Hf HJ HU Ht Ho Hsh Hfi Hd Hta HT HL HA) as (m & y & o & Em & Y & Te & H).
  exists m, y, (map (fun k => (time_at (to_double garbage) dt k, o k)) (written interval steps)). split; [exact Em|]. split; [exact Y|]. split; [exact Te|]. intros Hc.
  apply (read_measured (fun k => INR k * dt) (time_at (to_double garbage) dt) (time_error dt steps) _ _ o infos all (written interval steps) Hi Ha).
  - intros k Hk. exact (H k (written_le interval steps k Hk)).
  - intros k Hk. apply (Hc (time_at (to_double garbage) dt k, o k)). apply in_map_iff. exists k. split; [reflexivity|exact Hk].
Qed.
Theorem C122_kinetic_occupation : forall sort garbage order sched N J filling delta tab dt t_end interval steps infos all,
  sorts_by_column sort -> (3 <= N)%Z -> (N * 2 < two64)%Z -> is_double J -> double_times garbage dt t_end interval steps ->
  Permutation order (seq 0 (length (basis1 (chain_lattice N)))) -> shared_kinetic N sched -> 0 <= filling <= 1 ->
  0 <= delta -> table_near delta tab (init_ev1 N 1 filling) ->
  Forall clean_text infos -> Forall (fun o => clean_text (fst o) /\ clean_text (snd o)) all ->
  (forall k, IZR (N * N + Z.of_nat (threads (sched k)) + 6) <= 2 ^ 50) ->
  let L := 2 * Rabs J in L <= 2 ^ 500 -> dt ^ 2 * L ^ 2 <= 8 ->
  exists m y lines, init_kinetic_matrix sort (real J : CR) (chain_lattice N) = Ok m /\
    the_solution N (entry (bm_scale imag_unit m)) y /\
    terminates_with (f_occupation_kinetic garbage sort order sched N J tab dt t_end interval) (Ok lines) /\
    ((forall line, In line lines -> snd line <> None) ->
     exists ms t, lines = map (fun m => (fst m, Some (Ok (snd m)))) ms /\ table (observable_file infos all ms) = Some t /\
       Forall2 (fun k r => measured_row (time_error dt steps k)
          (3 * IZR N * (INR k * dt * dt ^ 4 * L ^ 5 / 120 + INR k / 2 ^ 40) + 2 * IZR N * delta + IZR (N * N + Z.of_nat (threads (sched k)) + 6) * IZR N / 2 ^ 50 + / 2 ^ 1000)
          (INR k * dt) (occupation N (sea N filling) N (y (INR k * dt))) r) (written interval steps) t).
Proof.
  intros sort garbage order sched N J filling delta tab dt t_end interval steps infos all Hs HN Hf HJ Ht Ho Hsh Hfi Hd Hta Hi Ha HT L HL HA.
  destruct (C94_kinetic sort garbage order sched N J filling delta tab dt t_end interval steps Hs HN Hf HJ Ht Ho Hsh Hfi Hd Hta HT HL HA) as (m & y & o & Em & Y & Te & H).
  exists m, y, (map (fun k => (time_at (to_double garbage) dt k, o k)) (written interval steps)). split; [exact Em|]. split; [exact Y|]. split; [exact Te|]. intros Hc.
  apply (read_measured (fun k => INR k * dt) (time_at (to_double garbage) dt) (time_error dt steps) _ _ o infos all (written interval steps) Hi Ha).
  - intros k Hk. exact (H k (written_le interval steps k Hk)).
  - intros k Hk. apply (Hc (time_at (to_double garbage) dt k, o k)). apply in_map_iff. exists k. split; [reflexivity|exact Hk].
Qed.
(** ** hubbard_real_1d_kinetic_theory: the rows of theory.txt are the time, the exact occupation and a vanishing imaginary part *)
Definition theory_row (d E t v : R) (r : list R) : Prop := exists a b c, r = [a; b; c] /\
  Rabs (a - t) <= d + 5 / 1000000 * (Rabs t + d) /\ Rabs (b - v) <= E + 5 / 1000000 * (Rabs v + E) /\ Rabs c <= E + 5 / 1000000 * E.
Theorem C122_theory : forall garbage bessel ev N dt steps T0 d b s f r,
  theory_sizes N dt steps T0 -> accurate_bessel b bessel -> b <= / 2 ^ 20 -> accurate_table d N ev -> d <= 1 ->
  shares T0 0 N s -> theory_main garbage bessel ev N dt steps show6 T0 s true f = Some r ->
  exists f' content t, r = Ok (f', 0%Z) /\ f' (str "theory.txt") = Some content /\ table content = Some t /\
    Forall2 (fun k => theory_row ((IZR k * dt + 1) * / 2 ^ 53) (theory_error N T0 d b (IZR k * dt)) (IZR k * dt) (theory_exact N (IZR k * dt))) (zrange 0 steps) t.
Proof.
  intros garbage bessel ev N dt steps T0 d b s f r HS Hb b20 Hd d1 Sh H.
  destruct (C105_file garbage bessel ev N dt steps T0 d b show6 s true f r HS Hb b20 Hd d1 Sh H) as (time & value & -> & V). cbv zeta in V.
  destruct (table_read [] (map (fun k => (time k, [fst (value k); snd (value k)])) (zrange 0 steps)) ltac:(constructor)) as (t & Et & Ft).
  exists (set_file f (str "theory.txt") (Some (theory_lines show6 time value steps))), (theory_lines show6 time value steps), t. split; [reflexivity|]. split; [apply set_same|]. split.
  - rewrite <- Et. unfold file. cbn [flat_map app]. f_equal. unfold theory_lines. clear. induction (zrange 0 steps) as [|i l IH]; [reflexivity|]. cbn [flat_map map fst snd]. rewrite IH. f_equal. unfold number_row. cbn [map flat_map]. rewrite app_nil_r. cbn [app]. rewrite <- !app_assoc. cbn [app]. rewrite <- app_assoc. reflexivity.
  - assert (G : forall k, In k (zrange 0 steps) -> (0 <= k < steps)%Z). { intros k Hk. apply zrange_in in Hk. exact Hk. }
    apply Forall2_mapped in Ft. apply (shown_rows (fun k => [time k; fst (value k); snd (value k)])) in Ft. clear Et H. revert G. induction Ft as [|k r l t Hr _ IH]; intros G; [constructor|]. constructor; [|apply IH; intros j Hj; apply G; right; exact Hj].
    destruct (V k (G k (or_introl eq_refl))) as [V1 [V2 V3]]. inversion Hr as [|? a ? r1 Ca Hr1]; subst. inversion Hr1 as [|? b' ? r2 Cb Hr2]; subst. inversion Hr2 as [|? c ? r3 Cc Hr3]; subst. inversion Hr3; subst.
    exists a, b', c. split; [reflexivity|]. split; [exact (near6_close _ _ _ _ Ca V1)|]. split; [exact (near6_close _ _ _ _ Cb V2)|].
    pose proof (near6_close _ _ _ _ Cc V3) as Q. cbn [snd] in Q. rewrite Rminus_0_r, Rabs_R0, Rplus_0_l in Q. exact Q.
Qed.
