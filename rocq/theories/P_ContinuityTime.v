(** THEOREMS: C123, fourth part: the motion at nearby times, and the step width given as a numeral. *)
From Coq Require Import Reals Lra Psatz Permutation Ascii String Sorted.
From Flocq Require Import Core Relative.
From Verif Require Import Base M_Operator M_Lattice Spec_Lattice Pf_Lattice Spec_LatticeReal M_Basis Pf_Basis P_Basis M_Matrix M_Ode M_Dispersion M_OpenMP Spec_OpenMP M_Expectation P_Expectation M_SiteOccupation Pf_SiteOccupation P_SiteOccupation
  M_TimeLoop Spec_TimeLoop Pf_Matrix Spec_Matrix Pf_Matrix2 P_Matrix Spec_Stability Pf_Stability Pf_Stability2 Pf_Stability3 P_Stability Spec_Programs M_Programs Pf_Programs Pf_Programs2 P_Programs P_Parameters P_Continuity
  M_Rounding M_Double P_Rounding M_RoundedMeasurement Pf_RoundedMeasurement5 P_RoundedMeasurement P_RoundedMeasurement2 P_RoundedMeasurement4 M_DoublePrograms Pf_DoubleTime Spec_DoublePrograms Pf_DoublePrograms P_DoublePrograms P_DoublePrograms2 P_ContinuityDouble.
From Verif Require Import M_Text M_Io Spec_Text Spec_Numeral M_OptionValue Ex_Matrix Ex_Io.
Import ListNotations.
Local Open Scope R_scope.
Local Open Scope list_scope.
Local Notation len u := (Z.of_nat (length u)).


Lemma apart_plus n (x y z : Z -> CR) : apart n x z <= apart n x y + apart n y z.
Proof.
  rewrite !apart_nrm. rewrite (nrm_ext (idx n) (fun p => vecf x p + -1 * vecf z p) (fun p => (vecf x p + -1 * vecf y p) + (vecf y p + -1 * vecf z p))) by (intros; ring). apply nrm_triangle.
Qed.
Lemma apart_same n (x x' y y' : Z -> CR) : (forall i, (0 <= i < n)%Z -> x i = x' i) -> (forall i, (0 <= i < n)%Z -> y i = y' i) -> apart n x y = apart n x' y'.
Proof. intros H G. unfold apart. rewrite !sum_SR. f_equal. apply SR_ext. intros i Hi. apply zrange_in in Hi. rewrite (H i Hi), (G i Hi). reflexivity. Qed.
(** the motion is never faster than 3 z |J| + |U| *)
Theorem C123_time : forall (sort : list (triplet CR) -> list (triplet CR)) J U lat N,
  sorts_by_column sort -> shipped3 lat N -> fits3 lat N -> let n := (N + N * N * N)%Z in
  exists m, init_matrix sort (real J : CR) (real U) (real (1/2)) lat = Ok m /\
    forall y, the_solution n (entry (bm_scale imag_unit m)) y ->
      forall s t, 0 <= s -> 0 <= t -> apart n (y s) (y t) <= (3 * neighbours lat * Rabs J + Rabs U) * Rabs (s - t).
Proof.
  intros sort J U lat N Hs Hl Hf n. destruct (full_facts sort J U lat N Hs Hl Hf) as (m & Em & _). exists m. split; [exact Em|]. intros y Hy.
  assert (H : forall s t, 0 <= s -> 0 < t -> apart n (y s) (y t) <= (3 * neighbours lat * Rabs J + Rabs U) * Rabs (s - t)).
  { intros s t Hs' Ht. set (l := s / t).
    destruct (C112_solution_scaling sort J U l lat N Hs Hl Hf) as (m1 & m' & Em1 & Em' & S). rewrite Em in Em1. injection Em1 as <-. fold n in S.
    destruct (C123_solution sort J U (l * J) (l * U) lat N Hs Hl Hf) as (m1 & m2 & Em1 & Em2 & C). rewrite Em in Em1. injection Em1 as <-. rewrite Em' in Em2. injection Em2 as <-. fold n in C.
    destruct (the_solution_exists sort (l * J) (l * U) lat N m' Hs Hl Hf Em') as (z & Hz). fold n in Hz.
    pose proof (C y z Hy Hz t ltac:(lra)) as Q. assert (E : l * t = s) by (unfold l; field; lra).
    rewrite (apart_same n (z t) (y s) (y t) (y t)) in Q; [|intros i Hi; rewrite (S y z Hy Hz t i Hi), E; reflexivity|reflexivity].
    eapply Rle_trans; [exact Q|]. apply Req_le.
    replace (l * J - J) with ((l - 1) * J) by ring. replace (l * U - U) with ((l - 1) * U) by ring. rewrite !Rabs_mult.
    replace (s - t) with ((l - 1) * t) by (rewrite <- E; ring). rewrite Rabs_mult, (Rabs_pos_eq t) by lra. ring. }
  intros s t Hs' Ht. destruct (Rle_lt_dec t 0) as [L|L]; [|apply H; assumption].
  replace t with 0 by lra. destruct (Rle_lt_dec s 0) as [L'|L'].
  - replace s with 0 by lra. rewrite Rminus_0_r, Rabs_R0, Rmult_0_r. unfold apart. rewrite sum_SR. rewrite (SR_ext _ (fun _ => 0)) by (intros; ring). rewrite SR_zero, sqrt_0. lra.
  - pose proof (H 0 s ltac:(lra) L') as Q. rewrite Rabs_minus_sym. eapply Rle_trans; [|exact Q]. apply Req_le. unfold apart. f_equal. apply sum_over_ext. intros i _. cbn. ring.
Qed.
(** all three numbers as written *)
Theorem C123_numerals : forall sort garbage tJ tU tdt J0 U0 dt0 J U N dt t_end interval steps,
  sorts_by_column sort -> (3 <= N)%Z -> fits3 (chain_lattice N) N -> numeral tJ = Some J0 -> numeral tU = Some U0 -> numeral tdt = Some dt0 -> of_normal_size J0 -> of_normal_size U0 -> of_normal_size dt0 ->
  option_value tJ = Some J -> option_value tU = Some U -> option_value tdt = Some dt -> is_double (U / 2) -> double_times garbage dt t_end interval steps ->
  let L := 6 * Rabs J + Rabs U in L <= 2 ^ 500 -> dt ^ 2 * L ^ 2 <= 8 -> 0 <= dt0 ->
  let n := (N + N * N * N)%Z in
  exists m y h, init_matrix sort (real J0 : CR) (real U0) (real (1/2)) (chain_lattice N) = Ok m /\
    the_solution n (entry (bm_scale imag_unit m)) y /\
    terminates_with (f_coefficients_full garbage sort N J U dt t_end interval) (Ok (map (fun k => (time_at (to_double garbage) dt k, h k)) (written interval steps))) /\
    forall k, (k <= steps)%nat -> Rabs (time_at (to_double garbage) dt k - INR k * dt0) <= INR k * INR steps * dt / 2 ^ 52 + INR k * dt0 / 2 ^ 53 /\
      len (h k) = n /\ distance2 (h k) (y (INR k * dt0)) <= INR k * dt * dt ^ 4 * L ^ 5 / 120 + INR k / 2 ^ 40 + INR k * (dt + dt0) * (6 * Rabs J0 + Rabs U0) / 2 ^ 53.
Proof.
  intros sort garbage tJ tU tdt J0 U0 dt0 J U N dt t_end interval steps Hs HN Hf NJ NU Nt SJ SU St VJ VU Vt HU Ht L HL Hd P0 n.
  assert (Hl : shipped3 (chain_lattice N) N) by (constructor; unfold fits3 in Hf; cbn [lat_coordination chain_lattice] in Hf; nia).
  destruct (C123_coefficients sort garbage tJ tU J0 U0 J U N dt t_end interval steps Hs HN Hf NJ NU SJ SU VJ VU HU Ht HL Hd) as (m & y & h & Em & Y & Te & H). fold n in Y, H. fold L in H.
  destruct (C123_time sort J0 U0 (chain_lattice N) N Hs Hl Hf) as (m1 & Em1 & C). rewrite Em in Em1. injection Em1 as <-. fold n in C.
  exists m, y, h. split; [exact Em|]. split; [exact Y|]. split; [exact Te|]. intros k Hk. destruct (H k Hk) as (A & B & D). pose proof (pos_INR k) as Pk.
  assert (Q : Rabs (dt - dt0) <= dt0 / 2 ^ 53).
  { unfold option_value in Vt. rewrite Nt in Vt. cbn [option_map] in Vt. injection Vt as <-. pose proof (round_rel dt0 St) as Q. rewrite (Rabs_pos_eq dt0) in Q by exact P0. exact Q. }
  assert (R : Rabs (INR k * dt - INR k * dt0) <= INR k * dt0 / 2 ^ 53).
  { replace (INR k * dt - INR k * dt0) with (INR k * (dt - dt0)) by ring. rewrite Rabs_mult, (Rabs_pos_eq (INR k)) by exact Pk. replace (INR k * dt0 / 2 ^ 53) with (INR k * (dt0 / 2 ^ 53)) by (unfold Rdiv; ring). apply Rmult_le_compat_l; assumption. }
  split; [|split; [exact B|]].
  - replace (time_at (to_double garbage) dt k - INR k * dt0) with ((time_at (to_double garbage) dt k - INR k * dt) + (INR k * dt - INR k * dt0)) by ring. eapply Rle_trans; [apply Rabs_triang|]. lra.
  - assert (D0 : 0 <= dt) by (destruct Ht as ((G & _) & _); eapply Rle_trans; [|exact G]; left; apply Rinv_0_lt_compat, pow_lt; lra).
    pose proof (C y Y (INR k * dt) (INR k * dt0) ltac:(nra) ltac:(nra)) as T.
    assert (T' : apart n (y (INR k * dt)) (y (INR k * dt0)) <= (6 * Rabs J0 + Rabs U0) * (INR k * dt0 / 2 ^ 53)).
    { eapply Rle_trans; [exact T|]. replace (3 * neighbours (chain_lattice N) * Rabs J0 + Rabs U0) with (6 * Rabs J0 + Rabs U0) by (unfold neighbours; cbn [lat_coordination chain_lattice]; ring).
      apply Rmult_le_compat_l; [pose proof (Rabs_pos J0); pose proof (Rabs_pos U0); lra|exact R]. }
    eapply Rle_trans; [exact (apart_triangle n (h k) (y (INR k * dt)) (y (INR k * dt0)) B)|].
    eapply Rle_trans; [apply Rplus_le_compat; [exact D|exact T']|]. apply Req_le. unfold Rdiv. generalize (/ 2 ^ 53). intros r. ring.
Qed.
(** hubbard_real_1d_rk4_coefficients --N=4 --J=0.1 --U=2.5 --dt=0.015625 --t_end=0.0625 *)
Example C123_run : forall garbage, exists J m y h, option_value (str "0.1") = Some J /\ init_matrix isort (real (1 / 10) : CR) (real (5 / 2)) (real (1/2)) (chain_lattice 4) = Ok m /\
  the_solution 68 (entry (bm_scale imag_unit m)) y /\
  terminates_with (f_coefficients_full garbage isort 4 J (5 / 2) (/ 64) (1 / 16) 2) (Ok (map (fun k => (time_at (to_double garbage) (/ 64) k, h k)) [0; 2; 4]%nat)) /\
  forall k, (k <= 4)%nat -> distance2 (h k) (y (INR k / 64)) <= 1 / 1000000.
Proof.
  intros garbage. destruct C123_example as (N1 & N2 & S1 & S2 & J & V1 & V2 & D2 & L5 & L8).
  assert (N3 : numeral (str "0.015625") = Some (/ 64)) by (transitivity (Some (IZR 15625 * powerRZ 10 (0 - 6))); [reflexivity|apply (f_equal Some); change (powerRZ 10 (0 - 6)) with (/ 10 ^ 6); field]).
  assert (T : / 2 ^ 1022 <= / 2 ^ 10) by (apply Rinv_le_contravar; [apply pow_lt; lra|apply Rle_pow; [lra|lia]]).
  assert (S3 : of_normal_size (/ 64)) by (right; rewrite Rabs_pos_eq by lra; lra).
  assert (V3 : option_value (str "0.015625") = Some (/ 64)).
  { unfold option_value. rewrite N3. cbn [option_map]. f_equal. apply round_generic; [apply valid_rnd_N|]. apply generic_format_FLT. exists (Float radix2 1 (-6)); [unfold F2R; cbn [Fnum Fexp]; change (bpow radix2 (-6)) with (/ 64); lra|cbn; lia|cbn; lia]. }
  assert (F3 : fits3 (chain_lattice 4) 4) by (unfold fits3; apply big; reflexivity).
  destruct (C123_numerals isort garbage (str "0.1") (str "2.5") (str "0.015625") (1 / 10) (5 / 2) (/ 64) J (5 / 2) 4 (/ 64) (1 / 16) 2 4 isort_ok ltac:(lia) F3 N1 N2 N3 S1 S2 S3 V1 V2 V3 D2 (example_times garbage) L5 L8 ltac:(lra)) as (m & y & h & Em & Y & Te & H).
  exists J, m, y, h. split; [exact V1|]. split; [exact Em|]. split; [exact Y|]. split; [exact Te|]. intros k Hk. destruct (H k Hk) as (_ & _ & Q).
  replace (INR k / 64) with (INR k * / 64) by reflexivity. eapply Rle_trans; [exact Q|]. clear Q H Te.
  assert (K4 : INR k <= 4) by (replace 4 with (INR 4) by (cbn; lra); apply le_INR; exact Hk). pose proof (pos_INR k) as K0.
  rewrite (Rabs_pos_eq (1 / 10)), (Rabs_pos_eq (5 / 2)) in * by lra.
  assert (B : 0 <= 6 * Rabs J + 5 / 2 <= 4).
  { pose proof (Rabs_pos J). unfold option_value in V1. rewrite N1 in V1. cbn [option_map] in V1. injection V1 as <-. pose proof (round_rel (1 / 10) S1) as Q. rewrite (Rabs_pos_eq (1 / 10)) in Q by lra.
    pose proof (Rabs_triang (round_double (1 / 10) - 1 / 10) (1 / 10)) as R. replace (round_double (1 / 10) - 1 / 10 + 1 / 10) with (round_double (1 / 10)) in R by ring. rewrite (Rabs_pos_eq (1 / 10)) in R by lra.
    assert (P2 : 1 / 10 / 2 ^ 53 <= 1 / 1000) by lra. lra. }
  set (X := 6 * Rabs J + 5 / 2) in *. assert (X5 : X ^ 5 <= 4 ^ 5) by (apply pow_incr; exact B). assert (X0 : 0 <= X ^ 5) by (apply pow_le; lra).
  assert (A1 : INR k * / 64 * (/ 64) ^ 4 * X ^ 5 / 120 <= 4 * / 64 * (/ 64) ^ 4 * 4 ^ 5 / 120).
  { unfold Rdiv. apply Rmult_le_compat_r; [lra|]. apply Rmult_le_compat; [|exact X0| |exact X5]; nra. }
  lra.
Qed.
