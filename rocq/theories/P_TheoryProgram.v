(** PROPERTY C105: hubbard_real_1d_kinetic_theory as a whole program in double precision. *)
From Coq Require Import Reals Lra Psatz List ZArith Permutation Lia Ascii String.
From Flocq Require Import Core.
From Verif Require Import Base Instances Spec_Lattice M_Operator M_Lattice Pf_Lattice M_Basis M_Matrix Pf_Matrix M_Ode M_Dispersion M_Expectation M_OpenMP Spec_OpenMP Spec_Stability Pf_Stability Pf_Stability2
  M_Text M_Io M_Rounding Spec_Rounding M_Double Pf_Double Pf_Rounding5 P_Rounding M_RoundedMeasurement Spec_RoundedMeasurement Pf_Threads Pf_RoundedMeasurement2 M_DispersionProgram
  Spec_Programs Spec_Bessel Pf_BesselNorm M_Theory Spec_TheoryProgram M_TheoryProgram Pf_TheoryProgram Pf_TheoryProgram2 Pf_TheoryProgram3 M_SiteOccupation Pf_Bessel P_Theory.
Local Open Scope R_scope.
Local Open Scope list_scope.

(** sizes for which no integer and no double overflows and all errors stay small *)
Definition theory_sizes (N : Z) (dt : R) (steps : Z) (T0 : nat) : Prop :=
  (1 <= N <= 2 ^ 20)%Z /\ 0 <= dt /\ (0 <= steps < 2 ^ 52)%Z /\ 2 * IZR steps * dt <= 2 ^ 29 /\ (Z.of_nat T0 <= 2 ^ 40)%Z.
(** the error of a value: the rounding of the sums, the errors [d] of the averages and [b] of the Bessel functions,
    and the rounding of their argument 2t *)
Definition theory_error (N : Z) (T0 : nat) (d b t : R) : R :=
  IZR (N * N + Z.of_nat T0 + 3) * IZR N * / 2 ^ 48 + 4 * IZR N * d + 3 * (IZR N * IZR N) * (b + (2 * t + 1) * / 2 ^ 53).

Lemma two_steps x y z A B : Rabs (x - y) <= A -> Rabs (y - z) <= B -> Rabs (x - z) <= A + B.
Proof. intros H1 H2. replace (x - z) with ((x - y) + (y - z)) by ring. eapply Rle_trans; [apply Rabs_triang|lra]. Qed.

Section Proof.
  Context (garbage : R -> R) (bessel : Z -> R -> R) (table : list R) (N : Z) (dt : R) (steps : Z) (T0 : nat) (d b : R).
  Hypothesis HS : theory_sizes N dt steps T0.
  Hypothesis Hb : accurate_bessel b bessel.
  Hypothesis Hd : accurate_table d N table.
  Hypothesis b20 : b <= / 2 ^ 20.
  Hypothesis d1 : d <= 1.
  Notation ar := (double_arith garbage).
  Let e (i j : Z) : R := match ev1 N table i j with Ok x => x | UB => 0 end.
  Lemma N64 : (0 < N < two64)%Z. Proof. destruct HS as (H & _). assert (2 ^ 20 < two64)%Z by reflexivity. lia. Qed.
  Lemma distance_ring i j : site N i -> site N j -> chain_distance N i j = ring_distance N i j /\ (0 <= ring_distance N i j <= N / 2)%Z.
  Proof.
    intros Hi Hj. pose proof N64. rewrite chain_distance_eq by (try assumption; lia). split; [reflexivity|]. unfold ring_distance, site in *.
    pose proof (Z.mod_pos_bound N 2 ltac:(lia)). pose proof (Z.div_mod N 2 ltac:(lia)). lia.
  Qed.
  Lemma e_value i j : site N i -> site N j -> ev1 N table i j = Ok (e i j) /\ Rabs (e i j - object_average (ring_distance N i j)) <= d.
  Proof.
    intros Hi Hj. destruct (distance_ring i j Hi Hj) as (E & B). unfold e, ev1, vread. rewrite E. destruct (Z.ltb_spec (ring_distance N i j) 0) as [C|_]; [lia|].
    destruct Hd as (_ & T). destruct (T _ B) as (x & -> & X). split; [reflexivity|exact X].
  Qed.
  Lemma b_pos : 0 <= b. Proof. destruct (Hb 0%Z 0 ltac:(lia) ltac:(lra)) as (_ & X). eapply Rle_trans; [apply Rabs_pos|exact X]. Qed.
  Lemma d_pos : 0 <= d.
  Proof. pose proof N64. destruct (e_value 0 0) as (_ & X); try (unfold site; lia). eapply Rle_trans; [apply Rabs_pos|exact X]. Qed.
  Section Step.
    Context (k : Z).
    Hypothesis Hk : (0 <= k < steps)%Z.
    Let t := IZR k * dt.
    Let o (i : Z) := from_origin N i.
    Let a (i : Z) := bessel_j (Z.to_nat (o i)) (2 * t).
    Let ah (i : Z) := bessel (o i) (th_argument garbage dt k).
    Let b' := b + (2 * t + 1) * / 2 ^ 53.
    Lemma t_bound : 0 <= t /\ 2 * IZR k * dt <= 2 ^ 29 /\ 2 * t <= 2 ^ 29.
    Proof.
      destruct HS as (_ & D & S & X & _). assert (0 <= IZR k <= IZR steps) by (split; apply IZR_le; lia). unfold t.
      assert (IZR k * dt <= IZR steps * dt) by (apply Rmult_le_compat_r; lra). split; [apply Rmult_le_pos; lra|]. split; lra.
    Qed.
    Lemma b'_small : 0 <= b' <= / 2 ^ 19.
    Proof.
      destruct t_bound as (T1 & _ & T2). pose proof b_pos. assert (0 < / 2 ^ 53) by (apply Rinv_0_lt_compat, pow2_pos). unfold b'. split; [nra|].
      assert (Q : (2 * t + 1) * / 2 ^ 53 <= 2 ^ 30 * / 2 ^ 53) by (apply Rmult_le_compat_r; [lra|replace (2 ^ 30) with (2 * 2 ^ 29) by (cbn; lra); assert (1 <= 2 ^ 29) by (apply pow_R1_Rle; lra); lra]).
      assert (E1 : / 2 ^ 20 = 2 ^ 33 * / 2 ^ 53) by (rewrite (half_pow 20 53) by lia; reflexivity). assert (E2 : / 2 ^ 19 = 2 * / 2 ^ 20) by (rewrite (half_pow 19 20) by lia; cbn [Nat.sub pow]; ring).
      assert (2 ^ 30 * / 2 ^ 53 <= / 2 ^ 20) by (rewrite E1; apply Rmult_le_compat_r; [lra|apply Rle_pow; [lra|lia]]). lra.
    Qed.
    Lemma b'_1 : 0 <= b' <= 1 / 2.
    Proof. pose proof b'_small as B. assert (/ 2 ^ 19 <= 1 / 2) by (replace (1 / 2) with (/ 2 ^ 1) by (cbn; field); apply Rinv_le_contravar; [apply pow2_pos|apply Rle_pow; [lra|lia]]). lra. Qed.
    Lemma o_pos i : site N i -> (0 <= o i)%Z.
    Proof. intros Hi. pose proof N64. unfold o, from_origin. apply (distance_ring 0 i); [unfold site; lia|exact Hi]. Qed.
    Lemma a_1 i : Rabs (a i) <= 1. Proof. unfold a. apply bessel_1. destruct t_bound. lra. Qed.
    Lemma ah_err i : site N i -> is_double (ah i) /\ Rabs (ah i - a i) <= b'.
    Proof.
      intros Hi. destruct t_bound as (T1 & T2 & _). destruct HS as (_ & D & S & _). destruct (argument_err garbage dt k ltac:(lia) D T2) as (X1 & X2). fold t in X2.
      destruct (Hb (o i) (th_argument garbage dt k) (o_pos i Hi) X1) as (Y1 & Y2). split; [exact Y1|].
      replace (ah i - a i) with ((ah i - bessel_j (Z.to_nat (o i)) (th_argument garbage dt k)) + (bessel_j (Z.to_nat (o i)) (th_argument garbage dt k) - a i)) by ring.
      eapply Rle_trans; [apply Rabs_triang|]. unfold b'. apply Rplus_le_compat; [exact Y2|]. eapply Rle_trans; [apply bessel_lip; lra|exact X2].
    Qed.
    Lemma ah_2 i : site N i -> Rabs (ah i) <= 2.
    Proof. intros Hi. replace (ah i) with (a i + (ah i - a i)) by ring. eapply Rle_trans; [apply Rabs_triang|]. pose proof (a_1 i). destruct (ah_err i Hi) as (_ & X). pose proof b'_1. lra. Qed.
    (** h_vals and h_vals_conj *)
    Let theta (i : Z) := PI / 2 * IZR (o i).
    Lemma h_value i : site N i -> th_h_val garbage bessel N dt i k = (ah i * cos (theta i), - (ah i * sin (theta i))) /\ th_h_val_conj garbage bessel N dt i k = (ah i * cos (theta i), ah i * sin (theta i)).
    Proof.
      intros Hi. pose proof N64 as NN. destruct (distance_ring 0 i ltac:(unfold site; lia) Hi) as (E & _). unfold th_h_val, th_h_val_conj. rewrite E. fold (from_origin N i). fold (o i).
      fold (ah i). destruct (ah_err i Hi) as (D & _). pose proof (ah_2 i Hi) as B. destruct (power_parts (o i)) as (P1 & P2). pose proof (power_phase (o i) (o_pos i Hi)) as PP. fold (theta i) in PP.
      unfold cf_scale. cbn [fst snd]. rewrite !(unit_exact garbage) by (try assumption; apply unit_opp; assumption). rewrite PP. cbn [fst snd]. split; f_equal; ring.
    Qed.
    Lemma square_h i : site N i -> square (th_h_val garbage bessel N dt i k) = ah i * ah i /\ square (th_h_val_conj garbage bessel N dt i k) = ah i * ah i.
    Proof.
      intros Hi. destruct (h_value i Hi) as (-> & ->). unfold square. cbn [fst snd]. pose proof (sin2_cos2 (theta i)) as E. unfold Rsqr in E.
      split; replace (ah i * ah i) with (ah i * ah i * (sin (theta i) * sin (theta i) + cos (theta i) * cos (theta i))) by (rewrite E; ring); ring.
    Qed.
    Lemma ah_norm : SR (fun i => ah i * ah i) (zrange 0 N) <= 4.
    Proof.
      pose proof N64 as NN. destruct HS as (HN & _). destruct t_bound as (T1 & _). pose proof (ring_norm N t ltac:(lia) T1) as R1. pose proof b'_small as B. pose proof b'_1 as B1.
      apply Rle_trans with (SR (fun i => 2 * (a i * a i) + 2 * (b' * b')) (zrange 0 N)).
      - apply SR_le. intros i Hi. apply zrange_in in Hi. destruct (ah_err i Hi) as (_ & X). assert (Y : (ah i - a i) * (ah i - a i) <= b' * b').
        { rewrite <- (Rabs_pos_eq ((ah i - a i) * (ah i - a i))) by (apply Rle_0_sqr). rewrite Rabs_mult. apply Rmult_le_compat; try apply Rabs_pos; exact X. }
        pose proof (Rle_0_sqr (2 * a i - ah i)) as S. unfold Rsqr in S. lra.
      - rewrite SR_add, SR_mul, Pf_Stability3.SR_const, zrange_length, Z.sub_0_r, INR_IZR_INZ, Z2Nat.id by lia. fold (o 0%Z) in R1. unfold a.
        assert (NB : IZR N * (b' * b') <= 1).
        { assert (N20 : IZR N <= 2 ^ 20). { replace (2 ^ 20) with (IZR (2 ^ 20)) by (rewrite (pow_IZR 2 20); reflexivity). apply IZR_le. lia. } assert (0 <= IZR N) by (apply IZR_le; lia).
          assert (BB : b' * b' <= / 2 ^ 19 * / 2 ^ 19) by (apply Rmult_le_compat; lra). assert (0 <= b' * b') by (apply Rle_0_sqr).
          apply Rle_trans with (2 ^ 20 * (/ 2 ^ 19 * / 2 ^ 19)); [apply Rmult_le_compat; lra|]. cbn. lra. }
        change (SR (fun i => bessel_j (Z.to_nat (o i)) (2 * t) * bessel_j (Z.to_nat (o i)) (2 * t)) (zrange 0 N) <= 1) in R1. lra.
    Qed.
    Lemma e_2 i j : site N i -> site N j -> Rabs (e i j) <= 2.
    Proof.
      intros Hi Hj. destruct (e_value i j Hi Hj) as (_ & X). destruct (distance_ring i j Hi Hj) as (_ & B). pose proof (average_1 (ring_distance N i j) ltac:(lia)) as A.
      replace (e i j) with (object_average (ring_distance N i j) + (e i j - object_average (ring_distance N i j))) by ring. eapply Rle_trans; [apply Rabs_triang|]. lra.
    Qed.
    Lemma value_err s : shares T0 0 N s ->
      near (theory_error N T0 d b t) (f_accumulate ar (map (sum_up ((0, 0) : CR) (fplus ar)) (parts garbage bessel N dt e T0 s k))) (theory_exact N t, 0).
    Proof.
      intros Sh. pose proof N64 as NN. destruct HS as (HN & _ & _ & _ & HT). destruct (parts_perm garbage bessel N dt e T0 s k Sh) as (L & P).
      set (h := fun i => th_h_val garbage bessel N dt i k). set (hc := fun i => th_h_val_conj garbage bessel N dt i k).
      assert (Q := total_error garbage N e h hc e_2 (fun i Hi => eq_trans (Logic.proj2 (square_h i Hi)) (eq_sym (Logic.proj1 (square_h i Hi))))).
      assert (h4 : forall i, site N i -> square (h i) <= 4).
      { intros i Hi. unfold h. rewrite (Logic.proj1 (square_h i Hi)). pose proof (ah_2 i Hi) as A2. rewrite <- (Rabs_pos_eq (ah i * ah i)) by nra. rewrite Rabs_mult. pose proof (Rabs_pos (ah i)). nra. }
      assert (h2 : SR (fun i => square (h i)) (zrange 0 N) <= 4).
      { rewrite (SR_ext _ (fun i => ah i * ah i)); [apply ah_norm|]. intros i Hi. apply zrange_in in Hi. apply (square_h i Hi). }
      specialize (Q h4 HN h2 (parts garbage bessel N dt e T0 s k) T0 HT L P). cbn zeta in Q. set (z := f_accumulate ar _) in *. destruct Q as (Q1 & Q2).
      set (C := fun i j => cos (theta i - theta j)). set (S := fun i j => - sin (theta i - theta j)).
      rewrite (SR_ext _ (fun i => SR (fun j => e i j * (ah i * ah j * C i j)) (zrange 0 N))) in Q1.
      2:{ intros i Hi. apply SR_ext. intros j Hj. apply zrange_in in Hi, Hj. unfold h, hc. destruct (h_value i Hi) as (-> & _). destruct (h_value j Hj) as (_ & ->). unfold times, C. cbn [fst snd]. rewrite cos_minus. ring. }
      rewrite (SR_ext _ (fun i => SR (fun j => e i j * (ah i * ah j * S i j)) (zrange 0 N))) in Q2.
      2:{ intros i Hi. apply SR_ext. intros j Hj. apply zrange_in in Hi, Hj. unfold h, hc. destruct (h_value i Hi) as (-> & _). destruct (h_value j Hj) as (_ & ->). unfold times, S. cbn [fst snd]. rewrite sin_minus. ring. }
      assert (Pt : forall G : Z -> Z -> R, (forall i j, Rabs (G i j) <= 1) ->
        Rabs (SR (fun i => SR (fun j => e i j * (ah i * ah j * G i j)) (zrange 0 N)) (zrange 0 N) - SR (fun i => SR (fun j => object_average (ring_distance N i j) * (a i * a j * G i j)) (zrange 0 N)) (zrange 0 N)) <= 4 * IZR N * d + 3 * (IZR N * IZR N) * b').
      { intros G HG. apply (perturb_sum N a ah (fun i j => object_average (ring_distance N i j)) e G d b' ltac:(lia)); try assumption.
        - pose proof b'_1. lra.
        - apply d_pos.
        - intros i _. apply a_1.
        - intros i Hi. apply (ah_err i Hi).
        - intros i j Hi Hj. apply average_1. apply (distance_ring i j Hi Hj).
        - intros i j Hi Hj. apply (e_value i j Hi Hj).
        - apply ah_norm. }
      pose proof (Pt C ltac:(intros; unfold C; apply Rabs_le, COS_bound)) as P1. pose proof (Pt S ltac:(intros; unfold S; rewrite Rabs_Ropp; apply Rabs_le, SIN_bound)) as P2.
      rewrite (SR_antisym (fun i j => object_average (ring_distance N i j) * (a i * a j * S i j))) in P2.
      2:{ intros i j. unfold S. replace (theta j - theta i) with (- (theta i - theta j)) by ring. rewrite sin_neg. replace (ring_distance N j i) with (ring_distance N i j) by (unfold ring_distance; lia). ring. }
      assert (Ex : theory_exact N t = SR (fun i => SR (fun j => object_average (ring_distance N i j) * (a i * a j * C i j)) (zrange 0 N)) (zrange 0 N)).
      { unfold theory_exact. rewrite sum_SR. apply SR_ext. intros i _. rewrite sum_SR. apply SR_ext. intros j _. unfold a, C, theta. fold (o i) (o j). do 3 f_equal. rewrite minus_IZR. ring. }
      unfold near, theory_error. fold b'. cbn [fst snd]. rewrite Ex. split.
      - eapply Rle_trans; [apply (two_steps _ _ _ _ _ Q1 P1)|]. apply Req_le. ring.
      - eapply Rle_trans; [apply (two_steps _ _ _ _ _ Q2 P2)|]. apply Req_le. ring.
    Qed.
  End Step.
End Proof.

(** ** The property *)
(** what theory.txt contains: a line for every step, with a time, a real and an imaginary part *)
Definition theory_lines (show : R -> text) (time : Z -> R) (value : Z -> CR) (steps : Z) : text :=
  flat_map (fun k => show (time k) ++ [tab] ++ show (fst (value k)) ++ [tab] ++ show (snd (value k)) ++ [newline]) (zrange 0 steps).

Theorem C105_file : forall garbage bessel table N dt steps T0 d b show s writable f r,
  theory_sizes N dt steps T0 -> accurate_bessel b bessel -> b <= / 2 ^ 20 -> accurate_table d N table -> d <= 1 ->
  shares T0 0 N s -> theory_main garbage bessel table N dt steps show T0 s writable f = Some r ->
  exists time value,
    r = Ok (if writable then set_file f (str "theory.txt") (Some (theory_lines show time value steps)) else f, 0%Z) /\
    forall k, (0 <= k < steps)%Z -> let t := IZR k * dt in
      Rabs (time k - t) <= (t + 1) * / 2 ^ 53 /\ near (theory_error N T0 d b t) (value k) (theory_exact N t, 0).
Proof.
  intros garbage bessel table N dt steps T0 d b show s writable f r HS Hb b20 Hd d1 Sh H. unfold theory_main in H.
  destruct (th_results garbage bessel table N dt steps T0 s) as [r1|] eqn:R1; [|discriminate]. pose proof (N64 N dt steps T0 HS) as NN.
  pose proof (results_value garbage bessel table N dt steps NN _ (fun i j Hi Hj => Logic.proj1 (e_value table N dt steps T0 d HS Hd i j Hi Hj)) T0 s r1 Sh R1) as RV.
  destruct RV as (mem & -> & V). cbn [pbind] in H. injection H as <-.
  exists (th_time garbage dt), (th_val garbage steps T0 mem). split; [reflexivity|]. intros k Hk t. split.
  - destruct (t_bound N dt steps T0 HS k Hk) as (_ & X & _). destruct HS as (_ & D & S & _). apply time_err; (assumption || lia).
  - rewrite V by exact Hk. apply (value_err garbage bessel table N dt steps T0 d b HS Hb Hd b20 d1 k Hk s Sh).
Qed.
Print Assumptions C105_file.

(** every distribution of the rows can be run to the end *)
Theorem C105_completes : forall garbage bessel table N dt steps show T0 who writable f,
  exists tr r, theory_main garbage bessel table N dt steps show T0 (mkSch who tr) writable f = Some r.
Proof.
  intros garbage bessel table N dt steps show T0 w writable f. destruct (results_complete garbage bessel table N dt steps T0 w) as (tr & H). exists tr. unfold theory_main.
  destruct (th_results garbage bessel table N dt steps T0 (mkSch w tr)) as [[mem|]|]; [| |congruence]; eexists; reflexivity.
Qed.
Print Assumptions C105_completes.

(** Defect: results has one vector per thread of the first parallel region (64-66), but is indexed with the thread
    number of the second (76).  OpenMP does not promise that the two have equally many threads; a row in a
    thread without vector is undefined behaviour. *)
Theorem C105_more_threads_refuted : forall garbage bessel table N dt steps T0 d T s show writable f t,
  theory_sizes N dt steps T0 -> accurate_table d N table -> (0 < steps)%Z -> shares T 0 N s -> (T0 <= t)%nat -> nth t (who s) [] <> [] ->
  theory_main garbage bessel table N dt steps show T0 s writable f = Some UB.
Proof.
  intros garbage bessel table N dt steps T0 d T s show writable f t HS Hd Hs (_ & P) Ht Hne. unfold theory_main. pose proof (N64 N dt steps T0 HS) as NN.
  rewrite (results_ub garbage bessel table N dt steps NN _ (fun i j Hi Hj => Logic.proj1 (e_value table N dt steps T0 d HS Hd i j Hi Hj)) T0 s t Hs); try assumption; [reflexivity|].
  intros i Hi. apply (Permutation_in _ P) in Hi. apply zrange_in in Hi. exact Hi.
Qed.
Print Assumptions C105_more_threads_refuted.

(** [theory_exact] is what the program computes in exact arithmetic (C79) *)
Theorem C105_ideal : forall N t T s r, (1 <= N < two64)%Z -> shares T 0 N s -> theory_value N t T s = Some r -> r = Ok (theory_exact N t, 0).
Proof.
  intros N t T s r HN Sh H. destruct (C79_value N t T s r HN Sh H) as (v & -> & Z & E). f_equal. rewrite (surjective_pairing v), Z. f_equal.
  rewrite E, fst_sum. unfold theory_exact. rewrite sum_SR. apply SR_ext. intros i Hi. rewrite fst_sum, sum_SR. apply SR_ext. intros j Hj. apply zrange_in in Hi, Hj.
  assert (S0 : site N 0) by (unfold site; lia).
  assert (D : forall a c, site N a -> site N c -> chain_distance N a c = ring_distance N a c /\ (0 <= ring_distance N a c)%Z).
  { intros a c Ha Hc. rewrite chain_distance_eq by (try assumption; lia). split; [reflexivity|]. unfold ring_distance, site in *. lia. }
  destruct (D i j Hi Hj) as (-> & _). destruct (D 0%Z i S0 Hi) as (Ei & Pi). destruct (D 0%Z j S0 Hj) as (Ej & Pj).
  unfold h_val, theory_coefficient. rewrite Ei, Ej. fold (from_origin N i) (from_origin N j). fold (from_origin N i) in Pi. fold (from_origin N j) in Pj.
  rewrite (power_phase _ Pi), (power_phase _ Pj), minus_IZR. unfold constructed_average, object_average.
  replace (PI / 2 * (IZR (from_origin N i) - IZR (from_origin N j))) with (PI / 2 * IZR (from_origin N i) - PI / 2 * IZR (from_origin N j)) by ring. rewrite cos_minus. cbn. ring.
Qed.
Print Assumptions C105_ideal.

(** it starts with 1 *)
Theorem C105_start : forall N, (1 <= N)%Z -> theory_exact N 0 = 1.
Proof.
  intros N HN. unfold theory_exact. rewrite sum_SR. rewrite Rmult_0_r.
  assert (B : forall i, site N i -> bessel_j (Z.to_nat (from_origin N i)) 0 = if (i =? 0)%Z then 1 else 0).
  { intros i Hi. unfold site in Hi. transitivity (A (Z.to_nat (from_origin N i)) 0); [rewrite <- bessel_A; f_equal; ring|]. rewrite A_at_0. unfold from_origin, ring_distance.
    destruct (Nat.eqb_spec (Z.to_nat (Z.min (Z.abs (0 - i)) (N - Z.abs (0 - i)))) 0); destruct (Z.eqb_spec i 0); reflexivity || (exfalso; lia). }
  assert (Row : forall x : Z -> R, SR (fun i => (if (i =? 0)%Z then 1 else 0) * x i) (zrange 0 N) = x 0%Z).
  { intros x. rewrite zrange_cons by lia. cbn [SR]. rewrite (SR_ext _ (fun _ => 0)).
    - rewrite Pf_Stability3.SR_const. cbn [Z.eqb]. ring.
    - intros i Hi. apply zrange_in in Hi. destruct (Z.eqb_spec i 0); [lia|ring]. }
  rewrite (SR_ext _ (fun i => (if (i =? 0)%Z then 1 else 0) * (object_average (ring_distance N i 0) * cos (PI / 2 * IZR (from_origin N i - from_origin N 0))))).
  - rewrite Row. unfold object_average, ring_distance, from_origin, ring_distance. replace (Z.min (Z.abs (0 - 0)) (N - Z.abs (0 - 0))) with 0%Z by lia. cbn [Z.eqb]. rewrite Z.sub_diag, Rmult_0_r, cos_0. ring.
  - intros i Hi. rewrite sum_SR. rewrite (SR_ext _ (fun j => (if (j =? 0)%Z then 1 else 0) * ((if (i =? 0)%Z then 1 else 0) * (object_average (ring_distance N i j) * cos (PI / 2 * IZR (from_origin N i - from_origin N j)))))).
    + rewrite Row. reflexivity.
    + intros j Hj. apply zrange_in in Hi, Hj. rewrite (B i Hi), (B j Hj). ring.
Qed.
Print Assumptions C105_start.

(** the sizes of the shipped program are covered: N = 128, dt = 0.01, 10000 steps, with up to 2^40 threads *)
Example shipped_sizes : forall dt, Rabs (dt - 1 / 100) <= / 1000 -> theory_sizes 128 dt 10000 8 /\ theory_error 128 8 (/ 2 ^ 51) (/ 2 ^ 48) 100 <= / 10 ^ 8.
Proof.
  intros dt H. apply Rabs_le_inv in H. split; [unfold theory_sizes|].
  - split; [lia|]. split; [lra|]. split; [lia|]. split; [|reflexivity || lia]. apply Rle_trans with (2 ^ 10); [cbn; lra|apply Rle_pow; [lra|lia]].
  - unfold theory_error. cbn -[pow Rinv]. cbn. lra.
Qed.
