(** PROPERTY C112, in double precision: the sign of the interaction only conjugates the printed coefficients and changes their signs, bit by bit. *)
From Coq Require Import Reals Lra Psatz Permutation Sorting.Sorted.
From Flocq Require Core.Raux Core.Generic_fmt Core.Round_NE.
From Verif Require Import Base M_Operator M_Lattice Spec_Lattice Pf_Lattice P_Lattice M_Basis Pf_Basis P_Basis M_Matrix M_Ode M_Dispersion M_OpenMP M_TimeLoop Spec_TimeLoop Spec_Ode
  Pf_Matrix Spec_Matrix Pf_Matrix2 P_Matrix Spec_LatticeReal Pf_Ode Spec_Stability Pf_Stability2 P_Stability Spec_Programs M_Programs Pf_Programs P_TimeLoop P_Programs Pf_MatrixEntry P_OccupationFree Pf_Symmetry Spec_ParticleHole P_ParticleHole Spec_Parameters P_Parameters Pf_Commutator P_Dynamics
  M_Rounding M_Double P_Rounding M_RoundedMeasurement M_DoublePrograms Spec_DoublePrograms Pf_DoublePrograms P_DoublePrograms P_ParticleHoleDouble P_SignDouble P_DoublePrograms2 Ex_Matrix Ex_Programs.
Local Open Scope R_scope.
Local Open Scope list_scope.
Local Notation len u := (Z.of_nat (length u)).

(** the conjugate of z times the sign s *)
Definition mirrored (s : R) (z : CR) : CR := (s * fst z, s * - snd z).
Section Mirror.
  Context (ar : arith).
  (** the only laws used: rounding is odd *)
  Hypothesis Ao : forall a b, f_add ar (- a) (- b) = - f_add ar a b.
  Hypothesis Ml : forall a b, f_mul ar (- a) b = - f_mul ar a b.
  Hypothesis Mr : forall a b, f_mul ar a (- b) = - f_mul ar a b.
  Context (sg : Z -> R).
  Hypothesis Hsg : forall i, sign (sg i).
  Lemma c_add s x y : sign s -> cf_add ar (mirrored s x) (mirrored s y) = mirrored s (cf_add ar x y).
  Proof. intros H. unfold cf_add, mirrored. cbn [fst snd]. rewrite !(add_s ar Ao _ _ _ H), Ao. reflexivity. Qed.
  Lemma c_scale s c x : sign s -> cf_scale ar c (mirrored s x) = mirrored s (cf_scale ar c x).
  Proof. intros H. unfold cf_scale, mirrored. cbn [fst snd]. rewrite !(mul_sr ar Mr _ _ _ H), Mr. reflexivity. Qed.
  Lemma c_mul_2 s t x y : sign s -> sign t -> cf_mul ar (mirrored s x) (mirrored t y) = mirrored (s * t) (cf_mul ar x y).
  Proof.
    intros Ss St. unfold cf_mul, mirrored. cbn [fst snd]. rewrite !(mul_sl ar Ml s) by exact Ss. rewrite !(mul_sr ar Mr t) by exact St. rewrite Ml, !Mr, Ropp_involutive. rewrite Ml.
    rewrite <- !Rmult_assoc. rewrite !Ropp_mult_distr_r. rewrite !(add_s ar Ao _ _ _ (sign_mul s t Ss St)). rewrite Ao. reflexivity.
  Qed.
  Lemma mirrored_0 s : mirrored s (0, 0) = ((0, 0) : CR).
  Proof. unfold mirrored. cbn. apply (f_equal2 (@pair R R)); ring. Qed.
  (** element k of v' is element k of v times its sign *)
  Definition paired (v v' : list CR) : Prop := length v' = length v /\ forall k, nth k v' (0, 0) = mirrored (sg (Z.of_nat k)) (nth k v (0, 0)).
  Lemma list_add u u' v v' : paired u u' -> paired v v' -> paired (fv_add ar u v) (fv_add ar u' v').
  Proof.
    intros [Lu Hu] [Lv Hv]. unfold fv_add. split; [rewrite !map_length, !combine_length, Lu, Lv; reflexivity|]. intros k.
    specialize (Hu k). specialize (Hv k). set (s := sg (Z.of_nat k)) in *. assert (S : sign s) by apply Hsg. clearbody s. revert u' v v' k Lu Lv Hu Hv.
    induction u as [|a u IH]; intros u' v v' k Lu Lv Hu Hv; destruct u' as [|a' u']; try discriminate Lu; [destruct k; cbn; rewrite mirrored_0; reflexivity|].
    destruct v as [|b v], v' as [|b' v']; try discriminate Lv; [destruct k; cbn; rewrite mirrored_0; reflexivity|].
    destruct k as [|k]; cbn [List.combine map nth fst snd] in *; [rewrite Hu, Hv; apply c_add, S|apply IH; [injection Lu; trivial|injection Lv; trivial|exact Hu|exact Hv]].
  Qed.
  Lemma list_scale c u u' : paired u u' -> paired (fv_scale ar c u) (fv_scale ar c u').
  Proof.
    intros [L H]. unfold fv_scale. split; [rewrite !map_length; exact L|]. intros k. destruct (Nat.lt_ge_cases k (length u)) as [Q|Q].
    - rewrite (nth_indep _ _ (cf_scale ar c ((0, 0) : CR))) by (rewrite map_length; lia). rewrite (nth_indep (map _ u) _ (cf_scale ar c ((0, 0) : CR))) by (rewrite map_length; lia).
      rewrite !(map_nth (cf_scale ar c)). rewrite H. apply c_scale, Hsg.
    - rewrite !nth_overflow by (rewrite map_length; lia). symmetry. apply mirrored_0.
  Qed.
  Definition pair_entry (k : nat) (e e' : Z * CR) : Prop := (0 <= fst e)%Z /\ fst e' = fst e /\ snd e' = mirrored (sg (Z.of_nat k) * sg (fst e)) (snd e).
  Definition paired_matrix (m m' : bmat CR) : Prop := length (bm_done m') = length (bm_done m) /\ forall k, Forall2 (pair_entry k) (nth k (bm_done m) []) (nth k (bm_done m') []).
  Lemma list_mul m m' u u' : paired_matrix m m' -> paired u u' -> paired (fsp_vec ar m u) (fsp_vec ar m' u').
  Proof.
    intros [Lm Hm] [Lu Hu]. unfold fsp_vec. split; [rewrite !map_length; exact Lm|]. intros k. destruct (Nat.lt_ge_cases k (length (bm_done m))) as [Q|Q].
    - set (F := fun (u : list CR) (row : list (Z * CR)) => fold_left (fun acc e => cf_add ar acc (cf_mul ar (snd e) (vget u (fst e)))) row ((0, 0) : CR)).
      rewrite (nth_indep (map _ (bm_done m')) _ (F u' [])) by (rewrite map_length; lia). rewrite (nth_indep (map _ (bm_done m)) _ (F u [])) by (rewrite map_length; lia).
      rewrite (map_nth (F u')), (map_nth (F u)). unfold F. specialize (Hm k). revert Hm. generalize (nth k (bm_done m) []) (nth k (bm_done m') []). intros r r' Hr.
      pose proof (Hsg (Z.of_nat k)) as Sk. set (s := sg (Z.of_nat k)) in *.
      assert (G : forall acc acc', acc' = mirrored s acc -> fold_left (fun a e => cf_add ar a (cf_mul ar (snd e) (vget u' (fst e)))) r' acc' = mirrored s (fold_left (fun a e => cf_add ar a (cf_mul ar (snd e) (vget u (fst e)))) r acc)).
      { induction Hr as [|e e' r r' He Hr IH]; intros acc acc' Ha; [exact Ha|]. cbn [fold_left]. apply IH. destruct He as (G0 & E1 & E2). rewrite E1, E2, Ha.
        unfold vget. change (nth (Z.to_nat (fst e)) u' r0) with (nth (Z.to_nat (fst e)) u' ((0, 0) : CR)). change (nth (Z.to_nat (fst e)) u r0) with (nth (Z.to_nat (fst e)) u ((0, 0) : CR)).
        rewrite Hu. rewrite Z2Nat.id by exact G0. fold s. set (t := sg (fst e)). assert (St : sign t) by apply Hsg.
        rewrite c_mul_2 by (first [exact St|apply sign_mul; assumption]). replace (s * t * t) with s by (rewrite Rmult_assoc, (sign_sq t St); ring). apply c_add, Sk. }
      apply G. symmetry. apply mirrored_0.
    - rewrite !nth_overflow by (rewrite map_length; lia). symmetry. apply mirrored_0.
  Qed.
  Lemma list_step h m m' u u' : paired_matrix m m' -> paired u u' -> paired (frk_step ar h m u) (frk_step ar h m' u').
  Proof. intros Hm Hu. unfold frk_step. cbv zeta. repeat (apply list_add || apply list_scale || (apply list_mul; [exact Hm|]) || exact Hu). Qed.
  Lemma list_run h m m' n : forall u u', paired_matrix m m' -> paired u u' -> paired (frun ar h m n u) (frun ar h m' n u').
  Proof. induction n as [|n IH]; intros u u' Hm Hu; [exact Hu|]. cbn [frun]. apply IH; [exact Hm|]. apply list_step; assumption. Qed.
End Mirror.

(** ** the matrix *)
Lemma rows_mirrored (ar : arith) (sg : Z -> R) k : (forall a b, f_add ar (- a) (- b) = - f_add ar a b) -> f_add ar 0 0 = 0 -> (forall x, f_mul ar 0 x = 0) -> (forall x, f_mul ar x 0 = 0) -> (forall a b, f_mul ar a (- b) = - f_mul ar a b) -> (forall i, sign (sg i)) ->
  forall r r' : list (Z * CR), map fst r = map fst r' -> NoDup (map fst r) -> (forall e, In e r -> (0 <= fst e)%Z /\ snd (snd e) = 0) ->
  (forall c, In c (map fst r) -> sum_over (K := CR) snd (filter (fun e => (fst e =? c)%Z) r') = signed (- (sg (Z.of_nat k) * sg c)) (sum_over (K := CR) snd (filter (fun e => (fst e =? c)%Z) r))) ->
  Forall2 (pair_entry sg k) (map (fun e => (fst e, cf_mul ar imag_unit (snd e))) r) (map (fun e => (fst e, cf_mul ar imag_unit (snd e))) r').
Proof.
  intros Ao A0 M0 M1 Mr Hsg. induction r as [|[j v] r IH]; intros r' E D G H; destruct r' as [|[j' v'] r']; try discriminate E; [constructor|]. cbn [map fst] in *.
  pose proof (f_equal (hd j) E) as E1. pose proof (f_equal (@tl Z) E) as E2. cbn [hd tl] in E1, E2. subst j'. clear E. rename E2 into E. apply NoDup_cons_iff in D as [Hj D'].
  assert (Hj' : ~ In j (map fst r')) by (intros Q; apply Hj; rewrite E; exact Q). constructor.
  - destruct (G _ (or_introl eq_refl)) as [G0 G1]. split; [exact G0|]. split; [reflexivity|]. cbn [fst snd] in *. specialize (H j (or_introl eq_refl)). rewrite (pick_head j v' r' Hj'), (pick_head j v r Hj) in H. subst v'.
    destruct v as [a b]. cbn [fst snd] in *. subst b. unfold signed, mirrored, cf_mul, imag_unit. cbn [fst snd].
    assert (S : sign (sg (Z.of_nat k) * sg j)) by (apply sign_mul; apply Hsg). set (s := sg (Z.of_nat k) * sg j) in *. clearbody s.
    replace (- s * 0) with 0 by ring. rewrite !M0, !M1, Ropp_0, A0. apply (f_equal2 (@pair R R)); [ring|].
    replace (- s * a) with (- (s * a)) by ring. rewrite Mr, (mul_sr ar Mr s 1 a S).
    match goal with |- f_add ar 0 (- (s * ?x)) = s * - f_add ar 0 ?x => generalize x end. intros x. rewrite <- Ao, Ropp_0. destruct S as [-> | ->]; [rewrite !Rmult_1_l; reflexivity|]. rewrite !m1. rewrite <- Ao, Ropp_0. reflexivity.
  - apply IH; [exact E|exact D'|intros e He; apply G; right; exact He|]. intros c Hc. assert (j <> c) by (intros ->; contradiction). specialize (H c (or_intror Hc)). rewrite !pick_tail in H by assumption. exact H.
Qed.

Section Matrix.
  Context (sort : list (triplet CR) -> list (triplet CR)) (lat : lattice) (N : Z).
  Hypothesis Hs : sorts_by_column sort.
  Hypothesis Hl : shipped3 lat N.
  Hypothesis Hf : fits3 lat N.
  Context (white : Z -> bool).
  Hypothesis Hw : two_coloured lat N white.
  Let sg := stagger N white.
  Local Lemma cancel (s t : R) (a b : CR) : sign s -> sign t ->
    rmul (rmul imag_unit a) (real t) = rmul (real s : CR) (rmul (real (-1)) (rmul imag_unit b)) -> a = signed (- (s * t)) b.
  Proof.
    intros Ss St. destruct a as [a1 a2], b as [b1 b2]. unfold signed, imag_unit, real. cbn. intros E. injection E as E1 E2.
    apply (f_equal2 (@pair R R)); destruct Ss as [-> | ->], St as [-> | ->]; lra.
  Qed.
  Lemma rows_columns J U U' : map (map fst) (rows1 sort (real J : CR) (real U) (real (1/2)) lat N ++ rows3 sort (real J) (real U) (real (1/2)) lat N) =
    map (map fst) (rows1 sort (real J : CR) (real U') (real (1/2)) lat N ++ rows3 sort (real J) (real U') (real (1/2)) lat N).
  Proof.
    rewrite !map_app. unfold rows1, rows3. rewrite !map_map. f_equal; apply map_ext; intros r; rewrite !pairs_fst; apply (sorted_columns sort _ _ Hs).
    - unfold triplets1, kinetic_triplets1. rewrite !map_app, !map_map. reflexivity.
    - unfold triplets3, kinetic_triplets3. rewrite !map_app, !map_map. destruct (_ && _)%bool; reflexivity.
  Qed.
  Lemma rows_real J U r e : In r (rows1 sort (real J : CR) (real U) (real (1/2)) lat N ++ rows3 sort (real J) (real U) (real (1/2)) lat N) -> In e r -> snd (snd e) = 0.
  Proof.
    intros Hr He. apply in_app_iff in Hr. unfold rows1, rows3 in Hr.
    assert (Q : exists ts, (forall t, In t ts -> snd (t_val t : CR) = 0) /\ r = pairs (sort ts)).
    { destruct Hr as [Hr|Hr]; apply in_map_iff in Hr; destruct Hr as (x & <- & _); (eexists; split; [|reflexivity]).
      - intros t Ht. unfold triplets1, kinetic_triplets1 in Ht. apply in_app_iff in Ht. destruct Ht as [Ht|[<-|[<-|[]]]]; [apply in_map_iff in Ht; destruct Ht as (b & <- & _)|..]; unfold real; cbn; ring.
      - intros t Ht. unfold triplets3, kinetic_triplets3 in Ht. rewrite !in_app_iff in Ht.
        destruct Ht as [[Ht|[Ht|Ht]]|[Ht|[<-|[]]]]; try (apply in_map_iff in Ht; destruct Ht as (b & <- & _)); try (unfold real; cbn; ring).
        destruct (_ && _)%bool; [destruct Ht as [<-|[]]; unfold real; cbn; ring|destruct Ht]. }
    destruct Q as (ts & Hts & ->). unfold pairs in He. apply in_map_iff in He. destruct He as (t & <- & Ht). cbn [snd]. apply Hts. exact (Permutation_in _ (Logic.proj1 (Hs ts)) Ht).
  Qed.
  Lemma matrix_mirrored (ar : arith) J U m m' : (forall a b, f_add ar (- a) (- b) = - f_add ar a b) -> f_add ar 0 0 = 0 -> (forall x, f_mul ar 0 x = 0) -> (forall x, f_mul ar x 0 = 0) -> (forall a b, f_mul ar a (- b) = - f_mul ar a b) ->
    init_matrix sort (real J : CR) (real U) (real (1/2)) lat = Ok m -> init_matrix sort (real J : CR) (real (- U)) (real (1/2)) lat = Ok m' -> paired_matrix sg (fbm_scale ar imag_unit m) (fbm_scale ar imag_unit m').
  Proof.
    intros Ao A0 M0 M1 Mr Em Em'. pose proof (shipped3_graph lat N Hl) as HG. pose proof (fits3_S3 lat N HG Hf) as HS.
    assert (C : map (map fst) (bm_done m) = map (map fst) (bm_done m') /\ forall r e, In r (bm_done m) -> In e r -> snd (snd e) = 0).
    { pose proof Em as E1. pose proof Em' as E2. rewrite (init_matrix_closed sort Hs _ _ _ lat N HG HS Hf) in E1. rewrite (init_matrix_closed sort Hs _ _ _ lat N HG HS Hf) in E2. injection E1 as <-. injection E2 as <-. split; [apply rows_columns|]. intros r e. apply rows_real. }
    destruct C as [C Re].
    destruct (C32_full CR sort (real J) (real U) (real (1/2)) lat N Hs Hl Hf) as (m1 & E1 & W). rewrite Em in E1. injection E1 as <-. destruct W as (_ & Lm & _ & W & _).
    assert (L : length (bm_done m') = length (bm_done m)) by (pose proof (f_equal (@length _) C) as Q; rewrite !map_length in Q; symmetry; exact Q).
    split; unfold fbm_scale; cbn [bm_done]; [rewrite !map_length; exact L|]. intros k.
    set (f := fun e : Z * CR => (fst e, cf_mul ar imag_unit (snd e))). change (@nil (Z * CR)) with (map f []). rewrite !(map_nth (map f)).
    destruct (Nat.lt_ge_cases k (length (bm_done m))) as [Lk|Lk]; [|rewrite !nth_overflow by lia; constructor].
    pose proof (proj1 (Forall_forall _ _) W (nth k (bm_done m) []) (nth_In _ _ Lk)) as [S F]. rewrite Forall_forall in F.
    apply rows_mirrored; try assumption.
    - apply stagger_sign.
    - pose proof (f_equal (fun l => nth k l (map fst (@nil (Z * CR)))) C) as Q. cbv beta in Q. rewrite !(map_nth (map fst)) in Q. exact Q.
    - apply SSorted_lt_nodup, S.
    - intros e He. pose proof (F e He) as Fe. unfold site in Fe. split; [lia|]. exact (Re _ e (nth_In _ _ Lk) He).
    - intros c Hc. apply in_map_iff in Hc. destruct Hc as (e & <- & He). specialize (F e He). unfold site in F.
      destruct (full_facts sort (- J) (- U) lat N Hs Hl Hf) as (m2 & Em2 & _).
      pose proof Em2 as Em3. replace (- J) with (-1 * J) in Em3 by ring. replace (- U) with (-1 * U) in Em3 by ring.
      pose proof (entry_multiple sort lat N Hs Hl Hf J U (-1) m m2 Em Em3 (Z.of_nat k) (fst e) ltac:(lia) F) as Q1.
      pose proof Em' as Em4. replace J with (- - J) in Em4 by ring.
      pose proof (entry_flip sort lat N Hs Hl Hf white Hw (- J) (- U) m2 m' Em2 Em4 (Z.of_nat k) (fst e) ltac:(lia) F) as Q. rewrite Q1 in Q. rewrite !entry_scale in Q. fold sg in Q.
      clear C W Em Em' Em2 Em3 Em4 Q1. apply cancel in Q; [|apply stagger_sign|apply stagger_sign]. unfold entry, row_of in Q. rewrite !Nat2Z.id in Q. exact Q.
  Qed.
End Matrix.

(** two runs of hubbard_real_1d_rk4_coefficients in double precision that differ in the sign of U print complex conjugate coefficients up to their signs; garbage, what an overflow would give, need only be
    odd: it does not matter at all when nothing overflows *)
Theorem C112_attraction_double : forall sort garbage N J U dt t_end interval steps,
  sorts_by_column sort -> (3 <= N)%Z -> Z.even N = true -> fits3 (chain_lattice N) N -> (forall x, garbage (- x) = - garbage x) -> double_times garbage dt t_end interval steps ->
  exists h h', terminates_with (f_coefficients_full garbage sort N J U dt t_end interval) (Ok (map (fun k => (time_at (to_double garbage) dt k, h k)) (written interval steps))) /\
    terminates_with (f_coefficients_full garbage sort N J (- U) dt t_end interval) (Ok (map (fun k => (time_at (to_double garbage) dt k, h' k)) (written interval steps))) /\
    forall k i, (0 <= i < N + N * N * N)%Z -> let s := stagger N chain_white i in vget (h' k) i = (s * fst (vget (h k) i), s * - snd (vget (h k) i)).
Proof.
  intros sort garbage N J U dt t_end interval steps Hs HN Ev Hf Hg Ht. assert (Hf' := Hf). unfold fits3 in Hf'. cbn [lat_coordination chain_lattice] in Hf'.
  assert (Hl : shipped3 (chain_lattice N) N) by (constructor; nia). assert (Hs1 : shipped (chain_lattice N) N) by (constructor; nia).
  assert (W : two_coloured (chain_lattice N) N chain_white) by (apply C111_chain; [nia|exact Ev]). set (n := (N + N * N * N)%Z).
  destruct (full_facts sort J U _ N Hs Hl Hf) as (m & Em & _). destruct (full_facts sort J (- U) _ N Hs Hl Hf) as (m' & Em' & _). destruct (init_vector_unit n ltac:(unfold n; nia)) as (h0 & E0 & L0 & V0).
  assert (Eb : Z.of_nat (length (basis3 (chain_lattice N))) = n) by (pose proof (basis3_len _ N (shipped_regular _ _ Hs1)); unfold n; nia).
  exists (fun k => fprogram_run (double_arith garbage) dt m k h0), (fun k => fprogram_run (double_arith garbage) dt m' k h0). split; [|split].
  - unfold f_coefficients_full, f_compute_full. rewrite Eb, Em. cbn [obind]. exact (f_lines garbage dt t_end interval steps n m h0 Ht E0 _ f_coefficients).
  - unfold f_coefficients_full, f_compute_full. rewrite Eb, Em'. cbn [obind]. exact (f_lines garbage dt t_end interval steps n m' h0 Ht E0 _ f_coefficients).
  - intros k i Hi s.
    assert (P : paired (stagger N chain_white) (fprogram_run (double_arith garbage) dt m k h0) (fprogram_run (double_arith garbage) dt m' k h0)).
    { unfold fprogram_run. pose proof (odd_add garbage Hg). pose proof (odd_ml garbage Hg). pose proof (odd_mr garbage Hg). pose proof (stagger_sign N chain_white) as SS.
      apply list_run; try assumption.
      - apply (matrix_mirrored sort _ N Hs Hl Hf chain_white W (double_arith garbage) J U m m'); try assumption; [apply add_00|apply mul_0l|apply mul_0r].
      - split; [reflexivity|]. intros q. destruct (Nat.lt_ge_cases q (length h0)) as [L|L]; [|rewrite nth_overflow by exact L; symmetry; apply mirrored_0].
        pose proof (V0 (Z.of_nat q) ltac:(lia)) as V. unfold vget in V. rewrite Nat2Z.id in V. change (nth q h0 (0, 0)) with (nth q h0 r0). rewrite V. unfold first_unit.
        destruct (Z.eqb_spec (Z.of_nat q) 0) as [->|]; [|symmetry; apply mirrored_0]. unfold stagger. destruct (Z.ltb_spec 0 N); [|lia]. symmetry. unfold mirrored, real. cbn. apply (f_equal2 (@pair R R)); ring. }
    destruct P as [_ P]. specialize (P (Z.to_nat i)). rewrite Z2Nat.id in P by lia. exact P.
Qed.
(** four sites *)
Example C112_attraction_double_example : exists h h', terminates_with (f_coefficients_full (fun x => x) isort 4 1 1 (/ 64) (1 / 16) 2) (Ok (map (fun k => (time_at (to_double (fun x => x)) (/ 64) k, h k)) (written 2 4))) /\
  terminates_with (f_coefficients_full (fun x => x) isort 4 1 (- 1) (/ 64) (1 / 16) 2) (Ok (map (fun k => (time_at (to_double (fun x => x)) (/ 64) k, h' k)) (written 2 4))) /\
  fst (vget (h' 2%nat) 1) = - fst (vget (h 2%nat) 1) /\ snd (vget (h' 4%nat) 1) = snd (vget (h 4%nat) 1) /\ snd (vget (h' 2%nat) 2) = - snd (vget (h 2%nat) 2).
Proof.
  destruct (C112_attraction_double isort (fun x => x) 4 1 1 (/ 64) (1 / 16) 2 4 isort_ok ltac:(lia) eq_refl ltac:(unfold fits3; apply big; reflexivity) ltac:(reflexivity) (example_times _)) as (h & h' & T & T' & P).
  exists h, h'. split; [exact T|]. split; [exact T'|]. pose proof (P 2%nat 1%Z ltac:(lia)) as P1. pose proof (P 4%nat 1%Z ltac:(lia)) as P2. pose proof (P 2%nat 2%Z ltac:(lia)) as P3.
  cbn in P1, P2, P3. split; [rewrite P1; cbn; ring|]. split; [rewrite P2; cbn; ring|]. rewrite P3; cbn; ring.
Qed.
