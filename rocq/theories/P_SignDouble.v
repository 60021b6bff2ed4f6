(** PROPERTY C112, in double precision: the sign of the hopping only changes the signs of the printed coefficients, bit by bit. *)
From Coq Require Import Reals Lra Psatz Permutation Sorting.Sorted.
From Flocq Require Core.Raux Core.Generic_fmt Core.Round_NE.
From Verif Require Import Base M_Operator M_Lattice Spec_Lattice Pf_Lattice P_Lattice M_Basis Pf_Basis P_Basis M_Matrix M_Ode M_Dispersion M_OpenMP M_TimeLoop Spec_TimeLoop Spec_Ode
  Pf_Matrix Spec_Matrix Pf_Matrix2 P_Matrix Spec_LatticeReal Pf_Ode Spec_Stability Pf_Stability2 P_Stability Spec_Programs M_Programs Pf_Programs P_TimeLoop P_Programs Pf_MatrixEntry P_OccupationFree Pf_Symmetry Spec_ParticleHole P_ParticleHole Spec_Parameters P_Parameters Pf_Commutator P_Dynamics
  M_Rounding M_Double P_Rounding M_RoundedMeasurement M_DoublePrograms Spec_DoublePrograms Pf_DoublePrograms P_DoublePrograms P_ParticleHoleDouble P_DoublePrograms2 Ex_Matrix Ex_Programs.
Local Open Scope R_scope.
Local Open Scope list_scope.
Local Notation len u := (Z.of_nat (length u)).

(** the number z times the sign s *)
Definition signed (s : R) (z : CR) : CR := (s * fst z, s * snd z).
Section Signs.
  Context (ar : arith).
  (** the only laws used: rounding is odd *)
  Hypothesis Ao : forall a b, f_add ar (- a) (- b) = - f_add ar a b.
  Hypothesis Ml : forall a b, f_mul ar (- a) b = - f_mul ar a b.
  Hypothesis Mr : forall a b, f_mul ar a (- b) = - f_mul ar a b.
  Context (sg : Z -> R).
  Definition sign (s : R) : Prop := s = 1 \/ s = -1.
  Hypothesis Hsg : forall i, sign (sg i).
  Lemma m1 x : -1 * x = - x. Proof. ring. Qed.
  Lemma add_s s a b : sign s -> f_add ar (s * a) (s * b) = s * f_add ar a b.
  Proof. intros [-> | ->]; rewrite ?Rmult_1_l, ?m1; [reflexivity|apply Ao]. Qed.
  Lemma mul_sl s a b : sign s -> f_mul ar (s * a) b = s * f_mul ar a b.
  Proof. intros [-> | ->]; rewrite ?Rmult_1_l, ?m1; [reflexivity|apply Ml]. Qed.
  Lemma mul_sr s a b : sign s -> f_mul ar a (s * b) = s * f_mul ar a b.
  Proof. intros [-> | ->]; rewrite ?Rmult_1_l, ?m1; [reflexivity|apply Mr]. Qed.
  Lemma c_add s x y : sign s -> cf_add ar (signed s x) (signed s y) = signed s (cf_add ar x y).
  Proof. intros H. unfold cf_add, signed. cbn [fst snd]. rewrite !add_s by exact H. reflexivity. Qed.
  Lemma c_scale s c x : sign s -> cf_scale ar c (signed s x) = signed s (cf_scale ar c x).
  Proof. intros H. unfold cf_scale, signed. cbn [fst snd]. rewrite !mul_sr by exact H. reflexivity. Qed.
  Lemma c_mul_r s x y : sign s -> cf_mul ar x (signed s y) = signed s (cf_mul ar x y).
  Proof. intros H. unfold cf_mul, signed. cbn [fst snd]. rewrite !mul_sr by exact H. rewrite Ropp_mult_distr_r. rewrite !add_s by exact H. reflexivity. Qed.
  Lemma c_mul_l s x y : sign s -> cf_mul ar (signed s x) y = signed s (cf_mul ar x y).
  Proof. intros H. unfold cf_mul, signed. cbn [fst snd]. rewrite !mul_sl by exact H. rewrite Ropp_mult_distr_r. rewrite !add_s by exact H. reflexivity. Qed.
  Lemma signed_twice s t x : signed s (signed t x) = signed (s * t) x.
  Proof. unfold signed. cbn [fst snd]. apply (f_equal2 (@pair R R)); ring. Qed.
  Lemma signed_1 x : signed 1 x = x.
  Proof. destruct x as [a b]. unfold signed. cbn. apply (f_equal2 (@pair R R)); ring. Qed.
  Lemma signed_0 s : signed s (0, 0) = ((0, 0) : CR).
  Proof. unfold signed. cbn. apply (f_equal2 (@pair R R)); ring. Qed.
  Lemma sign_mul s t : sign s -> sign t -> sign (s * t).
  Proof. intros [-> | ->] [-> | ->]; [left|right|right|left]; ring. Qed.
  Lemma sign_sq s : sign s -> s * s = 1.
  Proof. intros [-> | ->]; ring. Qed.
  (** element k of v' is element k of v times its sign *)
  Definition paired (v v' : list CR) : Prop := length v' = length v /\ forall k, nth k v' (0, 0) = signed (sg (Z.of_nat k)) (nth k v (0, 0)).
  Lemma list_add u u' v v' : paired u u' -> paired v v' -> paired (fv_add ar u v) (fv_add ar u' v').
  Proof.
    intros [Lu Hu] [Lv Hv]. unfold fv_add. split; [rewrite !map_length, !combine_length, Lu, Lv; reflexivity|]. intros k.
    specialize (Hu k). specialize (Hv k). set (s := sg (Z.of_nat k)) in *. assert (S : sign s) by apply Hsg. clearbody s. revert u' v v' k Lu Lv Hu Hv.
    induction u as [|a u IH]; intros u' v v' k Lu Lv Hu Hv; destruct u' as [|a' u']; try discriminate Lu; [destruct k; cbn; rewrite signed_0; reflexivity|].
    destruct v as [|b v], v' as [|b' v']; try discriminate Lv; [destruct k; cbn; rewrite signed_0; reflexivity|].
    destruct k as [|k]; cbn [List.combine map nth fst snd] in *; [rewrite Hu, Hv; apply c_add, S|apply IH; [injection Lu; trivial|injection Lv; trivial|exact Hu|exact Hv]].
  Qed.
  Lemma list_scale c u u' : paired u u' -> paired (fv_scale ar c u) (fv_scale ar c u').
  Proof.
    intros [L H]. unfold fv_scale. split; [rewrite !map_length; exact L|]. intros k. destruct (Nat.lt_ge_cases k (length u)) as [Q|Q].
    - rewrite (nth_indep _ _ (cf_scale ar c ((0, 0) : CR))) by (rewrite map_length; lia). rewrite (nth_indep (map _ u) _ (cf_scale ar c ((0, 0) : CR))) by (rewrite map_length; lia).
      rewrite !(map_nth (cf_scale ar c)). rewrite H. apply c_scale, Hsg.
    - rewrite !nth_overflow by (rewrite map_length; lia). symmetry. apply signed_0.
  Qed.
  Definition pair_entry (k : nat) (e e' : Z * CR) : Prop := (0 <= fst e)%Z /\ fst e' = fst e /\ snd e' = signed (sg (Z.of_nat k) * sg (fst e)) (snd e).
  Definition paired_matrix (m m' : bmat CR) : Prop := length (bm_done m') = length (bm_done m) /\ forall k, Forall2 (pair_entry k) (nth k (bm_done m) []) (nth k (bm_done m') []).
  Lemma list_mul m m' u u' : paired_matrix m m' -> paired u u' -> paired (fsp_vec ar m u) (fsp_vec ar m' u').
  Proof.
    intros [Lm Hm] [Lu Hu]. unfold fsp_vec. split; [rewrite !map_length; exact Lm|]. intros k. destruct (Nat.lt_ge_cases k (length (bm_done m))) as [Q|Q].
    - set (F := fun (u : list CR) (row : list (Z * CR)) => fold_left (fun acc e => cf_add ar acc (cf_mul ar (snd e) (vget u (fst e)))) row ((0, 0) : CR)).
      rewrite (nth_indep (map _ (bm_done m')) _ (F u' [])) by (rewrite map_length; lia). rewrite (nth_indep (map _ (bm_done m)) _ (F u [])) by (rewrite map_length; lia).
      rewrite (map_nth (F u')), (map_nth (F u)). unfold F. specialize (Hm k). revert Hm. generalize (nth k (bm_done m) []) (nth k (bm_done m') []). intros r r' Hr.
      pose proof (Hsg (Z.of_nat k)) as Sk. set (s := sg (Z.of_nat k)) in *.
      assert (G : forall acc acc', acc' = signed s acc -> fold_left (fun a e => cf_add ar a (cf_mul ar (snd e) (vget u' (fst e)))) r' acc' = signed s (fold_left (fun a e => cf_add ar a (cf_mul ar (snd e) (vget u (fst e)))) r acc)).
      { induction Hr as [|e e' r r' He Hr IH]; intros acc acc' Ha; [exact Ha|]. cbn [fold_left]. apply IH. destruct He as (G0 & E1 & E2). rewrite E1, E2, Ha.
        unfold vget. change (nth (Z.to_nat (fst e)) u' r0) with (nth (Z.to_nat (fst e)) u' ((0, 0) : CR)). change (nth (Z.to_nat (fst e)) u r0) with (nth (Z.to_nat (fst e)) u ((0, 0) : CR)).
        rewrite Hu. rewrite Z2Nat.id by exact G0. fold s. set (t := sg (fst e)). assert (St : sign t) by apply Hsg.
        rewrite c_mul_l by (apply sign_mul; assumption). rewrite c_mul_r by exact St. rewrite signed_twice. replace (s * t * t) with s by (rewrite Rmult_assoc, (sign_sq t St); ring). apply c_add, Sk. }
      apply G. symmetry. apply signed_0.
    - rewrite !nth_overflow by (rewrite map_length; lia). symmetry. apply signed_0.
  Qed.
  Lemma list_step h m m' u u' : paired_matrix m m' -> paired u u' -> paired (frk_step ar h m u) (frk_step ar h m' u').
  Proof. intros Hm Hu. unfold frk_step. cbv zeta. repeat (apply list_add || apply list_scale || (apply list_mul; [exact Hm|]) || exact Hu). Qed.
  Lemma list_run h m m' n : forall u u', paired_matrix m m' -> paired u u' -> paired (frun ar h m n u) (frun ar h m' n u').
  Proof. induction n as [|n IH]; intros u u' Hm Hu; [exact Hu|]. cbn [frun]. apply IH; [exact Hm|]. apply list_step; assumption. Qed.
  Lemma scale_paired c m m' : paired_matrix m m' -> paired_matrix (fbm_scale ar c m) (fbm_scale ar c m').
  Proof.
    intros [L H]. unfold fbm_scale. split; cbn [bm_done]; [rewrite !map_length; exact L|]. intros k.
    set (f := fun e : Z * CR => (fst e, cf_mul ar c (snd e))). change (@nil (Z * CR)) with (map f []). rewrite !(map_nth (map f)). specialize (H k). revert H. generalize (nth k (bm_done m) []) (nth k (bm_done m') []).
    intros r r' H. induction H as [|e e' r r' (G0 & E1 & E2) H IH]; constructor; [|exact IH]. unfold f. split; [exact G0|]. split; [exact E1|]. cbn [fst snd]. rewrite E2. apply c_mul_r. apply sign_mul; apply Hsg.
  Qed.
End Signs.
Section Odd.
  Context (garbage : R -> R).
  Hypothesis Hg : forall x, garbage (- x) = - garbage x.
  Lemma double_odd x : to_double garbage (- x) = - to_double garbage x.
  Proof.
    unfold to_double, round_double. rewrite Round_NE.round_NE_opp, Rabs_Ropp. destruct (Rlt_dec _ _); [reflexivity|apply Hg].
  Qed.
  Lemma odd_add a b : f_add (double_arith garbage) (- a) (- b) = - f_add (double_arith garbage) a b.
  Proof. cbn. rewrite <- double_odd. f_equal. ring. Qed.
  Lemma odd_ml a b : f_mul (double_arith garbage) (- a) b = - f_mul (double_arith garbage) a b.
  Proof. cbn. rewrite <- double_odd. f_equal. ring. Qed.
  Lemma odd_mr a b : f_mul (double_arith garbage) a (- b) = - f_mul (double_arith garbage) a b.
  Proof. cbn. rewrite <- double_odd. f_equal. ring. Qed.
End Odd.

(** ** the matrix *)
Lemma sorted_unique : forall l l' : list Z, StronglySorted Z.le l -> StronglySorted Z.le l' -> Permutation l l' -> l = l'.
Proof.
  induction l as [|a l IH]; intros l' S S' P; [apply Permutation_nil in P; congruence|].
  destruct l' as [|b l']; [apply Permutation_sym, Permutation_nil in P; discriminate|].
  apply StronglySorted_inv in S as [S F]. apply StronglySorted_inv in S' as [S' F']. rewrite Forall_forall in F, F'.
  assert (E : a = b).
  { assert (Ia : In a (b :: l')) by (apply (Permutation_in _ P); left; reflexivity). assert (Ib : In b (a :: l)) by (apply (Permutation_in _ (Permutation_sym P)); left; reflexivity).
    destruct Ia as [?|Ia]; [congruence|]. destruct Ib as [?|Ib]; [congruence|]. specialize (F b Ib). specialize (F' a Ia). lia. }
  subst b. f_equal. apply IH; [exact S|exact S'|exact (Permutation_cons_inv P)].
Qed.
Lemma sorted_columns {K : StarRing} (sort : list (triplet K) -> list (triplet K)) l l' : sorts_by_column sort -> map t_col l = map t_col l' -> map t_col (sort l) = map t_col (sort l').
Proof.
  intros Hs E. destruct (Hs l) as [P S], (Hs l') as [P' S'].
  assert (G : forall x : list (triplet K), StronglySorted (fun a b => (t_col a <= t_col b)%Z) x -> StronglySorted Z.le (map t_col x)).
  { induction 1 as [|t x S0 IH F]; cbn [map]; constructor; [exact IH|]. rewrite Forall_map. exact F. }
  apply sorted_unique; [apply G, S|apply G, S'|]. rewrite (Permutation_map t_col P), (Permutation_map t_col P'), E. reflexivity.
Qed.
Lemma pick_none (r : list (Z * CR)) c : ~ In c (map fst r) -> sum_over (K := CR) snd (filter (fun e => (fst e =? c)%Z) r) = r0.
Proof.
  induction r as [|[j v] r IH]; intros H; [reflexivity|]. cbn [map fst In filter] in *. destruct (Z.eqb_spec j c) as [->|]; [exfalso; apply H; left; reflexivity|]. apply IH. intros Q. apply H. right. exact Q.
Qed.
Lemma pick_head (j : Z) (v : CR) r : ~ In j (map fst r) -> sum_over (K := CR) snd (filter (fun e => (fst e =? j)%Z) ((j, v) :: r)) = v.
Proof.
  intros H. cbn [filter fst]. rewrite Z.eqb_refl. change (sum_over (K := CR) snd ((j, v) :: filter (fun e => (fst e =? j)%Z) r)) with (radd (snd (j, v)) (sum_over (K := CR) snd (filter (fun e => (fst e =? j)%Z) r))).
  rewrite (pick_none r j H). destruct v as [a b]. cbn. apply (f_equal2 (@pair R R)); cbn; ring.
Qed.
Lemma pick_tail (j c : Z) (v : CR) r : j <> c -> sum_over (K := CR) snd (filter (fun e => (fst e =? c)%Z) ((j, v) :: r)) = sum_over (K := CR) snd (filter (fun e => (fst e =? c)%Z) r).
Proof. intros H. cbn [filter fst]. destruct (Z.eqb_spec j c); [contradiction|reflexivity]. Qed.
Lemma rows_paired (sg : Z -> R) k : forall r r' : list (Z * CR), map fst r = map fst r' -> NoDup (map fst r) -> (forall c, In c (map fst r) -> (0 <= c)%Z) ->
  (forall c, In c (map fst r) -> sum_over (K := CR) snd (filter (fun e => (fst e =? c)%Z) r') = signed (sg (Z.of_nat k) * sg c) (sum_over (K := CR) snd (filter (fun e => (fst e =? c)%Z) r))) ->
  Forall2 (pair_entry sg k) r r'.
Proof.
  induction r as [|[j v] r IH]; intros r' E D G H; destruct r' as [|[j' v'] r']; try discriminate E; [constructor|]. cbn [map fst] in *. pose proof (f_equal (hd j) E) as E1. pose proof (f_equal (@tl Z) E) as E2. cbn [hd tl] in E1, E2. subst j'. clear E. rename E2 into E. apply NoDup_cons_iff in D as [Hj D'].
  assert (Hj' : ~ In j (map fst r')) by (intros Q; apply Hj; rewrite E; exact Q). constructor.
  - split; [apply G; left; reflexivity|]. split; [reflexivity|]. cbn [fst snd]. specialize (H j (or_introl eq_refl)). rewrite (pick_head j v' r' Hj'), (pick_head j v r Hj) in H. exact H.
  - apply IH; [exact E|exact D'|intros c Hc; apply G; right; exact Hc|]. intros c Hc. assert (j <> c) by (intros ->; contradiction). specialize (H c (or_intror Hc)). rewrite !pick_tail in H by assumption. exact H.
Qed.
Section Matrix.
  Context (sort : list (triplet CR) -> list (triplet CR)) (lat : lattice) (N : Z).
  Hypothesis Hs : sorts_by_column sort.
  Hypothesis Hl : shipped3 lat N.
  Hypothesis Hf : fits3 lat N.
  Context (white : Z -> bool).
  Hypothesis Hw : two_coloured lat N white.
  Let sg := stagger N white.
  Lemma stagger_sign i : sign (sg i).
  Proof. unfold sg, stagger, shade. destruct (i <? N)%Z; [destruct (white i); [left|right]; reflexivity|]. repeat apply sign_mul; match goal with |- sign (if ?b then _ else _) => destruct b; [left|right]; reflexivity end. Qed.
  Local Lemma cancel (s t : R) (a b : CR) : sign s -> sign t ->
    rmul (rmul imag_unit a) (real t) = rmul (real s : CR) (rmul imag_unit b) -> a = signed (s * t) b.
  Proof.
    intros Ss St. destruct a as [a1 a2], b as [b1 b2]. unfold signed, imag_unit, real. cbn. intros E. injection E as E1 E2.
    apply (f_equal2 (@pair R R)); destruct Ss as [-> | ->], St as [-> | ->]; lra.
  Qed.
  Lemma rows_columns J J' U : map (map fst) (rows1 sort (real J : CR) (real U) (real (1/2)) lat N ++ rows3 sort (real J) (real U) (real (1/2)) lat N) =
    map (map fst) (rows1 sort (real J' : CR) (real U) (real (1/2)) lat N ++ rows3 sort (real J') (real U) (real (1/2)) lat N).
  Proof.
    rewrite !map_app. unfold rows1, rows3. rewrite !map_map. f_equal; apply map_ext; intros r; rewrite !pairs_fst; apply (sorted_columns sort _ _ Hs).
    - unfold triplets1, kinetic_triplets1. rewrite !map_app, !map_map. reflexivity.
    - unfold triplets3, kinetic_triplets3. rewrite !map_app, !map_map. destruct (_ && _)%bool; reflexivity.
  Qed.
  Lemma matrix_paired J U m m' : init_matrix sort (real J : CR) (real U) (real (1/2)) lat = Ok m -> init_matrix sort (real (- J) : CR) (real U) (real (1/2)) lat = Ok m' -> paired_matrix sg m m'.
  Proof.
    intros Em Em'. pose proof (shipped3_graph lat N Hl) as HG. pose proof (fits3_S3 lat N HG Hf) as HS.
    assert (C : map (map fst) (bm_done m) = map (map fst) (bm_done m')).
    { pose proof Em as E1. pose proof Em' as E2. rewrite (init_matrix_closed sort Hs _ _ _ lat N HG HS Hf) in E1. rewrite (init_matrix_closed sort Hs _ _ _ lat N HG HS Hf) in E2. injection E1 as <-. injection E2 as <-. apply rows_columns. }
    destruct (C32_full CR sort (real J) (real U) (real (1/2)) lat N Hs Hl Hf) as (m1 & E1 & W). rewrite Em in E1. injection E1 as <-. destruct W as (_ & Lm & _ & W & _).
    assert (L : length (bm_done m') = length (bm_done m)) by (pose proof (f_equal (@length _) C) as Q; rewrite !map_length in Q; symmetry; exact Q).
    split; [exact L|]. intros k. destruct (Nat.lt_ge_cases k (length (bm_done m))) as [Lk|Lk]; [|rewrite !nth_overflow by lia; constructor].
    pose proof (proj1 (Forall_forall _ _) W (nth k (bm_done m) []) (nth_In _ _ Lk)) as [S F]. rewrite Forall_forall in F.
    apply rows_paired.
    - pose proof (f_equal (fun l => nth k l (map fst (@nil (Z * CR)))) C) as Q. cbv beta in Q. rewrite !(map_nth (map fst)) in Q. exact Q.
    - apply SSorted_lt_nodup, S.
    - intros c Hc. apply in_map_iff in Hc. destruct Hc as (e & <- & He). specialize (F e He). unfold site in F. lia.
    - intros c Hc. apply in_map_iff in Hc. destruct Hc as (e & <- & He). specialize (F e He). unfold site in F.
      pose proof (entry_flip sort lat N Hs Hl Hf white Hw J U m m' Em Em' (Z.of_nat k) (fst e) ltac:(lia) F) as Q. rewrite !entry_scale in Q. fold sg in Q. clear C W Em Em'.
      apply cancel in Q; [|apply stagger_sign|apply stagger_sign]. unfold entry, row_of in Q. rewrite !Nat2Z.id in Q. exact Q.
  Qed.
End Matrix.

(** two runs of hubbard_real_1d_rk4_coefficients in double precision that differ in the sign of J print the same coefficients up to their signs; garbage, what an overflow would give, need only be
    odd: it does not matter at all when nothing overflows *)
Theorem C112_sign_double : forall sort garbage N J U dt t_end interval steps,
  sorts_by_column sort -> (3 <= N)%Z -> Z.even N = true -> fits3 (chain_lattice N) N -> (forall x, garbage (- x) = - garbage x) -> double_times garbage dt t_end interval steps ->
  exists h h', terminates_with (f_coefficients_full garbage sort N J U dt t_end interval) (Ok (map (fun k => (time_at (to_double garbage) dt k, h k)) (written interval steps))) /\
    terminates_with (f_coefficients_full garbage sort N (- J) U dt t_end interval) (Ok (map (fun k => (time_at (to_double garbage) dt k, h' k)) (written interval steps))) /\
    forall k i, (0 <= i < N + N * N * N)%Z -> let s := stagger N chain_white i in vget (h' k) i = (s * fst (vget (h k) i), s * snd (vget (h k) i)).
Proof.
  intros sort garbage N J U dt t_end interval steps Hs HN Ev Hf Hg Ht. assert (Hf' := Hf). unfold fits3 in Hf'. cbn [lat_coordination chain_lattice] in Hf'.
  assert (Hl : shipped3 (chain_lattice N) N) by (constructor; nia). assert (Hs1 : shipped (chain_lattice N) N) by (constructor; nia).
  assert (W : two_coloured (chain_lattice N) N chain_white) by (apply C111_chain; [nia|exact Ev]). set (n := (N + N * N * N)%Z).
  destruct (full_facts sort J U _ N Hs Hl Hf) as (m & Em & _). destruct (full_facts sort (- J) U _ N Hs Hl Hf) as (m' & Em' & _). destruct (init_vector_unit n ltac:(unfold n; nia)) as (h0 & E0 & L0 & V0).
  assert (Eb : Z.of_nat (length (basis3 (chain_lattice N))) = n) by (pose proof (basis3_len _ N (shipped_regular _ _ Hs1)); unfold n; nia).
  exists (fun k => fprogram_run (double_arith garbage) dt m k h0), (fun k => fprogram_run (double_arith garbage) dt m' k h0). split; [|split].
  - unfold f_coefficients_full, f_compute_full. rewrite Eb, Em. cbn [obind]. exact (f_lines garbage dt t_end interval steps n m h0 Ht E0 _ f_coefficients).
  - unfold f_coefficients_full, f_compute_full. rewrite Eb, Em'. cbn [obind]. exact (f_lines garbage dt t_end interval steps n m' h0 Ht E0 _ f_coefficients).
  - intros k i Hi s.
    assert (P : paired (stagger N chain_white) (fprogram_run (double_arith garbage) dt m k h0) (fprogram_run (double_arith garbage) dt m' k h0)).
    { unfold fprogram_run. pose proof (odd_add garbage Hg). pose proof (odd_ml garbage Hg). pose proof (odd_mr garbage Hg). pose proof (stagger_sign N chain_white) as SS.
      apply list_run; try assumption.
      - apply scale_paired; try assumption. exact (matrix_paired sort _ N Hs Hl Hf chain_white W J U m m' Em Em').
      - split; [reflexivity|]. intros q. destruct (Nat.lt_ge_cases q (length h0)) as [L|L]; [|rewrite nth_overflow by exact L; symmetry; apply signed_0].
        pose proof (V0 (Z.of_nat q) ltac:(lia)) as V. unfold vget in V. rewrite Nat2Z.id in V. change (nth q h0 (0, 0)) with (nth q h0 r0). rewrite V. unfold first_unit.
        destruct (Z.eqb_spec (Z.of_nat q) 0) as [->|]; [|symmetry; apply signed_0]. unfold stagger. destruct (Z.ltb_spec 0 N); [|lia]. symmetry. apply signed_1. }
    destruct P as [_ P]. specialize (P (Z.to_nat i)). rewrite Z2Nat.id in P by lia. exact P.
Qed.
(** four sites: coefficient 1 (c+_1) changes sign, coefficient 2 does not *)
Example C112_sign_double_example : exists h h', terminates_with (f_coefficients_full (fun x => x) isort 4 1 1 (/ 64) (1 / 16) 2) (Ok (map (fun k => (time_at (to_double (fun x => x)) (/ 64) k, h k)) (written 2 4))) /\
  terminates_with (f_coefficients_full (fun x => x) isort 4 (- 1) 1 (/ 64) (1 / 16) 2) (Ok (map (fun k => (time_at (to_double (fun x => x)) (/ 64) k, h' k)) (written 2 4))) /\
  fst (vget (h' 2%nat) 1) = - fst (vget (h 2%nat) 1) /\ snd (vget (h' 4%nat) 1) = - snd (vget (h 4%nat) 1) /\ vget (h' 2%nat) 2 = vget (h 2%nat) 2.
Proof.
  destruct (C112_sign_double isort (fun x => x) 4 1 1 (/ 64) (1 / 16) 2 4 isort_ok ltac:(lia) eq_refl ltac:(unfold fits3; apply big; reflexivity) ltac:(reflexivity) (example_times _)) as (h & h' & T & T' & P).
  exists h, h'. split; [exact T|]. split; [exact T'|]. pose proof (P 2%nat 1%Z ltac:(lia)) as P1. pose proof (P 4%nat 1%Z ltac:(lia)) as P2. pose proof (P 2%nat 2%Z ltac:(lia)) as P3.
  cbn in P1, P2, P3. split; [rewrite P1; cbn; ring|]. split; [rewrite P2; cbn; ring|]. rewrite P3. destruct (vget (h 2%nat) 2) as [a b]. cbn. apply (f_equal2 (@pair R R)); ring.
Qed.
