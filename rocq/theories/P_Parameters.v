(** PROPERTY C112: scaling the parameters, and the sign of the hopping and of the interaction. *)
From Coq Require Import Reals Lra Psatz.
From Verif Require Import Base M_Operator M_Lattice Spec_Lattice Pf_Lattice P_Lattice M_LatticeReal Spec_LatticeReal M_Basis Pf_Basis P_Basis M_Matrix M_Ode M_Dispersion M_OpenMP Spec_OpenMP M_Expectation Spec_Expectation P_Expectation M_SiteOccupation Pf_SiteOccupation P_SiteOccupation M_FermiJump Pf_FermiJump P_FermiJump M_TimeLoop Spec_TimeLoop Spec_Ode
  Pf_Matrix Spec_Matrix Pf_Matrix2 P_Matrix Spec_Stability Pf_Stability Pf_Stability2 Pf_Stability3 P_Stability Spec_Programs M_Programs Pf_Programs Pf_Programs2 P_Ode P_TimeLoop P_Programs M_JumpPrograms Pf_MatrixEntry Pf_Theory2 P_OccupationFree P_Atomic P_JumpLimits Spec_Symmetry Pf_Symmetry P_Symmetry Spec_ParticleHole P_ParticleHole Spec_Parameters Ex_Matrix Ex_SiteOccupation Ex_Programs.
Local Open Scope R_scope.
Local Open Scope list_scope.
Local Notation len u := (Z.of_nat (length u)).

(** ** complex arithmetic *)
Section Algebra.
  Context (K : StarRing).
  Add Ring KringPar : (rth K).
  Local Open Scope ring_scope_.
  Lemma alg_11 (I J U h A d x z : K) : A * z = - x * A -> d * z = x * d -> (I * (- - J * A + U * h * d)) * z = x * (I * (- J * A + U * h * d)).
  Proof. intros H1 H2. transitivity (I * (J * (A * z) + U * h * (d * z))); [ring|]. rewrite H1, H2. ring. Qed.
  Lemma alg_33 (I J U h A B D a b d x y w x' y' w' : K) : A * x' = - x * A -> B * y' = - y * B -> D * w' = - w * D -> a * x' = x * a -> b * y' = y * b -> d * w' = w * d ->
    (I * (- - J * (A * b * d) + - - J * (a * B * d) + - J * (a * b * D) + U * h * (a * b * d))) * (x' * y' * w') =
    (x * y * w) * (I * (- J * (A * b * d) + - J * (a * B * d) + J * (a * b * D) + U * h * (a * b * d))).
  Proof.
    intros H1 H2 H3 H4 H5 H6. transitivity (I * (J * (A * x' * (b * y') * (d * w')) + J * (a * x' * (B * y') * (d * w')) + - J * (a * x' * (b * y') * (D * w')) + U * h * (a * x' * (b * y') * (d * w')))); [ring|].
    rewrite H1, H2, H3, H4, H5, H6. ring.
  Qed.
  Lemma alg_13 (I u a b d x x' y' w' : K) : a * x' = x * a -> b * y' = x * b -> d * w' = x * d -> x * x = 1 -> (I * (u * (a * b * d))) * (x' * y' * w') = x * (I * (u * (a * b * d))).
  Proof. intros H1 H2 H3 H4. transitivity (I * (u * ((a * x') * (b * y') * (d * w')))); [ring|]. rewrite H1, H2, H3. transitivity ((x * x) * x * (I * (u * (a * b * d)))); [ring|]. rewrite H4. ring. Qed.
  Lemma alg_31 (I u a b d z x y w : K) : a * x = z * a -> b * y = z * b -> d * w = z * d -> z * z = 1 -> (I * (u * (a * b * d))) * z = (x * y * w) * (I * (u * (a * b * d))).
  Proof. intros H1 H2 H3 H4. symmetry. transitivity (I * (u * ((a * x) * (b * y) * (d * w)))); [ring|]. rewrite H1, H2, H3. transitivity ((z * z) * z * (I * (u * (a * b * d)))); [ring|]. rewrite H4. ring. Qed.
End Algebra.
Lemma real_opp x : real (- x) = ropp (real x : CR).
Proof. unfold real. cbn. apply (f_equal2 (@pair R R)); cbn; ring. Qed.
Lemma real_mul x y : real (x * y) = rmul (real x : CR) (real y).
Proof. unfold real. cbn. apply (f_equal2 (@pair R R)); cbn; ring. Qed.
Lemma real_1 : real 1 = (r1 : CR).
Proof. reflexivity. Qed.
(** ** the entries *)
Section Entries.
  Context (sort : list (triplet CR) -> list (triplet CR)) (lat : lattice) (N : Z).
  Hypothesis Hs : sorts_by_column sort.
  Hypothesis Hl : shipped3 lat N.
  Hypothesis Hf : fits3 lat N.
  Let HG := shipped3_graph lat N Hl.
  Let HS := fits3_S3 lat N HG Hf.
  Let n := (N + N * N * N)%Z.
  Lemma entry_multiple J U l m m' : init_matrix sort (real J : CR) (real U) (real (1/2)) lat = Ok m -> init_matrix sort (real (l * J) : CR) (real (l * U)) (real (1/2)) lat = Ok m' ->
    forall i j, (0 <= i < n)%Z -> (0 <= j < n)%Z -> entry (bm_scale imag_unit m') i j = rmul (real l : CR) (entry (bm_scale imag_unit m) i j).
  Proof.
    intros Em Em' i j Hi Hj. destruct (cases lat N Hl Hf i Hi) as [Qi|(a & b & d & Ha & Hb & Hd & ->)], (cases lat N Hl Hf j Hj) as [Qj|(a' & b' & d' & Ha' & Hb' & Hd' & ->)].
    - rewrite (entry_11 sort J U lat N Hs Hl Hf m Em), (entry_11 sort _ _ lat N Hs Hl Hf m' Em') by assumption. generalize (adjc (K := CR) lat i j) (delta (K := CR) i j). intros [p q] [e f]. cbn. apply (f_equal2 (@pair R R)); cbn; field.
    - rewrite (entry_13 sort J U lat N Hs Hl Hf m Em), (entry_13 sort _ _ lat N Hs Hl Hf m' Em') by assumption. generalize (rmul (rmul (delta (K := CR) i a') (delta i b')) (delta i d')). intros [p q]. cbn. apply (f_equal2 (@pair R R)); cbn; field.
    - rewrite (entry_31 sort J U lat N Hs Hl Hf m Em), (entry_31 sort _ _ lat N Hs Hl Hf m' Em') by assumption. generalize (rmul (rmul (delta (K := CR) j a) (delta j b)) (delta j d)). intros [p q]. cbn. apply (f_equal2 (@pair R R)); cbn; field.
    - rewrite (entry_33 sort J U lat N Hs Hl Hf m Em), (entry_33 sort _ _ lat N Hs Hl Hf m' Em') by assumption. rewrite !(weight_33 _ _ _ lat N HG HS) by assumption.
      generalize (rmul (rmul (adjc (K := CR) lat a a') (delta b b')) (delta d d')) (rmul (rmul (delta (K := CR) a a') (adjc lat b b')) (delta d d')) (rmul (rmul (delta (K := CR) a a') (delta b b')) (adjc lat d d')) (rmul (rmul (delta (K := CR) a a') (delta b b')) (delta d d')).
      intros [p q] [p' q'] [p'' q''] [x y]. cbn. apply (f_equal2 (@pair R R)); cbn; field.
  Qed.
  Context (white : Z -> bool).
  Hypothesis Hw : two_coloured lat N white.
  Let c := shade white.
  Let sg := stagger N white.
  Lemma stag_1 a : site N a -> sg a = c a.
  Proof. intros H. unfold sg, stagger, site in *. destruct (Z.ltb_spec a N); [reflexivity|lia]. Qed.
  Lemma stag_3 a b d : site N a -> site N b -> site N d -> sg (get_3op_index N a b d) = c a * c b * c d.
  Proof.
    intros Ha Hb Hd. rewrite (idx3 lat N Hl Hf) by assumption. destruct (sites_of N a b d Ha Hb Hd) as (Ea & Eb & Ed). unfold sg, stagger. rewrite Ea, Eb, Ed.
    destruct (Z.ltb_spec (N + N * N * a + N * b + d) N); [unfold site in *; nia|reflexivity].
  Qed.
  Lemma adjc_flip a b : site N a -> rmul (adjc (K := CR) lat a b) (real (c b)) = rmul (real (- c a) : CR) (adjc lat a b).
  Proof. intros Ha. pose proof (adjc_shade lat N white Hw a b Ha) as A. fold c in A. destruct (adjc (K := CR) lat a b) as [p q]. unfold real in *. cbn in A. injection A as A1 A2. apply (f_equal2 (@pair R R)); cbn; lra. Qed.
  Lemma delta_shade a b : rmul (delta (K := CR) a b) (real (c b)) = rmul (real (c a) : CR) (delta a b).
  Proof. unfold delta. destruct (Z.eqb_spec a b) as [->|]; unfold real; cbn; apply (f_equal2 (@pair R R)); cbn; ring. Qed.
  (** E_{-J,U} i j s_j = s_i E_{J,U} i j *)
  Lemma entry_flip J U m m' : init_matrix sort (real J : CR) (real U) (real (1/2)) lat = Ok m -> init_matrix sort (real (- J) : CR) (real U) (real (1/2)) lat = Ok m' ->
    forall i j, (0 <= i < n)%Z -> (0 <= j < n)%Z -> rmul (entry (bm_scale imag_unit m') i j) (real (sg j)) = rmul (real (sg i) : CR) (entry (bm_scale imag_unit m) i j).
  Proof.
    intros Em Em' i j Hi Hj. destruct (cases lat N Hl Hf i Hi) as [Qi|(a & b & d & Ha & Hb & Hd & ->)], (cases lat N Hl Hf j Hj) as [Qj|(a' & b' & d' & Ha' & Hb' & Hd' & ->)].
    - rewrite (entry_11 sort J U lat N Hs Hl Hf m Em), (entry_11 sort _ _ lat N Hs Hl Hf m' Em') by assumption. rewrite !stag_1 by assumption.
      rewrite real_opp. apply alg_11; [rewrite <- real_opp; apply adjc_flip; exact Qi|apply delta_shade].
    - rewrite (entry_13 sort J U lat N Hs Hl Hf m Em), (entry_13 sort _ _ lat N Hs Hl Hf m' Em') by assumption. rewrite (stag_1 i), (stag_3 a' b' d'), !real_mul by assumption.
      apply alg_13; [apply delta_shade..|]. rewrite <- real_mul; unfold c; rewrite shade_sq. apply real_1.
    - rewrite (entry_31 sort J U lat N Hs Hl Hf m Em), (entry_31 sort _ _ lat N Hs Hl Hf m' Em') by assumption. rewrite (stag_1 j), (stag_3 a b d), !real_mul by assumption.
      apply alg_31; [apply delta_shade..|]. rewrite <- real_mul; unfold c; rewrite shade_sq. apply real_1.
    - rewrite (entry_33 sort J U lat N Hs Hl Hf m Em), (entry_33 sort _ _ lat N Hs Hl Hf m' Em') by assumption. rewrite !(weight_33 _ _ _ lat N HG HS), !stag_3, !real_mul, real_opp by assumption.
      apply alg_33; try apply delta_shade; rewrite <- real_opp; apply adjc_flip; assumption.
  Qed.
End Entries.

(** ** two runs whose steps are related by a diagonal matrix *)
Section Pair.
  Context (n : Z) (E E' : Z -> Z -> CR) (dt dt' : R) (d : Z -> R).
  Hypothesis HE : forall i j, (0 <= i < n)%Z -> (0 <= j < n)%Z -> rmul (real dt' : CR) (rmul (E' i j) (real (d j))) = rmul (real dt : CR) (rmul (real (d i) : CR) (E i j)).
  Definition related (x x' : Z * bool -> R) : Prop := forall p, In p (idx n) -> x' p = d (fst p) * x p.
  Lemma SM_related p q : In p (idx n) -> In q (idx n) -> dt' * (SM E' p q * d (fst q)) = dt * (d (fst p) * SM E p q).
  Proof.
    intros Hp Hq. apply idx_in in Hp, Hq. pose proof (HE _ _ Hp Hq) as H. unfold SM. destruct (E' (fst p) (fst q)) as [a b], (E (fst p) (fst q)) as [a' b']. cbn in a, b, a', b'. unfold real in H. cbn in H. injection H as H1 H2.
    destruct (snd p), (snd q); cbn; lra.
  Qed.
  Lemma apn_related k x x' : related x x' -> forall p, In p (idx n) -> dt' ^ k * apn (idx n) (SM E') k x' p = d (fst p) * (dt ^ k * apn (idx n) (SM E) k x p).
  Proof.
    intros H. induction k as [|k IH]; intros p Hp; cbn [apn pow].
    - rewrite (H p Hp). ring.
    - unfold ap. transitivity (SR (fun q => dt' * (SM E' p q * (dt' ^ k * apn (idx n) (SM E') k x' q))) (idx n)).
      { rewrite <- SR_mul. apply SR_ext. intros. ring. }
      transitivity (SR (fun q => (d (fst p) * (dt * dt ^ k)) * (SM E p q * apn (idx n) (SM E) k x q)) (idx n)).
      { apply SR_ext. intros q Hq. rewrite (IH q Hq). transitivity ((dt' * (SM E' p q * d (fst q))) * (dt ^ k * apn (idx n) (SM E) k x q)); [ring|]. rewrite (SM_related p q Hp Hq). ring. }
      rewrite SR_mul. ring.
  Qed.
  Lemma P_related x x' : related x x' -> related (P (idx n) (SM E) dt x) (P (idx n) (SM E') dt' x').
  Proof.
    intros H p Hp. pose proof (apn_related 1 x x' H p Hp) as A1. pose proof (apn_related 2 x x' H p Hp) as A2. pose proof (apn_related 3 x x' H p Hp) as A3. pose proof (apn_related 4 x x' H p Hp) as A4.
    unfold P. rewrite (H p Hp). change (apn (idx n) (SM E') 1 x' p) with (ap (idx n) (SM E') x' p) in A1. change (apn (idx n) (SM E) 1 x p) with (ap (idx n) (SM E) x p) in A1. rewrite !pow_1 in A1.
    unfold Rdiv. transitivity (d (fst p) * x p + dt' * ap (idx n) (SM E') x' p + / 2 * (dt' ^ 2 * apn (idx n) (SM E') 2 x' p) + / 6 * (dt' ^ 3 * apn (idx n) (SM E') 3 x' p) + / 24 * (dt' ^ 4 * apn (idx n) (SM E') 4 x' p)); [ring|].
    rewrite A1, A2, A3, A4. ring.
  Qed.
  Context (mul mul' : list CR -> list CR).
  Hypothesis acts : acts_as CR n E mul.
  Hypothesis acts' : acts_as CR n E' mul'.
  Lemma run_related k k' : forall sts sts' u u', length sts = length sts' -> len u = n -> len u' = n -> related (vec u) (vec u') ->
    related (vec (run_steps CR (real (1/2)) (real (1/6)) (mkRk4 (K:=CR) k (real dt)) mul sts u)) (vec (run_steps CR (real (1/2)) (real (1/6)) (mkRk4 (K:=CR) k' (real dt')) mul' sts' u')).
  Proof.
    induction sts as [|st sts IH]; intros [|st' sts'] u u' Ls L L' H; try discriminate Ls; cbn [run_steps]; [exact H|]. injection Ls as Ls.
    destruct (vec_step n E mul acts k dt st u L) as [M S]. destruct (vec_step n E' mul' acts' k' dt' st' u' L') as [M' S']. apply IH; [exact Ls|exact M|exact M'|].
    intros p Hp. rewrite (S p Hp), (S' p Hp). apply P_related; assumption.
  Qed.
End Pair.
Lemma related_vget n d u u' : related n d (vec u) (vec u') -> forall i, (0 <= i < n)%Z -> vget u' i = rmul (real (d i) : CR) (vget u i).
Proof.
  intros H i Hi. pose proof (H (i, true) ltac:(apply idx_in; exact Hi)) as A. pose proof (H (i, false) ltac:(apply idx_in; exact Hi)) as B. unfold vec, vecf in A, B. cbn [fst snd part] in A, B.
  destruct (vget u' i) as [a b], (vget u i) as [a' b']. cbn in A, B. subst a b. unfold real. cbn. apply (f_equal2 (@pair R R)); cbn; ring.
Qed.
Lemma vget_eq u u' : length u = length u' -> (forall i, (0 <= i < len u)%Z -> vget (K := CR) u' i = vget u i) -> u' = u.
Proof.
  intros L H. apply (nth_ext u' u (real 0) (real 0)); [symmetry; exact L|]. intros k Hk. specialize (H (Z.of_nat k) ltac:(lia)). unfold vget in H. rewrite Nat2Z.id in H. exact H.
Qed.
(** the two runs of the main programs *)
Lemma paired_lines sort rnd u st lat N J U dt t_end interval steps rnd' u' st' J' U' dt' t_end' interval' steps' (d : Z -> R) :
  sorts_by_column sort -> shipped3 lat N -> fits3 lat N -> times_ok rnd u dt t_end interval steps -> times_ok rnd' u' dt' t_end' interval' steps' -> d 0%Z = 1 ->
  let n := (N + N * N * N)%Z in
  (forall m m', init_matrix sort (real J : CR) (real U) (real (1/2)) lat = Ok m -> init_matrix sort (real J' : CR) (real U') (real (1/2)) lat = Ok m' ->
    forall i j, (0 <= i < n)%Z -> (0 <= j < n)%Z -> rmul (real dt' : CR) (rmul (entry (bm_scale imag_unit m') i j) (real (d j))) = rmul (real dt : CR) (rmul (real (d i) : CR) (entry (bm_scale imag_unit m) i j))) ->
  Z.of_nat (length (basis3 lat)) = n /\
  exists ss ss', (forall (O : Type) (obs : progress -> O), terminates_with (run_main rnd st n dt t_end interval (compute_lattice sort lat J U) obs)
      (Ok (map (fun k => (time_at rnd dt k, obs (ss k))) (written interval steps)))) /\
    (forall (O : Type) (obs : progress -> O), terminates_with (run_main rnd' st' n dt' t_end' interval' (compute_lattice sort lat J' U') obs)
      (Ok (map (fun k => (time_at rnd' dt' k, obs (ss' k))) (written interval' steps')))) /\
    forall k, steps_done (ss k) = k /\ steps_done (ss' k) = k /\ len (coefficients (ss k)) = n /\ len (coefficients (ss' k)) = n /\
      forall i, (0 <= i < n)%Z -> vget (coefficients (ss' k)) i = rmul (real (d i) : CR) (vget (coefficients (ss k)) i).
Proof.
  intros Hs Hl Hf (T1 & T2 & T3 & T4 & T5 & T6 & T7) (T1' & T2' & T3' & T4' & T5' & T6' & T7') D0 n HE. assert (Hs1 : shipped lat N) by (destruct Hl; constructor; lia || nia).
  pose proof (HNpos lat N (shipped3_graph lat N Hl)) as HN. assert (Hn : (0 < n)%Z) by (unfold n; nia).
  split; [pose proof (basis3_len lat N (shipped_regular _ _ Hs1)); unfold n; nia|].
  destruct (full_facts sort J U lat N Hs Hl Hf) as (m & Em & A & _). destruct (full_facts sort J' U' lat N Hs Hl Hf) as (m' & Em' & A' & _). destruct (init_vector_unit n Hn) as (h0 & E0 & L0 & V0).
  exists (fun k => times_applied (integrate n dt (bm_scale imag_unit m)) k (mkProgress 0 st h0)), (fun k => times_applied (integrate n dt' (bm_scale imag_unit m')) k (mkProgress 0 st' h0)). split; [|split].
  - intros O obs. destruct (C53_schedule progress O rnd u dt t_end interval steps (integrate n dt (bm_scale imag_unit m)) obs (mkProgress 0 st h0) T1 T2 T3 T4 T5 T6 T7) as (s & (f0 & T) & _ & _ & Out).
    exists f0. intros fuel Hfu. unfold run_main, compute_lattice. rewrite Em, E0. cbn [obind]. rewrite (T fuel Hfu), Out. reflexivity.
  - intros O obs. destruct (C53_schedule progress O rnd' u' dt' t_end' interval' steps' (integrate n dt' (bm_scale imag_unit m')) obs (mkProgress 0 st' h0) T1' T2' T3' T4' T5' T6' T7') as (s & (f0 & T) & _ & _ & Out).
    exists f0. intros fuel Hfu. unfold run_main, compute_lattice. rewrite Em', E0. cbn [obind]. rewrite (T fuel Hfu), Out. reflexivity.
  - intros k. destruct (integrate_iter n dt (bm_scale imag_unit m) st h0 k) as (sts & Ls & Ek & Es). destruct (integrate_iter n dt' (bm_scale imag_unit m') st' h0 k) as (sts' & Ls' & Ek' & Es').
    split; [exact Ek|]. split; [exact Ek'|]. rewrite Es, Es'. split; [exact (run_len n _ _ A n dt sts h0 L0)|]. split; [exact (run_len n _ _ A' n dt' sts' h0 L0)|].
    apply related_vget. apply (run_related n (entry (bm_scale imag_unit m)) (entry (bm_scale imag_unit m'))); [exact (HE m m' Em Em')|exact A|exact A'|congruence|exact L0|exact L0|].
    intros p Hp. apply idx_in in Hp. unfold vec, vecf. rewrite (V0 _ Hp). unfold first_unit. destruct (Z.eqb_spec (fst p) 0) as [->|]; [rewrite D0; ring|]. destruct (snd p); cbn; ring.
Qed.

(** ** the exact coefficients *)
Lemma the_solution_exists sort J U lat N m : sorts_by_column sort -> shipped3 lat N -> fits3 lat N -> init_matrix sort (real J : CR) (real U) (real (1/2)) lat = Ok m ->
  exists y, the_solution (N + N * N * N) (entry (bm_scale imag_unit m)) y.
Proof.
  intros Hs Hl Hf Em. set (n := (N + N * N * N)%Z). destruct (full_facts sort J U lat N Hs Hl Hf) as (m1 & Em1 & A & B & C & D). rewrite Em in Em1. injection Em1 as <-.
  assert (Hn : (0 < n)%Z) by (pose proof (HNpos lat N (shipped3_graph lat N Hl)); unfold n; nia). destruct (init_vector_unit n Hn) as (h0 & _ & _ & V0).
  destruct (exists_unique n _ _ h0 B (row_op _ _ _ B C D) D) as (y & Y1 & Y2 & Y3). exists y. split; [exact Y1|]. split.
  - intros i Hi. rewrite (Y2 i Hi). apply V0, Hi.
  - intros y' H1 H2. apply Y3; [exact H1|]. intros i Hi. rewrite (H2 i Hi). symmetry. apply V0, Hi.
Qed.
Lemma sum_real_l l n (E : Z -> CR) (y : Z -> CR) : sum_over (K := CR) (fun j => rmul (rmul (real l : CR) (E j)) (y j)) (zrange 0 n) = rmul (real l : CR) (sum_over (K := CR) (fun j => rmul (E j) (y j)) (zrange 0 n)).
Proof. rewrite <- (sum_over_mul_l CR). apply sum_over_ext. intros j _. destruct (E j) as [a b], (y j) as [c d]. unfold real. cbn. apply (f_equal2 (@pair R R)); cbn; ring. Qed.
Lemma lin_comp f l t a : derivable_pt_lim f (l * t) a -> derivable_pt_lim (fun s => f (l * s)) t (l * a).
Proof. intros H. eapply deriv_eq; [exact (derivable_pt_lim_comp (fun s => l * s) f t _ _ (lin_deriv l t) H)|reflexivity|ring]. Qed.
(** with J and U multiplied by the same number, time runs faster by that number *)
Theorem C112_solution_scaling : forall (sort : list (triplet CR) -> list (triplet CR)) J U l lat N,
  sorts_by_column sort -> shipped3 lat N -> fits3 lat N -> let n := (N + N * N * N)%Z in
  exists m m', init_matrix sort (real J : CR) (real U) (real (1/2)) lat = Ok m /\ init_matrix sort (real (l * J) : CR) (real (l * U)) (real (1/2)) lat = Ok m' /\
    forall y y', the_solution n (entry (bm_scale imag_unit m)) y -> the_solution n (entry (bm_scale imag_unit m')) y' ->
      forall t i, (0 <= i < n)%Z -> y' t i = y (l * t) i.
Proof.
  intros sort J U l lat N Hs Hl Hf n. destruct (full_facts sort J U lat N Hs Hl Hf) as (m & Em & _). destruct (full_facts sort (l * J) (l * U) lat N Hs Hl Hf) as (m' & Em' & _).
  exists m, m'. split; [exact Em|]. split; [exact Em'|]. intros y y' (Y1 & Y2 & _) (_ & _ & Y3) t i Hi. symmetry. apply (Y3 (fun t i => y (l * t) i)); [| |exact Hi].
  - intros s j Hj dy. destruct (Y1 (l * s) j Hj) as [D1 D2]. cbv zeta in D1, D2.
    assert (X : dy = rmul (real l : CR) (sum_over (K := CR) (fun k => rmul (entry (bm_scale imag_unit m) j k) (y (l * s) k)) (zrange 0 n))).
    { unfold dy. rewrite <- sum_real_l. apply sum_over_ext. intros k Hk. apply zrange_in in Hk. rewrite (entry_multiple sort lat N Hs Hl Hf J U l m m' Em Em' j k Hj Hk). reflexivity. }
    rewrite X. destruct (sum_over (K := CR) (fun k => rmul (entry (bm_scale imag_unit m) j k) (y (l * s) k)) (zrange 0 n)) as [p q]. cbn [fst snd] in D1, D2. split.
    + eapply deriv_eq; [exact (lin_comp (fun s => fst (y s j)) l s p D1)|reflexivity|]. unfold real. cbn. ring.
    + eapply deriv_eq; [exact (lin_comp (fun s => snd (y s j)) l s q D2)|reflexivity|]. unfold real. cbn. ring.
  - intros j Hj. rewrite Rmult_0_r. apply Y2, Hj.
Qed.
(** with the other sign of J, the coefficients get the staggered sign *)
Theorem C112_solution_sign : forall (sort : list (triplet CR) -> list (triplet CR)) J U lat N white,
  sorts_by_column sort -> shipped3 lat N -> fits3 lat N -> two_coloured lat N white -> let n := (N + N * N * N)%Z in
  exists m m', init_matrix sort (real J : CR) (real U) (real (1/2)) lat = Ok m /\ init_matrix sort (real (- J) : CR) (real U) (real (1/2)) lat = Ok m' /\
    forall y y', the_solution n (entry (bm_scale imag_unit m)) y -> the_solution n (entry (bm_scale imag_unit m')) y' ->
      forall t i, (0 <= i < n)%Z -> y' t i = rmul (real (stagger N white i) : CR) (y t i).
Proof.
  intros sort J U lat N white Hs Hl Hf Hw n. destruct (full_facts sort J U lat N Hs Hl Hf) as (m & Em & _). destruct (full_facts sort (- J) U lat N Hs Hl Hf) as (m' & Em' & _).
  exists m, m'. split; [exact Em|]. split; [exact Em'|]. intros y y' (Y1 & Y2 & _) (_ & _ & Y3) t i Hi. symmetry. apply (Y3 (fun t i => rmul (real (stagger N white i) : CR) (y t i))); [| |exact Hi].
  - intros s j Hj dy. destruct (Y1 s j Hj) as [D1 D2]. cbv zeta in D1, D2.
    assert (X : dy = rmul (real (stagger N white j) : CR) (sum_over (K := CR) (fun k => rmul (entry (bm_scale imag_unit m) j k) (y s k)) (zrange 0 n))).
    { unfold dy. rewrite <- (sum_over_mul_l CR). apply sum_over_ext. intros k Hk. apply zrange_in in Hk.
      transitivity (rmul (rmul (entry (bm_scale imag_unit m') j k) (real (stagger N white k))) (y s k)); [generalize (entry (bm_scale imag_unit m') j k) (y s k); intros [a b] [c d]; unfold real; cbn; apply (f_equal2 (@pair R R)); cbn; ring|].
      rewrite (entry_flip sort lat N Hs Hl Hf white Hw J U m m' Em Em' j k Hj Hk). generalize (entry (bm_scale imag_unit m) j k) (y s k). intros [a b] [c d]. unfold real. cbn. apply (f_equal2 (@pair R R)); cbn; ring. }
    rewrite X. destruct (sum_over (K := CR) (fun k => rmul (entry (bm_scale imag_unit m) j k) (y s k)) (zrange 0 n)) as [p q]. cbn [fst snd] in D1, D2. set (g := stagger N white j). clearbody g. split.
    + eapply deriv_eq; [exact (deriv_scal g (fun s => fst (y s j)) s p D1)| |]; [intros s'; cbv beta; destruct (y s' j) as [a b]|]; unfold real; cbn; ring.
    + eapply deriv_eq; [exact (deriv_scal g (fun s => snd (y s j)) s q D2)| |]; [intros s'; cbv beta; destruct (y s' j) as [a b]|]; unfold real; cbn; ring.
  - intros j Hj. rewrite (Y2 j Hj). unfold first_unit. destruct (Z.eqb_spec j 0) as [->|]; [|unfold real; cbn; apply (f_equal2 (@pair R R)); cbn; ring].
    assert (S0 : site N 0) by (pose proof (HNpos lat N (shipped3_graph lat N Hl)); unfold site; lia). rewrite (stag_1 N white 0 S0). unfold shade. rewrite (Logic.proj1 Hw). unfold real. cbn. apply (f_equal2 (@pair R R)); cbn; ring.
Qed.
(** attraction instead of repulsion: the staggered sign and complex conjugation *)
Theorem C112_solution_attraction : forall (sort : list (triplet CR) -> list (triplet CR)) J U lat N white,
  sorts_by_column sort -> shipped3 lat N -> fits3 lat N -> two_coloured lat N white -> let n := (N + N * N * N)%Z in
  exists m m', init_matrix sort (real J : CR) (real U) (real (1/2)) lat = Ok m /\ init_matrix sort (real J : CR) (real (- U)) (real (1/2)) lat = Ok m' /\
    forall y y', the_solution n (entry (bm_scale imag_unit m)) y -> the_solution n (entry (bm_scale imag_unit m')) y' ->
      forall t i, (0 <= i < n)%Z -> y' t i = rmul (real (stagger N white i) : CR) (kconj (y t i)).
Proof.
  intros sort J U lat N white Hs Hl Hf Hw n. destruct (C111_time_reversal sort J U lat N Hs Hl Hf) as (m & Em & R).
  destruct (C112_solution_scaling sort J U (-1) lat N Hs Hl Hf) as (m1 & m2 & Em1 & Em2 & S). rewrite Em in Em1. injection Em1 as <-.
  destruct (C112_solution_sign sort (- J) (- U) lat N white Hs Hl Hf Hw) as (m3 & m' & Em3 & Em' & T). replace (-1 * J) with (- J) in Em2 by ring. replace (-1 * U) with (- U) in Em2 by ring. rewrite Em2 in Em3. injection Em3 as <-.
  rewrite Ropp_involutive in Em'. exists m, m'. split; [exact Em|]. split; [exact Em'|]. intros y y' Hy Hy' t i Hi.
  destruct (the_solution_exists sort (- J) (- U) lat N _ Hs Hl Hf Em2) as (z & Hz). rewrite (T z y' Hz Hy' t i Hi). f_equal. rewrite (S y z Hy Hz t i Hi). replace (-1 * t) with (- t) by ring. apply R; assumption.
Qed.

(** ** the programs *)
Lemma scaled_entries sort lat N J U l dt : sorts_by_column sort -> shipped3 lat N -> fits3 lat N -> l <> 0 -> let n := (N + N * N * N)%Z in
  forall m m', init_matrix sort (real J : CR) (real U) (real (1/2)) lat = Ok m -> init_matrix sort (real (l * J) : CR) (real (l * U)) (real (1/2)) lat = Ok m' ->
    forall i j, (0 <= i < n)%Z -> (0 <= j < n)%Z -> rmul (real (dt / l) : CR) (rmul (entry (bm_scale imag_unit m') i j) (real 1)) = rmul (real dt : CR) (rmul (real 1 : CR) (entry (bm_scale imag_unit m) i j)).
Proof.
  intros Hs Hl Hf L n m m' Em Em' i j Hi Hj. rewrite (entry_multiple sort lat N Hs Hl Hf J U l m m' Em Em' i j Hi Hj). destruct (entry (bm_scale imag_unit m) i j) as [a b]. unfold real. cbn. apply (f_equal2 (@pair R R)); cbn; field; exact L.
Qed.
(** two runs on any shipped lattice, the second with J, U multiplied and dt divided by l: the same coefficients after every step *)
Lemma scaled_lines sort rnd u st lat N J U dt t_end interval steps rnd' u' st' l t_end' interval' steps' :
  sorts_by_column sort -> shipped3 lat N -> fits3 lat N -> l <> 0 -> times_ok rnd u dt t_end interval steps -> times_ok rnd' u' (dt / l) t_end' interval' steps' ->
  let n := (N + N * N * N)%Z in Z.of_nat (length (basis3 lat)) = n /\
  exists ss ss', (forall (O : Type) (obs : progress -> O), terminates_with (run_main rnd st n dt t_end interval (compute_lattice sort lat J U) obs)
      (Ok (map (fun k => (time_at rnd dt k, obs (ss k))) (written interval steps)))) /\
    (forall (O : Type) (obs : progress -> O), terminates_with (run_main rnd' st' n (dt / l) t_end' interval' (compute_lattice sort lat (l * J) (l * U)) obs)
      (Ok (map (fun k => (time_at rnd' (dt / l) k, obs (ss' k))) (written interval' steps')))) /\
    forall k, steps_done (ss' k) = steps_done (ss k) /\ coefficients (ss' k) = coefficients (ss k).
Proof.
  intros Hs Hl Hf L Ht Ht' n. destruct (paired_lines sort rnd u st lat N J U dt t_end interval steps rnd' u' st' (l * J) (l * U) (dt / l) t_end' interval' steps' (fun _ => 1) Hs Hl Hf Ht Ht' eq_refl (scaled_entries sort lat N J U l dt Hs Hl Hf L)) as (Eb & ss & ss' & T & T' & H).
  split; [exact Eb|]. exists ss, ss'. split; [exact T|]. split; [exact T'|]. intros k. destruct (H k) as (S & S' & C & C' & V). split; [congruence|].
  apply vget_eq; [fold n in C, C'; lia|]. intros i Hi. rewrite C in Hi. rewrite (V i Hi). destruct (vget (coefficients (ss k)) i) as [a b]. unfold real. cbn. apply (f_equal2 (@pair R R)); cbn; ring.
Qed.
(** hubbard_real_1d_rk4_coefficients *)
Theorem C112_coefficients : forall sort rnd u st N J U dt t_end interval steps rnd' u' st' l t_end' interval' steps',
  sorts_by_column sort -> (3 <= N)%Z -> fits3 (chain_lattice N) N -> l <> 0 -> times_ok rnd u dt t_end interval steps -> times_ok rnd' u' (dt / l) t_end' interval' steps' ->
  exists h, terminates_with (coefficients_full sort rnd st N J U dt t_end interval) (Ok (map (fun k => (time_at rnd dt k, h k)) (written interval steps))) /\
    terminates_with (coefficients_full sort rnd' st' N (l * J) (l * U) (dt / l) t_end' interval') (Ok (map (fun k => (time_at rnd' (dt / l) k, h k)) (written interval' steps'))).
Proof.
  intros sort rnd u st N J U dt t_end interval steps rnd' u' st' l t_end' interval' steps' Hs HN Hf L Ht Ht'. assert (Hf' := Hf). unfold fits3 in Hf'. cbn [lat_coordination chain_lattice] in Hf'.
  assert (Hl : shipped3 (chain_lattice N) N) by (constructor; nia).
  destruct (scaled_lines sort rnd u st _ N J U dt t_end interval steps rnd' u' st' l t_end' interval' steps' Hs Hl Hf L Ht Ht') as (Eb & ss & ss' & T & T' & H).
  exists (fun k => coefficients (ss k)). unfold coefficients_full. rewrite Eb. split; [apply T|]. pose proof (T' _ coefficients) as Q. erewrite map_ext in Q; [exact Q|]. intros k. cbv beta. rewrite (Logic.proj2 (H k)). reflexivity.
Qed.
(** hubbard_real_1d_rk4: the same occupations *)
Theorem C112_occupation : forall sort rnd u st order sched N J U filling dt t_end interval steps rnd' u' st' l t_end' interval' steps',
  sorts_by_column sort -> (3 <= N)%Z -> fits3 (chain_lattice N) N -> l <> 0 -> times_ok rnd u dt t_end interval steps -> times_ok rnd' u' (dt / l) t_end' interval' steps' ->
  exists o, terminates_with (occupation_full sort rnd st order sched N J U filling dt t_end interval) (Ok (map (fun k => (time_at rnd dt k, o k)) (written interval steps))) /\
    terminates_with (occupation_full sort rnd' st' order sched N (l * J) (l * U) filling (dt / l) t_end' interval') (Ok (map (fun k => (time_at rnd' (dt / l) k, o k)) (written interval' steps'))).
Proof.
  intros sort rnd u st order sched N J U filling dt t_end interval steps rnd' u' st' l t_end' interval' steps' Hs HN Hf L Ht Ht'. assert (Hf' := Hf). unfold fits3 in Hf'. cbn [lat_coordination chain_lattice] in Hf'.
  assert (Hl : shipped3 (chain_lattice N) N) by (constructor; nia).
  destruct (scaled_lines sort rnd u st _ N J U dt t_end interval steps rnd' u' st' l t_end' interval' steps' Hs Hl Hf L Ht Ht') as (Eb & ss & ss' & T & T' & H).
  unfold occupation_full. cbv zeta. rewrite Eb. match goal with |- context [run_main rnd _ _ _ _ _ _ ?o] => set (obs := o) end. exists (fun k => obs (ss k)). split; [exact (T _ obs)|]. pose proof (T' _ obs) as Q. erewrite map_ext in Q; [exact Q|]. intros k. cbv beta. unfold obs. rewrite (Logic.proj2 (H k)), (Logic.proj1 (H k)). reflexivity.
Qed.
(** the jump programs: the same jumps in the lines of both output files *)
Lemma scaled_jump sort rnd u st lat N J U dt t_end interval steps rnd' u' st' l t_end' ev sched table :
  sorts_by_column sort -> shipped3 lat N -> fits3 lat N -> l <> 0 -> times_ok rnd u dt t_end interval steps -> times_ok rnd' u' (dt / l) t_end' interval steps ->
  exists r, terminates_with (jump_main rnd st dt t_end interval ev (basis3 lat) N sched (compute_lattice sort lat J U) table)
      (Ok (pbind r (fun values => Some (Ok (combine (map (time_at rnd dt) (written interval steps)) values))))) /\
    terminates_with (jump_main rnd' st' (dt / l) t_end' interval ev (basis3 lat) N sched (compute_lattice sort lat (l * J) (l * U)) table)
      (Ok (pbind r (fun values => Some (Ok (combine (map (time_at rnd' (dt / l)) (written interval steps)) values))))).
Proof.
  intros Hs Hl Hf L Ht Ht'. destruct (scaled_lines sort rnd u st _ N J U dt t_end interval steps rnd' u' st' l t_end' interval steps Hs Hl Hf L Ht Ht') as (Eb & ss & ss' & T & T' & H).
  destruct (T progress (fun s => s)) as (f & Tf). destruct (T' progress (fun s => s)) as (f' & Tf').
  exists (pbind table (fun coef => evaluations (map (fun k => measure ev (basis3 lat) N sched coef (ss k)) (written interval steps)) None)). split; [exists f|exists f']; intros fuel Hfu; unfold jump_main; rewrite Eb; [rewrite (Tf fuel Hfu)|rewrite (Tf' fuel Hfu)]; rewrite !map_map; cbn [fst snd].
  - destruct table as [[coef|]|]; cbn [pbind]; [|reflexivity..]. rewrite map_map. reflexivity.
  - destruct table as [[coef|]|]; cbn [pbind]; [|reflexivity..]. rewrite map_map. do 3 f_equal. f_equal. apply map_ext. intros k. unfold measure. cbn [snd]. rewrite (Logic.proj1 (H k)), (Logic.proj2 (H k)). reflexivity.
Qed.
Theorem C112_jump_1d : forall sort rnd u st s0 sched N J U filling dt t_end interval steps rnd' u' st' l t_end',
  sorts_by_column sort -> (3 <= N)%Z -> fits3 (chain_lattice N) N -> l <> 0 -> times_ok rnd u dt t_end interval steps -> times_ok rnd' u' (dt / l) t_end' interval steps ->
  exists values, terminates_with (jump_1d sort rnd st s0 sched N J U filling dt t_end interval) (Ok (with_times (map (time_at rnd dt) (written interval steps)) values)) /\
    terminates_with (jump_1d sort rnd' st' s0 sched N (l * J) (l * U) filling (dt / l) t_end' interval) (Ok (with_times (map (time_at rnd' (dt / l)) (written interval steps)) values)).
Proof.
  intros sort rnd u st s0 sched N J U filling dt t_end interval steps rnd' u' st' l t_end' Hs HN Hf L Ht Ht'. assert (Hf' := Hf). unfold fits3 in Hf'. cbn [lat_coordination chain_lattice] in Hf'.
  assert (Hl : shipped3 (chain_lattice N) N) by (constructor; nia).
  exact (scaled_jump sort rnd u st _ N J U dt t_end interval steps rnd' u' st' l t_end' (program_ev N filling) sched _ Hs Hl Hf L Ht Ht').
Qed.
Theorem C112_jump_2d : forall sort rnd u st s0 sched N J U k dt t_end interval steps rnd' u' st' l t_end',
  sorts_by_column sort -> (3 <= N)%Z -> fits3 (square_lattice N N) (N * N) -> l <> 0 -> times_ok rnd u dt t_end interval steps -> times_ok rnd' u' (dt / l) t_end' interval steps ->
  exists values, terminates_with (jump_2d sort rnd st s0 sched N N J U k dt t_end interval) (Ok (with_times (map (time_at rnd dt) (written interval steps)) values)) /\
    terminates_with (jump_2d sort rnd' st' s0 sched N N (l * J) (l * U) k (dt / l) t_end' interval) (Ok (with_times (map (time_at rnd' (dt / l)) (written interval steps)) values)).
Proof.
  intros sort rnd u st s0 sched N J U k dt t_end interval steps rnd' u' st' l t_end' Hs HN Hf L Ht Ht'. assert (Hf' := Hf). unfold fits3 in Hf'. cbn [lat_coordination square_lattice] in Hf'.
  assert (H64 : (N * N < two64)%Z) by nia. assert (Hl : shipped3 (square_lattice N N) (N * N)) by (constructor; lia).
  exact (scaled_jump sort rnd u st _ _ J U dt t_end interval steps rnd' u' st' l t_end' (program_ev_2d N N) sched _ Hs Hl Hf L Ht Ht').
Qed.
(** the other sign of J in hubbard_real_1d_rk4_coefficients, for an even number of sites *)
Theorem C112_sign : forall sort rnd u st N J U dt t_end interval steps st',
  sorts_by_column sort -> (3 <= N)%Z -> Z.even N = true -> fits3 (chain_lattice N) N -> times_ok rnd u dt t_end interval steps -> let n := (N + N * N * N)%Z in
  exists h h', terminates_with (coefficients_full sort rnd st N J U dt t_end interval) (Ok (map (fun k => (time_at rnd dt k, h k)) (written interval steps))) /\
    terminates_with (coefficients_full sort rnd st' N (- J) U dt t_end interval) (Ok (map (fun k => (time_at rnd dt k, h' k)) (written interval steps))) /\
    forall k, len (h k) = n /\ len (h' k) = n /\ forall i, (0 <= i < n)%Z -> vget (h' k) i = rmul (real (stagger N chain_white i) : CR) (vget (h k) i).
Proof.
  intros sort rnd u st N J U dt t_end interval steps st' Hs HN Ev Hf Ht n. assert (Hf' := Hf). unfold fits3 in Hf'. cbn [lat_coordination chain_lattice] in Hf'.
  assert (Hl : shipped3 (chain_lattice N) N) by (constructor; nia). assert (W : two_coloured (chain_lattice N) N chain_white) by (apply C111_chain; [nia|exact Ev]).
  destruct (paired_lines sort rnd u st (chain_lattice N) N J U dt t_end interval steps rnd u st' (- J) U dt t_end interval steps (stagger N chain_white) Hs Hl Hf Ht Ht) as (Eb & ss & ss' & T & T' & H).
  - rewrite (stag_1 N chain_white 0) by (unfold site; lia). reflexivity.
  - intros m m' Em Em' i j Hi Hj. rewrite (entry_flip sort _ N Hs Hl Hf chain_white W J U m m' Em Em' i j Hi Hj). reflexivity.
  - exists (fun k => coefficients (ss k)), (fun k => coefficients (ss' k)). unfold coefficients_full. rewrite Eb. split; [apply T|]. split; [apply T'|]. intros k. destruct (H k) as (_ & _ & A & B & C). split; [exact A|]. split; [exact B|exact C].
Qed.
(** ** an example: four sites, J = U = 1, dt = 1/10 until t = 1 and J = U = 2, dt = 1/20 until t = 1/2 *)
Lemma C112_hypotheses : times_ok (fun x => x) 0 (/ 10 / 2) (1/2) 5 10.
Proof.
  destruct C86_hypotheses as ((_ & _ & H3 & _ & H5 & H6 & _) & _). split; [lra|]. split; [lra|]. split; [exact H3|]. split; [lra|]. split; [exact H5|]. split; [exact H6|]. split.
  - rewrite exact_time. cbn. lra.
  - intros k Hk. rewrite exact_time. assert (INR k <= 9) by (replace 9 with (INR 9) by (cbn; lra); apply le_INR; lia). lra.
Qed.
Example C112_example : forall st order,
  let sched := fun k : nat => mkMeasurement 2 (mkSch (two_threads 0 1 4) [k]) (mkSch (two_threads 0 2 4) []) (mkSch (two_threads 4 30 68) []) in
  exists o, terminates_with (occupation_full isort (fun x => x) st order sched 4 1 1 (1/2) (/ 10) 1 5) (Ok [(0, o 0%nat); (1/2, o 5%nat); (1, o 10%nat)]) /\
    terminates_with (occupation_full isort (fun x => x) st order sched 4 (2 * 1) (2 * 1) (1/2) (/ 10 / 2) (1/2) 5) (Ok [(0, o 0%nat); (1/4, o 5%nat); (1/2, o 10%nat)]).
Proof.
  intros st order sched. destruct C86_hypotheses as (H1 & H2 & _).
  destruct (C112_occupation isort (fun x => x) 0 st order sched 4 1 1 (1/2) (/ 10) 1 5 10 (fun x => x) 0 st 2 (1/2) 5 10 isort_ok ltac:(lia) H2 ltac:(lra) H1 C112_hypotheses) as (o & T1 & T2).
  rewrite C86_lines in T1, T2. cbn [map] in T1, T2. rewrite !exact_time in T1, T2.
  replace (INR 0 * / 10) with 0 in T1 by (cbn; lra). replace (INR 5 * / 10) with (1/2) in T1 by (cbn; lra). replace (INR 10 * / 10) with 1 in T1 by (cbn; lra).
  replace (INR 0 * (/ 10 / 2)) with 0 in T2 by (cbn; lra). replace (INR 5 * (/ 10 / 2)) with (1/4) in T2 by (cbn; lra). replace (INR 10 * (/ 10 / 2)) with (1/2) in T2 by (cbn; lra).
  exists o. split; assumption.
Qed.
