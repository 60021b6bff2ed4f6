(** PROPERTY C111: time reversal and particle-hole symmetry of the coefficients. *)
From Coq Require Import Reals Lra Psatz.
From Verif Require Import Base M_Operator M_Lattice Spec_Lattice Pf_Lattice P_Lattice M_LatticeReal Spec_LatticeReal M_Basis Pf_Basis P_Basis M_Matrix M_Ode M_Dispersion M_OpenMP Spec_OpenMP M_Expectation Spec_Expectation P_Expectation M_SiteOccupation Pf_SiteOccupation P_SiteOccupation M_FermiJump Pf_FermiJump P_FermiJump M_TimeLoop Spec_TimeLoop Spec_Ode
  Pf_Matrix Spec_Matrix Pf_Matrix2 P_Matrix Spec_Stability Pf_Stability Pf_Stability2 Pf_Stability3 P_Stability Spec_Programs M_Programs Pf_Programs Pf_Programs2 P_Ode P_TimeLoop P_Programs Pf_MatrixEntry Pf_Theory2 P_OccupationFree P_Atomic P_JumpLimits Spec_Symmetry Pf_Symmetry P_Symmetry Spec_ParticleHole.
Local Open Scope R_scope.
Local Open Scope list_scope.

Section Signs.
  Context (sort : list (triplet CR) -> list (triplet CR)) (J U : R) (lat : lattice) (N : Z) (white : Z -> bool).
  Hypothesis Hs : sorts_by_column sort.
  Hypothesis Hl : shipped3 lat N.
  Hypothesis Hf : fits3 lat N.
  Hypothesis Hw : two_coloured lat N white.
  Context (m : bmat CR).
  Hypothesis Em : init_matrix sort (real J : CR) (real U) (real (1/2)) lat = Ok m.
  Let HG := shipped3_graph lat N Hl.
  Let HS := fits3_S3 lat N HG Hf.
  Let n := (N + N * N * N)%Z.
  Let E := entry (bm_scale imag_unit m).
  Let c := shade white.
  Let sg := element_sign N white.
  Lemma shade_sq a : c a * c a = 1.
  Proof. unfold c, shade. destruct (white a); ring. Qed.
  Lemma adjc_shade a b : site N a -> rmul (adjc (K := CR) lat a b) (real (c a + c b)) = real 0.
  Proof.
    intros Ha. unfold adjc. rewrite <- (sum_over_mul_r CR). apply (sum_over_zero CR). intros x Hx. unfold delta. destruct (Z.eqb_spec x b) as [->|].
    - replace (c a + c b) with 0; [apply cplx_zero|]. unfold c, shade. rewrite (Logic.proj2 Hw a b Ha Hx). destruct (white a); cbn; ring.
    - unfold real. cbn. f_equal; ring.
  Qed.
  Lemma sign_1 a : site N a -> sg a = c a.
  Proof. intros H. unfold sg, element_sign, site in *. destruct (Z.ltb_spec a N); [reflexivity|lia]. Qed.
  Lemma sign_3 a b d : site N a -> site N b -> site N d -> sg (get_3op_index N a b d) = - (c a * c b * c d).
  Proof.
    intros Ha Hb Hd. rewrite (idx3 lat N Hl Hf) by assumption. destruct (sites_of N a b d Ha Hb Hd) as (Ea & Eb & Ed). unfold sg, element_sign. rewrite Ea, Eb, Ed.
    destruct (Z.ltb_spec (N + N * N * a + N * b + d) N); [unfold site in *; nia|reflexivity].
  Qed.
  Lemma adjc_self a : site N a -> adjc (K := CR) lat a a = real 0.
  Proof.
    intros Ha. pose proof (adjc_shade a a Ha) as H. destruct (adjc (K := CR) lat a a) as [p q]. cbn in H. injection H as H1 H2. pose proof (shade_sq a) as S. unfold real. apply (f_equal2 (@pair R R)); cbn in *; nra.
  Qed.
  Lemma entry_sign i j : (0 <= i < n)%Z -> (0 <= j < n)%Z -> rmul (E i j) (real (sg i + sg j)) = rmul ((0, U) : CR) (rmul (delta i j) (real (sg j))).
  Proof.
    intros Hi Hj. unfold E. destruct (cases lat N Hl Hf i Hi) as [Qi|(a & b & d & Ha & Hb & Hd & ->)], (cases lat N Hl Hf j Hj) as [Qj|(a' & b' & d' & Ha' & Hb' & Hd' & ->)].
    - rewrite (entry_11 sort J U lat N Hs Hl Hf m Em) by assumption. rewrite !sign_1 by assumption. pose proof (adjc_shade i j Qi) as A. unfold delta. destruct (Z.eqb_spec i j) as [->|].
      + rewrite adjc_self by assumption. cbn. apply (f_equal2 (@pair R R)); cbn; field.
      + destruct (adjc (K := CR) lat i j) as [p q]. cbn in A. injection A as A1 A2. cbn. apply (f_equal2 (@pair R R)); cbn; [transitivity (J * (p * 0 + q * (c i + c j)))|transitivity (- J * (p * (c i + c j) - q * 0))]; try field; [rewrite A2|rewrite A1]; ring.
    - rewrite (entry_13 sort J U lat N Hs Hl Hf m Em) by assumption. rewrite sign_1, sign_3 by assumption.
      rewrite (delta_ne i (get_3op_index N a' b' d')) by (pose proof (idx_range lat N Hl Hf a' b' d' Ha' Hb' Hd'); unfold site in Qi; lia). unfold delta.
      destruct (Z.eqb_spec i a') as [<-|]; [destruct (Z.eqb_spec i b') as [<-|]; [destruct (Z.eqb_spec i d') as [<-|]|]|]; cbn; apply (f_equal2 (@pair R R)); cbn; try ring; pose proof (shade_sq i) as S;
        transitivity (U / 2 * (c i - c i * (c i * c i))); [field|rewrite S; ring].
    - rewrite (entry_31 sort J U lat N Hs Hl Hf m Em) by assumption. rewrite sign_3, sign_1 by assumption.
      rewrite (delta_ne (get_3op_index N a b d) j) by (pose proof (idx_range lat N Hl Hf a b d Ha Hb Hd); unfold site in Qj; lia). unfold delta.
      destruct (Z.eqb_spec j a) as [<-|]; [destruct (Z.eqb_spec j b) as [<-|]; [destruct (Z.eqb_spec j d) as [<-|]|]|]; cbn; apply (f_equal2 (@pair R R)); cbn; try ring; pose proof (shade_sq j) as S;
        transitivity (U / 2 * (c j - c j * (c j * c j))); [field|rewrite S; ring].
    - rewrite (entry_33 sort J U lat N Hs Hl Hf m Em) by assumption. rewrite (weight_33 _ _ _ lat N HG HS) by assumption. rewrite !sign_3 by assumption.
      assert (D : delta (K := CR) (get_3op_index N a b d) (get_3op_index N a' b' d') = rmul (rmul (delta a a') (delta b b')) (delta d d')).
      { apply (delta_idx lat N HG HS); assumption. }
      rewrite D. clear D. pose proof (adjc_shade a a' Ha) as A1. pose proof (adjc_shade b b' Hb) as A2. pose proof (adjc_shade d d' Hd) as A3. unfold delta.
      destruct (Z.eqb_spec a a') as [<-|Na], (Z.eqb_spec b b') as [<-|Nb], (Z.eqb_spec d d') as [<-|Nd]; rewrite ?adjc_self in * by assumption.
      + clear. cbn. apply (f_equal2 (@pair R R)); cbn; field.
      + destruct (adjc (K := CR) lat d d') as [p q]. transitivity (rmul (rmul imag_unit (real J : CR)) (rmul (rmul ((p, q) : CR) (real (c d + c d'))) (real (- (c a * c b))))); [clear|rewrite A3; clear]; cbn; apply (f_equal2 (@pair R R)); cbn; field.
      + destruct (adjc (K := CR) lat b b') as [p q]. transitivity (rmul (rmul imag_unit (real (- J) : CR)) (rmul (rmul ((p, q) : CR) (real (c b + c b'))) (real (- (c a * c d))))); [clear|rewrite A2; clear]; cbn; apply (f_equal2 (@pair R R)); cbn; field.
      + destruct (adjc (K := CR) lat b b') as [p q], (adjc (K := CR) lat d d') as [p' q']. clear. cbn. apply (f_equal2 (@pair R R)); cbn; field.
      + destruct (adjc (K := CR) lat a a') as [p q]. transitivity (rmul (rmul imag_unit (real (- J) : CR)) (rmul (rmul ((p, q) : CR) (real (c a + c a'))) (real (- (c b * c d))))); [clear|rewrite A1; clear]; cbn; apply (f_equal2 (@pair R R)); cbn; field.
      + destruct (adjc (K := CR) lat a a') as [p q], (adjc (K := CR) lat d d') as [p' q']. clear. cbn. apply (f_equal2 (@pair R R)); cbn; field.
      + destruct (adjc (K := CR) lat a a') as [p q], (adjc (K := CR) lat b b') as [p' q']. clear. cbn. apply (f_equal2 (@pair R R)); cbn; field.
      + destruct (adjc (K := CR) lat a a') as [p q], (adjc (K := CR) lat b b') as [p' q'], (adjc (K := CR) lat d d') as [p'' q'']. clear. cbn. apply (f_equal2 (@pair R R)); cbn; field.
  Qed.
End Signs.

(** ** the entries are purely imaginary *)
Section Imaginary.
  Context (sort : list (triplet CR) -> list (triplet CR)) (J U : R) (lat : lattice) (N : Z).
  Hypothesis Hs : sorts_by_column sort.
  Hypothesis Hl : shipped3 lat N.
  Hypothesis Hf : fits3 lat N.
  Context (m : bmat CR).
  Hypothesis Em : init_matrix sort (real J : CR) (real U) (real (1/2)) lat = Ok m.
  Let HG := shipped3_graph lat N Hl.
  Let HS := fits3_S3 lat N HG Hf.
  Let n := (N + N * N * N)%Z.
  Let E := entry (bm_scale imag_unit m).
  Lemma adjc_im a b : snd (adjc (K := CR) lat a b) = 0.
  Proof. pose proof (adjc_real lat a b) as H. destruct (adjc (K := CR) lat a b) as [p q]. cbn in H. injection H as H. cbn. lra. Qed.
  Lemma entry_imag i j : (0 <= i < n)%Z -> (0 <= j < n)%Z -> fst (E i j) = 0.
  Proof.
    intros Hi Hj. unfold E. destruct (cases lat N Hl Hf i Hi) as [Qi|(a & b & d & Ha & Hb & Hd & ->)], (cases lat N Hl Hf j Hj) as [Qj|(a' & b' & d' & Ha' & Hb' & Hd' & ->)].
    - rewrite (entry_11 sort J U lat N Hs Hl Hf m Em) by assumption. pose proof (adjc_im i j) as A. destruct (adjc (K := CR) lat i j) as [p q]. cbn in A. subst q. unfold delta. destruct (i =? j)%Z; cbn; field.
    - rewrite (entry_13 sort J U lat N Hs Hl Hf m Em) by assumption. unfold delta. destruct (i =? a')%Z, (i =? b')%Z, (i =? d')%Z; cbn; field.
    - rewrite (entry_31 sort J U lat N Hs Hl Hf m Em) by assumption. unfold delta. destruct (j =? a)%Z, (j =? b)%Z, (j =? d)%Z; cbn; field.
    - rewrite (entry_33 sort J U lat N Hs Hl Hf m Em) by assumption. rewrite (weight_33 _ _ _ lat N HG HS) by assumption.
      pose proof (adjc_im a a') as A1. pose proof (adjc_im b b') as A2. pose proof (adjc_im d d') as A3.
      destruct (adjc (K := CR) lat a a') as [p1 q1], (adjc (K := CR) lat b b') as [p2 q2], (adjc (K := CR) lat d d') as [p3 q3]. cbn in A1, A2, A3. subst q1 q2 q3. unfold delta.
      destruct (a =? a')%Z, (b =? b')%Z, (d =? d')%Z; repeat match goal with |- context [Z.eqb ?x ?y] => destruct (Z.eqb x y) end; cbn; field.
  Qed.
End Imaginary.

(** ** the solutions *)
Lemma conj_sum n (F : Z -> CR) : kconj (sum_over (K := CR) F (zrange 0 n)) = sum_over (K := CR) (fun j => kconj (F j)) (zrange 0 n).
Proof. generalize (zrange 0 n). intros l. induction l as [|a l IH]; [cbn; apply (f_equal2 (@pair R R)); cbn; ring|]. rewrite !sum_over_cons, conj_add, IH. reflexivity. Qed.
Lemma sum_pick_z n (F : Z -> CR) i : (0 <= i < n)%Z -> sum_over (K := CR) (fun k => rmul (delta i k) (F k)) (zrange 0 n) = F i.
Proof.
  intros Hi. assert (I : In i (zrange 0 n)) by (apply zrange_in; exact Hi). pose proof (zrange_nodup n) as ND. revert I ND. generalize (zrange 0 n). intros l. clear. induction l as [|a l IH]; [intros []|].
  intros I ND. rewrite sum_over_cons. inversion ND as [|? ? NI ND']; subst. unfold delta at 1. destruct (Z.eqb_spec i a) as [->|ne].
  - rewrite (sum_over_zero CR); [destruct (F a); cbn; apply (f_equal2 (@pair R R)); cbn; ring|]. intros x Hx. unfold delta. destruct (Z.eqb_spec a x) as [->|]; [contradiction|]. destruct (F x); cbn; apply (f_equal2 (@pair R R)); cbn; ring.
  - destruct I as [->|I]; [contradiction|]. rewrite IH by assumption. destruct (F i), (F a). cbn; apply (f_equal2 (@pair R R)); cbn; ring.
Qed.
Lemma conj_imag (e y : CR) : fst e = 0 -> kconj (rmul e y) = ropp (rmul e (kconj y)).
Proof. destruct e as [p q], y as [a b]. cbn. intros ->. apply (f_equal2 (@pair R R)); cbn; ring. Qed.
Lemma neg_deriv f t a : derivable_pt_lim f (- t) a -> derivable_pt_lim (fun s => f (- s)) t (- a).
Proof.
  intros H. eapply deriv_eq; [apply (derivable_pt_lim_comp (fun s => - s) f t (-1) a); [|exact H]|reflexivity|ring].
  eapply deriv_eq; [apply (derivable_pt_lim_opp (fun s => s) t 1), derivable_pt_lim_id|reflexivity|ring].
Qed.
(** the coefficients at time -t are the complex conjugates of those at time t *)
Theorem C111_time_reversal : forall (sort : list (triplet CR) -> list (triplet CR)) J U lat N,
  sorts_by_column sort -> shipped3 lat N -> fits3 lat N -> let n := (N + N * N * N)%Z in
  exists m, init_matrix sort (real J : CR) (real U) (real (1/2)) lat = Ok m /\
    forall y, the_solution n (entry (bm_scale imag_unit m)) y -> forall t i, (0 <= i < n)%Z -> y (- t) i = kconj (y t i).
Proof.
  intros sort J U lat N Hs Hl Hf n. destruct (full_facts sort J U lat N Hs Hl Hf) as (m & Em & _). exists m. split; [exact Em|]. intros y (Y1 & Y2 & Y3) t i Hi.
  set (E := entry (bm_scale imag_unit m)) in *.
  assert (Q : forall i, (0 <= i < n)%Z -> kconj (y (- t) i) = y t i).
  { intros k Hk. apply (Y3 (fun t i => kconj (y (- t) i))); [| |exact Hk].
    - intros s j Hj dy. destruct (Y1 (- s) j Hj) as [D1 D2]. cbv zeta in D1, D2.
      assert (X : dy = ropp (kconj (sum_over (K := CR) (fun j' => rmul (E j j') (y (- s) j')) (zrange 0 n)))).
      { unfold dy. rewrite conj_sum. rewrite <- (sum_over_opp CR). apply sum_over_ext. intros k' Hk'. apply zrange_in in Hk'. rewrite (conj_imag (E j k')) by exact (entry_imag sort J U lat N Hs Hl Hf m Em j k' Hj Hk').
        destruct (rmul (E j k') (kconj (y (- s) k'))) as [p q]. cbn. apply (f_equal2 (@pair R R)); cbn; symmetry; apply Ropp_involutive. }
      rewrite X. destruct (sum_over (K := CR) (fun j' => rmul (E j j') (y (- s) j')) (zrange 0 n)) as [p q]. cbn [fst snd] in D1, D2. cbn. split.
      + apply (neg_deriv (fun s => fst (y s j)) s p D1).
      + eapply deriv_eq; [apply (neg_deriv (fun s => - snd (y s j)) s (- q)); apply (derivable_pt_lim_opp (fun s => snd (y s j)) (- s) q D2)|reflexivity|reflexivity].
    - intros j Hj. rewrite Ropp_0, (Y2 j Hj). unfold first_unit. destruct (j =? 0)%Z; cbn; apply (f_equal2 (@pair R R)); cbn; ring. }
  rewrite <- (Q i Hi). destruct (y (- t) i) as [p q]. cbn. apply (f_equal2 (@pair R R)); cbn; [reflexivity|symmetry; apply Ropp_involutive].
Qed.
(** on a two-coloured lattice the coefficients times e^{iUt} and the signs are the complex conjugates *)
Theorem C111_particle_hole : forall (sort : list (triplet CR) -> list (triplet CR)) J U lat N white,
  sorts_by_column sort -> shipped3 lat N -> fits3 lat N -> two_coloured lat N white -> let n := (N + N * N * N)%Z in
  exists m, init_matrix sort (real J : CR) (real U) (real (1/2)) lat = Ok m /\
    forall y, the_solution n (entry (bm_scale imag_unit m)) y -> forall t i, (0 <= i < n)%Z ->
      y t i = rmul ((cos (U * t), sin (U * t)) : CR) (rmul (real (element_sign N white i)) (kconj (y t i))).
Proof.
  intros sort J U lat N white Hs Hl Hf Hw n. destruct (full_facts sort J U lat N Hs Hl Hf) as (m & Em & _). exists m. split; [exact Em|]. intros y (Y1 & Y2 & Y3) t i Hi.
  set (E := entry (bm_scale imag_unit m)) in *. set (sg := element_sign N white). symmetry.
  apply (Y3 (fun t i => rmul ((cos (U * t), sin (U * t)) : CR) (rmul (real (sg i)) (kconj (y t i))))); [| |exact Hi].
  - intros s j Hj dy. destruct (Y1 s j Hj) as [D1 D2]. cbv zeta in D1, D2. set (w := (cos (U * s), sin (U * s)) : CR) in *.
    set (S := sum_over (K := CR) (fun j' => rmul (E j j') (y s j')) (zrange 0 n)) in *.
    assert (X : dy = radd (rmul w (rmul (real (sg j)) (kconj S))) (rmul w (rmul ((0, U) : CR) (rmul (real (sg j)) (kconj (y s j)))))).
    { assert (T : rmul w (rmul ((0, U) : CR) (rmul (real (sg j)) (kconj (y s j)))) = sum_over (K := CR) (fun k => rmul w (rmul (rmul ((0, U) : CR) (rmul (delta j k) (real (sg k)))) (kconj (y s k)))) (zrange 0 n)).
      { transitivity (sum_over (K := CR) (fun k => rmul (delta j k) (rmul w (rmul ((0, U) : CR) (rmul (real (sg k)) (kconj (y s k)))))) (zrange 0 n)).
        - symmetry. exact (sum_pick_z n (fun k => rmul w (rmul ((0, U) : CR) (rmul (real (sg k)) (kconj (y s k))))) j Hj).
        - apply sum_over_ext. intros k _. unfold delta. generalize w (kconj (y s k)). intros [a b] [c d]. destruct (j =? k)%Z; cbn; apply (f_equal2 (@pair R R)); cbn; ring. }
      rewrite T. unfold S. rewrite conj_sum, <- (sum_over_mul_l CR), <- (sum_over_mul_l CR), <- (sum_over_add CR). unfold dy. apply sum_over_ext. intros k Hk. apply zrange_in in Hk.
      pose proof (entry_sign sort J U lat N white Hs Hl Hf Hw m Em j k Hj Hk) as A. fold E sg in A. rewrite <- A. rewrite (conj_imag (E j k)) by exact (entry_imag sort J U lat N Hs Hl Hf m Em j k Hj Hk).
      generalize (E j k) w (kconj (y s k)). clear. intros [a b] [c d] [e f]. cbn. apply (f_equal2 (@pair R R)); cbn; ring. }
    rewrite X. clear X dy. destruct S as [p q]. cbn [fst snd] in D1, D2. pose proof (cos_deriv U s) as Dc. pose proof (sin_deriv U s) as Ds. set (g := sg j) in *. clearbody g.
    split.
    + eapply deriv_eq; [apply (derivable_pt_lim_scal (fun s => cos (U * s) * fst (y s j) + sin (U * s) * snd (y s j)) g s); apply (derivable_pt_lim_plus (fun s => cos (U * s) * fst (y s j)) (fun s => sin (U * s) * snd (y s j))); apply derivable_pt_lim_mult; eassumption| |].
      * intros s'. unfold mult_real_fct. cbn. destruct (y s' j) as [a b]. cbn. ring.
      * unfold w. destruct (y s j) as [a b]. cbn. ring.
    + eapply deriv_eq; [apply (derivable_pt_lim_scal (fun s => sin (U * s) * fst (y s j) - cos (U * s) * snd (y s j)) g s); apply (derivable_pt_lim_minus (fun s => sin (U * s) * fst (y s j)) (fun s => cos (U * s) * snd (y s j))); apply derivable_pt_lim_mult; eassumption| |].
      * intros s'. unfold mult_real_fct. cbn. destruct (y s' j) as [a b]. cbn. ring.
      * unfold w. destruct (y s j) as [a b]. cbn. ring.
  - intros j Hj. rewrite (Y2 j Hj). unfold first_unit. destruct (Z.eqb_spec j 0) as [->|].
    + replace (sg 0%Z) with 1; [rewrite Rmult_0_r, cos_0, sin_0; cbn; apply (f_equal2 (@pair R R)); cbn; ring|].
      unfold sg, element_sign, shade. rewrite (Logic.proj1 Hw). destruct (Z.ltb_spec 0 N); [reflexivity|]. pose proof (HNpos lat N (shipped3_graph lat N Hl)). lia.
    + cbn. apply (f_equal2 (@pair R R)); cbn; ring.
Qed.
Lemma phase_pos (x z p q : R) : z * z + x * x = 1 -> p = (x * x - z * z) * (1 * p - 0 * - q) - 2 * z * x * (1 * - q + 0 * p) -> q = (x * x - z * z) * (1 * - q + 0 * p) + 2 * z * x * (1 * p - 0 * - q) -> x * q + - z * p = 0.
Proof.
  intros P H1 H2. assert (Pp : (z * z + x * x) * p = p) by (rewrite P; ring). assert (Pq : (z * z + x * x) * q = q) by (rewrite P; ring). assert (A : z * (x * q + - z * p) = 0) by lra. assert (B : x * (x * q + - z * p) = 0) by lra.
  transitivity (z * (z * (x * q + - z * p)) + x * (x * (x * q + - z * p))); [|rewrite A, B; ring]. transitivity ((z * z + x * x) * (x * q + - z * p)); [rewrite P|]; ring.
Qed.
Lemma phase_neg (x z p q : R) : z * z + x * x = 1 -> p = (x * x - z * z) * (-1 * p - 0 * - q) - 2 * z * x * (-1 * - q + 0 * p) -> q = (x * x - z * z) * (-1 * - q + 0 * p) + 2 * z * x * (-1 * p - 0 * - q) -> x * p - - z * q = 0.
Proof.
  intros P H1 H2. assert (Pp : (z * z + x * x) * p = p) by (rewrite P; ring). assert (Pq : (z * z + x * x) * q = q) by (rewrite P; ring). assert (A : x * (x * p - - z * q) = 0) by lra. assert (B : z * (x * p - - z * q) = 0) by lra.
  transitivity (z * (z * (x * p - - z * q)) + x * (x * (x * p - - z * q))); [|rewrite A, B; ring]. transitivity ((z * z + x * x) * (x * p - - z * q)); [rewrite P|]; ring.
Qed.
(** up to the common factor e^{iUt/2}, every coefficient is real or purely imaginary *)
Theorem C111_phase : forall (sort : list (triplet CR) -> list (triplet CR)) J U lat N white,
  sorts_by_column sort -> shipped3 lat N -> fits3 lat N -> two_coloured lat N white -> let n := (N + N * N * N)%Z in
  exists m, init_matrix sort (real J : CR) (real U) (real (1/2)) lat = Ok m /\
    forall y, the_solution n (entry (bm_scale imag_unit m)) y -> forall t i, (0 <= i < n)%Z ->
      (element_sign N white i = 1 /\ snd (rotated U t (y t i)) = 0) \/ (element_sign N white i = -1 /\ fst (rotated U t (y t i)) = 0).
Proof.
  intros sort J U lat N white Hs Hl Hf Hw n. destruct (C111_particle_hole sort J U lat N white Hs Hl Hf Hw) as (m & Em & H). exists m. split; [exact Em|]. intros y Hy t i Hi.
  specialize (H y Hy t i Hi). replace (U * t) with (2 * (U * t / 2)) in H by field. set (a := U * t / 2) in *. rewrite cos_2a, sin_2a in H. unfold rotated. fold a.
  pose proof (sin2_cos2 a) as P. unfold Rsqr in P. set (x := cos a) in *. set (z := sin a) in *. destruct (y t i) as [p q].
  assert (G : element_sign N white i = 1 \/ element_sign N white i = -1) by (unfold element_sign, shade; destruct (i <? N)%Z; repeat match goal with |- context [white ?v] => destruct (white v) end; lra).
  destruct G as [G|G]; [left|right]; (split; [exact G|]); rewrite G in H; cbn in H; injection H as H1 H2; cbn.
  - exact (phase_pos x z p q P H1 H2).
  - exact (phase_neg x z p q P H1 H2).
Qed.
(** ** the lattices with two sublattices *)
Lemma even_mod N x : (0 < N)%Z -> Z.even N = true -> Z.even (x mod N) = Z.even x.
Proof. intros HN H. rewrite (Z.div_mod x N) at 2 by lia. rewrite Z.even_add, Z.even_mul, H. destruct (Z.even (x mod N)); reflexivity. Qed.
Theorem C111_chain : forall N, (3 <= N < two64)%Z -> two_coloured (chain_lattice N) N chain_white <-> Z.even N = true.
Proof.
  intros N HN. split.
  - intros [W0 W]. assert (S : site N (N - 1)) by (unfold site; lia). specialize (W (N - 1)%Z 0%Z S). cbn [lat_neighbors chain_lattice] in W. rewrite (chain_neighbors_ring N _ ltac:(lia) S) in W.
    replace (N - 1 + 1)%Z with N in W by lia. rewrite Z.mod_same in W by lia. specialize (W ltac:(right; left; reflexivity)). unfold chain_white in *. rewrite W0, Z.even_sub in W. destruct (Z.even N); [reflexivity|discriminate W].
  - intros E. split; [reflexivity|]. intros a b Ha Hb. cbn [lat_neighbors chain_lattice] in Hb. rewrite (chain_neighbors_ring N _ ltac:(lia) Ha) in Hb.
    unfold chain_white. destruct Hb as [<-|[<-|[]]]; rewrite even_mod by (lia || exact E); rewrite ?Z.even_sub, ?Z.even_add; destruct (Z.even a); reflexivity.
Qed.
Theorem C111_square : forall N, (3 <= N)%Z -> (N * N < two64)%Z -> Z.even N = true -> two_coloured (square_lattice N N) (N * N) (square_white N).
Proof.
  intros N HN H64 E. split; [reflexivity|]. intros a b Ha Hb. cbn [lat_neighbors square_lattice] in Hb.
  destruct (coords N HN a Ha) as (Hx & Hy & Ea). unfold square_white at 2. set (x := (a / N)%Z) in *. set (y := (a mod N)%Z) in *. rewrite Ea in Hb. rewrite (torus_neighbors N HN H64 x y Hx Hy) in Hb.
  assert (M : forall x, site N (x mod N)) by (intros x'; unfold site; apply Z.mod_pos_bound; lia).
  assert (K : forall u v, site N u -> site N v -> square_white N (u * N + v) = Z.even (u + v)) by (intros u v Hu Hv; unfold square_white; destruct (at_xy N HN H64 u v Hu Hv) as (_ & -> & ->); reflexivity).
  destruct Hb as [<-|[<-|[<-|[<-|[]]]]]; rewrite K by auto; rewrite !Z.even_add, even_mod by (lia || exact E); rewrite ?Z.even_sub, ?Z.even_add; destruct (Z.even x), (Z.even y); reflexivity.
Qed.

(** ** the programs without interaction *)
Section Alternating.
  Context (n : Z) (E : Z -> Z -> CR) (sg : Z -> R).
  Hypothesis Hsg : forall i, sg i = 1 \/ sg i = -1.
  Hypothesis HE : forall i j, (0 <= i < n)%Z -> (0 <= j < n)%Z -> fst (E i j) = 0 /\ (sg i = sg j -> snd (E i j) = 0).
  Definition alternating (x : Z * bool -> R) : Prop := forall p, In p (idx n) -> sg (fst p) = (if snd p then -1 else 1) -> x p = 0.
  Lemma alt_ap x : alternating x -> alternating (ap (idx n) (SM E) x).
  Proof.
    intros H [i b] Hp Hb. pose proof (Logic.proj1 (idx_in n _) Hp) as Hi. cbn [fst snd] in Hb, Hi. unfold ap. rewrite (SR_ext _ (fun _ => 0)); [apply SR_zero|].
    intros [j c] Hq. pose proof (Logic.proj1 (idx_in n _) Hq) as Hj. cbn [fst] in Hj. destruct (HE i j Hi Hj) as [E1 E2]. unfold SM. cbn [fst snd]. specialize (H (j, c) Hq). cbn [fst snd] in H.
    destruct b, c; rewrite ?E1; try ring.
    - destruct (Hsg j) as [g|g]; [rewrite (H g); ring|]. rewrite E2 by congruence. ring.
    - destruct (Hsg j) as [g|g]; [|rewrite (H g); ring]. rewrite E2 by congruence. ring.
  Qed.
  Lemma alt_apn k x : alternating x -> alternating (apn (idx n) (SM E) k x).
  Proof. intros H. induction k as [|k IH]; [exact H|]. cbn [apn]. apply alt_ap, IH. Qed.
  Lemma alt_P h x : alternating x -> alternating (P (idx n) (SM E) h x).
  Proof. intros H p Hp Hb. unfold P. rewrite (H p Hp Hb), (alt_ap x H p Hp Hb), (alt_apn 2 x H p Hp Hb), (alt_apn 3 x H p Hp Hb), (alt_apn 4 x H p Hp Hb). field. Qed.
  Context (mul : list CR -> list CR).
  Hypothesis acts : acts_as CR n E mul.
  Lemma alt_run d dt sts : forall u, Z.of_nat (length u) = n -> alternating (vec u) -> alternating (vec (run_steps CR (real (1/2)) (real (1/6)) (mkRk4 (K:=CR) d (real dt)) mul sts u)).
  Proof.
    induction sts as [|st sts IH]; intros u L Fu; cbn [run_steps]; [exact Fu|]. destruct (vec_step n E mul acts d dt st u L) as [L' S]. apply IH; [exact L'|].
    intros p Hp Hb. rewrite (S p Hp). apply alt_P; assumption.
  Qed.
End Alternating.
Lemma zero_of (p c : R) : c * c = 1 -> p * (c + c) - 0 * 0 = 0 -> p = 0.
Proof. intros H1 H2. assert (H : p * c = 0) by lra. transitivity (p * c * c); [|rewrite H; ring]. transitivity (p * (c * c)); [rewrite H1|]; ring. Qed.
(** the printed coefficients of the even sites are real, those of the odd sites purely imaginary *)
Theorem C111_coefficients_kinetic : forall sort rnd u st N J dt t_end interval steps,
  sorts_by_column sort -> (3 <= N)%Z -> (N * 2 < two64)%Z -> Z.even N = true -> times_ok rnd u dt t_end interval steps ->
  exists h, terminates_with (coefficients_kinetic sort rnd st N J dt t_end interval)
      (Ok (map (fun k => (time_at rnd dt k, h k)) (written interval steps))) /\
    forall k i, (0 <= i < N)%Z -> (Z.even i = true /\ snd (vget (h k) i) = 0) \/ (Z.even i = false /\ fst (vget (h k) i) = 0).
Proof.
  intros sort rnd u st N J dt t_end interval steps Hs HN Hf Ev (T1 & T2 & T3 & T4 & T5 & T6 & T7).
  assert (Hl : shipped3 (chain_lattice N) N) by (constructor; lia). assert (Hs1 : shipped (chain_lattice N) N) by (constructor; lia).
  destruct (kinetic_facts sort J _ N Hs Hl Hf) as (m & Em & A & _). destruct (init_vector_unit N ltac:(lia)) as (h0 & E0 & L0 & V0).
  assert (Eb : Z.of_nat (length (basis1 (chain_lattice N))) = N) by (pose proof (basis1_len _ N (shipped_regular _ _ Hs1)); lia).
  exists (fun k => coefficients (times_applied (integrate N dt (bm_scale imag_unit m)) k (mkProgress 0 st h0))). split.
  - unfold coefficients_kinetic. rewrite Eb.
    destruct (C53_schedule progress _ rnd u dt t_end interval steps (integrate N dt (bm_scale imag_unit m)) coefficients (mkProgress 0 st h0) T1 T2 T3 T4 T5 T6 T7) as (s & (f0 & T) & _ & _ & Out).
    exists f0. intros fuel Hfu. unfold run_main, compute_kinetic. rewrite Em, E0. cbn [obind]. rewrite (T fuel Hfu), Out. reflexivity.
  - intros k i Hi. destruct (integrate_iter N dt (bm_scale imag_unit m) st h0 k) as (sts & Ls & Ek & Es). rewrite Es. set (v := run_steps _ _ _ _ _ _ _).
    assert (W : two_coloured (chain_lattice N) N chain_white) by (apply (C111_chain N ltac:(lia)); exact Ev).
    assert (Al : alternating N (shade chain_white) (vec v)).
    { apply (alt_run N (entry (bm_scale imag_unit m))); [| |exact A|exact L0|].
      - intros j. unfold shade. destruct (chain_white j); lra.
      - intros a b Ha Hb. rewrite (kinetic_entry sort J _ N Hs Hl Hf m Em a b Ha). pose proof (adjc_shade (chain_lattice N) N chain_white W a b Ha) as S. pose proof (adjc_im (chain_lattice N) a b) as I.
        destruct (adjc (K := CR) (chain_lattice N) a b) as [p q]. cbn in I, S. subst q. injection S as S _. cbn. split; [ring|]. intros e. rewrite <- e in S. pose proof (shade_sq chain_white a) as Q. rewrite (zero_of p _ Q S). ring.
      - intros [j c] Hj Hc. apply idx_in in Hj. cbn [fst snd] in Hj, Hc. unfold vec, vecf. cbn [fst snd]. rewrite (V0 j Hj). unfold first_unit. destruct (Z.eqb_spec j 0) as [->|]; [|destruct c; reflexivity].
        destruct c; [cbn in Hc; lra|reflexivity]. }
    unfold alternating, vec, vecf in Al. pose proof (Al (i, true) ltac:(apply idx_in; exact Hi)) as A1. pose proof (Al (i, false) ltac:(apply idx_in; exact Hi)) as A2. cbn [fst snd part] in A1, A2.
    unfold shade, chain_white in A1, A2. destruct (Z.even i); [left|right]; (split; [reflexivity|]); [apply A2|apply A1]; reflexivity.
Qed.
(** ** an example: the ring of four sites *)
Example C111_example : shipped3 (chain_lattice 4) 4 /\ fits3 (chain_lattice 4) 4 /\ two_coloured (chain_lattice 4) 4 chain_white /\
  map (element_sign 4 chain_white) [0; 1; 2; 3; 4; 5]%Z = [1; -1; 1; -1; -1; 1].
Proof.
  assert (T : (4 < two64)%Z) by reflexivity.
  split; [constructor; lia|]. split; [unfold fits3; cbn [lat_coordination chain_lattice]; reflexivity|]. split; [apply C111_chain; [lia|reflexivity]|].
  unfold element_sign, shade, chain_white. cbn. repeat (f_equal; try ring).
Qed.
