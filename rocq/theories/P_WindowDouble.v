(** PROPERTY C116, in double precision: chains of different length give the same doubles, bit by bit. *)
From Coq Require Import Reals Lra Psatz Permutation Sorting.Sorted.
From Verif Require Import Base M_Operator M_Lattice Spec_Lattice Pf_Lattice P_Lattice M_Basis Pf_Basis P_Basis M_Matrix M_Ode M_Dispersion M_OpenMP M_TimeLoop Spec_TimeLoop Spec_Ode
  Pf_Matrix Spec_Matrix Pf_Matrix2 P_Matrix Spec_LatticeReal Pf_Ode Spec_Stability Pf_Stability2 P_Stability Spec_Programs M_Programs Pf_Programs P_TimeLoop P_Programs Pf_MatrixEntry P_OccupationFree Pf_Symmetry P_Dynamics
  M_Rounding M_Double M_RoundedMeasurement M_DoublePrograms Spec_DoublePrograms Pf_DoublePrograms P_DoublePrograms P_ParticleHoleDouble P_DoublePrograms2 Ex_Matrix Ex_Programs Spec_LightCone Pf_LightCone P_LightCone Spec_Window P_Window P_Grow P_LightConeDouble P_SignDouble.
Local Open Scope R_scope.
Local Open Scope list_scope.
Local Notation len u := (Z.of_nat (length u)).

Section Copies.
  Context (ar : arith) (n n' : Z) (lv lv' f : Z -> Z) (D : Z).
  (** the only laws used *)
  Hypothesis A0 : f_add ar 0 0 = 0.
  Hypothesis M1 : forall x, f_mul ar x 0 = 0.
  Hypothesis F : forall i, (0 <= i < n)%Z -> (lv i <= D)%Z -> (0 <= f i < n')%Z /\ lv' (f i) = lv i.
  Definition at_ (u : list CR) (i : Z) : CR := nth (Z.to_nat i) u (0, 0).
  Definition copy (d : Z) (u u' : list CR) : Prop :=
    len u = n /\ len u' = n' /\ within lv d u /\ within lv' d u' /\ forall i, (0 <= i < n)%Z -> (lv i <= D)%Z -> at_ u' (f i) = at_ u i.
  Lemma copy_more d d' u u' : (d <= d')%Z -> copy d u u' -> copy d' u u'.
  Proof. intros H (A & B & C & C' & E). split; [exact A|]. split; [exact B|]. split; [exact (within_more lv d d' u H C)|]. split; [exact (within_more lv' d d' u' H C')|exact E]. Qed.
  Lemma at_add u v i : length u = length v -> (0 <= i < len u)%Z -> at_ (fv_add ar u v) i = cf_add ar (at_ u i) (at_ v i).
  Proof.
    intros L H. unfold at_, fv_add. set (g := fun p : CR * CR => cf_add ar (fst p) (snd p)). rewrite (nth_indep _ _ (g ((0, 0), (0, 0)))) by (rewrite map_length, combine_length; lia). rewrite (map_nth g), combine_nth by exact L. reflexivity.
  Qed.
  Lemma at_scale c u i : (0 <= i < len u)%Z -> at_ (fv_scale ar c u) i = cf_scale ar c (at_ u i).
  Proof. intros H. unfold at_, fv_scale. rewrite (nth_indep _ _ (cf_scale ar c ((0, 0) : CR))) by (rewrite map_length; lia). apply (map_nth (cf_scale ar c)). Qed.
  Lemma copy_add d u u' v v' : copy d u u' -> copy d v v' -> copy d (fv_add ar u v) (fv_add ar u' v').
  Proof.
    intros (A & B & C & C' & E) (A2 & B2 & C2 & C2' & E2). split; [unfold fv_add; rewrite map_length, combine_length; lia|]. split; [unfold fv_add; rewrite map_length, combine_length; lia|].
    split; [apply within_add; assumption|]. split; [apply within_add; assumption|]. intros i Hi L. destruct (F i Hi L) as [R _]. rewrite !at_add by lia. rewrite E, E2 by assumption. reflexivity.
  Qed.
  Lemma copy_scale d c u u' : copy d u u' -> copy d (fv_scale ar c u) (fv_scale ar c u').
  Proof.
    intros (A & B & C & C' & E). split; [unfold fv_scale; rewrite map_length; lia|]. split; [unfold fv_scale; rewrite map_length; lia|].
    split; [apply within_scale; assumption|]. split; [apply within_scale; assumption|]. intros i Hi L. destruct (F i Hi L) as [R _]. rewrite !at_scale by lia. rewrite E by assumption. reflexivity.
  Qed.
  Definition copied_entry (e e' : Z * CR) : Prop := (0 <= fst e < n)%Z /\ (lv (fst e) <= D)%Z /\ fst e' = f (fst e) /\ snd e' = snd e.
  (** rows inside the window are copied, element by element in the same order *)
  Definition copied_matrix (m m' : bmat CR) : Prop :=
    len (bm_done m) = n /\ len (bm_done m') = n' /\ forall i, (0 <= i < n)%Z -> (lv i <= D - 1)%Z -> Forall2 copied_entry (nth (Z.to_nat i) (bm_done m) []) (nth (Z.to_nat (f i)) (bm_done m') []).
  Context (m m' : bmat CR).
  Hypothesis Hm : steps_by_one lv m.
  Hypothesis Hm' : steps_by_one lv' m'.
  Hypothesis Hc : copied_matrix m m'.
  Lemma at_mul (w : bmat CR) u i : (0 <= i < len (bm_done w))%Z -> at_ (fsp_vec ar w u) i = fold_left (fun acc e => cf_add ar acc (cf_mul ar (snd e) (vget u (fst e)))) (nth (Z.to_nat i) (bm_done w) []) ((0, 0) : CR).
  Proof.
    intros H. unfold at_, fsp_vec. set (G := fun row : list (Z * CR) => fold_left (fun acc e => cf_add ar acc (cf_mul ar (snd e) (vget u (fst e)))) row ((0, 0) : CR)).
    rewrite (nth_indep _ _ (G [])) by (rewrite map_length; lia). apply (map_nth G).
  Qed.
  Lemma copy_mul d u u' : (d + 1 < D)%Z -> copy d u u' -> copy (d + 1) (fsp_vec ar m u) (fsp_vec ar m' u').
  Proof.
    intros Hd (A & B & C & C' & E). destruct Hc as (Lm & Lm' & Hr). split; [unfold fsp_vec; rewrite map_length; exact Lm|]. split; [unfold fsp_vec; rewrite map_length; exact Lm'|].
    assert (W : within lv (d + 1) (fsp_vec ar m u)) by (apply within_mul; assumption). assert (W' : within lv' (d + 1) (fsp_vec ar m' u')) by (apply within_mul; assumption).
    split; [exact W|]. split; [exact W'|]. intros i Hi L. destruct (F i Hi L) as [R Le]. destruct (Z.le_gt_cases (lv i) (D - 1)) as [Q|Q].
    - rewrite !at_mul by lia. specialize (Hr i Hi Q). revert Hr. generalize (nth (Z.to_nat i) (bm_done m) []) (nth (Z.to_nat (f i)) (bm_done m') []). intros r r' Hr. generalize ((0, 0) : CR).
      induction Hr as [|e e' r r' (E1 & E2 & E3 & E4) Hr IH]; intros acc; [reflexivity|]. cbn [fold_left]. rewrite E3, E4. pose proof (E _ E1 E2) as X. unfold at_ in X. unfold vget. change (r0 : CR) with ((0, 0) : CR). rewrite X. apply IH.
    - unfold at_. rewrite (W (Z.to_nat i)), (W' (Z.to_nat (f i))) by (rewrite Z2Nat.id by lia; lia). reflexivity.
  Qed.
  Lemma copy_step h d u u' : (d + 4 < D)%Z -> copy d u u' -> copy (d + 4) (frk_step ar h m u) (frk_step ar h m' u').
  Proof.
    intros Hd Hu. unfold frk_step. cbv zeta.
    set (k1 := fsp_vec ar m u). set (k1' := fsp_vec ar m' u'). assert (K1 : copy (d + 1) k1 k1') by (apply copy_mul; [lia|exact Hu]).
    match goal with |- context[fsp_vec ar m (fv_add ar u (fv_scale ar ?c k1))] => set (k2 := fsp_vec ar m (fv_add ar u (fv_scale ar c k1))); set (k2' := fsp_vec ar m' (fv_add ar u' (fv_scale ar c k1'))); assert (K2 : copy (d + 2) k2 k2') by (replace (d + 2)%Z with (d + 1 + 1)%Z by ring; apply copy_mul; [lia|]; apply copy_add; [apply (copy_more d); [lia|exact Hu]|apply copy_scale; exact K1]) end.
    match goal with |- context[fsp_vec ar m (fv_add ar u (fv_scale ar ?c k2))] => set (k3 := fsp_vec ar m (fv_add ar u (fv_scale ar c k2))); set (k3' := fsp_vec ar m' (fv_add ar u' (fv_scale ar c k2'))); assert (K3 : copy (d + 3) k3 k3') by (replace (d + 3)%Z with (d + 2 + 1)%Z by ring; apply copy_mul; [lia|]; apply copy_add; [apply (copy_more d); [lia|exact Hu]|apply copy_scale; exact K2]) end.
    match goal with |- context[fsp_vec ar m (fv_add ar u (fv_scale ar ?c k3))] => set (k4 := fsp_vec ar m (fv_add ar u (fv_scale ar c k3))); set (k4' := fsp_vec ar m' (fv_add ar u' (fv_scale ar c k3'))); assert (K4 : copy (d + 4) k4 k4') by (replace (d + 4)%Z with (d + 3 + 1)%Z by ring; apply copy_mul; [lia|]; apply copy_add; [apply (copy_more d); [lia|exact Hu]|apply copy_scale; exact K3]) end.
    apply (copy_more d (d + 4)) in Hu; [|lia]. apply (copy_more (d + 1) (d + 4)) in K1; [|lia]. apply (copy_more (d + 2) (d + 4)) in K2; [|lia]. apply (copy_more (d + 3) (d + 4)) in K3; [|lia].
    repeat (apply copy_add || apply copy_scale || assumption).
  Qed.
  Lemma copy_run h k : forall d u u', (d + 4 * Z.of_nat k < D)%Z -> copy d u u' -> copy (d + 4 * Z.of_nat k) (frun ar h m k u) (frun ar h m' k u').
  Proof.
    induction k as [|k IH]; intros d u u' Hd Hu; [apply (copy_more d); [lia|exact Hu]|]. cbn [frun]. replace (d + 4 * Z.of_nat (S k))%Z with (d + 4 + 4 * Z.of_nat k)%Z by lia. apply IH; [lia|]. apply copy_step; [lia|exact Hu].
  Qed.
End Copies.

(** ** columns by offsets *)
Inductive column := One (a : Z) | Three (a b c : Z).
Definition place (N : Z) (x : column) : Z := match x with One a => index1 N a | Three a b c => index3 N a b c end.
Definition inside (D : Z) (x : column) : Prop := match x with One a => (Z.abs a <= D)%Z | Three a b c => (Z.abs a <= D /\ Z.abs b <= D /\ Z.abs c <= D)%Z end.
Section Places.
  Context (N N' D : Z).
  Hypothesis HN : (2 * D + 1 <= N)%Z.
  Hypothesis HN' : (2 * D + 1 <= N')%Z.
  Hypothesis H3 : (3 <= N < two64)%Z.
  Hypothesis H3' : (3 <= N' < two64)%Z.
  Lemma at_le a b : (Z.abs a <= D)%Z -> (Z.abs b <= D)%Z -> (at_offset N a <= at_offset N b)%Z -> (at_offset N' a <= at_offset N' b)%Z.
  Proof. intros A B. rewrite !(at_value N D HN), !(at_value N' D HN') by assumption. destruct (Z.leb_spec 0 a), (Z.leb_spec 0 b); lia. Qed.
  Lemma at_lt a b : (Z.abs a <= D)%Z -> (Z.abs b <= D)%Z -> (at_offset N a < at_offset N b)%Z -> (at_offset N' a < at_offset N' b)%Z.
  Proof. intros A B. rewrite !(at_value N D HN), !(at_value N' D HN') by assumption. destruct (Z.leb_spec 0 a), (Z.leb_spec 0 b); lia. Qed.
  (** lexicographic order of three digits *)
  Lemma lex3 M a b c a' b' c' : site M a -> site M b -> site M c -> site M a' -> site M b' -> site M c' ->
    (M + M * M * a + M * b + c <= M + M * M * a' + M * b' + c')%Z <-> (a < a' \/ a = a' /\ (b < b' \/ b = b' /\ c <= c'))%Z.
  Proof.
    unfold site. intros A B C A' B' C'. assert (Q : forall x x' y y', (0 <= y < M)%Z -> (0 <= y' < M)%Z -> (M * x + y <= M * x' + y')%Z <-> (x < x' \/ x = x' /\ y <= y')%Z).
    { intros x x' y y' Y Y'. split; [intros H; destruct (Z.lt_trichotomy x x') as [L|[L|L]]; [left; exact L|right; subst; lia|exfalso; nia]|intros [L|[L L']]; [nia|subst; lia]]. }
    replace (M + M * M * a + M * b + c)%Z with (M + (M * (M * a + b) + c))%Z by ring. replace (M + M * M * a' + M * b' + c')%Z with (M + (M * (M * a' + b') + c'))%Z by ring.
    rewrite <- Z.add_le_mono_l. rewrite (Q (M * a + b)%Z (M * a' + b')%Z c c') by lia.
    assert (Q1 := Q a a' b b' B B'). assert (Q2 := Q a' a b' b B' B). lia.
  Qed.
  Lemma place_le x y : inside D x -> inside D y -> (place N x <= place N y)%Z -> (place N' x <= place N' y)%Z.
  Proof.
    assert (Q : forall M o, (3 <= M < two64)%Z -> site M (at_offset M o)) by (intros M o HM; apply at_range; lia).
    assert (T : forall M a b c, (3 <= M < two64)%Z -> (M <= index3 M a b c)%Z) by (intros M a b c HM; pose proof (index3_not1 M HM a b c) as W; apply Z.ltb_ge in W; exact W).
    assert (S : forall M a, (3 <= M < two64)%Z -> (index1 M a < M)%Z) by (intros M a HM; apply Z.ltb_lt; apply (index1_is1 M HM)).
    destruct x as [a|a b c], y as [a'|a' b' c']; cbn [inside place]; intros A B H.
    - unfold index1 in *. apply at_le; assumption.
    - pose proof (S N' a H3'). pose proof (T N' a' b' c' H3'). lia.
    - pose proof (S N a' H3). pose proof (T N a b c H3). lia.
    - destruct A as (A1 & A2 & A3), B as (B1 & B2 & B3). unfold index3 in *. rewrite (lex3 N) in H by (apply Q; exact H3). rewrite (lex3 N') by (apply Q; exact H3').
      assert (E : forall u v, (Z.abs u <= D)%Z -> (Z.abs v <= D)%Z -> at_offset N u = at_offset N v -> at_offset N' u = at_offset N' v).
      { intros u v U V W. rewrite !(at_value N D HN) in W by assumption. rewrite !(at_value N' D HN') by assumption. destruct (Z.leb_spec 0 u), (Z.leb_spec 0 v); lia. }
      destruct H as [H|[H [H'|[H' H'']]]]; [left; apply at_lt; assumption|right; split; [apply E; assumption|left; apply at_lt; assumption]|right; split; [apply E; assumption|right; split; [apply E; assumption|apply at_le; assumption]]].
  Qed.
  Lemma carried_place x : inside D x -> carried N N' (place N x) = place N' x.
  Proof. destruct x as [a|a b c]; cbn [inside place]; [apply (carried_1 N D HN H3)|intros (A & B & C); apply (carried_3 N D HN H3); assumption]. Qed.
  Lemma reach_place x : inside D x -> (reach N (ring_distance N 0) (place N x) <= D)%Z.
  Proof. destruct x as [a|a b c]; cbn [inside place]; [intros A; rewrite (index1_reach N D HN H3) by exact A; exact A|intros (A & B & C); rewrite (index3_reach N D HN H3) by assumption; lia]. Qed.
  Lemma place_range x : (0 <= place N x < N + N * N * N)%Z.
  Proof. destruct x; [apply (index1_range N H3)|apply (index3_range N H3)]. Qed.
End Places.
Definition columns1 (a : Z) : list column := [One (a - 1); One (a + 1); One a; Three a a a]%Z.
Definition columns3 (a b c : Z) : list column :=
  ([Three (a - 1) b c; Three (a + 1) b c; Three a (b - 1) c; Three a (b + 1) c; Three a b (c - 1); Three a b (c + 1)] ++ (if ((a =? b) && (a =? c))%bool then [One a] else []) ++ [Three a b c])%Z.
Definition columns (x : column) : list column := match x with One a => columns1 a | Three a b c => columns3 a b c end.
Section Rows.
  Context (sort : list (triplet CR) -> list (triplet CR)) (J U : R) (N D : Z) (m : bmat CR).
  Hypothesis Hs : sorts_by_column sort.
  Hypothesis HN : (2 * D + 1 <= N)%Z.
  Hypothesis H3 : (3 <= N < two64)%Z.
  Hypothesis Hf : fits3 (chain_lattice N) N.
  Hypothesis Em : init_matrix sort (real J : CR) (real U) (real (1/2)) (chain_lattice N) = Ok m.
  Let Hl : shipped3 (chain_lattice N) N.
  Proof. constructor. exact H3. Qed.
  Let HG := shipped3_graph _ N Hl.
  Let HS := fits3_S3 _ N HG Hf.
  Lemma neighbors_at a : lat_neighbors (chain_lattice N) (at_offset N a) = [at_offset N (a - 1); at_offset N (a + 1)].
  Proof.
    change (lat_neighbors (chain_lattice N) (at_offset N a)) with (chain_neighbors N (at_offset N a)). rewrite chain_neighbors_ring by (try apply at_range; lia).
    unfold at_offset. rewrite Zminus_mod_idemp_l, Zplus_mod_idemp_l. reflexivity.
  Qed.
  Lemma op_at a b c : get_3op_index N (at_offset N a) (at_offset N b) (at_offset N c) = index3 N a b c.
  Proof. symmetry. apply (index3_op N H3 Hf). Qed.
  (** the columns stored in a row, sorted *)
  Lemma row_columns x : inside D x -> exists l, map fst (nth (Z.to_nat (place N x)) (bm_done m) []) = l /\ StronglySorted Z.le l /\ Permutation (map (place N) (columns x)) l.
  Proof.
    intros Hx. eexists. split; [reflexivity|]. pose proof Em as E1. rewrite (init_matrix_closed sort Hs _ _ _ _ N HG HS Hf) in E1. injection E1 as <-. cbn [bm_done].
    assert (G : forall l : list (triplet CR), StronglySorted (fun a b => (t_col a <= t_col b)%Z) l -> StronglySorted Z.le (map t_col l)).
    { induction 1 as [|t l S0 IH F]; cbn [map]; constructor; [exact IH|]. rewrite Forall_map. exact F. }
    assert (P : exists ts, map fst (nth (Z.to_nat (place N x)) (rows1 sort (real J : CR) (real U) (real (1/2)) (chain_lattice N) N ++ rows3 sort (real J) (real U) (real (1/2)) (chain_lattice N) N) []) = map t_col (sort ts) /\ map t_col ts = map (place N) (columns x)).
    { destruct x as [a|a b c]; cbn [inside place columns] in *.
      - exists (triplets1 (real J : CR) (real U) (real (1/2)) (chain_lattice N) (index1 N a)). split.
        + etransitivity; [apply (f_equal (map fst)); apply (nth_rows1 sort (real J : CR) (real U) (real (1/2)) _ N); apply at_range; lia|]. apply pairs_fst.
        + unfold triplets1, kinetic_triplets1, index1. rewrite neighbors_at. cbn [map app t_col]. change (lat_size (chain_lattice N)) with N. rewrite ?(lat_size_N _ _ HG). rewrite op_at. reflexivity.
      - destruct Hx as (A & B & C). rewrite <- op_at. exists (triplets3 (real J : CR) (real U) (real (1/2)) (chain_lattice N) (get_3op_index N (at_offset N a) (at_offset N b) (at_offset N c)) (at_offset N a) (at_offset N b) (at_offset N c)). split.
        + etransitivity; [apply (f_equal (map fst)); apply (nth_rows3 sort (real J : CR) (real U) (real (1/2)) _ N HG HS); apply at_range; lia|]. apply pairs_fst.
        + unfold triplets3, kinetic_triplets3. rewrite !neighbors_at. rewrite !map_app. rewrite ?(lat_size_N _ _ HG). cbn [map app t_col]. rewrite !op_at. unfold columns3. rewrite map_app. cbn [map app place].
          assert (Q : forall u v, (Z.abs u <= D)%Z -> (Z.abs v <= D)%Z -> (at_offset N u =? at_offset N v)%Z = (u =? v)%Z).
          { intros u v HU HV. rewrite !(at_value N D HN) by assumption. destruct (Z.leb_spec 0 u), (Z.leb_spec 0 v); apply Bool.eq_iff_eq_true; rewrite !Z.eqb_eq; lia. }
          rewrite !Q by assumption. destruct ((a =? b) && (a =? c))%Z%bool; reflexivity. }
    destruct P as (ts & E0 & E). match goal with |- StronglySorted Z.le ?l /\ _ => assert (E2 : l = map t_col (sort ts)) by exact E0; rewrite E2 end. destruct (Hs ts) as [Pm S]. split; [apply G, S|]. rewrite <- E. apply Permutation_map. apply Permutation_sym. exact Pm.
  Qed.
End Rows.
Lemma mapped_sorted (g : Z -> Z) l : (forall x y, In x l -> In y l -> (x <= y)%Z -> (g x <= g y)%Z) -> StronglySorted Z.le l -> StronglySorted Z.le (map g l).
Proof.
  intros H S. induction S as [|x l S IH Fo]; cbn [map]; constructor; [apply IH; intros u v Hu Hv; apply H; right; assumption|].
  rewrite Forall_map. rewrite Forall_forall in Fo |- *. intros y Hy. apply H; [left; reflexivity|right; exact Hy|apply Fo, Hy].
Qed.
Lemma rows_copied (n : Z) (lv : Z -> Z) (f : Z -> Z) (D : Z) : forall r r' : list (Z * CR), map fst r' = map f (map fst r) -> NoDup (map fst r) -> NoDup (map fst r') -> (forall c, In c (map fst r) -> (0 <= c < n)%Z /\ (lv c <= D)%Z) ->
  (forall c, In c (map fst r) -> sum_over (K := CR) snd (filter (fun e => (fst e =? f c)%Z) r') = sum_over (K := CR) snd (filter (fun e => (fst e =? c)%Z) r)) ->
  Forall2 (copied_entry n lv f D) r r'.
Proof.
  induction r as [|[j v] r IH]; intros r' E Nd Nd' G H; destruct r' as [|[j' v'] r']; try discriminate E; [constructor|]. cbn [map fst] in *. pose proof (f_equal (hd j) E) as E1. pose proof (f_equal (@tl Z) E) as E2. cbn [hd tl] in E1, E2. subst j'. clear E. rename E2 into E. apply NoDup_cons_iff in Nd as [Hj Nd]. apply NoDup_cons_iff in Nd' as [Hj' Nd']. constructor.
  - destruct (G j (or_introl eq_refl)) as [G1 G2]. split; [exact G1|]. split; [exact G2|]. split; [reflexivity|]. cbn [fst snd]. specialize (H j (or_introl eq_refl)). rewrite (pick_head (f j) v' r' Hj'), (pick_head j v r Hj) in H. exact H.
  - apply IH; [exact E|exact Nd|exact Nd'|intros c Hc; apply G; right; exact Hc|]. intros c Hc. assert (j <> c) by (intros ->; contradiction).
    assert (f j <> f c) by (intros Q; apply Hj'; rewrite Q, E; apply in_map; exact Hc). specialize (H c (or_intror Hc)). rewrite !pick_tail in H by assumption. exact H.
Qed.
Section Copied.
  Context (sort sort' : list (triplet CR) -> list (triplet CR)) (J U : R) (N N' D : Z) (m m' : bmat CR).
  Hypothesis Hs : sorts_by_column sort.
  Hypothesis Hs' : sorts_by_column sort'.
  Hypothesis HN : (2 * D + 1 <= N)%Z.
  Hypothesis HN' : (2 * D + 1 <= N')%Z.
  Hypothesis H3 : (3 <= N < two64)%Z.
  Hypothesis H3' : (3 <= N' < two64)%Z.
  Hypothesis Hf : fits3 (chain_lattice N) N.
  Hypothesis Hf' : fits3 (chain_lattice N') N'.
  Hypothesis Em : init_matrix sort (real J : CR) (real U) (real (1/2)) (chain_lattice N) = Ok m.
  Hypothesis Em' : init_matrix sort' (real J : CR) (real U) (real (1/2)) (chain_lattice N') = Ok m'.
  Let n := (N + N * N * N)%Z.
  Let n' := (N' + N' * N' * N')%Z.
  Local Notation far M := (ring_distance M 0).
  Local Lemma cancel_i (a b : CR) : rmul imag_unit a = rmul imag_unit b -> a = b.
  Proof. destruct a as [a1 a2], b as [b1 b2]. unfold imag_unit. cbn. intros E. injection E as E1 E2. apply (f_equal2 (@pair R R)); lra. Qed.
  (** entries on the window, the row one hop inside *)
  Lemma window_entry i j : (0 <= i < n)%Z -> (0 <= j < n)%Z -> (reach N (far N) i <= D - 1)%Z -> (reach N (far N) j <= D)%Z -> entry m' (carried N N' i) (carried N N' j) = entry m i j.
  Proof.
    intros Hi Hj Li Lj. assert (Hl : shipped3 (chain_lattice N) N) by (constructor; exact H3). assert (Hl' : shipped3 (chain_lattice N') N') by (constructor; exact H3').
    destruct (full_facts sort J U _ N Hs Hl Hf) as (m1 & E1 & _ & An & _). rewrite Em in E1. injection E1 as <-. destruct (full_facts sort' J U _ N' Hs' Hl' Hf') as (m1' & E1' & _ & An' & _). rewrite Em' in E1'. injection E1' as <-.
    pose proof (carried_entry D sort sort' J U N N' m m' Hs Hs' HN HN' H3 H3' Hf Hf' Em Em' j i Hj Hi Lj Li) as Q.
    destruct (carried_back D N N' HN HN' H3 H3' Hf i Hi ltac:(lia)) as (Ri & _). destruct (carried_back D N N' HN HN' H3 H3' Hf j Hj ltac:(lia)) as (Rj & _).
    pose proof (An i j Hi Hj) as P. pose proof (An' _ _ Ri Rj) as P'. rewrite Q, <- P in P'. rewrite !entry_scale in P'. apply cancel_i. revert P'. generalize (entry m' (carried N N' i) (carried N N' j)) (entry m i j). intros [a1 a2] [b1 b2]. unfold imag_unit. cbn. intros P'. injection P' as X Y. apply (f_equal2 (@pair R R)); lra.
  Qed.
  Lemma window_place i : (0 <= i < n)%Z -> (reach N (far N) i <= D - 1)%Z -> exists x, inside (D - 1) x /\ i = place N x.
  Proof.
    intros Hi L. destruct (window N (D - 1) ltac:(lia) H3 Hf i Hi L) as [(a & Ha & ->)|(a & b & c & Ha & Hb & Hc & ->)]; [exists (One a)|exists (Three a b c)]; cbn [inside place]; auto.
  Qed.
  Lemma columns_inside x y : inside (D - 1) x -> In y (columns x) -> inside D y.
  Proof.
    destruct x as [a|a b c]; cbn [inside columns].
    - intros A [<-|[<-|[<-|[<-|[]]]]]; cbn [inside]; lia.
    - intros (A & B & C) Hy. unfold columns3 in Hy. rewrite !in_app_iff in Hy. destruct Hy as [Hy|[Hy|[<-|[]]]]; [|destruct (_ && _)%bool in Hy; [destruct Hy as [<-|[]]|destruct Hy]; cbn [inside]; lia|cbn [inside]; lia].
      destruct Hy as [<-|[<-|[<-|[<-|[<-|[<-|[]]]]]]]; cbn [inside]; lia.
  Qed.
  Lemma matrix_copied : copied_matrix n n' (reach N (far N)) (carried N N') D m m'.
  Proof.
    assert (Hl : shipped3 (chain_lattice N) N) by (constructor; exact H3). assert (Hl' : shipped3 (chain_lattice N') N') by (constructor; exact H3').
    destruct (C32_full CR sort (real J) (real U) (real (1/2)) _ N Hs Hl Hf) as (m1 & E1 & W). rewrite Em in E1. injection E1 as <-. destruct W as (_ & Lm & _ & W & _).
    destruct (C32_full CR sort' (real J) (real U) (real (1/2)) _ N' Hs' Hl' Hf') as (m1' & E1' & W'). rewrite Em' in E1'. injection E1' as <-. destruct W' as (_ & Lm' & _ & W' & _).
    rewrite Forall_forall in W, W'. split; [exact Lm|]. split; [exact Lm'|]. intros i Hi Li. destruct (carried_back D N N' HN HN' H3 H3' Hf i Hi ltac:(lia)) as (Ri & _).
    destruct (W _ (nth_In (bm_done m) [] (n := Z.to_nat i) ltac:(lia))) as [S Fo]. destruct (W' _ (nth_In (bm_done m') [] (n := Z.to_nat (carried N N' i)) ltac:(fold n' in Lm'; lia))) as [S' Fo'].
    destruct (window_place i Hi Li) as (x & Hx & Ei). assert (Hx' : inside D x) by (destruct x; cbn [inside] in *; lia).
    destruct (row_columns sort J U N D m Hs HN H3 Hf Em x Hx') as (l & El & Sl & Pl). destruct (row_columns sort' J U N' D m' Hs' HN' H3' Hf' Em' x Hx') as (l' & El' & Sl' & Pl'). rewrite <- Ei in El. rewrite <- (carried_place N N' D HN H3 x Hx'), <- Ei in El'.
    assert (Cl : forall c, In c l -> exists y, inside D y /\ c = place N y).
    { intros c Hc. apply (Permutation_in _ (Permutation_sym Pl)) in Hc. apply in_map_iff in Hc. destruct Hc as (y & <- & Hy). exists y. split; [exact (columns_inside x y Hx Hy)|reflexivity]. }
    assert (Q : l' = map (carried N N') l).
    { apply sorted_unique; [exact Sl'| |].
      - apply mapped_sorted; [|exact Sl]. intros c1 c2 Hc1 Hc2 Lc. destruct (Cl _ Hc1) as (y1 & I1 & ->), (Cl _ Hc2) as (y2 & I2 & ->). rewrite !(carried_place N N' D HN H3) by assumption. exact (place_le N N' D HN HN' H3 H3' y1 y2 I1 I2 Lc).
      - rewrite <- Pl'. rewrite <- (Permutation_map (carried N N') Pl). rewrite map_map. apply Permutation_refl'. apply map_ext_in. intros y Hy. symmetry. apply (carried_place N N' D HN H3). exact (columns_inside x y Hx Hy). }
    apply rows_copied.
    - rewrite El, El'. exact Q.
    - apply SSorted_lt_nodup, S.
    - apply SSorted_lt_nodup, S'.
    - intros c Hc. rewrite El in Hc. destruct (Cl c Hc) as (y & I & ->). split; [apply (place_range N H3)|apply (reach_place N D HN H3 y I)].
    - intros c Hc. rewrite El in Hc. destruct (Cl c Hc) as (y & I & ->). exact (window_entry i (place N y) Hi (place_range N H3 y) Li (reach_place N D HN H3 y I)).
  Qed.
End Copied.
Lemma scale_copied ar n n' lv f D c m m' : copied_matrix n n' lv f D m m' -> copied_matrix n n' lv f D (fbm_scale ar c m) (fbm_scale ar c m').
Proof.
  intros (L & L' & H). unfold fbm_scale. split; cbn [bm_done]; [rewrite map_length; exact L|]. split; [rewrite map_length; exact L'|]. intros i Hi Li.
  set (g := fun e : Z * CR => (fst e, cf_mul ar c (snd e))). change (@nil (Z * CR)) with (map g []). rewrite !(map_nth (map g)). specialize (H i Hi Li). revert H. generalize (nth (Z.to_nat i) (bm_done m) []) (nth (Z.to_nat (f i)) (bm_done m') []).
  intros r r' H. induction H as [|e e' r r' (G0 & G1 & E1 & E2) H IH]; constructor; [|exact IH]. unfold g. split; [exact G0|]. split; [exact G1|]. split; [exact E1|]. cbn [fst snd]. rewrite E2. reflexivity.
Qed.

(** hubbard_real_1d_rk4_coefficients in double precision on two chains: the same times, and up to step k with 8 k + 3 <= N, N' the very same doubles for the same offsets
    (infinities and NaNs are not modelled: as long as nothing overflows) *)
Theorem C116_coefficients_double : forall sort sort' garbage N N' J U dt t_end interval steps,
  sorts_by_column sort -> sorts_by_column sort' -> (3 <= N)%Z -> (3 <= N')%Z -> fits3 (chain_lattice N) N -> fits3 (chain_lattice N') N' -> double_times garbage dt t_end interval steps ->
  exists h h', terminates_with (f_coefficients_full garbage sort N J U dt t_end interval) (Ok (map (fun k => (time_at (to_double garbage) dt k, h k)) (written interval steps))) /\
    terminates_with (f_coefficients_full garbage sort' N' J U dt t_end interval) (Ok (map (fun k => (time_at (to_double garbage) dt k, h' k)) (written interval steps))) /\
    forall k a b c, let reached := (4 * Z.of_nat k)%Z in (2 * reached + 3 <= N)%Z -> (2 * reached + 3 <= N')%Z ->
      (Z.abs a <= reached)%Z -> (Z.abs b <= reached)%Z -> (Z.abs c <= reached)%Z ->
      vget (h k) (index1 N a) = vget (h' k) (index1 N' a) /\ vget (h k) (index3 N a b c) = vget (h' k) (index3 N' a b c).
Proof.
  intros sort sort' garbage N N' J U dt t_end interval steps Hs Hs' HN HN' Hf Hf' Ht.
  assert (W : (N < two64 /\ N' < two64)%Z) by (unfold fits3 in Hf, Hf'; cbn [lat_coordination chain_lattice] in Hf, Hf'; nia). destruct W as [W W'].
  assert (H3 : (3 <= N < two64)%Z) by lia. assert (H3' : (3 <= N' < two64)%Z) by lia.
  assert (Hl : shipped3 (chain_lattice N) N) by (constructor; exact H3). assert (Hl' : shipped3 (chain_lattice N') N') by (constructor; exact H3').
  assert (Hd : distance_from_0 (chain_lattice N) N (ring_distance N 0)) by (apply C115_chain_distance; lia). assert (Hd' : distance_from_0 (chain_lattice N') N' (ring_distance N' 0)) by (apply C115_chain_distance; lia).
  assert (Ln : forall M, (3 <= M < two64)%Z -> Z.of_nat (length (basis3 (chain_lattice M))) = (M + M * M * M)%Z).
  { intros M HM. assert (Hs1 : shipped (chain_lattice M) M) by (constructor; lia || nia). pose proof (basis3_len _ M (shipped_regular _ _ Hs1)). nia. }
  destruct (full_facts sort J U _ N Hs Hl Hf) as (m & Em & _). destruct (full_facts sort' J U _ N' Hs' Hl' Hf') as (m' & Em' & _).
  destruct (init_vector_unit (N + N * N * N) ltac:(nia)) as (h0 & E0 & L0 & V0). destruct (init_vector_unit (N' + N' * N' * N') ltac:(nia)) as (h0' & E0' & L0' & V0').
  exists (fun k => fprogram_run (double_arith garbage) dt m k h0), (fun k => fprogram_run (double_arith garbage) dt m' k h0'). split; [|split].
  - unfold f_coefficients_full, f_compute_full. rewrite Ln, Em by exact H3. cbn [obind]. exact (f_lines garbage dt t_end interval steps _ m h0 Ht E0 _ f_coefficients).
  - unfold f_coefficients_full, f_compute_full. rewrite Ln, Em' by exact H3'. cbn [obind]. exact (f_lines garbage dt t_end interval steps _ m' h0' Ht E0' _ f_coefficients).
  - intros k a b c reached B B' Ha Hb Hc. set (D := (reached + 1)%Z). assert (P : (2 * D + 1 <= N)%Z) by lia. assert (P' : (2 * D + 1 <= N')%Z) by lia.
    assert (Z0 : forall M, (3 <= M < two64)%Z -> reach M (ring_distance M 0) 0 = 0%Z) by (intros M HM; rewrite reach_1 by (unfold site; lia); unfold ring_distance; lia).
    assert (St : forall M u, (3 <= M < two64)%Z -> len u = (M + M * M * M)%Z -> (forall j, (0 <= j < M + M * M * M)%Z -> vget u j = first_unit j) -> within (reach M (ring_distance M 0)) 0 u).
    { intros M u HM Lu Vu q L. destruct (Nat.lt_ge_cases q (length u)) as [Lq|Lq]; [|apply nth_overflow; exact Lq]. pose proof (Vu (Z.of_nat q) ltac:(lia)) as V. unfold vget in V. rewrite Nat2Z.id in V. change (nth q u (0, 0)) with (nth q u r0). rewrite V.
      unfold first_unit. destruct (Z.eqb_spec (Z.of_nat q) 0) as [e|]; [|reflexivity]. rewrite e, Z0 in L by exact HM. lia. }
    assert (Cy : copy (N + N * N * N) (N' + N' * N' * N') (reach N (ring_distance N 0)) (reach N' (ring_distance N' 0)) (carried N N') D (0 + 4 * Z.of_nat k) (fprogram_run (double_arith garbage) dt m k h0) (fprogram_run (double_arith garbage) dt m' k h0')).
    { unfold fprogram_run. apply copy_run.
      - apply add_00.
      - apply mul_0r.
      - intros i Hi L. destruct (carried_back D N N' P P' H3 H3' Hf i Hi L) as (R1 & R2 & _). auto.
      - exact (full_by_one garbage sort J U _ N _ m Hs Hl Hf Hd Em).
      - exact (full_by_one garbage sort' J U _ N' _ m' Hs' Hl' Hf' Hd' Em').
      - apply scale_copied. exact (matrix_copied sort sort' J U N N' D m m' Hs Hs' P P' H3 H3' Hf Hf' Em Em').
      - unfold D, reached. lia.
      - split; [exact L0|]. split; [exact L0'|]. split; [exact (St N h0 H3 L0 V0)|]. split; [exact (St N' h0' H3' L0' V0')|]. intros i Hi L. destruct (carried_back D N N' P P' H3 H3' Hf i Hi L) as (R1 & _ & C).
        pose proof (V0 i Hi) as X. pose proof (V0' _ R1) as X'. unfold at_. unfold vget in X, X'. refine (eq_trans X' (eq_trans _ (eq_sym X))). unfold first_unit.
        destruct (Z.eqb_spec (carried N N' i) 0) as [e|e], (Z.eqb_spec i 0) as [e'|e']; try reflexivity; exfalso; [apply e'; rewrite <- C, e; apply zero_carried; lia|apply e; rewrite e'; apply zero_carried; lia]. }
    destruct Cy as (_ & _ & _ & _ & Cy). split.
    + specialize (Cy (index1 N a) (index1_range N H3 a) ltac:(rewrite (index1_reach N D P H3 a) by lia; lia)). rewrite (carried_1 N D P H3 N' a) in Cy by lia. symmetry. exact Cy.
    + specialize (Cy (index3 N a b c) (index3_range N H3 a b c) ltac:(rewrite (index3_reach N D P H3 a b c) by lia; lia)). rewrite (carried_3 N D P H3 N' a b c) in Cy by lia. symmetry. exact Cy.
Qed.
(** 12 and 20 sites: after the first step the coefficient of the c+ three sites to the left, and of c+ c+ c at sites -1, 0, 2, are the same doubles *)
Example C116_double_example : forall garbage, exists h h', terminates_with (f_coefficients_full garbage isort 12 1 1 (/ 64) (1 / 16) 1) (Ok (map (fun k => (time_at (to_double garbage) (/ 64) k, h k)) (written 1 4))) /\
  terminates_with (f_coefficients_full garbage isort 20 1 1 (/ 64) (1 / 16) 1) (Ok (map (fun k => (time_at (to_double garbage) (/ 64) k, h' k)) (written 1 4))) /\
  vget (h 1%nat) 9 = vget (h' 1%nat) 17 /\ vget (h 1%nat) (12 + 12 * 12 * 11 + 12 * 0 + 2)%Z = vget (h' 1%nat) (20 + 20 * 20 * 19 + 20 * 0 + 2)%Z.
Proof.
  intros garbage. assert (Ht : double_times garbage (/ 64) (1 / 16) 1 4) by (destruct (example_times garbage) as (T1 & T2 & _ & T3); split; [exact T1|]; split; [exact T2|]; split; [lia|exact T3]).
  destruct (C116_coefficients_double isort isort garbage 12 20 1 1 (/ 64) (1 / 16) 1 4 isort_ok isort_ok ltac:(lia) ltac:(lia) ltac:(unfold fits3; apply big; reflexivity) ltac:(unfold fits3; apply big; reflexivity) Ht) as (h & h' & T & T' & V).
  exists h, h'. split; [exact T|]. split; [exact T'|]. destruct (V 1%nat (-3)%Z 0%Z 0%Z ltac:(lia) ltac:(lia) ltac:(lia) ltac:(lia) ltac:(lia)) as [A _]. destruct (V 1%nat (-1)%Z 0%Z 2%Z ltac:(lia) ltac:(lia) ltac:(lia) ltac:(lia) ltac:(lia)) as [_ B].
  split; [exact A|exact B].
Qed.
