(** THEOREMS: C38 (matrix predicates), C39 (function matrices), C40 (eigen triplet lists),
    C63 (dense initialisation). *)
From Coq Require Import Sorting.Sorted Reals Lra.
From Verif Require Import Base M_Number M_Matrix M_MatrixCheck Pf_Matrix P_Number.
Local Open Scope Z_scope.
Local Open Scope list_scope.

Lemma all_below_spec n f : all_below n f = true <-> forall i, 0 <= i < n -> f i = true.
Proof. unfold all_below. rewrite forallb_forall. split; intros H i Hi; apply H, zrange_in, Hi. Qed.
Lemma some_below_spec n f : some_below n f = negb (all_below n (fun i => negb (f i))).
Proof. unfold some_below, all_below. induction (zrange 0 n) as [|x l IH]; [reflexivity|]. cbn. rewrite IH. destruct (f x); reflexivity. Qed.

(** What an equality test must satisfy (types::IsEqual does: C62). *)
Definition tolerant {S} (is_equal : S -> S -> bool) (conj : S -> S) : Prop :=
  (forall a, is_equal a a = true) /\ (forall a b, is_equal a b = is_equal b a) /\
  (forall a, conj (conj a) = a) /\ (forall a b, is_equal (conj a) (conj b) = is_equal a b).

Section S.
Context {S : Type} (is_equal : S -> S -> bool) (conj : S -> S).

Theorem C38_symmetric : tolerant is_equal conj -> forall m,
  (is_quadratic m = true <-> m_rows m = m_cols m) /\
  (is_symmetric is_equal m = true <->
   m_rows m = m_cols m /\ forall i j, 0 <= i < m_rows m -> 0 <= j < m_cols m -> is_equal (m_at m i j) (m_at m j i) = true) /\
  fm_is_symmetric is_equal m = is_symmetric is_equal m.
Proof.
  intros (Hr & Hs & _) m. unfold is_quadratic. split; [apply Z.eqb_eq|]. split; [|reflexivity].
  unfold is_symmetric, is_quadratic. destruct (Z.eqb_spec (m_rows m) (m_cols m)) as [E|E]; cbn [negb]; [|split; [discriminate|tauto]].
  rewrite all_below_spec. split.
  - intros H. split; [exact E|]. intros i j Hi Hj. destruct (Z.lt_trichotomy i j) as [L|[->|L]]; [|apply Hr|].
    + rewrite Hs. specialize (H j ltac:(lia)). rewrite all_below_spec in H. apply H. lia.
    + specialize (H i ltac:(lia)). rewrite all_below_spec in H. apply H. lia.
  - intros [_ H] i Hi. apply all_below_spec. intros j Hj. apply H; lia.
Qed.
(** FunctionMatrix: is_hermitian decides hermiticity. *)
Theorem C39_hermitian : tolerant is_equal conj -> forall m,
  fm_is_hermitian is_equal conj m = true <->
  m_rows m = m_cols m /\ forall i j, 0 <= i < m_rows m -> 0 <= j < m_cols m -> is_equal (m_at m i j) (conj (m_at m j i)) = true.
Proof.
  intros (Hr & Hs & Hi & Hc) m. unfold fm_is_hermitian, is_quadratic.
  destruct (Z.eqb_spec (m_rows m) (m_cols m)) as [E|E]; cbn [negb]; [|split; [discriminate|tauto]].
  rewrite all_below_spec. split.
  - intros H. split; [exact E|]. intros i j Ri Rj. destruct (Z.le_gt_cases j i).
    + specialize (H i Ri). rewrite all_below_spec in H. apply H. lia.
    + specialize (H j ltac:(lia)). rewrite all_below_spec in H. specialize (H i ltac:(lia)).
      rewrite <- Hc, Hi, Hs. exact H.
  - intros [_ H] i Ri. apply all_below_spec. intros j Rj. apply H; lia.
Qed.
(** matrix_check.hpp: what is_hermitian really decides - every entry of the lower triangle
    equals its own conjugate. *)
Theorem C38_hermitian_refuted : forall m,
  is_hermitian is_equal conj m = true <->
  m_rows m = m_cols m /\ forall i j, 0 <= j <= i -> i < m_rows m -> is_equal (m_at m i j) (conj (m_at m i j)) = true.
Proof.
  intros m. unfold is_hermitian, is_quadratic.
  destruct (Z.eqb_spec (m_rows m) (m_cols m)) as [E|E]; cbn [negb]; [|split; [discriminate|tauto]].
  rewrite all_below_spec. split.
  - intros H. split; [exact E|]. intros i j Hj Hi. specialize (H i ltac:(lia)). rewrite all_below_spec in H. apply H. lia.
  - intros [_ H] i Hi. apply all_below_spec. intros j Hj. apply H; lia.
Qed.
Theorem C39_equality : forall a b,
  (fm_eq is_equal a b = true <->
   m_rows a = m_rows b /\ m_cols a = m_cols b /\
   forall i j, 0 <= i < m_rows a -> 0 <= j < m_cols a -> is_equal (m_at a i j) (m_at b i j) = true) /\
  fm_neq is_equal a b = negb (fm_eq is_equal a b).
Proof.
  intros a b. unfold fm_eq, fm_neq. split.
  - destruct (Z.eqb_spec (m_rows a) (m_rows b)), (Z.eqb_spec (m_cols a) (m_cols b)); cbn [negb orb]; try (split; [discriminate|tauto]).
    rewrite all_below_spec. split.
    + intros H. repeat split; try assumption. intros i j Hi Hj. specialize (H i Hi). rewrite all_below_spec in H. auto.
    + intros (_ & _ & H) i Hi. apply all_below_spec. auto.
  - destruct (negb (m_rows a =? m_rows b) || negb (m_cols a =? m_cols b)); [reflexivity|].
    rewrite some_below_spec. f_equal. unfold all_below.
    assert (E : forall l f g, (forall x, f x = g x) -> forallb f l = @forallb Z g l) by (induction l as [|x l IH]; intros f g Hf; cbn; [reflexivity|rewrite Hf, (IH f g Hf); reflexivity]).
    apply E. intros row. rewrite some_below_spec, negb_involutive. unfold all_below. apply E. intros col. apply negb_involutive.
Qed.
End S.
Print Assumptions C38_symmetric.
Print Assumptions C39_hermitian.
Print Assumptions C38_hermitian_refuted.
Print Assumptions C39_equality.

(** The shipped equality tests are tolerant: integers, reals, complex numbers. *)
Lemma tolerant_int : tolerant is_equal_int (fun x => x).
Proof.
  repeat split; intros; unfold is_equal_int; [apply Z.eqb_refl|apply Z.eqb_sym].
Qed.
Lemma tolerant_fl eps : (0 < eps)%R -> tolerant (is_equal_fl eps) (fun x => x).
Proof. intros H. destruct (C62_equality eps H) as (A & B & _). repeat split; auto. Qed.
Lemma tolerant_cx eps : (0 < eps)%R -> tolerant (is_equal_cx eps) (fun z => (fst z, (- snd z)%R)).
Proof.
  intros H. destruct (C62_equality eps H) as (_ & _ & _ & A & B & C & _). repeat split; auto.
  intros [a b]. cbn. f_equal. lra.
Qed.
(** matrix_check's is_hermitian accepts a non-hermitian matrix and rejects a hermitian one. *)
Definition mat2 (a b c d : R * R) : matrix (R * R) :=
  mkMat 2 2 (fun i j => if i =? 0 then (if j =? 0 then a else b) else (if j =? 0 then c else d)).
Theorem C38_hermitian_examples_refuted : forall eps, (0 < eps < 1)%R ->
  let eq := is_equal_cx eps in let conj := fun z : R * R => (fst z, (- snd z)%R) in
  let pauli_y := mat2 (0, 0)%R (0, -1)%R (0, 1)%R (0, 0)%R in
  let shift := mat2 (0, 0)%R (1, 0)%R (0, 0)%R (0, 0)%R in
  (fm_is_hermitian eq conj pauli_y = true /\ is_hermitian eq conj pauli_y = false) /\
  (fm_is_hermitian eq conj shift = false /\ is_hermitian eq conj shift = true).
Proof.
  intros eps He eq conj pauli_y shift.
  assert (T : tolerant eq conj) by (apply tolerant_cx; lra).
  assert (D : forall a b : R * R, eq a b = true <-> (Rabs (fst a - fst b) < eps /\ Rabs (snd a - snd b) < eps)%R).
  { intros a b. unfold eq, is_equal_cx, is_equal_fl. rewrite andb_true_iff, !Rltb_lt. tauto. }
  split; split.
  - apply C39_hermitian; [exact T|]. split; [reflexivity|]. intros i j Hi Hj. cbn in Hi, Hj.
    assert (i = 0 \/ i = 1) as [-> | ->] by lia; assert (j = 0 \/ j = 1) as [-> | ->] by lia; cbn; apply D; cbn;
    split; unfold Rabs; destruct (Rcase_abs _); lra.
  - apply not_true_iff_false. intros H. apply C38_hermitian_refuted in H as [_ H]. specialize (H 1 0 ltac:(lia) ltac:(cbn; lia)).
    cbn in H. apply D in H. cbn in H. destruct H as [_ H]. unfold Rabs in H. destruct (Rcase_abs _); lra.
  - apply not_true_iff_false. intros H. apply C39_hermitian in H as [_ H]; [|exact T].
    specialize (H 0 1 ltac:(cbn; lia) ltac:(cbn; lia)). cbn in H. apply D in H. cbn in H. destruct H as [H _]. unfold Rabs in H. destruct (Rcase_abs _); lra.
  - apply C38_hermitian_refuted. split; [reflexivity|]. intros i j Hj Hi. cbn in Hi.
    assert (i = 0 \/ i = 1) as [-> | ->] by lia; assert (j = 0 \/ j = 1) as [-> | ->] by lia; try lia; cbn; apply D; cbn;
    split; unfold Rabs; destruct (Rcase_abs _); lra.
Qed.
Print Assumptions C38_hermitian_examples_refuted.

(** ** C40 *)
(** what std::sort guarantees for a strict weak order [cmp] *)
Definition std_sort {A} (sort : (A -> A -> bool) -> list A -> list A) : Prop :=
  forall cmp l, (forall a, cmp a a = false) -> (forall a b c, cmp a b = true -> cmp b c = true -> cmp a c = true) ->
    (forall a b c, cmp a b = false -> cmp b c = false -> cmp a c = false) ->
    Permutation (sort cmp l) l /\ StronglySorted (fun a b => cmp b a = false) (sort cmp l).
Lemma std_sort_key {A} (sort : (A -> A -> bool) -> list A -> list A) (key : A -> Z) l : std_sort sort ->
  Permutation (sort (fun a b => key a <? key b) l) l /\ StronglySorted (fun a b => key a <= key b) (sort (fun a b => key a <? key b) l).
Proof.
  intros H. destruct (H (fun a b => key a <? key b) l) as [P Q].
  - intros a. apply Z.ltb_irrefl.
  - intros a b c. rewrite !Z.ltb_lt. lia.
  - intros a b c. rewrite !Z.ltb_ge. lia.
  - split; [exact P|]. clear P. induction Q as [|a l' Q IH F]; constructor; [exact IH|]. eapply Forall_impl; [|exact F].
    intros b Hb. apply Z.ltb_ge in Hb. exact Hb.
Qed.
(** a list built by the constructor and any number of insertions *)
Definition built {K : StarRing} (rows cols : Z) (entries : list (triplet K)) : etriplets K :=
  fold_left (fun l t => e_insert l (t_row t) (t_col t) (t_val t)) entries (e_new rows cols).
Lemma built_eq {K : StarRing} rows cols (entries : list (triplet K)) : built rows cols entries = mkE rows cols entries.
Proof.
  unfold built, e_new. assert (G : forall acc, fold_left (fun l t => e_insert l (t_row t) (t_col t) (t_val t)) entries (mkE rows cols acc) = mkE rows cols (acc ++ entries)).
  { induction entries as [|[r c v] es IH]; intros acc; cbn [fold_left]; [rewrite app_nil_r; reflexivity|].
    unfold e_insert at 2. cbn [e_rows e_cols e_list t_row t_col t_val]. rewrite IH, <- app_assoc. reflexivity. }
  apply G.
Qed.
Theorem C40_list : forall (K : StarRing) sort rows cols (entries : list (triplet K)), std_sort sort ->
  let l := built rows cols entries in
  e_list l = entries /\ e_rows_call l = rows /\
  (let r := e_sort_row_major sort l in
   Permutation (e_list r) entries /\ StronglySorted (fun a b => t_col a <= t_col b) (e_list r) /\ e_rows_call r = rows) /\
  (let c := e_sort_column_major sort l in
   Permutation (e_list c) entries /\ StronglySorted (fun a b => t_row a <= t_row b) (e_list c) /\ e_rows_call c = rows).
Proof.
  intros K sort rows cols entries H l. unfold l. rewrite built_eq. cbn.
  destruct (std_sort_key sort t_row entries H), (std_sort_key sort t_col entries H). repeat split; assumption.
Qed.
Print Assumptions C40_list.
(** cols() gives the number of rows, and neither sort gives the order it is named after. *)
Theorem C40_refuted : forall (K : StarRing) sort, std_sort sort ->
  (forall rows cols (entries : list (triplet K)), e_cols_call (built rows cols entries) = rows) /\
  (exists entries : list (triplet K),
     ~ StronglySorted (fun a b => t_row a <= t_row b) (e_list (e_sort_row_major sort (built 2 2 entries)))) /\
  (exists entries : list (triplet K),
     ~ StronglySorted (fun a b => t_col a <= t_col b) (e_list (e_sort_column_major sort (built 2 2 entries)))).
Proof.
  intros K sort H. split; [intros; rewrite built_eq; reflexivity|].
  assert (G : forall l : list (triplet K), Permutation l [mkT 0 1 r1; mkT 1 0 r1] ->
    (StronglySorted (fun a b => t_row a <= t_row b) l -> l = [mkT 0 1 r1; mkT 1 0 r1]) /\
    (StronglySorted (fun a b => t_col a <= t_col b) l -> l = [mkT 1 0 r1; mkT 0 1 r1])).
  { intros l P. apply Permutation_sym, Permutation_length_2_inv in P. destruct P as [-> | ->]; split; intros Q; try reflexivity;
      inversion Q; subst; inversion H3; subst; cbn in *; lia. }
  split; exists [mkT 0 1 r1; mkT 1 0 r1]; rewrite built_eq; cbn [e_sort_row_major e_sort_column_major e_list]; intros Q.
  - destruct (std_sort_key sort t_col [mkT 0 1 r1; mkT 1 0 r1] H) as [P S]. destruct (G _ P) as [G1 G2].
    specialize (G1 Q). specialize (G2 S). rewrite G1 in G2. inversion G2.
  - destruct (std_sort_key sort t_row [mkT 0 1 r1; mkT 1 0 r1] H) as [P S]. destruct (G _ P) as [G1 G2].
    specialize (G1 S). specialize (G2 Q). rewrite G1 in G2. inversion G2.
Qed.
Print Assumptions C40_refuted.

(** ** C63: dense initialisation *)
Section Init.
Context {S : Type} (zero : S).
Lemma fold_row (f : Z -> Z -> S) i l m : 
  let m' := fold_left (fun m j => m_set m i j (f i j)) l m in
  m_rows m' = m_rows m /\ m_cols m' = m_cols m /\
  forall a b, m_at m' a b = if (a =? i) && existsb (Z.eqb b) l then f i b else m_at m a b.
Proof.
  revert m. induction l as [|j l IH]; intros m; cbn [fold_left].
  - repeat split. intros a b. cbn. rewrite andb_false_r. reflexivity.
  - destruct (IH (m_set m i j (f i j))) as (A & B & C). cbn zeta. rewrite A, B. repeat split. intros a b. rewrite C. cbn [m_at m_set existsb].
    destruct (Z.eqb_spec a i), (existsb (Z.eqb b) l), (Z.eqb_spec b j); cbn; subst; reflexivity.
Qed.
Lemma existsb_range b n : existsb (Z.eqb b) (zrange 0 n) = (0 <=? b) && (b <? n).
Proof.
  apply eq_true_iff_eq. rewrite existsb_exists, andb_true_iff, Z.leb_le, Z.ltb_lt. split.
  - intros (x & Hx & E). apply Z.eqb_eq in E. subst. apply zrange_in in Hx. lia.
  - intros H. exists b. split; [apply zrange_in; lia|apply Z.eqb_refl].
Qed.
Theorem C63_init : forall rows cols (f : Z -> Z -> S),
  let m := init_dense zero rows cols f in
  m_rows m = rows /\ m_cols m = cols /\
  forall i j, 0 <= i < rows -> 0 <= j < cols -> m_at m i j = f i j.
Proof.
  intros rows cols f. unfold init_dense.
  assert (G : forall l m, 
    let m' := fold_left (fun m i => fold_left (fun m j => m_set m i j (f i j)) (zrange 0 cols) m) l m in
    m_rows m' = m_rows m /\ m_cols m' = m_cols m /\
    forall a b, 0 <= b < cols -> m_at m' a b = if existsb (Z.eqb a) l then f a b else m_at m a b).
  { induction l as [|i l IH]; intros m; cbn [fold_left]; [repeat split|].
    destruct (fold_row f i (zrange 0 cols) m) as (A & B & C). cbn zeta in *.
    destruct (IH (fold_left (fun m j => m_set m i j (f i j)) (zrange 0 cols) m)) as (A' & B' & C'). rewrite A', B', A, B. repeat split.
    intros a b Hb. rewrite C', C, existsb_range by exact Hb. cbn [existsb].
    destruct (existsb (Z.eqb a) l); rewrite ?orb_true_r, ?orb_false_r; [reflexivity|].
    destruct (Z.leb_spec 0 b), (Z.ltb_spec b cols); try lia. rewrite andb_true_r. destruct (Z.eqb_spec a i); [subst|]; reflexivity. }
  destruct (G (zrange 0 rows) (m_zero zero rows cols)) as (A & B & C). cbn zeta. rewrite A, B. repeat split.
  intros i j Hi Hj. rewrite C, existsb_range by exact Hj. destruct (Z.leb_spec 0 i), (Z.ltb_spec i rows); try lia. reflexivity.
Qed.
(** init_symmetric only evaluates f on the lower triangle and mirrors it. *)
Theorem C63_init_symmetric : forall rows (f : Z -> Z -> S),
  let m := init_symmetric_dense zero rows f in
  m_rows m = rows /\ m_cols m = rows /\
  (forall i j, 0 <= j <= i -> i < rows -> m_at m i j = f i j /\ m_at m j i = f i j) /\
  (forall i j, 0 <= i < rows -> 0 <= j < rows -> m_at m i j = m_at m j i).
Proof.
  intros rows f. unfold init_symmetric_dense.
  assert (R : forall i l m,
    let m' := fold_left (fun m j => m_set (m_set m i j (f i j)) j i (f i j)) l m in
    m_rows m' = m_rows m /\ m_cols m' = m_cols m /\
    forall a b, m_at m' a b = if (b =? i) && existsb (Z.eqb a) l then f i a
                              else if (a =? i) && existsb (Z.eqb b) l then f i b else m_at m a b).
  { intros i. induction l as [|j l IH]; intros m; cbn [fold_left].
    - repeat split. intros a b. cbn. rewrite !andb_false_r. reflexivity.
    - destruct (IH (m_set (m_set m i j (f i j)) j i (f i j))) as (A & B & C). cbn zeta in *. rewrite A, B. repeat split.
      intros a b. rewrite C. cbn [m_at m_set existsb].
      destruct (Z.eqb_spec a i), (Z.eqb_spec b i), (Z.eqb_spec a j), (Z.eqb_spec b j), (existsb (Z.eqb a) l), (existsb (Z.eqb b) l); cbn; subst; try reflexivity; try congruence. }
  assert (G : forall n m, 0 <= n ->
    let m' := fold_left (fun m i => m_set (fold_left (fun m j => m_set (m_set m i j (f i j)) j i (f i j)) (zrange 0 i) m) i i (f i i)) (zrange 0 n) m in
    m_rows m' = m_rows m /\ m_cols m' = m_cols m /\
    forall a b, 0 <= b <= a -> a < n -> m_at m' a b = f a b /\ m_at m' b a = f a b).
  { intros n m Hn. revert m. pattern n. apply natlike_ind; [|clear n Hn|exact Hn].
    - intros m. cbn. repeat split; lia.
    - intros n Hn IH m. unfold Z.succ. rewrite (zrange_app 0 n (n + 1)) by lia. rewrite (zrange_cons n) by lia. rewrite (zrange_nil (n + 1)) by lia. rewrite fold_left_app. cbn [fold_left].
      destruct (IH m) as (A & B & C). cbn zeta in *. set (m1 := fold_left _ (zrange 0 n) m) in *.
      destruct (R n (zrange 0 n) m1) as (A' & B' & C'). cbn zeta in *. cbn [m_rows m_cols m_set m_at]. rewrite A', B', A, B. repeat split.
      + rewrite C', !existsb_range. specialize (C a b). destruct (Z.eqb_spec a n), (Z.eqb_spec b n), (Z.leb_spec 0 a), (Z.ltb_spec a n), (Z.leb_spec 0 b), (Z.ltb_spec b n); cbn; subst; try lia; try reflexivity; apply C; lia.
      + rewrite C', !existsb_range. specialize (C a b). destruct (Z.eqb_spec a n), (Z.eqb_spec b n), (Z.leb_spec 0 a), (Z.ltb_spec a n), (Z.leb_spec 0 b), (Z.ltb_spec b n); cbn; subst; try lia; try reflexivity; apply C; lia. }
  cbn zeta. destruct (Z.le_gt_cases 0 rows) as [Hr|Hr].
  - destruct (G rows (m_zero zero rows rows) Hr) as (A & B & C). cbn zeta in *. rewrite A, B. repeat split; try (apply C; lia).
    intros i j Hi Hj. destruct (Z.le_gt_cases j i); [destruct (C i j)|destruct (C j i)]; try lia; congruence.
  - rewrite zrange_nil by lia. cbn. repeat split; intros; lia.
Qed.
End Init.
Print Assumptions C63_init.
Print Assumptions C63_init_symmetric.
