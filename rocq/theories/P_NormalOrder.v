(** THEOREMS: C36, the three-operator rows of the normal-ordered matrix. *)
From Coq Require Import Sorting.Sorted ZifyBool.
From Verif Require Import Base Spec_Fock FockFacts M_Operator M_Lattice Spec_Lattice Pf_Lattice M_Basis Pf_Basis M_Matrix
  Spec_Algebra Pf_Algebra Pf_Commutator Spec_Matrix Pf_Matrix Pf_Matrix2 Pf_Trace Pf_Wick Pf_Liouville Pf_MatrixEntry Pf_Projection P_Matrix Pf_Triplet P_Triplet
  Spec_NormalOrder Pf_NormalOrder.
Local Open Scope Z_scope.
Local Open Scope list_scope.

(** the normal-ordered operator a basis monomial stands for *)
Definition normal_op {K : StarRing} (ev : Z -> Z -> K) (m : monomial hub) : list (term hub K) := normal ev m.

Section NO.
  Context (K : StarRing).
  Local Open Scope ring_scope_.
  Add Ring KringPN : (rth K).
  Lemma mcu_sum is_zero (g : Z -> K) rest : (forall x : K, is_zero x = true -> x = 0) -> forall cur,
    sum_over (fun x => t_val x * g (t_col x)) (mcu_loop is_zero cur rest []) = sum_over (fun x => t_val x * g (t_col x)) (cur :: rest).
  Proof.
    intros Hz. induction rest as [|it rest IH]; intros cur; cbn [mcu_loop app]; [reflexivity|].
    destruct (Z.eqb_spec (t_col it) (t_col cur)) as [E|_].
    - rewrite IH, !sum_over_cons. cbn [t_val t_col]. rewrite E. ring.
    - rewrite mcu_acc, sum_over_app, IH, !sum_over_cons. destruct (is_zero (t_val cur)) eqn:Ez.
      + rewrite (Hz _ Ez), sum_over_nil. ring.
      + rewrite sum_over_cons, sum_over_nil. ring.
  Qed.

  (** The equation of motion of :c+_{i1,up} c+_{i2,down} c_{i3,down}:, exactly: hopping,
      mean-field terms inside the basis, and normal-ordered products outside the basis. *)
Theorem C36_equation_of_motion : forall (J U : K) lat N mode ev i1 i2 i3 s t,
    shipped3 lat N -> numbers_orbitals mode N -> stationary ev lat N -> site N i1 -> site N i2 -> site N i3 ->
    let O1 i := terms_elem mode (normal ev [cu i]) s t in
    let O3 i j k := terms_elem mode (normal ev [cu i; cd j; ad k]) s t in
    let g := ev in let h := hole ev in
    comm_elem mode (H_kin lat J ++ H_int lat U) (normal ev [cu i1; cd i2; ad i3]) s t =
      sum_over (fun n => - J * O3 n i2 i3) (lat_neighbors lat i1)
    + sum_over (fun n => - J * O3 i1 n i3) (lat_neighbors lat i2)
    + sum_over (fun n => J * O3 i1 i2 n) (lat_neighbors lat i3)
    + U * ((g i2 i1 * h i3 i1 + g i2 i3 * (g i2 i2 - g i3 i3)) * O1 i1 + h i2 i1 * g i2 i3 * O1 i2 - h i3 i1 * g i2 i3 * O1 i3
         + (g i1 i1 + g i2 i2 - g i3 i3) * O3 i1 i2 i3
         - g i2 i1 * O3 i1 i1 i3 + h i3 i1 * O3 i1 i2 i1 + h i2 i1 * O3 i2 i2 i3 - h i3 i1 * O3 i3 i2 i3)
    + U * terms_elem mode (outside ev i1 i2 i3) s t.
  Proof.
    intros J U lat N mode ev i1 i2 i3 s t Hl Hm Hst H1 H2 H3. cbv beta zeta. rewrite !(E1_normal ev mode s t).
    apply (equation_of_motion ev N mode Hm s t i1 i2 i3 H1 H2 H3 lat (shipped3_graph _ _ Hl) U J Hst).
  Qed.

  (** how far the written row is from it *)
  Definition row_error (mode : hub -> nat) (ev : Z -> Z -> K) (U : K) (i1 i2 i3 : Z) (s t : N) : K :=
    U * (if Z.eqb i2 i3 then (hole ev i2 i1 - ev i2 i1) * ev i2 i2 * elem mode [cu i2] s t
         else (ev i2 i1 - hole ev i2 i1) * terms_elem mode (normal ev [cu i2; cd i2; ad i3]) s t
              - (ev i3 i1 - hole ev i3 i1) * elem mode [cu i3; cd i2; ad i3] s t
              - (ev i2 i2 - ev i3 i3) * elem mode [cu i1; cd i2; ad i3] s t).
Theorem C36_three_operator_rows : forall (sort : list (triplet K) -> list (triplet K)) (J U : K) lat N mode is_zero ev,
    sorts_by_column sort -> shipped3 lat N -> fits_no lat N -> numbers_orbitals mode N ->
    (forall x, is_zero x = true -> x = 0) -> stationary ev lat N ->
    exists m, init_matrix_no sort J U lat is_zero ev = Ok m /\
      forall i1 i2 i3 s t, site N i1 -> site N i2 -> site N i3 ->
        let row := (N + N * N * i1 + N * i2 + i3)%Z in
        combination mode (normal_op ev) (basis3 lat) (row_of m row) s t + U * terms_elem mode (outside ev i1 i2 i3) s t =
        comm_elem mode (H_kin lat J ++ H_int lat U) (normal ev [cu i1; cd i2; ad i3]) s t + row_error mode ev U i1 i2 i3 s t.
  Proof.
    intros sort J U lat N mode is_zero ev Hs Hl Hf Hm Hz Hst. pose proof (shipped3_graph _ _ Hl) as HG. pose proof (g_reg _ _ HG) as HR.
    pose proof (fits_no_S3 lat N HG Hf) as HS.
    eexists. split; [apply (init_matrix_no_closed sort Hs J U lat N HG HS is_zero ev Hf)|].
    intros i1 i2 i3 s t H1 H2 H3. cbv zeta. rewrite <- (get_3op_index_eq lat N HR HS i1 i2 i3 H1 H2 H3).
    unfold row_of. cbn [bm_done]. rewrite (nth_no_rows3 sort J U lat N HG HS is_zero ev i1 i2 i3 H1 H2 H3).
    rewrite (equation_of_motion ev N mode Hm s t i1 i2 i3 H1 H2 H3 lat HG U J Hst).
    set (l := triplets_no3 J U lat ev (get_3op_index N i1 i2 i3) i1 i2 i3).
    set (bas := fun c => match nth_error (basis3 lat) (Z.to_nat c) with Some m => terms_elem (K := K) mode (normal_op ev m) s t | None => 0 end).
    assert (Sm : combination mode (normal_op ev) (basis3 lat) (pairs (mcu is_zero (sort l))) s t = sum_over (fun x => t_val x * bas (t_col x)) l).
    { unfold combination, pairs. rewrite sum_over_map. cbn [fst snd]. fold bas.
      assert (P : sum_over (fun x => t_val x * bas (t_col x)) (sort l) = sum_over (fun x => t_val x * bas (t_col x)) l) by (apply sum_over_perm, Hs).
      rewrite <- P. assert (Hne : sort l <> []) by (apply (no3_nonempty sort Hs J U lat N)). destruct (sort l) as [|c r]; [congruence|].
      cbn [mcu]. apply (mcu_sum is_zero bas r Hz c). }
    rewrite Sm. clear Sm.
    assert (B1e : forall i, site N i -> bas i = elem mode [cu i] s t).
    { intros i Hi. unfold bas. rewrite (basis3_nth1 lat N HR i Hi). apply (E1_normal ev mode s t). }
    assert (B3e : forall i j k, site N i -> site N j -> site N k -> bas (get_3op_index N i j k) = terms_elem mode (normal ev [cu i; cd j; ad k]) s t).
    { intros i j k Hi Hj Hk. unfold bas. rewrite (basis3_get lat N HR HS) by assumption. reflexivity. }
    unfold l, triplets_no3, kinetic_triplets3. rewrite (lat_size_N lat N HG).
    rewrite !sum_over_app, !sum_over_map, !sum_over_cons, sum_over_nil. cbn [t_col t_val].
    rewrite (sum_over_ext _ (fun x => - J * bas (get_3op_index N x i2 i3)) (fun x => - J * terms_elem mode (normal ev [cu x; cd i2; ad i3]) s t))
      by (intros x Hx; rewrite B3e by (try assumption; apply (g_range _ _ HG i1 x H1 Hx)); reflexivity).
    rewrite (sum_over_ext _ (fun x => - J * bas (get_3op_index N i1 x i3)) (fun x => - J * terms_elem mode (normal ev [cu i1; cd x; ad i3]) s t))
      by (intros x Hx; rewrite B3e by (try assumption; apply (g_range _ _ HG i2 x H2 Hx)); reflexivity).
    rewrite (sum_over_ext _ (fun x => J * bas (get_3op_index N i1 i2 x)) (fun x => J * terms_elem mode (normal ev [cu i1; cd i2; ad x]) s t))
      by (intros x Hx; rewrite B3e by (try assumption; apply (g_range _ _ HG i3 x H3 Hx)); reflexivity).
    rewrite !B1e, !B3e by assumption. unfold row_error.
    assert (Ec : forall a b, ev_conj ev a b = hole ev a b) by reflexivity. clear Ec. unfold ev_conj, hole, delta.
    destruct (Z.eqb_spec i2 i3) as [<-|Hne].
    - rewrite sum_over_nil. ring.
    - rewrite !sum_over_cons, sum_over_nil. cbn [t_col t_val]. rewrite !B3e by assumption.
      rewrite !(E3_normal ev mode s t). cbv beta. ring.
  Qed.
  (** the rows are exact for the infinite-temperature state *)
Theorem C36_three_operator_rows_exact : forall (sort : list (triplet K) -> list (triplet K)) (J U half : K) lat N mode is_zero,
    half + half = 1 ->
    sorts_by_column sort -> shipped3 lat N -> fits_no lat N -> numbers_orbitals mode N ->
    (forall x, is_zero x = true -> x = 0) ->
    let ev := fun a b => half * delta a b in
    exists m, init_matrix_no sort J U lat is_zero ev = Ok m /\
      forall i1 i2 i3 s t, site N i1 -> site N i2 -> site N i3 ->
        let row := (N + N * N * i1 + N * i2 + i3)%Z in
        combination mode (normal_op ev) (basis3 lat) (row_of m row) s t + U * terms_elem mode (outside ev i1 i2 i3) s t =
        comm_elem mode (H_kin lat J ++ H_int lat U) (normal ev [cu i1; cd i2; ad i3]) s t.
  Proof.
    intros sort J U half lat N mode is_zero Hh Hs Hl Hf Hm Hz ev. pose proof (shipped3_graph _ _ Hl) as HG.
    assert (St : stationary ev lat N).
    { intros a b Ha Hb. unfold ev. pose proof (sum_delta_nb (K := K) N lat HG half a b Ha Hb) as Q.
      rewrite (sum_over_ext _ _ (fun x => delta x b * half)) by (intros; ring).
      rewrite (sum_over_ext _ (fun b' => half * delta a b') (fun x => delta a x * half)) by (intros; ring). exact Q. }
    destruct (C36_three_operator_rows sort J U lat N mode is_zero ev Hs Hl Hf Hm Hz St) as (m & Em & R).
    exists m. split; [exact Em|]. intros i1 i2 i3 s t H1 H2 H3. cbv zeta. rewrite (R i1 i2 i3 s t H1 H2 H3).
    assert (Q : forall a b, hole ev a b = ev a b).
    { intros a b. unfold hole, ev. rewrite (delta_sym b a).
      transitivity ((half + half) * delta a b - half * delta a b); [rewrite Hh; ring|ring]. }
    assert (D : forall a, ev a a = half) by (intros a; unfold ev, delta; rewrite Z.eqb_refl; ring).
    unfold row_error. rewrite !Q, !D. destruct (Z.eqb i2 i3); ring.
  Qed.

  (** ... and wrong in general: for i1 = i2 = a and i3 = b <> a *)
  Lemma elem_miss (mode : hub -> nat) w sg (s t t' : N) : act (ladders mode w) s = Some (sg, t') -> t <> t' -> elem (K := K) mode w s t = 0.
  Proof. intros A H. unfold elem, amp. rewrite A. destruct (N.eqb_spec t t'); [contradiction|reflexivity]. Qed.
  Lemma elem_hit (mode : hub -> nat) w sg (s t : N) : act (ladders mode w) s = Some (sg, t) -> elem (K := K) mode w s t = sgn sg.
  Proof. intros A. unfold elem, amp. rewrite A, N.eqb_refl. reflexivity. Qed.
  Lemma occ_ne (s t : N) k : occ s k = true -> occ t k = false -> s <> t.
  Proof. intros A B ->. congruence. Qed.
Theorem C36_three_operator_rows_refuted : forall (sort : list (triplet K) -> list (triplet K)) (J U : K) lat N mode is_zero ev a b,
    sorts_by_column sort -> shipped3 lat N -> fits_no lat N -> numbers_orbitals mode N ->
    (forall x, is_zero x = true -> x = 0) -> stationary ev lat N -> site N a -> site N b -> a <> b ->
    exists m, init_matrix_no sort J U lat is_zero ev = Ok m /\
      let row := (N + N * N * a + N * a + b)%Z in
      let err s t := combination mode (normal_op ev) (basis3 lat) (row_of m row) s t + U * terms_elem mode (outside ev a a b) s t
        - comm_elem mode (H_kin lat J ++ H_int lat U) (normal ev [cu a; cd a; ad b]) s t in
      exists s t t' p p', err s t = sgn p * (U * (ev a a + ev b b - 1)) /\ err s t' = sgn p' * (U * (ev a b + ev b a)).
  Proof.
    intros sort J U lat N mode is_zero ev a b Hs Hl Hf Hm Hz St Ha Hb Hab.
    destruct (C36_three_operator_rows sort J U lat N mode is_zero ev Hs Hl Hf Hm Hz St) as (m & Em & R).
    exists m. split; [exact Em|]. cbv zeta.
    set (s := N.setbit 0 (N.of_nat (mode (b, false)))).
    set (s1 := N.setbit 0 (N.of_nat (mode (a, false)))).
    set (t := N.setbit s1 (N.of_nat (mode (a, true)))). set (t' := N.setbit s1 (N.of_nat (mode (b, true)))).
    assert (M1 : forall (x y : Z) (p q : bool), site N x -> site N y -> (x <> y \/ p <> q) -> Nat.eqb (mode (x, p)) (mode (y, q)) = false).
    { intros x y p q Hx Hy Hn. apply Nat.eqb_neq. intros E. apply Hm in E; [|assumption..]. destruct E as [-> ->]. destruct Hn; congruence. }
    assert (O0 : forall k, occ 0 k = false) by (intros k; apply N.bits_0).
    assert (A0 : ladder false (mode (b, false)) s = Some (false, 0%N)).
    { unfold ladder, s. rewrite occ_set, Nat.eqb_refl. cbn [orb]. f_equal. f_equal.
      - rewrite parity_set by apply O0. rewrite parity_vac, Nat.ltb_irrefl. reflexivity.
      - apply state_ext. intros k. rewrite occ_clear, occ_set, O0, orb_false_r. destruct (Nat.eqb _ k); reflexivity. }
    assert (A1 : ladder true (mode (a, false)) 0 = Some (false, s1)).
    { unfold ladder. rewrite O0, parity_vac. reflexivity. }
    assert (A2 : forall x, site N x -> exists p, ladder true (mode (x, true)) s1 = Some (p, N.setbit s1 (N.of_nat (mode (x, true))))).
    { intros x Hx. assert (Q : occ s1 (mode (x, true)) = false) by (unfold s1; rewrite occ_set, O0, (M1 a x false true Ha Hx ltac:(right; discriminate)); reflexivity).
      unfold ladder. rewrite Q. eauto. }
    assert (A3 : exists p, ladder true (mode (a, true)) s = Some (p, N.setbit s (N.of_nat (mode (a, true))))).
    { assert (Q : occ s (mode (a, true)) = false) by (unfold s; rewrite occ_set, O0, (M1 b a false true Hb Ha ltac:(right; discriminate)); reflexivity).
      unfold ladder. rewrite Q. eauto. }
    destruct (A2 a Ha) as (p & Pa). destruct (A2 b Hb) as (p' & Pb). destruct A3 as (q & Qa). fold t in Pa. fold t' in Pb.
    assert (Ft : act (ladders mode [cu a; cd a; ad b]) s = Some (p, t)).
    { cbn [ladders map act cu cd ad hop creator indices]. rewrite A0. cbn [xorb]. rewrite A1. cbn [xorb]. rewrite Pa. destruct p; reflexivity. }
    assert (Ft' : act (ladders mode [cu b; cd a; ad b]) s = Some (p', t')).
    { cbn [ladders map act cu cd ad hop creator indices]. rewrite A0. cbn [xorb]. rewrite A1. cbn [xorb]. rewrite Pb. destruct p'; reflexivity. }
    assert (Fq : act (ladders mode [cu a]) s = Some (q, N.setbit s (N.of_nat (mode (a, true))))).
    { cbn [ladders map act cu cd ad hop creator indices]. rewrite Qa. destruct q; reflexivity. }
    assert (Dt : t <> t').
    { apply (occ_ne _ _ (mode (a, true))); unfold t, t', s1; rewrite !occ_set, ?O0, ?Nat.eqb_refl.
      - reflexivity.
      - rewrite (M1 b a true true Hb Ha ltac:(left; congruence)), (M1 a a false true Ha Ha ltac:(right; discriminate)). reflexivity. }
    assert (Dq : forall r, occ r (mode (a, false)) = true -> r <> N.setbit s (N.of_nat (mode (a, true)))).
    { intros r Hr. apply (occ_ne _ _ (mode (a, false))); [exact Hr|]. unfold s. rewrite !occ_set, O0.
      rewrite (M1 a a true false Ha Ha ltac:(right; discriminate)), (M1 b a false false Hb Ha ltac:(left; congruence)). reflexivity. }
    assert (Ot : occ t (mode (a, false)) = true) by (unfold t, s1; rewrite !occ_set, Nat.eqb_refl, orb_true_r; reflexivity).
    assert (Ot' : occ t' (mode (a, false)) = true) by (unfold t', s1; rewrite !occ_set, Nat.eqb_refl, orb_true_r; reflexivity).
    exists s, t, t', p, (negb p'). rewrite !(R a a b) by assumption. unfold row_error.
    destruct (Z.eqb_spec a b) as [|_]; [contradiction|]. rewrite !(E3_normal ev mode). cbv beta.
    rewrite (elem_hit mode _ _ _ _ Ft), (elem_hit mode _ _ _ _ Ft'), (elem_miss mode _ _ _ t' _ Ft) by congruence.
    rewrite (elem_miss mode _ _ _ t _ Ft' Dt), (elem_miss mode _ _ _ t _ Fq (Dq t Ot)), (elem_miss mode _ _ _ t' _ Fq (Dq t' Ot')).
    unfold hole, delta. rewrite Z.eqb_refl. destruct (Z.eqb_spec b a) as [|_]; [congruence|]. split; [ring|].
    destruct p'; cbn [sgn negb]; ring.
  Qed.
End NO.
Print Assumptions C36_equation_of_motion.
Print Assumptions C36_three_operator_rows.
Print Assumptions C36_three_operator_rows_exact.
Print Assumptions C36_three_operator_rows_refuted.
