(** Proofs about the integrator. *)
From Verif Require Import Base M_Matrix M_MatrixCheck M_Ode Spec_Ode Pf_Matrix.
Local Open Scope Z_scope.
Local Open Scope list_scope.

Lemma list_set_length {A} (l : list A) i x : length (list_set l i x) = length l.
Proof. revert i; induction l as [|y l IH]; intros [|i]; cbn; auto. Qed.
Lemma list_set_nth {A} (l : list A) i j x d : (i < length l)%nat -> nth j (list_set l i x) d = if Nat.eqb j i then x else nth j l d.
Proof.
  revert i j; induction l as [|y l IH]; intros [|i] [|j] H; cbn in *; try lia; auto. apply IH. lia.
Qed.
Lemma nth_zrange_map {A} (f : Z -> A) n i d : 0 <= i < n -> nth (Z.to_nat i) (map f (zrange 0 n)) d = f i.
Proof.
  intros H. apply nth_error_nth. rewrite nth_error_map. pose proof (zrange_nth 0 n i H) as Q. rewrite Z.sub_0_r in Q. rewrite Q. reflexivity.
Qed.

Section MA.
  Context {T : Type} (zero : T) (add mul : T -> T -> T).
  (** left-to-right accumulation, as one thread does it *)
  Definition dot_lr (m : matrix T) (v : list T) (row : Z) (acc : T) (cols : list Z) : T :=
    fold_left (fun acc col => add acc (mul (m_at m row col) (nth (Z.to_nat col) v zero))) cols acc.
  Lemma ma_run m v sched : forall temp, 
    (forall rc, In rc sched -> 0 <= fst rc < Z.of_nat (length temp)) ->
    length (fold_left (ma_op zero add mul m v) sched temp) = length temp /\
    forall row, 0 <= row < Z.of_nat (length temp) ->
      nth (Z.to_nat row) (fold_left (ma_op zero add mul m v) sched temp) zero =
      dot_lr m v row (nth (Z.to_nat row) temp zero) (map snd (filter (fun rc => fst rc =? row) sched)).
  Proof.
    induction sched as [|[r c] sched IH]; intros temp H; cbn [fold_left]; [split; reflexivity|].
    pose proof (H (r, c) (or_introl eq_refl)) as Hr. cbn [fst] in Hr.
    set (t' := ma_op zero add mul m v temp (r, c)).
    assert (L : length t' = length temp) by apply list_set_length.
    destruct (IH t') as [A B]. { intros rc Hrc. rewrite L. apply H. right. exact Hrc. }
    split; [congruence|]. intros row Hrow. rewrite B by (rewrite L; exact Hrow). unfold t', ma_op.
    rewrite list_set_nth by lia. cbn [filter fst]. destruct (Z.eqb_spec r row) as [->|Hne].
    - rewrite Nat.eqb_refl. cbn [map snd]. reflexivity.
    - destruct (Nat.eqb_spec (Z.to_nat row) (Z.to_nat r)); [lia|reflexivity].
  Qed.
  Lemma multiply_assign_value garbage sched m temp v : legal_schedule (m_rows m) sched ->
    multiply_assign zero add mul garbage sched m temp v =
    (v, map (fun row => dot_lr m v row zero (zrange 0 (m_rows m))) (zrange 0 (m_rows m))).
  Proof.
    intros [H1 H2]. unfold multiply_assign. f_equal.
    set (t0 := vec_reset zero (vec_resize garbage temp (m_rows m))).
    assert (L0 : length t0 = Z.to_nat (m_rows m)) by (unfold t0, vec_reset, vec_resize; rewrite !map_length, zrange_length; f_equal; lia).
    assert (Z0 : forall i, nth i t0 zero = zero).
    { intros i. exact (map_nth (fun _ : T => zero) _ zero i). }
    destruct (ma_run m v sched t0) as [A B]. { intros rc Hrc. specialize (H1 rc Hrc). lia. }
    apply (nth_ext _ _ zero zero).
    - rewrite A, L0, map_length, zrange_length. f_equal. lia.
    - intros i Hi. rewrite A, L0 in Hi. specialize (B (Z.of_nat i)). rewrite Nat2Z.id in B. rewrite B by lia.
      rewrite Z0, H2 by lia. pose proof (nth_zrange_map (fun row => dot_lr m v row zero (zrange 0 (m_rows m))) (m_rows m) (Z.of_nat i) zero ltac:(lia)) as Q. rewrite Nat2Z.id in Q. rewrite Q. reflexivity.
  Qed.
End MA.

Section Rk.
  Context {K : StarRing}.
  Local Open Scope ring_scope_.
  Add Ring KringOde : (rth K).
  Local Notation len u := (Z.of_nat (length u)).

  Lemma vget_ext (u v : list K) : len u = len v -> (forall i, (0 <= i < len u)%Z -> vget u i = vget v i) -> u = v.
  Proof.
    intros L H. apply (nth_ext _ _ r0 r0); [lia|]. intros i Hi. specialize (H (Z.of_nat i) ltac:(lia)). unfold vget in H. rewrite Nat2Z.id in H. exact H.
  Qed.
  Lemma vadd_length (u v : list K) : len u = len v -> len (vadd u v) = len u.
  Proof. intros H. unfold vadd. rewrite map_length, combine_length. lia. Qed.
  Lemma vscale_length c (u : list K) : len (vscale c u) = len u.
  Proof. unfold vscale. rewrite map_length. reflexivity. Qed.
  Lemma vget_vadd (u v : list K) i : len u = len v -> vget (vadd u v) i = vget u i + vget v i.
  Proof.
    intros H. unfold vget, vadd. pose proof (map_nth (fun p : K * K => fst p + snd p) (combine u v) (0, 0) (Z.to_nat i)) as Q.
    cbn [fst snd] in Q. replace (0 + 0) with (@r0 K) in Q by ring. rewrite Q, combine_nth by lia. reflexivity.
  Qed.
  Lemma vget_vscale c (u : list K) i : vget (vscale c u) i = c * vget u i.
  Proof. unfold vget, vscale. pose proof (map_nth (rmul c) u 0 (Z.to_nat i)) as Q. replace (c * 0) with (@r0 K) in Q by ring. exact Q. Qed.

  Context (n : Z).
  Lemma vadd_n (u v : list K) : len u = n -> len v = n -> len (vadd u v) = n.
  Proof. intros A B. rewrite vadd_length; lia. Qed.
  Lemma vscale_n c (u : list K) : len u = n -> len (vscale c u) = n.
  Proof. intros A. rewrite vscale_length. exact A. Qed.
  Lemma vget_vadd_n (u v : list K) i : len u = n -> len v = n -> vget (vadd u v) i = vget u i + vget v i.
  Proof. intros A B. apply vget_vadd. congruence. Qed.
  Context (mul : list K -> list K) (Hlin : linear_on n mul).
  Lemma mul_length u : len u = n -> len (mul u) = n.
  Proof. destruct Hlin as (A & H). intros L. apply H, L. Qed.
  Lemma mul_add u v : len u = n -> len v = n -> mul (vadd u v) = vadd (mul u) (mul v).
  Proof.
    intros Lu Lv. pose proof (mul_length u Lu) as Mu. pose proof (mul_length v Lv) as Mv.
    assert (La : len (vadd u v) = n) by (rewrite vadd_length; lia).
    destruct Hlin as (A & H). apply vget_ext.
    - rewrite vadd_length by lia. rewrite (proj1 (H _ La)). lia.
    - intros i Hi. rewrite (proj1 (H _ La)) in Hi. rewrite vget_vadd by lia. rewrite (proj2 (H _ La)), (proj2 (H u Lu)), (proj2 (H v Lv)) by exact Hi.
      rewrite <- sum_over_add. apply sum_over_ext. intros j _. rewrite vget_vadd by lia. ring.
  Qed.
  Lemma mul_scale c u : len u = n -> mul (vscale c u) = vscale c (mul u).
  Proof.
    intros Lu. pose proof (mul_length u Lu) as Mu. assert (La : len (vscale c u) = n) by (rewrite vscale_length; lia).
    destruct Hlin as (A & H). apply vget_ext.
    - rewrite vscale_length. rewrite (proj1 (H _ La)). lia.
    - intros i Hi. rewrite (proj1 (H _ La)) in Hi. rewrite vget_vscale. rewrite (proj2 (H _ La)), (proj2 (H u Lu)) by exact Hi.
      rewrite <- sum_over_mul_l. apply sum_over_ext. intros j _. rewrite vget_vscale. ring.
  Qed.
  Lemma mpow_length k u : len u = n -> len (mpow mul k u) = n.
  Proof. intros L. induction k; cbn [mpow]; [exact L|]. apply mul_length, IHk. Qed.
  Lemma mpow_add k u v : len u = n -> len v = n -> mpow mul k (vadd u v) = vadd (mpow mul k u) (mpow mul k v).
  Proof. intros Lu Lv. induction k as [|k IH]; cbn [mpow]; [reflexivity|]. rewrite IH. apply mul_add; apply mpow_length; assumption. Qed.
  Lemma mpow_scale k c u : len u = n -> mpow mul k (vscale c u) = vscale c (mpow mul k u).
  Proof. intros Lu. induction k as [|k IH]; cbn [mpow]; [reflexivity|]. rewrite IH. apply mul_scale, mpow_length, Lu. Qed.
  Lemma mpow_mul k u : mpow mul k (mul u) = mul (mpow mul k u).
  Proof. induction k as [|k IH]; cbn [mpow]; [reflexivity|]. rewrite IH. reflexivity. Qed.

  Context (half sixth : K) (Hhalf : half + half = 1) (Hsixth : sixth + sixth + sixth + sixth + sixth + sixth = 1).
  Ltac lens := repeat first [rewrite vadd_length by lens | rewrite vscale_length | rewrite mpow_length by assumption | rewrite mul_length by lens]; try lia; try assumption.
  Lemma step_value rk st u : len u = n ->
    let a k := mpow mul k u in let w := rk_step_size rk * sixth in
    snd (rk_step half sixth rk mul st u) =
    vadd (a O) (vadd (vscale (num 6 * w) (a 1%nat)) (vadd (vscale (num 18 * w * w) (a 2%nat))
      (vadd (vscale (num 36 * w * w * w) (a 3%nat)) (vscale (num 54 * w * w * w * w) (a 4%nat))))).
  Proof.
    intros Lu a w. unfold rk_step. cbn [s_k1 s_k2 s_k3 s_k4 snd].
    assert (Hh : rk_step_size rk = num 6 * w).
    { unfold w. replace (num 6 * (rk_step_size rk * sixth)) with (rk_step_size rk * (sixth + sixth + sixth + sixth + sixth + sixth)) by (cbn [num]; ring).
      rewrite Hsixth. ring. }
    assert (Hg : rk_step_size rk * half = num 3 * w).
    { rewrite Hh. replace (num 6 * w * half) with (num 3 * w * (half + half)) by (cbn [num]; ring). rewrite Hhalf. ring. }
    rewrite Hg. unfold rk_combine. fold w. cbn [s_k1 s_k2 s_k3 s_k4]. rewrite Hh. clearbody w.
    rewrite !(mul_add u) by lens. rewrite !mul_scale by lens. rewrite !(mul_add (mul u)) by lens. rewrite !mul_scale by lens.
    rewrite !(mul_add (mul (mul u))) by lens. rewrite !mul_scale by lens.
    apply vget_ext.
    - unfold a. lens.
    - intros i _. unfold a. cbn [mpow].
      repeat first [rewrite vget_vadd by lens | rewrite vget_vscale]. cbn [num]. ring.
  Qed.
  Lemma step_length rk st u : len u = n -> len (snd (rk_step half sixth rk mul st u)) = n.
  Proof. intros Lu. rewrite step_value by exact Lu. lens. Qed.

  (** *** scalar products *)
  Lemma inner_add_l (x y z : list K) : len x = len y -> inner (vadd x y) z = inner x z + inner y z.
  Proof.
    intros H. unfold inner. rewrite vadd_length by exact H. rewrite <- H. rewrite <- sum_over_add. apply sum_over_ext. intros i _.
    rewrite vget_vadd by exact H. rewrite conj_add. ring.
  Qed.
  Lemma inner_scale_l c (x z : list K) : inner (vscale c x) z = kconj c * inner x z.
  Proof. unfold inner. rewrite vscale_length. rewrite <- sum_over_mul_l. apply sum_over_ext. intros i _. rewrite vget_vscale, conj_mul. ring. Qed.
  Lemma inner_add_r (x y z : list K) : len y = len z -> inner x (vadd y z) = inner x y + inner x z.
  Proof. intros H. unfold inner. rewrite <- sum_over_add. apply sum_over_ext. intros i _. rewrite vget_vadd by exact H. ring. Qed.
  Lemma inner_scale_r c (x z : list K) : inner x (vscale c z) = c * inner x z.
  Proof. unfold inner. rewrite <- sum_over_mul_l. apply sum_over_ext. intros i _. rewrite vget_vscale. ring. Qed.
End Rk.
Ltac vlen Hlin := repeat first [assumption | apply vadd_n | apply vscale_n | apply (mpow_length _ _ Hlin) | apply (mul_length _ _ Hlin) ].
Ltac vexp n Hlin := repeat first [rewrite vget_vscale | rewrite (vget_vadd_n n) by (vlen Hlin)].
