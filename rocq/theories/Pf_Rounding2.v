(** PROOFS: error analysis of the sparse product and of one Runge-Kutta step. *)
From Coq Require Import Reals Lra Psatz List ZArith Lia Sorting.Sorted.
From Verif Require Import Base M_Matrix M_Dispersion Spec_Matrix Pf_Matrix Spec_Stability M_Ode P_Ode P_Dynamics Pf_Stability Pf_Stability2 Pf_Stability3 P_Stability M_Rounding Spec_Rounding Pf_Rounding.
Local Open Scope R_scope.
Local Open Scope list_scope.
Local Notation len u := (Z.of_nat (length u)).

Lemma SR_pick_fun n (g : Z -> R) k : (0 <= k < n)%Z -> SR (fun j => if Z.eqb k j then g j else 0) (zrange 0 n) = g k.
Proof.
  intros Hk. rewrite (SR_ext _ (fun j => if Z.eqb k j then g k else 0)) by (intros j _; destruct (Z.eqb_spec k j) as [->|]; reflexivity).
  apply SR_pick_eq; [apply zrange_nodup|]. apply zrange_in. exact Hk.
Qed.
Lemma SR_sub {T} (f g : T -> R) l : SR (fun x => f x - g x) l = SR f l - SR g l.
Proof. induction l as [|a l IH]; cbn [SR]; [ring|rewrite IH; ring]. Qed.
Lemma row_pick n (F : CR -> Z -> R) : (forall j, F (@r0 CR) j = 0) -> forall l : list (Z * CR),
  NoDup (map fst l) -> Forall (fun e => (0 <= fst e < n)%Z) l ->
  SR (fun j => F (sum_over snd (filter (fun e => Z.eqb (fst e) j) l)) j) (zrange 0 n) = SR (fun e => F (snd e) (fst e)) l.
Proof.
  intros F0. induction l as [|e l IH]; intros Hn Hr.
  - cbn [filter SR]. rewrite (SR_ext _ (fun _ => 0)); [apply SR_zero|]. intros j _. apply F0.
  - cbn [map] in Hn. inversion Hn as [|? ? Hni Hnd]; subst. inversion Hr as [|? ? He Hl]; subst. cbn [SR]. rewrite <- (IH Hnd Hl).
    rewrite <- (SR_pick_fun n (fun j => F (snd e) j) (fst e) He). rewrite <- SR_add. apply SR_ext. intros j _. cbn [filter].
    destruct (Z.eqb_spec (fst e) j) as [Ej|]; [|ring].
    assert (Z0 : filter (fun e0 : Z * CR => Z.eqb (fst e0) j) l = []).
    { clear - Hni Ej. induction l as [|a l IH]; [reflexivity|]. cbn [filter]. cbn [map] in Hni. destruct (Z.eqb_spec (fst a) j).
      - exfalso. apply Hni. left. etransitivity; [eassumption|symmetry; exact Ej].
      - apply IH. intros Hi. apply Hni. right. exact Hi. }
    rewrite Z0. rewrite sum_over_cons, !sum_over_nil, F0. rewrite Rplus_0_r. f_equal. destruct (snd e) as [a b]. cbn in a, b. cbn. f_equal; ring.
Qed.

Section Mat.
  Context (u eta H : R) (ar : arith).
  Hypothesis u0 : 0 <= u.
  Hypothesis e0 : 0 <= eta.
  Hypothesis acc : accurate u eta H ar.
  Local Notation pw := (pw u).
  Local Notation sdev := (sdev u).
  Context (n : Z) (m : bmat CR) (W : nat) (L : R).
  Hypothesis wf : well_formed m n.
  Hypothesis HW : Forall (fun r => (length r <= W)%nat) (bm_done m).
  Hypothesis rows : row_bound n (entry m) L.
  Hypothesis L0 : 0 <= L.
  Local Notation I := (idx n).
  Let S := SM (entry m).
  Let A := fun p q => Rabs (S p q).

  (** the quadruples of a row *)
  Definition quads (c : bool) (v : list CR) (row : list (Z * CR)) : list quadr :=
    map (fun e => if c then ((fst (snd e), fst (vget v (fst e))), (snd (snd e), snd (vget v (fst e))))
                  else ((fst (snd e), snd (vget v (fst e))), (snd (snd e), fst (vget v (fst e))))) row.
  Lemma fold_parts v row : forall a : CR,
    fold_left (fun acc e => cf_add ar acc (cf_mul ar (snd e) (vget v (fst e)))) row a =
    (fold_left (fun a q => f_add ar a (f_add ar (f_mul ar (fst (fst q)) (snd (fst q))) (sg true (f_mul ar (fst (snd q)) (snd (snd q)))))) (quads true v row) (fst a),
     fold_left (fun a q => f_add ar a (f_add ar (f_mul ar (fst (fst q)) (snd (fst q))) (sg false (f_mul ar (fst (snd q)) (snd (snd q)))))) (quads false v row) (snd a)).
  Proof.
    induction row as [|e row IH]; intros a; cbn [fold_left quads map]; [destruct a; reflexivity|]. rewrite IH. reflexivity.
  Qed.
  Lemma fsp_part v i c : (0 <= i < n)%Z -> vec (fsp_vec ar m v) (i, c) = qrow ar c (quads c v (row_of m i)).
  Proof.
    intros Hi. unfold vec, vecf, fsp_vec. cbn [fst snd]. unfold vget at 1.
    pose proof (map_nth (fun row => fold_left (fun acc e => cf_add ar acc (cf_mul ar (snd e) (vget v (fst e)))) row ((0, 0) : CR)) (bm_done m) [] (Z.to_nat i)) as Q.
    cbn [fold_left] in Q. change (@r0 CR) with ((0, 0) : CR). rewrite Q. clear Q. fold (row_of m i). rewrite fold_parts. destruct c; reflexivity.
  Qed.
  Lemma row_in i : (0 <= i < n)%Z -> In (row_of m i) (bm_done m).
  Proof. intros Hi. unfold row_of. apply nth_In. destruct wf as (_ & Ln & _). lia. Qed.
  Lemma row_nodup i : (0 <= i < n)%Z -> NoDup (map fst (row_of m i)) /\ Forall (fun e => (0 <= fst e < n)%Z) (row_of m i).
  Proof.
    intros Hi. destruct wf as (_ & _ & _ & F & _). rewrite Forall_forall in F. destruct (F _ (row_in i Hi)) as [F1 F2]. split; [|exact F2].
    clear - F1. induction (map fst (row_of m i)) as [|a l IH]; [constructor|]. apply StronglySorted_inv in F1 as [F1 F2]. constructor; [|apply IH, F1].
    intros Hi. rewrite Forall_forall in F2. specialize (F2 a Hi). lia.
  Qed.
  Lemma qsum_ap v i c : (0 <= i < n)%Z -> qsum c (quads c v (row_of m i)) = ap I S (vec v) (i, c).
  Proof.
    intros Hi. destruct (row_nodup i Hi) as [N1 N2]. unfold ap. rewrite SR_idx. unfold S, SM, vec, vecf. cbn [fst snd]. unfold entry.
    unfold qsum, quads. rewrite SR_map. destruct c; cbn [sg].
    - rewrite (row_pick n (fun (z : CR) j => fst z * fst (vget v j) + - snd z * snd (vget v j))) by (try assumption; intros; cbn; ring).
      apply SR_ext. intros [j [a b]] _. unfold q1, q2. cbn [fst snd]. destruct (vget v j) as [x y]. cbn in a, b, x, y. cbn [fst snd]. ring.
    - rewrite (row_pick n (fun (z : CR) j => snd z * fst (vget v j) + fst z * snd (vget v j))) by (try assumption; intros; cbn; ring).
      apply SR_ext. intros [j [a b]] _. unfold q1, q2. cbn [fst snd]. destruct (vget v j) as [x y]. cbn in a, b, x, y. cbn [fst snd]. ring.
  Qed.
  Lemma qabs_ap v i c : (0 <= i < n)%Z -> qabs (quads c v (row_of m i)) = ap I A (fun p => Rabs (vec v p)) (i, c).
  Proof.
    intros Hi. destruct (row_nodup i Hi) as [N1 N2]. unfold ap. rewrite SR_idx. unfold A, S, SM, vec, vecf. cbn [fst snd]. unfold entry.
    unfold qabs, quads. rewrite SR_map. destruct c; cbn [part].
    - rewrite (row_pick n (fun (z : CR) j => Rabs (fst z) * Rabs (fst (vget v j)) + Rabs (- snd z) * Rabs (snd (vget v j)))) by (try assumption; intros; cbn; rewrite Ropp_0, Rabs_R0; ring).
      apply SR_ext. intros [j [a b]] _. unfold q1, q2. cbn [fst snd]. destruct (vget v j) as [x y]. cbn in a, b, x, y. cbn [fst snd]. rewrite !Rabs_mult, Rabs_Ropp. reflexivity.
    - rewrite (row_pick n (fun (z : CR) j => Rabs (snd z) * Rabs (fst (vget v j)) + Rabs (fst z) * Rabs (snd (vget v j)))) by (try assumption; intros; cbn; rewrite Rabs_R0; ring).
      apply SR_ext. intros [j [a b]] _. unfold q1, q2. cbn [fst snd]. destruct (vget v j) as [x y]. cbn in a, b, x, y. cbn [fst snd]. rewrite !Rabs_mult. ring.
  Qed.
  Lemma ap_le_const X c p : In p I -> (forall q, In q I -> Rabs (X q) <= c) -> 0 <= c -> ap I A X p <= L * c.
  Proof.
    intros Hp HX Hc. eapply Rle_trans; [|apply Rmult_le_compat_r; [exact Hc|exact (SM_rows n (entry m) L rows p Hp)]].
    rewrite (Rmult_comm (SR _ _)), <- SR_mul. apply SR_le. intros q Hq. unfold A, S. pose proof (HX q Hq). pose proof (Rabs_pos (SM (entry m) p q)).
    pose proof (Rle_abs (X q)). nra.
  Qed.
  (** the product as a rule: X majorizes the vector, c bounds X *)
  Definition Dev (k : nat) (X : Z * bool -> R) (c t : R) (y x : Z * bool -> R) : Prop :=
    forall p, In p I -> sdev k (X p) t (y p) (x p) /\ X p <= c.
  Lemma dev_mat k X c t v x : 0 <= c -> 0 <= t -> Dev k X c t (vec v) x -> pw (k + (W + 2)) * (L * (c + t) + 4 * INR W * eta) <= H ->
    Dev (k + (W + 2)) (ap I A X) (L * c) (L * t + 4 * INR W * eta) (vec (fsp_vec ar m v)) (ap I S x).
  Proof.
    intros c0 t0 D HR [i b] Hp. pose proof Hp as Hi. apply idx_in in Hi. cbn [fst] in Hi.
    assert (X0 : forall q, In q I -> 0 <= X q) by (intros q Hq; apply (sdev_X u k _ t _ _ (Logic.proj1 (D q Hq)))).
    assert (Xc : forall q, In q I -> Rabs (X q) <= c) by (intros q Hq; rewrite Rabs_pos_eq by (apply X0; exact Hq); apply (D q Hq)).
    pose proof (pw_ge u u0 k) as Pk. pose proof (pw_ge u u0 (W + 2)) as PW. pose proof (pos_INR W) as IW.
    set (B := ap I A X (i, b)).
    assert (B1 : B <= L * c) by (apply ap_le_const; assumption).
    assert (B0 : 0 <= B) by (apply SR_nonneg; intros q Hq; apply Rmult_le_pos; [apply Rabs_pos|apply X0; exact Hq]).
    (* the absolute row sum with the computed vector *)
    assert (Q : qabs (quads b v (row_of m i)) <= pw k * (B + L * t)).
    { rewrite (qabs_ap v i b Hi). unfold ap. apply Rle_trans with (SR (fun q => pw k * (A (i, b) q * X q + t * A (i, b) q)) I).
      - apply SR_le. intros q Hq. assert (0 <= A (i, b) q) by apply Rabs_pos.
        pose proof (sdev_hat u k _ _ _ _ (Logic.proj1 (D q Hq))) as Hh. pose proof (Rmult_le_compat_l _ _ _ H0 Hh). nra.
      - rewrite SR_mul, SR_add, SR_mul. apply Rmult_le_compat_l; [lra|]. fold (ap I A X (i, b)). fold B.
        pose proof (SM_rows n (entry m) L rows (i, b) Hp) as Rw. fold S in Rw. fold (A (i, b)) in Rw. change (SR (A (i, b)) I <= L) in Rw. nra. }
    assert (EW : 0 <= 4 * INR W * eta) by (apply Rmult_le_pos; lra).
    assert (HRq : pw (W + 2) * (qabs (quads b v (row_of m i)) + 4 * INR W * eta) <= H).
    { eapply Rle_trans; [|exact HR]. rewrite (pw_add u k (W + 2)), (Rmult_comm (pw k) (pw (W + 2))), (Rmult_assoc (pw (W + 2)) (pw k)). apply Rmult_le_compat_l; [lra|]. nra. }
    assert (Lr : (length (quads b v (row_of m i)) <= W)%nat).
    { unfold quads. rewrite map_length. rewrite Forall_forall in HW. apply HW, row_in, Hi. }
    pose proof (qrow_dev u eta H ar u0 e0 acc b W _ Lr HRq) as F.
    apply (sdev_mono u u0 _ (W + 2) _ _ (4 * INR W * eta)) in F; [|lia|apply Rmult_le_compat_r; [exact e0|]; apply Rmult_le_compat_l; [lra|]; apply le_INR; exact Lr].
    rewrite (qsum_ap v i b Hi), <- (fsp_part v i b Hi) in F. destruct F as (F1 & F2 & F3).
    split; [|exact B1]. split; [|split].
    - unfold ap. eapply Rle_trans; [apply SR_abs|]. apply SR_le. intros q Hq. rewrite Rabs_mult. unfold A. apply Rmult_le_compat_l; [apply Rabs_pos|]. apply (D q Hq).
    - assert (0 <= L * t) by (apply Rmult_le_pos; assumption). lra.
    - replace (vec (fsp_vec ar m v) (i, b) - ap I S x (i, b)) with
        ((vec (fsp_vec ar m v) (i, b) - ap I S (vec v) (i, b)) + (ap I S (vec v) (i, b) - ap I S x (i, b))) by ring.
      eapply Rle_trans; [apply Rabs_triang|].
      assert (G : Rabs (ap I S (vec v) (i, b) - ap I S x (i, b)) <= (pw k - 1) * B + pw k * (L * t)).
      { unfold ap. rewrite <- SR_sub. eapply Rle_trans; [apply SR_abs|].
        apply Rle_trans with (SR (fun q => (pw k - 1) * (A (i, b) q * X q) + pw k * (t * A (i, b) q)) I).
        - apply SR_le. intros q Hq. replace (S (i, b) q * vec v q - S (i, b) q * x q) with (S (i, b) q * (vec v q - x q)) by ring. rewrite Rabs_mult. fold (A (i, b) q).
          destruct (D q Hq) as [(_ & _ & E) _]. assert (0 <= A (i, b) q) by apply Rabs_pos. pose proof (Rmult_le_compat_l _ _ _ H0 E). nra.
        - rewrite SR_add, !SR_mul. fold (ap I A X (i, b)). fold B. pose proof (SM_rows n (entry m) L rows (i, b) Hp) as Rw. fold S in Rw.
          change (SR (A (i, b)) I <= L) in Rw. assert (t * SR (A (i, b)) I <= L * t) by nra. nra. }
      rewrite (pw_add u k (W + 2)). assert (Q2 : (pw (W + 2) - 1) * qabs (quads b v (row_of m i)) <= (pw (W + 2) - 1) * (pw k * (B + L * t))) by (apply Rmult_le_compat_l; lra).
      assert (EE : pw (W + 2) * (4 * INR W * eta) <= pw k * (pw (W + 2) * (4 * INR W * eta))).
      { assert (0 <= pw (W + 2) * (4 * INR W * eta)) by (apply Rmult_le_pos; lra). nra. }
      fold B. lra.
  Qed.

  (** ** Vector expressions *)
  Lemma vget_map2 (f : CR -> CR -> CR) a b i : len a = n -> len b = n -> (0 <= i < n)%Z ->
    vget (map (fun p => f (fst p) (snd p)) (combine a b)) i = f (vget a i) (vget b i).
  Proof.
    intros La Lb Hi. unfold vget. assert (Hn : (Z.to_nat i < length (combine a b))%nat) by (rewrite combine_length; lia).
    rewrite (nth_indep _ _ (f (@r0 CR) (@r0 CR))) by (rewrite map_length; exact Hn).
    change (f r0 r0) with ((fun p : CR * CR => f (fst p) (snd p)) (r0, r0)). rewrite map_nth. rewrite combine_nth by lia. reflexivity.
  Qed.
  Lemma fv_add_vec a b p : len a = n -> len b = n -> In p I -> vec (fv_add ar a b) p = f_add ar (vec a p) (vec b p).
  Proof.
    intros La Lb Hp. apply idx_in in Hp. unfold vec, vecf, fv_add. rewrite (vget_map2 (cf_add ar)) by assumption. destruct (snd p); reflexivity.
  Qed.
  Lemma fv_scale_vec c a p : len a = n -> In p I -> vec (fv_scale ar c a) p = f_mul ar c (vec a p).
  Proof.
    intros La Hp. apply idx_in in Hp. unfold vec, vecf, fv_scale, vget. assert (Hn : (Z.to_nat (fst p) < length a)%nat) by lia.
    rewrite (nth_indep _ _ (cf_scale ar c (@r0 CR))) by (rewrite map_length; exact Hn). rewrite map_nth. destruct (snd p); reflexivity.
  Qed.
  Lemma fv_add_len a b : len a = n -> len b = n -> len (fv_add ar a b) = n.
  Proof. intros La Lb. unfold fv_add. rewrite map_length, combine_length. lia. Qed.
  Lemma fv_scale_len c a : len a = n -> len (fv_scale ar c a) = n.
  Proof. intros La. unfold fv_scale. rewrite map_length. exact La. Qed.
  Lemma fsp_len v : len (fsp_vec ar m v) = n.
  Proof. unfold fsp_vec. rewrite map_length. apply wf. Qed.

  Lemma dev_mono k k' X c c' t t' y x : (k <= k')%nat -> c <= c' -> t <= t' -> Dev k X c t y x -> Dev k' X c' t' y x.
  Proof. intros Hk Hc Ht D p Hp. destruct (D p Hp) as [D1 D2]. split; [|lra]. apply (sdev_mono u u0 k k' _ t t'); assumption. Qed.
  Lemma dev_add k X Y c d t s a b x y : len a = n -> len b = n -> pw k * (c + d + (t + s)) <= H ->
    Dev k X c t (vec a) x -> Dev k Y d s (vec b) y ->
    Dev (Datatypes.S k) (fun p => X p + Y p) (c + d) (t + s + eta) (vec (fv_add ar a b)) (fun p => x p + y p).
  Proof.
    intros La Lb HR D1 D2 p Hp. destruct (D1 p Hp) as [A1 A2]. destruct (D2 p Hp) as [B1 B2]. split; [|lra].
    rewrite fv_add_vec by assumption. apply (sdev_fadd u eta H ar u0 e0 acc); try assumption.
    eapply Rle_trans; [|exact HR]. apply Rmult_le_compat_l; [pose proof (pw_ge u u0 k); lra|lra].
  Qed.
  Lemma dev_scale j k c' c X d t a x : len a = n -> pw (j + k) * (Rabs c * d + Rabs c * t) <= H -> Rabs (c' - c) <= (pw j - 1) * Rabs c ->
    Dev k X d t (vec a) x ->
    Dev (Datatypes.S (j + k)) (fun p => Rabs c * X p) (Rabs c * d) (Rabs c * t + eta) (vec (fv_scale ar c' a)) (fun p => c * x p).
  Proof.
    intros La HR Hc D p Hp. destruct (D p Hp) as [A1 A2]. pose proof (Rabs_pos c) as Pc. split; [|apply Rmult_le_compat_l; lra].
    rewrite fv_scale_vec by assumption. apply (sdev_fmul u eta H ar u0 e0 acc); try assumption.
    eapply Rle_trans; [|exact HR]. apply Rmult_le_compat_l; [pose proof (pw_ge u u0 (j + k)); lra|]. apply Rplus_le_compat_r, Rmult_le_compat_l; lra.
  Qed.
End Mat.

(** ** The Runge-Kutta step on functions *)
Definition rkf {T} (I : list T) (S : T -> T -> R) (h : R) (x : T -> R) : T -> R :=
  let v2 := fun p => x p + h / 2 * ap I S x p in
  let v3 := fun p => x p + h / 2 * ap I S v2 p in
  let v4 := fun p => x p + h * ap I S v3 p in
  fun p => x p + h / 6 * (ap I S x p + 2 * ap I S v2 p + 2 * ap I S v3 p + ap I S v4 p).
Lemma rkf_P {T} (I : list T) S h x p : rkf I S h x p = P I S h x p.
Proof.
  unfold rkf. set (v2 := fun p => x p + h / 2 * ap I S x p). set (v3 := fun p => x p + h / 2 * ap I S v2 p). set (v4 := fun p => x p + h * ap I S v3 p).
  assert (V2 : forall q, ap I S v2 q = ap I S x q + h / 2 * apn I S 2 x q) by (intros q; unfold v2; rewrite ap_add, ap_mul; reflexivity).
  assert (V3 : forall q, ap I S v3 q = ap I S x q + h / 2 * (apn I S 2 x q + h / 2 * apn I S 3 x q)).
  { intros q. unfold v3. rewrite ap_add, ap_mul. do 2 f_equal. rewrite (ap_ext I S _ _ (fun q _ => V2 q)). rewrite ap_add, ap_mul. reflexivity. }
  assert (V4 : ap I S v4 p = ap I S x p + h * (apn I S 2 x p + h / 2 * (apn I S 3 x p + h / 2 * apn I S 4 x p))).
  { unfold v4. rewrite ap_add, ap_mul. do 2 f_equal. rewrite (ap_ext I S _ _ (fun q _ => V3 q)). rewrite ap_add, ap_mul. do 2 f_equal. rewrite ap_add, ap_mul. reflexivity. }
  rewrite V2, V3, V4. unfold P. field.
Qed.
