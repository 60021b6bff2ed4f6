(** PROOFS for C116: two matrices which agree on a window give the same run as long as it stays inside the window. *)
From Coq Require Import Reals Lra Psatz Permutation.
From Verif Require Import Base M_Operator M_Lattice Spec_Lattice Pf_Lattice M_Basis Pf_Basis M_Matrix M_Ode M_Dispersion M_OpenMP
  Pf_Matrix Spec_Matrix Pf_Matrix2 P_Matrix Spec_Stability Pf_Stability Pf_Stability2 Pf_Stability3 P_Stability Spec_Ode P_Ode Spec_Programs Pf_MatrixEntry P_OccupationFree Pf_Symmetry Pf_Theory Pf_Theory2 Spec_LightCone Pf_LightCone.
From Verif Require Import P_FermiJump.
Local Open Scope R_scope.
Local Open Scope list_scope.
Local Notation len u := (Z.of_nat (length u)).

Lemma SR_keep {T} (w : T -> bool) (h : T -> R) l : (forall x, In x l -> w x = false -> h x = 0) -> SR h l = SR h (filter w l).
Proof.
  induction l as [|x l IH]; intros H; [reflexivity|]. cbn [filter]. pose proof (IH (fun y Hy => H y (or_intror Hy))) as Q. destruct (w x) eqn:W; unfold SR in *; cbn in *; rewrite Q; [reflexivity|]. rewrite (H x (or_introl eq_refl) W). ring.
Qed.
Lemma nodup_map {T S} (h : T -> S) l : (forall x y, In x l -> In y l -> h x = h y -> x = y) -> NoDup l -> NoDup (map h l).
Proof.
  induction l as [|a l IH]; intros H N; [constructor|]. inversion N as [|? ? N1 N2]; subst. cbn. constructor; [|apply IH; [intros x y Hx Hy; apply H; right; assumption|exact N2]].
  rewrite in_map_iff. intros (x & Q & Hx). apply N1. rewrite <- (H x a (or_intror Hx) (or_introl eq_refl) Q). exact Hx.
Qed.
Section Window.
  Variables (n n' : Z) (E E' : Z -> Z -> CR) (lv lv' f g : Z -> Z) (D : Z).
  Hypothesis F : forall i, (0 <= i < n)%Z -> (lv i <= D)%Z -> (0 <= f i < n')%Z /\ lv' (f i) = lv i /\ g (f i) = i.
  Hypothesis G : forall i, (0 <= i < n')%Z -> (lv' i <= D)%Z -> (0 <= g i < n)%Z /\ lv (g i) = lv' i /\ f (g i) = i.
  Hypothesis same : forall i j, (0 <= i < n)%Z -> (0 <= j < n)%Z -> (lv i <= D)%Z -> (lv j <= D - 1)%Z -> E' (f i) (f j) = E i j.
  Definition fw (p : Z * bool) : Z * bool := (f (fst p), snd p).
  Lemma window_perm : Permutation (map f (filter (fun i => lv i <=? D)%Z (zrange 0 n))) (filter (fun i => lv' i <=? D)%Z (zrange 0 n')).
  Proof.
    apply NoDup_Permutation.
    - apply nodup_map; [|apply NoDup_filter, zrange_nodup]. intros x y Hx Hy Q. apply filter_In in Hx, Hy. rewrite zrange_in in Hx, Hy. rewrite Z.leb_le in Hx, Hy.
      destruct Hx as [Hx Lx], Hy as [Hy Ly]. destruct (F x Hx Lx) as (_ & _ & <-), (F y Hy Ly) as (_ & _ & <-). rewrite Q. reflexivity.
    - apply NoDup_filter, zrange_nodup.
    - intros x. rewrite in_map_iff, filter_In, zrange_in, Z.leb_le. split.
      + intros (i & <- & Hi). rewrite filter_In, zrange_in, Z.leb_le in Hi. destruct Hi as [Hi L]. destruct (F i Hi L) as (A & B & _). rewrite B. auto.
      + intros [Hx L]. destruct (G x Hx L) as (A & B & C). exists (g x). split; [exact C|]. rewrite filter_In, zrange_in, Z.leb_le, B. auto.
  Qed.
  Lemma window_sum h h' : (forall p, In p (idx n) -> (D < lv (fst p))%Z -> h p = 0) -> (forall p, In p (idx n') -> (D < lv' (fst p))%Z -> h' p = 0) ->
    (forall p, In p (idx n) -> (lv (fst p) <= D)%Z -> h' (fw p) = h p) -> SR h (idx n) = SR h' (idx n').
  Proof.
    intros H1 H2 H3. rewrite !SR_idx. rewrite (SR_keep (fun i => lv i <=? D)%Z _ (zrange 0 n)), (SR_keep (fun i => lv' i <=? D)%Z _ (zrange 0 n')).
    - rewrite <- !sum_SR. transitivity (sum_over (K := Rring) (fun i => h' (i, true) + h' (i, false)) (map f (filter (fun i => lv i <=? D)%Z (zrange 0 n)))); [|apply (sum_over_perm Rring), window_perm].
      rewrite (sum_over_map Rring). apply (sum_over_ext Rring). intros i Hi. rewrite filter_In, zrange_in, Z.leb_le in Hi. destruct Hi as [Hi L].
      pose proof (H3 (i, true) ltac:(apply idx_in; exact Hi) L) as A. pose proof (H3 (i, false) ltac:(apply idx_in; exact Hi) L) as B. unfold fw in A, B. cbn [fst snd] in A, B. rewrite A, B. reflexivity.
    - intros i Hi W. apply zrange_in in Hi. apply Z.leb_gt in W. rewrite (H2 (i, true) ltac:(apply idx_in; exact Hi) W), (H2 (i, false) ltac:(apply idx_in; exact Hi) W). ring.
    - intros i Hi W. apply zrange_in in Hi. apply Z.leb_gt in W. rewrite (H1 (i, true) ltac:(apply idx_in; exact Hi) W), (H1 (i, false) ltac:(apply idx_in; exact Hi) W). ring.
  Qed.
  Definition agree (x x' : Z * bool -> R) : Prop := forall p, In p (idx n) -> (lv (fst p) <= D)%Z -> x' (fw p) = x p.
  Lemma agree_ap x x' : inside n lv (D - 1) x -> inside n' lv' (D - 1) x' -> agree x x' -> agree (ap (idx n) (SM E) x) (ap (idx n') (SM E') x').
  Proof.
    intros I I' A p Hp L. unfold ap. symmetry. apply window_sum.
    - intros q Hq W. rewrite (I q Hq ltac:(lia)). ring.
    - intros q Hq W. rewrite (I' q Hq ltac:(lia)). ring.
    - intros q Hq W. rewrite (A q Hq W). destruct (Z.eq_dec (lv (fst q)) D) as [e|e]; [rewrite (I q Hq ltac:(lia)); ring|]. f_equal. apply idx_in in Hp, Hq. unfold SM, fw. cbn [fst snd]. rewrite same by (assumption || lia). reflexivity.
  Qed.
  Hypothesis local : forall i j, (0 <= i < n)%Z -> (0 <= j < n)%Z -> (lv j + 1 < lv i)%Z -> E i j = real 0.
  Hypothesis local' : forall i j, (0 <= i < n')%Z -> (0 <= j < n')%Z -> (lv' j + 1 < lv' i)%Z -> E' i j = real 0.
  Lemma agree_apn k d x x' : (d + Z.of_nat k <= D)%Z -> inside n lv d x -> inside n' lv' d x' -> agree x x' -> agree (apn (idx n) (SM E) k x) (apn (idx n') (SM E') k x').
  Proof.
    intros L0 I I' A. induction k as [|k IH]; [exact A|]. cbn [apn]. apply agree_ap; [| |apply IH; lia].
    - apply (inside_more n lv (d + Z.of_nat k)); [lia|]. apply (inside_apn n E lv local); exact I.
    - apply (inside_more n' lv' (d + Z.of_nat k)); [lia|]. apply (inside_apn n' E' lv' local'); exact I'.
  Qed.
  Lemma agree_P h d x x' : (d + 4 <= D)%Z -> inside n lv d x -> inside n' lv' d x' -> agree x x' -> agree (P (idx n) (SM E) h x) (P (idx n') (SM E') h x').
  Proof.
    intros L0 I I' A p Hp L. unfold P. rewrite (A p Hp L), (agree_apn 1 d x x' ltac:(lia) I I' A p Hp L : ap _ _ _ _ = ap _ _ _ _), (agree_apn 2 d x x' ltac:(lia) I I' A p Hp L), (agree_apn 3 d x x' ltac:(lia) I I' A p Hp L), (agree_apn 4 d x x' ltac:(lia) I I' A p Hp L). reflexivity.
  Qed.
  Variables mul mul' : list CR -> list CR.
  Hypothesis acts : acts_as CR n E mul.
  Hypothesis acts' : acts_as CR n' E' mul'.
  Lemma agree_run c c' dt sts : forall sts' d u u', length sts' = length sts -> (d + 4 * Z.of_nat (length sts) <= D)%Z -> len u = n -> len u' = n' ->
    inside n lv d (vec u) -> inside n' lv' d (vec u') -> agree (vec u) (vec u') ->
    agree (vec (run_steps CR (real (1/2)) (real (1/6)) (mkRk4 (K:=CR) c (real dt)) mul sts u)) (vec (run_steps CR (real (1/2)) (real (1/6)) (mkRk4 (K:=CR) c' (real dt)) mul' sts' u')).
  Proof.
    induction sts as [|st sts IH]; intros [|st' sts'] d u u' Ls L0 Lu Lu' I I' A; try discriminate; [exact A|]. cbn [run_steps length] in *.
    destruct (vec_step n E mul acts c dt st u Lu) as [L1 V1]. destruct (vec_step n' E' mul' acts' c' dt st' u' Lu') as [L1' V1'].
    apply (IH sts' (d + 4)%Z); [lia|lia|exact L1|exact L1'| | |].
    - intros p Hp W. rewrite (V1 p Hp). apply (inside_P n E lv local dt d (vec u) I p Hp W).
    - intros p Hp W. rewrite (V1' p Hp). apply (inside_P n' E' lv' local' dt d (vec u') I' p Hp W).
    - intros p Hp W. assert (Hp' : In (fw p) (idx n')) by (apply idx_in; unfold fw; cbn [fst]; apply idx_in in Hp; destruct (F _ Hp W) as (Q & _); exact Q).
      rewrite (V1 p Hp), (V1' _ Hp'). apply (agree_P dt d); [lia|assumption..].
  Qed.
  Lemma agree_vget u u' : agree (vec u) (vec u') -> forall i, (0 <= i < n)%Z -> (lv i <= D)%Z -> vget u' (f i) = vget u i.
  Proof.
    intros A i Hi L. pose proof (A (i, true) ltac:(apply idx_in; exact Hi) L) as X. pose proof (A (i, false) ltac:(apply idx_in; exact Hi) L) as Y. unfold vec, vecf, fw in X, Y. cbn [fst snd part] in X, Y.
    apply (injective_projections (A := R) (B := R)); assumption.
  Qed.
End Window.
