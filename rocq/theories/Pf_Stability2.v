(** PROOFS for C77, C78: from complex coefficient vectors to real antisymmetric matrices. *)
From Coq Require Import Reals Lra Psatz.
From Verif Require Import Base M_Matrix M_MatrixCheck M_Ode M_Dispersion Spec_Ode Pf_Matrix Pf_Ode P_Ode Spec_Stability Pf_Stability.
Local Open Scope R_scope.
Local Open Scope list_scope.
Local Notation len u := (Z.of_nat (length u)).

Lemma fst_sum {A} (f : A -> CR) l : fst (sum_over f l) = SR (fun x => fst (f x)) l.
Proof. induction l as [|a l IH]; [reflexivity|]. rewrite sum_over_cons. cbn [SR]. rewrite <- IH. reflexivity. Qed.
Lemma snd_sum {A} (f : A -> CR) l : snd (sum_over f l) = SR (fun x => snd (f x)) l.
Proof. induction l as [|a l IH]; [reflexivity|]. rewrite sum_over_cons. cbn [SR]. rewrite <- IH. reflexivity. Qed.
Lemma sum_SR {A} (f : A -> R) l : sum_over (K := Rring) f l = SR f l.
Proof. induction l as [|a l IH]; [reflexivity|]. rewrite sum_over_cons. cbn [SR]. rewrite <- IH. reflexivity. Qed.

(** index set: real and imaginary part of every element *)
Definition idx (n : Z) : list (Z * bool) := flat_map (fun i => [(i, true); (i, false)]) (zrange 0 n).
Lemma idx_in n p : In p (idx n) <-> (0 <= fst p < n)%Z.
Proof.
  unfold idx. rewrite in_flat_map. split.
  - intros (i & Hi & Hp). apply zrange_in in Hi. cbn in Hp. destruct Hp as [<-|[<-|[]]]; exact Hi.
  - intros H. exists (fst p). split; [apply zrange_in; exact H|]. destruct p as [i []]; cbn; auto.
Qed.
Lemma SR_idx n (f : Z * bool -> R) : SR f (idx n) = SR (fun i => f (i, true) + f (i, false)) (zrange 0 n).
Proof. unfold idx. rewrite SR_flat_map. apply SR_ext. intros i _. cbn [SR]. ring. Qed.
Definition part (z : CR) (c : bool) : R := if c then fst z else snd z.
Definition vecf (v : Z -> CR) : Z * bool -> R := fun p => part (v (fst p)) (snd p).
Definition vec (u : list CR) : Z * bool -> R := vecf (vget u).
(** the real matrix of a complex one *)
Definition SM (E : Z -> Z -> CR) (p q : Z * bool) : R :=
  match snd p, snd q with
  | true, true => fst (E (fst p) (fst q))
  | true, false => - snd (E (fst p) (fst q))
  | false, true => snd (E (fst p) (fst q))
  | false, false => fst (E (fst p) (fst q))
  end.
Lemma ap_SM n E v p : ap (idx n) (SM E) (vecf v) p = part (sum_over (K := CR) (fun j => rmul (E (fst p) j) (v j)) (zrange 0 n)) (snd p).
Proof.
  unfold ap. rewrite SR_idx. destruct p as [i []]; cbn [fst snd part]; [rewrite fst_sum|rewrite snd_sum]; apply SR_ext; intros j _;
    unfold SM, vecf; cbn; ring.
Qed.
Lemma SM_anti n E : anti_hermitian CR n E -> forall p q, In p (idx n) -> In q (idx n) -> SM E p q = - SM E q p.
Proof.
  intros H [i c] [j d] Hp Hq. apply idx_in in Hp, Hq. cbn [fst] in *. pose proof (H i j Hp Hq) as Q.
  assert (Q1 : forall a b a' b' : R, E i j = (a, b) -> E j i = (a', b') -> a = - a' /\ b = b').
  { intros a b a' b' E1 E2. rewrite E1, E2 in Q. pose proof (f_equal fst Q) as Q1. pose proof (f_equal snd Q) as Q2.
    assert (X1 : a = - a') by exact Q1. assert (X2 : - b = - b') by exact Q2. lra. }
  unfold SM. cbn [fst snd]. destruct (E i j) as [a b], (E j i) as [a' b']. destruct (Q1 a b a' b' eq_refl eq_refl) as [X1 X2].
  destruct c, d; cbn [fst snd]; lra.
Qed.
(** sum_j |E_ij| in the 1-norm of the complex plane *)
Definition row_bound n (E : Z -> Z -> CR) (B : R) : Prop :=
  forall i, (0 <= i < n)%Z -> SR (fun j => Rabs (fst (E i j)) + Rabs (snd (E i j))) (zrange 0 n) <= B.
Lemma SM_rows n E B : row_bound n E B -> forall p, In p (idx n) -> SR (fun q => Rabs (SM E p q)) (idx n) <= B.
Proof.
  intros H [i c] Hp. apply idx_in in Hp. cbn [fst] in Hp. rewrite SR_idx. eapply Rle_trans; [|apply (H i Hp)]. apply Req_le, SR_ext.
  intros j _. unfold SM. destruct c; cbn [fst snd]; rewrite ?Rabs_Ropp; ring.
Qed.
(** |E v|^2 <= B^2 |v|^2 *)
Definition op_bound n (E : Z -> Z -> CR) (B : R) : Prop := forall x, n2 (idx n) (ap (idx n) (SM E) x) <= B ^ 2 * n2 (idx n) x.
Lemma row_op n E B : anti_hermitian CR n E -> row_bound n E B -> 0 <= B -> op_bound n E B.
Proof. intros A H P x. apply schur_test; [apply SM_anti, A|exact P|apply SM_rows, H]. Qed.
Lemma vec_n2 n u : len u = n -> norm2 u = n2 (idx n) (vec u).
Proof.
  intros L. unfold norm2, n2, dot. rewrite sum_SR, SR_idx.
  assert (E : u = map (fun i => vget u i) (zrange 0 n)).
  { apply (nth_ext _ _ (@r0 CR) (@r0 CR)); [rewrite map_length, zrange_length; lia|]. intros k Hk.
    pose proof (nth_zrange_map (fun i => vget u i) n (Z.of_nat k) (@r0 CR) ltac:(lia)) as Q. rewrite Nat2Z.id in Q.
    etransitivity; [|symmetry; exact Q]. unfold vget. rewrite Nat2Z.id. reflexivity. }
  rewrite E at 1. rewrite SR_map. apply SR_ext. intros i _. reflexivity.
Qed.
Lemma distance_nrm n u v : len u = n -> distance2 u v = nrm (idx n) (fun p => vec u p + -1 * vecf v p).
Proof.
  intros L. unfold distance2, nrm, n2, dot. rewrite L, sum_SR, SR_idx. f_equal. apply SR_ext. intros i _. unfold vec, vecf, part. cbn [fst snd]. ring.
Qed.

Section Link.
  Variables (n : Z) (E : Z -> Z -> CR) (mul : list CR -> list CR) (B : R).
  Hypothesis acts : acts_as CR n E mul.
  Lemma vec_mul u : len u = n -> forall p, In p (idx n) -> vec (mul u) p = ap (idx n) (SM E) (vec u) p.
  Proof.
    intros L p Hp. apply idx_in in Hp. unfold vec. rewrite ap_SM. unfold vecf. f_equal. apply (Logic.proj2 (acts u L) _ Hp).
  Qed.
  Lemma mpow_len k u : len u = n -> len (mpow mul k u) = n.
  Proof. intros L. induction k as [|k IH]; cbn [mpow]; [exact L|]. apply (acts _ IH). Qed.
  Lemma vec_mpow k u : len u = n -> forall p, In p (idx n) -> vec (mpow mul k u) p = apn (idx n) (SM E) k (vec u) p.
  Proof.
    intros L. induction k as [|k IH]; intros p Hp; cbn [mpow apn]; [reflexivity|].
    rewrite (vec_mul _ (mpow_len k u L) p Hp). apply ap_ext. exact IH.
  Qed.
  Lemma chalf_ok : radd (real (1/2)) (real (1/2)) = @r1 CR.
  Proof. cbn. f_equal; field. Qed.
  Lemma csixth_ok : radd (radd (radd (radd (radd (real (1/6)) (real (1/6))) (real (1/6))) (real (1/6))) (real (1/6))) (real (1/6)) = @r1 CR.
  Proof. cbn. f_equal; field. Qed.
  Lemma vec_step d dt st u : len u = n ->
    let u' := snd (rk_step (real (1/2)) (real (1/6)) (mkRk4 (K:=CR) d (real dt)) mul st u) in
    len u' = n /\ forall p, In p (idx n) -> vec u' p = P (idx n) (SM E) dt (vec u) p.
  Proof.
    intros L u'. assert (Hl : linear_on n mul) by (exists E; exact acts).
    destruct (C51_taylor CR (real (1/2)) (real (1/6)) n mul (mkRk4 (K:=CR) d (real dt)) st u chalf_ok csixth_ok Hl L) as [L' T]. cbv zeta in T. fold u' in T, L'.
    split; [exact L'|]. intros p Hp. unfold P.
    rewrite <- (vec_mpow 2 u L p Hp), <- (vec_mpow 3 u L p Hp), <- (vec_mpow 4 u L p Hp).
    change (ap (idx n) (SM E) (vec u) p) with (apn (idx n) (SM E) 1 (vec u) p). rewrite <- (vec_mpow 1 u L p Hp).
    pose proof (T (fst p)) as Q. unfold vec, vecf. destruct p as [i c]. cbn [fst snd] in *.
    set (a := vget u' i) in *. set (a0 := vget u i) in *. set (a1 := vget (mpow mul 1 u) i) in *. set (a2 := vget (mpow mul 2 u) i) in *.
    set (a3 := vget (mpow mul 3 u) i) in *. set (a4 := vget (mpow mul 4 u) i) in *. clearbody a a0 a1 a2 a3 a4.
    destruct a as [ar ai], a0 as [br bi], a1 as [cr ci], a2 as [dr di], a3 as [er ei], a4 as [fr fi].
    assert (C : forall x y : CR, x = y -> fst x = fst y :> R /\ snd x = snd y :> R) by (intros x y ->; split; reflexivity).
    apply C in Q. cbn in Q. destruct Q as [Q1 Q2]. cbn in ar, ai, br, bi, cr, ci, dr, di, er, ei, fr, fi. destruct c; cbn [part fst snd]; clear - Q1 Q2; lra.
  Qed.

  Hypothesis antiE : anti_hermitian CR n E.
  Hypothesis Bpos : 0 <= B.
  Hypothesis opE : op_bound n E B.
  Lemma step_norm d dt st u : dt ^ 2 * B ^ 2 <= 8 -> len u = n ->
    norm2 (snd (rk_step (real (1/2)) (real (1/6)) (mkRk4 (K:=CR) d (real dt)) mul st u)) <= norm2 u.
  Proof.
    intros Hd L. destruct (vec_step d dt st u L) as [L' V]. rewrite (vec_n2 n _ L'), (vec_n2 n _ L).
    unfold n2. rewrite (dot_ext (idx n) _ _ _ _ V V). apply (P_le (idx n) (SM E) B (SM_anti n E antiE) opE dt _ Hd).
  Qed.
  Lemma run_len d dt sts : forall u, len u = n ->
    len (run_steps CR (real (1/2)) (real (1/6)) (mkRk4 (K:=CR) d (real dt)) mul sts u) = n.
  Proof.
    induction sts as [|st sts IH]; intros u L; cbn [run_steps]; [exact L|]. apply IH, (vec_step d dt st u L).
  Qed.
  Lemma run_app d dt a b : forall u,
    run_steps CR (real (1/2)) (real (1/6)) (mkRk4 (K:=CR) d (real dt)) mul (a ++ b) u =
    run_steps CR (real (1/2)) (real (1/6)) (mkRk4 (K:=CR) d (real dt)) mul b (run_steps CR (real (1/2)) (real (1/6)) (mkRk4 (K:=CR) d (real dt)) mul a u).
  Proof. induction a as [|st a IH]; intros u; cbn [run_steps app]; [reflexivity|]. apply IH. Qed.
  Lemma run_norm d dt sts : dt ^ 2 * B ^ 2 <= 8 -> forall u, len u = n ->
    norm2 (run_steps CR (real (1/2)) (real (1/6)) (mkRk4 (K:=CR) d (real dt)) mul sts u) <= norm2 u.
  Proof.
    intros Hd. induction sts as [|st sts IH]; intros u L; cbn [run_steps]; [lra|].
    eapply Rle_trans; [apply IH, (vec_step d dt st u L)|]. apply step_norm; assumption.
  Qed.
  Lemma run_error d dt sts u y : 0 <= dt -> dt ^ 2 * B ^ 2 <= 8 -> len u = n ->
    exact_solution n E y -> (forall i, (0 <= i < n)%Z -> y 0 i = vget u i) ->
    distance2 (run_steps CR (real (1/2)) (real (1/6)) (mkRk4 (K:=CR) d (real dt)) mul sts u) (y (INR (length sts) * dt)) <=
    INR (length sts) * ((dt * B) ^ 5 / 120) * length2 u.
  Proof.
    intros Hp Hd L Hy H0. rewrite (distance_nrm n) by (apply run_len; exact L).
    set (run := fun k => run_steps CR (real (1/2)) (real (1/6)) (mkRk4 (K:=CR) d (real dt)) mul (firstn k sts) u).
    set (any := mkSt (K:=CR) [] [] [] []).
    set (it := fun k => mpow (fun x => snd (rk_step (real (1/2)) (real (1/6)) (mkRk4 (K:=CR) d (real dt)) mul any x)) k u).
    assert (Hl : linear_on n mul) by (exists E; exact acts).
    destruct (C51_n_steps CR (real (1/2)) (real (1/6)) n mul (mkRk4 (K:=CR) d (real dt)) sts u u r1 r1 chalf_ok csixth_ok Hl L L) as (_ & _ & R).
    rewrite (R any). fold (it (length sts)).
    assert (ILen : forall k, len (it k) = n).
    { intros k. induction k as [|k IH]; [exact L|]. cbn [it mpow]. apply (vec_step d dt any _ IH). }
    assert (N0 : length2 u = nrm (idx n) (vecf (y 0))).
    { unfold length2, nrm. rewrite (vec_n2 n u L). f_equal. unfold n2. apply dot_ext; intros p Hp'; apply idx_in in Hp'; unfold vec, vecf; rewrite (H0 _ Hp'); reflexivity. }
    rewrite N0.
    apply (global_error (idx n) (SM E) B (SM_anti n E antiE) Bpos opE (fun t => vecf (y t)) dt (fun k => vec (it k))).
    - intros t [i c] Hi. rewrite ap_SM. apply idx_in in Hi. cbn [fst snd] in *. destruct (Hy t i Hi) as [D1 D2]. unfold vecf. cbn [fst snd].
      destruct c; cbn [part]; [exact D1|exact D2].
    - exact Hp.
    - exact Hd.
    - intros p Hp'. apply idx_in in Hp'. unfold vec, vecf. rewrite (H0 _ Hp'). reflexivity.
    - intros k p Hp'. destruct (vec_step d dt any (it k) (ILen k)) as [_ V]. exact (V p Hp').
  Qed.
End Link.
