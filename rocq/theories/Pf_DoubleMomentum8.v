(** PROOFS: the particle numbers measured by the momentum-space program in double precision. *)
From Coq Require Import Reals Lra Psatz List ZArith Lia.
From Flocq Require Import Core.
From Verif Require Import Base M_Operator M_Lattice Spec_Lattice Pf_Lattice M_Basis Pf_Basis M_Matrix M_Ode M_Dispersion M_OpenMP M_SiteOccupation M_FermiSea M_NonVanishing Pf_NonVanishing P_NonVanishing Spec_ParticleNumber P_ParticleNumber
  Pf_Matrix Pf_Matrix2 Pf_MatrixEntry P_Dispersion Spec_Matrix Spec_Stability Pf_Stability Pf_Stability2 Pf_Stability3 P_Stability Pf_Arrow Spec_MomentumProgram Pf_MomentumProgram M_Rounding M_RoundedMeasurement Spec_Rounding Pf_Rounding Pf_Rounding4 Pf_Rounding5 P_Rounding
  M_Double Pf_Double M_DoubleMomentum Pf_DoubleMomentum7.
Local Open Scope R_scope.
Local Open Scope list_scope.
Local Notation len u := (Z.of_nat (length u)).

Lemma measure_num L x : 1 <= L <= 4096 -> 0 <= x <= 6 * (L * L) ->
  (2 * ((3 + x) * / 2 ^ 53)) * (40 * L) + 2 * (x * (29 * / 2 ^ 1075)) <= L * L * L / 2 ^ 43.
Proof.
  intros HL Hx. assert (L2 : 1 <= L * L) by nra. assert (L3 : L * L <= L * L * L) by (assert (L * L * 1 <= L * L * L) by (apply Rmult_le_compat_l; lra); lra).
  assert (P : 0 < / 2 ^ 53) by (apply Rinv_0_lt_compat, pow2_pos). assert (E : 0 < / 2 ^ 1075 <= / 2 ^ 53) by (split; [apply Rinv_0_lt_compat, pow2_pos|apply Rinv_le_contravar; [apply pow2_pos|apply Rle_pow; [lra|lia]]]).
  assert (E3 : / 2 ^ 1075 <= / 2 ^ 53 * (1 / 1024)).
  { replace (/ 2 ^ 53 * (1 / 1024)) with (/ 2 ^ 63); [apply Rinv_le_contravar; [apply pow2_pos|apply Rle_pow; [lra|lia]]|].
    replace (2 ^ 63) with (2 ^ 53 * 1024) by (change 63%nat with (53 + 10)%nat; rewrite pow_add; f_equal; ring). rewrite Rinv_mult. lra. }
  unfold Rdiv. rewrite (half_pow 43 53) by lia. replace (2 ^ (53 - 43)) with 1024 by (cbn; lra). set (u := / 2 ^ 53) in *. set (e := / 2 ^ 1075) in *. clearbody u e.
  assert (A : (3 + x) * L <= 9 * (L * L * L)) by (apply Rle_trans with ((9 * (L * L)) * L); [apply Rmult_le_compat_r; lra|lra]).
  assert (B : x * e <= 6 * (L * L * L) * e) by (apply Rmult_le_compat_r; lra).
  assert (C : (3 + x) * L * u <= 9 * (L * L * L) * u) by (apply Rmult_le_compat_r; lra).
  assert (D : L * L * L * e <= L * L * L * (u * (1 / 1024))) by (apply Rmult_le_compat_l; lra).
  assert (M0 : 0 <= L * L * L * u) by (apply Rmult_le_pos; lra). lra.
Qed.

Lemma ofold_app {A S} (f : S -> A -> outcome S) : forall l1 l2 s, ofold f (l1 ++ l2) s = obind (ofold f l1 s) (fun s' => ofold f l2 s').
Proof. induction l1 as [|a l1 IH]; intros l2 s; [reflexivity|]. cbn [app ofold]. destruct (f s a); cbn [obind]; [apply IH|reflexivity]. Qed.

Section Measure.
  Context {Fl : Type} (lt : Fl -> Fl -> bool) (eps : Z -> Fl) (ef : Fl) (L q : Z).
  Hypothesis HL : (0 < L <= 2 ^ 12)%Z.
  Hypothesis Hq : site L q.
  Let n k := lt (eps k) ef.
  Let sz := (1 + L * L)%Z.
  Lemma measure ar (v : list CR) : accurate (/ 2 ^ 53) (/ 2 ^ 1075) (2 ^ 1023) ar -> len v = sz -> nrm (idx sz) (vec v) <= 2 ->
    exists r, f_pn_result ar (clist lt eps ef L q) v = Ok r /\
      Rabs (fst r - (particle_number_form (K := Rring) L q n (vget v) : R)) <= IZR L * IZR L * IZR L / 2 ^ 43.
  Proof.
    intros acc Lv Nv. assert (L0 : (0 < L)%Z) by lia. assert (LR : 1 <= IZR L <= 4096) by (split; apply IZR_le; lia).
    destruct u_pos as [U0 U1]. set (l := clist lt eps ef L q).
    set (av := fun i => (Rabs (fst (vget v i)), Rabs (snd (vget v i))) : R * R).
    set (A := fun e : contribution (K := Rring) => (Rabs (fst (vget v (fst (fst e)))) * Rabs (fst (vget v (snd (fst e)))) + Rabs (snd (vget v (fst (fst e)))) * Rabs (snd (vget v (snd (fst e))))) * snd e).
    assert (SA : SR A l <= 40 * IZR L).
    { eapply Rle_trans; [apply Req_le; exact (clist_form lt eps ef L q L0 Hq av)|]. eapply Rle_trans; [apply (form_le L q (fun k => lt (eps k) ef) L0 Hq)|]. fold sz.
      assert (E : n2 (idx sz) (vecf av) <= 4).
      { rewrite <- (nrm_sq (idx sz)). rewrite (nrm_ext (idx sz) (vecf av) (fun p => Rabs (vec v p))) by (intros [i []] _; reflexivity). rewrite nrm_abs. pose proof (nrm_pos (idx sz) (vec v)). nra. }
      pose proof (n2_nonneg (idx sz) (vecf av)). apply Rle_trans with (10 * IZR L * 4); [apply Rmult_le_compat; lra|lra]. }
    pose proof (clist_len lt eps ef L q L0 Hq) as Ln. fold l in Ln. pose proof (pos_INR (length l)) as L1.
    assert (LL : 1 <= IZR L * IZR L <= 2 ^ 24) by (rewrite <- mult_IZR, pow_IZR; split; apply IZR_le; nia).
    assert (Ku : INR (3 + length l) * / 2 ^ 53 <= 1 / 2).
    { rewrite plus_INR. replace (INR 3) with 3 by (cbn; ring). apply Rle_trans with (2 ^ 4 * 2 ^ 24 * / 2 ^ 53).
      - apply Rmult_le_compat_r; [exact U0|]. replace (2 ^ 4) with 16 by ring. lra.
      - rewrite <- pow_add. replace (1 / 2) with (/ 2 ^ 1) by (cbn; field). rewrite (half_pow 1 53) by lia. apply Rmult_le_compat_r; [exact U0|]. apply Rle_pow; [lra|lia]. }
    pose proof eta_pos as E0. assert (E1 : / 2 ^ 1075 <= 1) by (rewrite <- Rinv_1; apply Rinv_le_contravar; [lra|apply pow_R1_Rle; lra]).
    assert (B60 : 2 ^ 60 = 2 ^ 36 * 2 ^ 24) by (rewrite <- pow_add; reflexivity). assert (B36 : 1000 <= 2 ^ 36) by (apply Rle_trans with (2 ^ 10); [replace (2 ^ 10) with 1024 by ring; lra|apply Rle_pow; [lra|lia]]).
    assert (B61 : 1000 * 2 ^ 24 <= 2 ^ 60) by (rewrite B60; apply Rmult_le_compat_r; lra). assert (B24 : 4096 <= 2 ^ 24) by (replace 4096 with (2 ^ 12) by ring; apply Rle_pow; [lra|lia]).
    destruct (pn_loop ar acc v) with (l := l) (r := (0, 0) : CR) (k := 3%nat) (X := 0) (t := 0) (x := 0) as (r & Er & D).
    - intros i Hi. rewrite Lv in Hi. split; (eapply Rle_trans; [|exact Nv]).
      + apply (nrm_point (idx sz) (vec v) (i, true)). apply idx_in. exact Hi.
      + apply (nrm_point (idx sz) (vec v) (i, false)). apply idx_in. exact Hi.
    - intros i j x Hin. rewrite Lv. apply (clist_in lt eps ef L q L0 _ _ _ Hin).
    - apply (sdev_mono (/ 2 ^ 53) U0 0 3 0 0); [lia|lra|]. apply sdev_exact. cbn [fst]. rewrite Rabs_R0. lra.
    - lia.
    - exact Ku.
    - rewrite Rplus_0_l. eapply Rle_trans; [exact SA|]. lra.
    - rewrite Rplus_0_l. apply Rle_trans with (6 * 2 ^ 24 * 29); [|lra]. set (ee := / 2 ^ 1075) in *. clearbody ee. set (b24 := 2 ^ 24) in *. clearbody b24. apply Rmult_le_compat; [exact L1|clear - E0; lra|eapply Rle_trans; [exact Ln|]; apply Rmult_le_compat_l; [clear; lra|apply LL]|clear - E1; lra].
    - exists r. split; [exact Er|]. destruct D as (_ & _ & D). rewrite !Rplus_0_l in D.
      assert (F : SR (fun e : contribution (K := Rring) => (fst (vget v (fst (fst e))) * fst (vget v (snd (fst e))) + snd (vget v (fst (fst e))) * snd (vget v (snd (fst e)))) * snd e) l = (particle_number_form (K := Rring) L q n (vget v) : R))
        by exact (clist_form lt eps ef L q L0 Hq (vget v)).
      assert (D' : Rabs (fst r - (particle_number_form (K := Rring) L q n (vget v) : R)) <= (pw (/ 2 ^ 53) (3 + length l) - 1) * SR A l + pw (/ 2 ^ 53) (3 + length l) * (INR (length l) * (29 * / 2 ^ 1075))) by (rewrite <- F; exact D).
      eapply Rle_trans; [exact D'|]. clear D D' F. pose proof (pow_small (/ 2 ^ 53) (3 + length l) U0 Ku) as Pw. change ((1 + / 2 ^ 53) ^ (3 + length l)) with (pw (/ 2 ^ 53) (3 + length l)) in Pw.
      pose proof (pw_ge (/ 2 ^ 53) U0 (3 + length l)) as Pg. rewrite plus_INR in Pw, Ku. replace (INR 3) with 3 in Pw, Ku by (cbn; ring).
      eapply Rle_trans; [|apply (measure_num (IZR L) (INR (length l)) LR); lra].
      assert (A0 : 0 <= SR A l).
      { apply SR_nonneg. intros [[i j] x] Hin. unfold A. cbn [fst snd]. apply Rmult_le_pos; [|apply (clist_in lt eps ef L q L0 _ _ _ Hin)]. apply Rplus_le_le_0_compat; apply Rmult_le_pos; apply Rabs_pos. }
      apply Rplus_le_compat; apply Rmult_le_compat; try lra.
  Qed.
  (** the initial coefficients *)
  Lemma measure_start garbage (v : list CR) : len v = sz -> (forall i, (0 <= i < sz)%Z -> vget v i = if Z.eqb i 0 then real 1 else real 0) ->
    exists r, f_pn_result (double_arith garbage) (clist lt eps ef L q) v = Ok r /\ fst r = if n q then 1 else 0.
  Proof.
    intros Lv V. set (ar := double_arith garbage). assert (L0 : (0 < L)%Z) by lia.
    assert (d0 : to_double garbage 0 = 0) by apply double_zero.
    assert (d1 : to_double garbage 1 = 1).
    { apply double_exact; [apply (double_int 1); lia|]. rewrite Rabs_R1. change 1 with (bpow radix2 0). apply bpow_le. lia. }
    assert (Rd : forall i, (0 <= i < sz)%Z -> vread v i = Ok (if Z.eqb i 0 then real 1 else real 0 : CR)).
    { intros i Hi. rewrite <- (V i Hi). apply read_h. rewrite Lv. exact Hi. }
    assert (Rest : forall l (r : CR), (forall i j x, In (i, j, x) l -> (0 <= i < sz)%Z /\ (0 <= j < sz)%Z /\ ~ (i = 0 /\ j = 0)%Z) -> fst r = 0 \/ fst r = 1 ->
      exists r', ofold (f_pn_step ar v) l r = Ok r' /\ fst r' = fst r).
    { induction l as [|[[i j] x] l IH]; intros r Hl Hr; [exists r; split; reflexivity|].
      destruct (Hl i j x (or_introl eq_refl)) as (Hi & Hj & Hz). cbn [ofold]. unfold f_pn_step at 1. rewrite (Rd i Hi), (Rd j Hj).
      assert (Keep : forall z s, z = 0 -> exists r', ofold (f_pn_step ar v) l ((f_add ar (fst r) z, s) : CR) = Ok r' /\ fst r' = fst r).
      { intros z s ->. assert (K : f_add ar (fst r) 0 = fst r) by (cbn [ar double_arith f_add]; rewrite Rplus_0_r; destruct Hr as [-> | ->]; assumption). rewrite K.
        apply (IH (fst r, s)); [intros i' j' x' Hin; apply (Hl i' j' x'); right; exact Hin|exact Hr]. }
      destruct (Z.eqb_spec i j) as [->|Hne]; cbn [obind].
      - destruct (Z.eqb_spec j 0) as [->|_]; [exfalso; apply Hz; split; reflexivity|]. apply Keep. unfold f_norm, ar, real. cbn [double_arith f_add f_mul fst snd]. rewrite !Rmult_0_l, d0, Rplus_0_l, d0, Rmult_0_l. exact d0.
      - set (z := f_mul ar x (f_add ar (f_mul ar (fst (if Z.eqb i 0 then real 1 else real 0 : CR)) (fst (if Z.eqb j 0 then real 1 else real 0 : CR))) (f_mul ar (snd (if Z.eqb i 0 then real 1 else real 0 : CR)) (snd (if Z.eqb j 0 then real 1 else real 0 : CR))))).
        destruct (Keep z (snd (cf_add ar r (cf_scale ar x (f_multiply_with_conjugate ar (if Z.eqb i 0 then real 1 else real 0 : CR) (if Z.eqb j 0 then real 1 else real 0 : CR)))))) as (r' & E & Q).
        + unfold z, ar, real. cbn [double_arith f_add f_mul]. destruct (Z.eqb_spec i 0), (Z.eqb_spec j 0); try (exfalso; apply Hne; congruence); cbn [fst snd]; rewrite ?Rmult_0_l, ?Rmult_0_r, ?d0, ?Rplus_0_l, ?d0, ?Rmult_0_r; exact d0.
        + exists r'. split; [exact E|exact Q]. }
    unfold f_pn_result. change (ofold _ (clist lt eps ef L q) _) with (ofold (f_pn_step ar v) (clist lt eps ef L q) ((0, 0) : CR)).
    unfold clist, all_pairs. cbn [flat_map]. match goal with |- context [entry_list _ _ _ _ _ (0, 0)%Z ++ ?l] => set (rest := l) end.
    assert (HR : forall i j x, In (i, j, x) rest -> (0 <= i < sz)%Z /\ (0 <= j < sz)%Z /\ ~ (i = 0 /\ j = 0)%Z).
    { intros i j x Hin. destruct (clist_in lt eps ef L q L0 i j x) as (Hi & Hj & _); [unfold clist, all_pairs; cbn [flat_map]; apply in_or_app; right; exact Hin|].
      split; [exact Hi|]. split; [exact Hj|]. intros [-> ->]. unfold rest in Hin. apply in_flat_map in Hin as ([i' j'] & Hp & He). unfold entry_list in He. cbn [fst snd] in He.
      destruct (flag lt eps ef L q i' j'); [|destruct He]. destruct He as [He|[]]. injection He as -> -> _.
      pose proof (nodup_pairs L) as Nd. unfold all_pairs in Nd. inversion Nd; contradiction. }
    rewrite ofold_app. unfold entry_list. cbn [fst snd]. unfold flag. change (kr L q 0) with true. cbn [andb]. change (lt (eps q) ef) with (n q).
    destruct (n q).
    - cbn [ofold]. unfold f_pn_step at 1. rewrite (Rd 0%Z) by (unfold sz; nia). cbn [Z.eqb obind fst snd].
      set (s1 := (f_add ar 0 (f_mul ar (f_norm ar (real 1)) (val (K := Rring) lt eps ef L q Base.r1 0 0)), 0) : CR).
      assert (E1 : fst s1 = 1).
      { unfold s1, f_norm, ar, real, val, fac. change (kr L q 0) with true. cbn [Z.eqb andb fst snd double_arith f_add f_mul].
        assert (O : (rmul (s := Rring) Base.r1 Base.r1 : R) = 1) by (cbn; ring). rewrite O. rewrite !Rmult_1_l, Rmult_0_l, d1, d0, Rplus_0_r, d1, Rmult_1_l, d1, Rplus_0_l. exact d1. }
      destruct (Rest rest s1 HR (or_intror E1)) as (r' & E & Q). exists r'. split; [exact E|]. rewrite Q. exact E1.
    - cbn [ofold obind]. destruct (Rest rest ((0, 0) : CR) HR (or_introl eq_refl)) as (r' & E & Q). exists r'. split; [exact E|exact Q].
  Qed.
End Measure.
