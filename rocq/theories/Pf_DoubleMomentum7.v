(** PROOFS: the rounding error of the particle number of the momentum-space program. *)
From Coq Require Import Reals Lra Psatz List ZArith Lia.
From Verif Require Import Base M_Operator M_Lattice Spec_Lattice Pf_Lattice M_Basis Pf_Basis M_Matrix M_Ode M_Dispersion M_OpenMP M_SiteOccupation M_FermiSea M_NonVanishing Pf_NonVanishing P_NonVanishing Spec_ParticleNumber P_ParticleNumber
  Pf_Matrix Pf_Matrix2 Pf_MatrixEntry P_Dispersion   Spec_Matrix Spec_Stability Pf_Stability Pf_Stability2 Pf_Stability3 P_Stability Pf_Arrow Spec_MomentumProgram Pf_MomentumProgram M_Rounding M_RoundedMeasurement Spec_Rounding Pf_Rounding Pf_Rounding4 Pf_Rounding5 M_DoubleMomentum.
Local Open Scope R_scope.
Local Open Scope list_scope.
Local Notation len u := (Z.of_nat (length u)).

(** ** the list of contributions *)
Section List.
  Context {Fl : Type} (lt : Fl -> Fl -> bool) (eps : Z -> Fl) (ef : Fl) (L q : Z).
  Hypothesis HL : (0 < L)%Z.
  Hypothesis Hq : site L q.
  Let n k := lt (eps k) ef.
  Let sz := (1 + L * L)%Z.
  Definition clist : list (contribution (K := Rring)) := flat_map (entry_list (K := Rring) lt eps ef L q) (all_pairs L).
  Lemma clist_sum (g : Z -> Z -> R) : SR (fun e => g (fst (fst e)) (snd (fst e)) * snd e) clist =
    SR (fun i => SR (fun j => g i j * (if flag lt eps ef L q i j then val (K := Rring) lt eps ef L q 1 i j else 0)) (zrange 0 sz)) (zrange 0 sz).
  Proof.
    unfold clist. rewrite SR_flat_map.
    pose proof (sum_pairs (K := Rring) (fun i j => g i j * (if flag lt eps ef L q i j then val (K := Rring) lt eps ef L q 1 i j else 0)) L) as P.
    rewrite !sum_SR in P. etransitivity; [|etransitivity; [exact P|]].
    - apply SR_ext. intros [i j] _. unfold entry_list. cbn [fst snd]. destruct (flag lt eps ef L q i j); cbn [SR fst snd]; [apply Rplus_0_r|symmetry; apply Rmult_0_r].
    - apply SR_ext. intros i _. rewrite sum_SR. reflexivity.
  Qed.
  Lemma clist_form (h : Z -> R * R) : SR (fun e => (fst (h (fst (fst e))) * fst (h (snd (fst e))) + snd (h (fst (fst e))) * snd (h (snd (fst e)))) * snd e) clist =
    (particle_number_form (K := Rring) L q n h : R).
  Proof.
    rewrite (clist_sum (fun i j => fst (h i) * fst (h j) + snd (h i) * snd (h j))). etransitivity; [|exact (form_value (K := Rring) lt eps ef L q HL Hq h)].
    rewrite sum_SR. apply SR_ext. intros i _. rewrite sum_SR. reflexivity.
  Qed.
  Lemma clist_in i j v : In (i, j, v) clist -> (0 <= i < sz)%Z /\ (0 <= j < sz)%Z /\ 0 <= v <= 9.
  Proof.
    intros H. apply (in_entries lt eps ef L q HL) in H as (Hi & Hj & F & ->). split; [exact Hi|]. split; [exact Hj|].
    unfold val, fac. destruct (kr L q i && kr L q j)%bool; [|cbn; lra].
    destruct (i =? 0)%Z, (j =? 0)%Z; try destruct (lt (eps (a2 L i)) ef); try destruct (lt (eps (a2 L j)) ef); cbn; lra.
  Qed.
  Lemma kr_count : SR (fun i => if kr L q i then 1 else 0) (zrange 0 sz) = 1 + IZR L.
  Proof.
    pose proof (sum_split (K := Rring) L HL (fun i => if kr L q i then 1 else 0)) as S. rewrite !sum_SR in S. etransitivity; [exact S|].
    change (radd (s := Rring)) with Rplus. change (kr L q 0) with true. cbv iota. f_equal.
    rewrite (SR_ext _ (fun k1 => if Z.eqb q k1 then IZR L else 0)).
    - apply SR_pick_eq; [apply zrange_NoDup|]. apply zrange_in. exact Hq.
    - intros k1 H1. apply zrange_in in H1. rewrite sum_SR. rewrite (SR_ext _ (fun _ => if Z.eqb q k1 then 1 else 0)).
      + rewrite SR_const, zrange_length, INR_IZR_INZ. replace (Z.of_nat (Z.to_nat (L - 0))) with L by lia. destruct (Z.eqb q k1); ring.
      + intros k2 H2. apply zrange_in in H2. rewrite (r_kr L q HL Hq k1 k2 H1 H2), (Z.eqb_sym k1 q). reflexivity.
  Qed.
  Lemma clist_len : INR (length clist) <= 6 * (IZR L * IZR L).
  Proof.
    assert (L1 : 1 <= IZR L) by (apply IZR_le; lia). rewrite <- SR_one. unfold clist. rewrite SR_flat_map.
    pose proof (sum_pairs (K := Rring) (fun i j => if flag lt eps ef L q i j then 1 else 0) L) as P. rewrite !sum_SR in P.
    rewrite (SR_ext _ (fun p => if flag lt eps ef L q (fst p) (snd p) then 1 else 0)) by (intros [i j] _; unfold entry_list; cbn [fst snd]; destruct (flag lt eps ef L q i j); cbn [SR]; ring).
    eapply Rle_trans; [apply Req_le; exact P|]. set (k := fun i => if kr L q i then 1 else 0). apply Rle_trans with (SR (fun i => k i * SR k (zrange 0 sz) + 1) (zrange 0 sz)).
    - apply SR_le. intros i Hi. rewrite sum_SR, <- SR_mul.
      assert (P1 : SR (fun j => if Z.eqb i j then 1 else 0) (zrange 0 sz) = 1) by (apply SR_pick_eq; [apply zrange_NoDup|exact Hi]). rewrite <- P1 at 1.
      rewrite <- SR_add. apply SR_le. intros j _. unfold flag, k. destruct (kr L q i), (kr L q j), (Z.eqb i j); cbn [andb];
        destruct (lt (eps q) ef); try destruct (lt (eps (a1 L q i)) ef && (lt (eps (a2 L i)) ef && negb (lt (eps (a3 L q i)) ef)))%bool; lra.
    - rewrite SR_add, SR_one. rewrite (SR_ext (fun i => k i * SR k (zrange 0 sz)) (fun i => SR k (zrange 0 sz) * k i)) by (intros; ring). rewrite SR_mul.
      unfold k. rewrite kr_count, zrange_length, INR_IZR_INZ. replace (Z.of_nat (Z.to_nat (sz - 0))) with (1 + L * L)%Z by (unfold sz; nia). rewrite plus_IZR, mult_IZR. nra.
  Qed.
End List.

(** ** one contribution *)
Section Term.
  Context (ar : arith).
  Hypothesis acc : accurate (/ 2 ^ 53) (/ 2 ^ 1075) (2 ^ 1023) ar.
  Let u := / 2 ^ 53.
  Let eta := / 2 ^ 1075.
  Let H := 2 ^ 1023.
  Local Notation sd := (sdev u).
  Lemma uu : 0 <= u <= 1 / 6320. Proof. exact u_pos. Qed.
  Lemma ee : 0 <= eta <= 1.
  Proof. split; [apply eta_pos|]. unfold eta. rewrite <- Rinv_1. apply Rinv_le_contravar; [lra|apply pow_R1_Rle; lra]. Qed.
  Lemma HH : 2 ^ 100 <= H. Proof. apply Rle_pow; [lra|lia]. Qed.
  Lemma H1000 : 1000 <= H.
  Proof. apply Rle_trans with (2 ^ 10); [replace (2 ^ 10) with 1024 by ring; lra|]. apply Rle_pow; [lra|lia]. Qed.
  Lemma pw2 k : (k <= 3)%nat -> 1 <= pw u k <= 2.
  Proof.
    intros K. pose proof uu. split; [apply pw_ge; apply uu|]. apply Rle_trans with (pw u 3); [apply pw_mono; [apply uu|exact K]|]. unfold pw. cbn [pow]. nra.
  Qed.
  Lemma prod_dev p q : Rabs p <= 2 -> Rabs q <= 2 -> sd 1 (Rabs p * Rabs q) eta (f_mul ar p q) (p * q).
  Proof.
    intros P Q. pose proof (Rabs_pos p). pose proof (Rabs_pos q). pose proof H1000. replace eta with (0 + eta) by ring.
    apply (sdev_round u eta H (Logic.proj1 uu) (Logic.proj1 ee) 0 _ _ (p * q)).
    - cbn [Pf_Rounding.pw pow]. unfold Pf_Rounding.pw. cbn [pow]. assert (Rabs p * Rabs q <= 2 * 2) by (apply Rmult_le_compat; lra). lra.
    - apply acc.
    - apply sdev_exact. rewrite Rabs_mult. lra.
  Qed.
  Lemma two_dev p1 q1 p2 q2 : Rabs p1 <= 2 -> Rabs q1 <= 2 -> Rabs p2 <= 2 -> Rabs q2 <= 2 ->
    sd 2 (Rabs p1 * Rabs q1 + Rabs p2 * Rabs q2) (3 * eta) (f_add ar (f_mul ar p1 q1) (f_mul ar p2 q2)) (p1 * q1 + p2 * q2).
  Proof.
    intros P1 Q1 P2 Q2. replace (3 * eta) with (eta + eta + eta) by ring. pose proof H1000. pose proof ee.
    assert (B : forall a b, Rabs a <= 2 -> Rabs b <= 2 -> 0 <= Rabs a * Rabs b <= 4).
    { intros a b A1 B1. pose proof (Rabs_pos a). pose proof (Rabs_pos b). split; [apply Rmult_le_pos; assumption|]. replace 4 with (2 * 2) by ring. apply Rmult_le_compat; assumption. }
    pose proof (B _ _ P1 Q1). pose proof (B _ _ P2 Q2). pose proof (pw2 1 ltac:(lia)).
    apply (sdev_fadd u eta H ar (Logic.proj1 uu) (Logic.proj1 ee) acc); [|apply prod_dev; assumption|apply prod_dev; assumption].
    apply Rle_trans with (2 * 10); [apply Rmult_le_compat; lra|lra].
  Qed.
  Lemma term_dev p1 q1 p2 q2 v : Rabs p1 <= 2 -> Rabs q1 <= 2 -> Rabs p2 <= 2 -> Rabs q2 <= 2 -> 0 <= v <= 9 ->
    let s := f_add ar (f_mul ar p1 q1) (f_mul ar p2 q2) in
    sd 3 ((Rabs p1 * Rabs q1 + Rabs p2 * Rabs q2) * v) (28 * eta) (f_mul ar s v) ((p1 * q1 + p2 * q2) * v) /\
    sd 3 ((Rabs p1 * Rabs q1 + Rabs p2 * Rabs q2) * v) (28 * eta) (f_mul ar v s) ((p1 * q1 + p2 * q2) * v).
  Proof.
    intros P1 Q1 P2 Q2 V s. pose proof (two_dev p1 q1 p2 q2 P1 Q1 P2 Q2) as D. fold s in D. pose proof H1000. pose proof ee.
    pose proof (sdev_X _ _ _ _ _ _ D) as X0. set (X := Rabs p1 * Rabs q1 + Rabs p2 * Rabs q2) in *.
    assert (X8 : X <= 8).
    { unfold X. pose proof (Rabs_pos p1). pose proof (Rabs_pos q1). pose proof (Rabs_pos p2). pose proof (Rabs_pos q2).
      assert (Rabs p1 * Rabs q1 <= 2 * 2) by (apply Rmult_le_compat; assumption). assert (Rabs p2 * Rabs q2 <= 2 * 2) by (apply Rmult_le_compat; assumption). lra. }
    pose proof (sdev_scale u 2 v _ _ _ _ D) as S. rewrite (Rabs_pos_eq v) in S by lra.
    assert (XV : 0 <= X * v <= 8 * 9) by (split; [apply Rmult_le_pos; lra|apply Rmult_le_compat; lra]).
    pose proof (pw2 2 ltac:(lia)) as PW.
    assert (R : pw u 2 * (v * X + v * (3 * eta)) <= H).
    { apply Rle_trans with (2 * (72 + 27)); [|lra]. assert (0 <= v * (3 * eta) <= 9 * 3) by (split; [apply Rmult_le_pos; lra|apply Rmult_le_compat; lra]). apply Rmult_le_compat; lra. }
    assert (G : forall z, within u eta H z (v * s) -> sd 3 (X * v) (28 * eta) z ((p1 * q1 + p2 * q2) * v)).
    { intros z W. pose proof (sdev_round u eta H (Logic.proj1 uu) (Logic.proj1 ee) 2 _ _ _ _ z R W S) as Q. rewrite (Rmult_comm X v), (Rmult_comm (p1 * q1 + p2 * q2) v).
      apply (sdev_mono u (Logic.proj1 uu) 3 3 _ (v * (3 * eta) + eta)); [lia| |exact Q].
      assert (v * (3 * eta) <= 9 * (3 * eta)) by (apply Rmult_le_compat_r; lra). lra. }
    split; apply G; [rewrite (Rmult_comm v s)|]; apply acc.
  Qed.
  (** the loop over the contributions *)
  Variable vec : list CR.
  Let h (i : Z) : R * R := vget vec i.
  Let T (e : contribution (K := Rring)) : R := (fst (h (fst (fst e))) * fst (h (snd (fst e))) + snd (h (fst (fst e))) * snd (h (snd (fst e)))) * snd e.
  Let A (e : contribution (K := Rring)) : R := (Rabs (fst (h (fst (fst e)))) * Rabs (fst (h (snd (fst e)))) + Rabs (snd (h (fst (fst e)))) * Rabs (snd (h (snd (fst e))))) * snd e.
  Hypothesis small : forall i, (0 <= i < len vec)%Z -> Rabs (fst (h i)) <= 2 /\ Rabs (snd (h i)) <= 2.
  Definition f_pn_step (result : CR) (e : contribution (K := Rring)) : outcome CR :=
    let '(i, j, value) := e in
    if (i =? j)%Z
    then obind (vread vec i) (fun x => Ok (f_add ar (fst result) (f_mul ar (f_norm ar x) value), snd result))
    else obind (vread vec i) (fun x => obind (vread vec j) (fun y =>
           Ok (cf_add ar result (cf_scale ar value (f_multiply_with_conjugate ar x y))))).
  Lemma read_h i : (0 <= i < len vec)%Z -> vread vec i = Ok (h i).
  Proof. intros Hi. unfold h, vget, vread. destruct (Z.ltb_spec i 0); [lia|]. rewrite (nth_error_nth' vec r0) by lia. reflexivity. Qed.
  Lemma pn_loop : forall l (r : CR) k X t x, (forall i j v, In (i, j, v) l -> (0 <= i < len vec)%Z /\ (0 <= j < len vec)%Z /\ 0 <= v <= 9) ->
    sd k X t (fst r) x -> (3 <= k)%nat -> INR (k + length l) * u <= 1 / 2 -> X + SR A l <= 2 ^ 60 -> t + INR (length l) * (29 * eta) <= 2 ^ 60 ->
    exists r', ofold f_pn_step l r = Ok r' /\ sd (k + length l) (X + SR A l) (t + INR (length l) * (29 * eta)) (fst r') (x + SR T l).
  Proof.
    induction l as [|[[i j] v] l IH]; intros r k X t x Hl S K3 Ku HX Ht.
    - exists r. split; [reflexivity|]. cbn [length SR INR]. rewrite Nat.add_0_r, !Rplus_0_r, Rmult_0_l, Rplus_0_r. exact S.
    - destruct (Hl i j v (or_introl eq_refl)) as (Hi & Hj & V). destruct (small i Hi) as [Si1 Si2]. destruct (small j Hj) as [Sj1 Sj2].
      pose proof (term_dev _ _ _ _ v Si1 Sj1 Si2 Sj2 V) as [D1 D2]. cbv zeta in D1, D2.
      cbn [SR length] in *. rewrite S_INR in Ht. set (a := A (i, j, v)) in *. set (b := T (i, j, v)) in *.
      change ((Rabs (fst (h i)) * Rabs (fst (h j)) + Rabs (snd (h i)) * Rabs (snd (h j))) * v) with a in D1, D2.
      change ((fst (h i) * fst (h j) + snd (h i) * snd (h j)) * v) with b in D1, D2.
      assert (A0 : forall l', (forall i j v, In (i, j, v) l' -> 0 <= v) -> 0 <= SR A l').
      { intros l' Hv. apply SR_nonneg. intros [[i' j'] v'] Hin. unfold A. cbn [fst snd]. apply Rmult_le_pos; [|apply (Hv i' j'); exact Hin].
        apply Rplus_le_le_0_compat; apply Rmult_le_pos; apply Rabs_pos. }
      assert (Al : 0 <= SR A l) by (apply A0; intros i' j' v' Hin; apply (Hl i' j' v'); right; exact Hin).
      pose proof ee as E0. pose proof (pos_INR (length l)) as Il. assert (Ie : 0 <= INR (length l) * (29 * eta)) by (apply Rmult_le_pos; lra).
      assert (Kp : pw u k <= 2).
      { pose proof (pow_small u k (Logic.proj1 uu)) as Q. assert (INR k * u <= 1 / 2).
        { eapply Rle_trans; [|exact Ku]. apply Rmult_le_compat_r; [apply uu|]. apply le_INR. lia. }
        eapply Rle_trans; [apply Q; assumption|]. lra. }
      assert (P1 : 1 <= pw u k) by (apply pw_ge; apply uu).
      assert (Big : forall y, y <= 2 ^ 62 -> 0 <= y -> pw u k * y <= H).
      { intros y Hy Y0. apply Rle_trans with (2 * 2 ^ 62); [apply Rmult_le_compat; lra|]. replace (2 * 2 ^ 62) with (2 ^ 63) by (cbn; ring). apply Rle_pow; [lra|lia]. }
      assert (N62 : 2 ^ 62 = 4 * 2 ^ 60) by (change 62%nat with (2 + 60)%nat; rewrite pow_add; ring). assert (One : 28 <= 2 ^ 60) by (apply Rle_trans with (2 ^ 5); [lra|apply Rle_pow; [lra|lia]]).
      pose proof (sdev_X _ _ _ _ _ _ S) as X0. pose proof (sdev_X _ _ _ _ _ _ D1) as a0. assert (t0 : 0 <= t) by apply S.
      assert (Step : forall z, sd 3 a (28 * eta) z b -> sd (Datatypes.S k) (X + a) (t + 28 * eta + eta) (f_add ar (fst r) z) (x + b)).
      { intros z D. apply (sdev_fadd u eta H ar (Logic.proj1 uu) (Logic.proj1 ee) acc); [|exact S|].
        - apply Big; lra.
        - apply (sdev_mono u (Logic.proj1 uu) 3 k _ (28 * eta)); [exact K3|lra|exact D]. }
      replace (k + Datatypes.S (length l))%nat with (Datatypes.S k + length l)%nat in * by lia.
      assert (Next : forall z s, sd 3 a (28 * eta) z b -> exists r', ofold f_pn_step l ((f_add ar (fst r) z, s) : CR) = Ok r' /\
        sd (Datatypes.S k + length l) (X + (a + SR A l)) (t + INR (Datatypes.S (length l)) * (29 * eta)) (fst r') (x + (b + SR T l))).
      { intros z s D. destruct (IH (f_add ar (fst r) z, s) (Datatypes.S k) (X + a) (t + 28 * eta + eta) (x + b)) as (r' & E & Q).
        - intros i' j' v' Hin. apply (Hl i' j' v'). right. exact Hin.
        - apply Step. exact D.
        - lia.
        - exact Ku.
        - lra.
        - lra.
        - exists r'. split; [exact E|]. rewrite S_INR. replace (X + (a + SR A l)) with (X + a + SR A l) by ring. replace (x + (b + SR T l)) with (x + b + SR T l) by ring.
          replace (t + (INR (length l) + 1) * (29 * eta)) with (t + 28 * eta + eta + INR (length l) * (29 * eta)) by ring. exact Q. }
      cbn [ofold]. unfold f_pn_step at 1. rewrite (read_h i Hi), (read_h j Hj). destruct (Z.eqb_spec i j) as [->|Hne]; cbn [obind].
      + apply Next. exact D1.
      + destruct (Next (f_mul ar v (f_add ar (f_mul ar (fst (h i)) (fst (h j))) (f_mul ar (snd (h i)) (snd (h j))))) (snd (cf_add ar r (cf_scale ar v (f_multiply_with_conjugate ar (h i) (h j))))) D2) as (r' & E & Q).
        exists r'. split; [|exact Q]. exact E.
  Qed.
End Term.
