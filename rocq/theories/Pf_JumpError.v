(** Proofs for C95: the rounded Fermi jump against the exact one. *)
From Coq Require Import Reals List ZArith Permutation Lia Lra.
From Verif Require Import Base M_Operator M_Lattice Spec_Lattice M_Basis Pf_Basis M_Matrix Pf_Matrix M_Ode Pf_Ode M_Dispersion
  M_OpenMP Spec_OpenMP Pf_OpenMP M_SiteOccupation Pf_SiteOccupation M_FermiJump Pf_FermiJump Pf_Jump
  Spec_Stability Pf_Stability M_Rounding Spec_Rounding M_RoundedMeasurement Pf_Threads Pf_RoundedSum Pf_RoundedMeasurement2 Pf_RoundedMeasurement3 M_RoundedJump Pf_RoundedJump Pf_JumpSums.
Local Open Scope R_scope.
Local Open Scope list_scope.

Definition pairs (N : Z) : list (Z * Z) := flat_map (fun j => map (fun k => (j, k)) (zrange 0 N)) (zrange 0 N).
Lemma pairs_in N p : In p (pairs N) <-> (0 <= fst p < N)%Z /\ (0 <= snd p < N)%Z.
Proof.
  destruct p as [j k]. unfold pairs. rewrite in_flat_map. cbn [fst snd]. split.
  - intros (a & Ha & Hk). apply in_map_iff in Hk. destruct Hk as (b & E & Hb). injection E as <- <-. split; apply zrange_in; assumption.
  - intros [A B]. exists j. split; [apply zrange_in, A|]. apply in_map_iff. exists k. split; [reflexivity|apply zrange_in, B].
Qed.
Lemma pairs_length N : (0 <= N)%Z -> length (pairs N) = Z.to_nat (N * N).
Proof.
  intros HN. unfold pairs. assert (G : forall l : list Z, length (flat_map (fun j => map (fun k => (j, k)) (zrange 0 N)) l) = (length l * Z.to_nat N)%nat).
  { induction l as [|a l IH]; cbn [flat_map]; [reflexivity|]. rewrite app_length, IH, map_length, zrange_length. cbn [length]. replace (N - 0)%Z with N by ring. ring. }
  rewrite G, zrange_length. replace (N - 0)%Z with N by ring. rewrite Z2Nat.inj_mul by exact HN. reflexivity.
Qed.
Lemma nested_pairs {A} (f : Z -> Z -> A) N : flat_map (fun j => flat_map (fun k => [f j k]) (zrange 0 N)) (zrange 0 N) = map (fun p => f (fst p) (snd p)) (pairs N).
Proof.
  assert (G : forall l m : list Z, flat_map (fun j => flat_map (fun k => [f j k]) m) l = map (fun p => f (fst p) (snd p)) (flat_map (fun j => map (fun k => (j, k)) m) l)).
  { intros l m. induction l as [|j l IH]; [reflexivity|]. cbn [flat_map]. rewrite map_app, <- IH. f_equal.
    rewrite map_map. cbn [fst snd]. clear. induction m as [|k m IHm]; [reflexivity|]. cbn [flat_map map app]. rewrite IHm. reflexivity. }
  apply G.
Qed.

Section J.
  Context (ar : arith).
  Variables (rho : Z -> Z -> R) (lat : lattice) (N : Z) (h coef : list CR).
  Hypothesis HL : regular lat N.
  Hypothesis HS : (N + N * N * N < two64)%Z.
  Hypothesis Hh : Z.of_nat (length h) = (N + N * N * N)%Z.
  Hypothesis Hc : Z.of_nat (length coef) = N.
  Local Notation at_ := (fun (l : list CR) i => nth (Z.to_nat i) l ((0, 0) : CR)).
  Local Notation ev := (fun a b : op hub => rho (index1 a) (index1 b)).
  Definition f_pref (j k : Z) : R := if (j =? k)%Z then f_add ar (f_mul ar 2 (rho j k)) (- (1)) else f_mul ar 2 (rho j k).
  Definition f_adds (i : Z) : list CR := map (fun p => cf_scale ar (f_pref (fst p) (snd p)) (at_ h (get_3op_index N i (fst p) (snd p)))) (pairs N).
  Definition f_h_no (i : Z) : CR := fold_left (cf_add ar) (f_adds i) (at_ h i).
  Definition f_term (i : Z) : summand := CSum (cf_mul ar (at_ coef i) (f_h_no i)).

  Lemma jadd_fold l : forall z, fold_left (jplus ar) (map JAdd l) z = fold_left (cf_add ar) l z.
  Proof. induction l as [|x l IH]; intros z; [reflexivity|]. cbn. apply IH. Qed.
  Lemma f_body_value i : In i (zrange 0 N) ->
    f_body ar ev (basis3 lat) N h i = Ok (relem_prog (fun i => JPut (at_ h i)) (fun i => map JAdd (f_adds i)) i).
  Proof.
    intros Hi. apply zrange_in in Hi. assert (HN := N_pos lat N HL). unfold f_body.
    assert (V : forall i, (0 <= i < N + N * N * N)%Z -> vread h i = Ok (at_ h i)) by (intros; apply vread_nth; lia).
    rewrite V by nia. cbn [obind].
    rewrite (oconcat_ok _ (fun j => flat_map (fun k => [cf_scale ar (f_pref j k) (at_ h (get_3op_index N i j k))]) (zrange 0 N))).
    - cbn [obind]. unfold relem_prog. do 2 f_equal. rewrite (nested_pairs (fun j k => cf_scale ar (f_pref j k) (at_ h (get_3op_index N i j k)))).
      fold (f_adds i). rewrite !flat_map_concat_map, map_map. reflexivity.
    - intros j Hj. apply zrange_in in Hj.
      rewrite (oconcat_ok _ (fun k => [cf_scale ar (f_pref j k) (at_ h (get_3op_index N i j k))])); [reflexivity|].
      intros k Hk. apply zrange_in in Hk. rewrite !(front_read (F := Rring) lat N [] HL) by assumption. cbn [obind].
      destruct (get_3op_index_range lat N HL HS i j k) as [G1 G2]; try assumption.
      rewrite V by nia. reflexivity.
  Qed.
  (** the run, for every schedule *)
  Theorem f_jump_value T s1 s2 st r : shares T 0 N s1 -> shares T 0 N s2 ->
    (match st with None => True | Some l => (N <= Z.of_nat (length l))%Z end) ->
    f_fermi_jump3 ar ev (basis3 lat) N coef h T s1 s2 st = Some r ->
    exists Ls l, Permutation (concat Ls) (map f_term (zrange 0 N)) /\ length Ls = T /\
      length l = match st with None => Z.to_nat N | Some l0 => length l0 end /\
      (forall i, (0 <= i < N)%Z -> nth (Z.to_nat i) l (0, 0) = f_h_no i) /\
      r = Ok (f_norm ar (f_accumulate ar (map (sum_up ((0, 0) : CR) (fplus ar)) Ls)), l).
  Proof.
    intros H1 H2 Hst H. unfold f_fermi_jump3 in H. assert (HN := N_pos lat N HL).
    set (m0 := match st with None => repeat ((0, 0) : CR) (Z.to_nat N) | Some l => l end) in H.
    assert (Lm : (N <= Z.of_nat (length m0))%Z) by (unfold m0; destruct st; [exact Hst|rewrite repeat_length; lia]).
    destruct (rpar_for _ _ s1 _ m0) as [r1|] eqn:R1; [|discriminate].
    eapply (rpar_elements ((0, 0) : CR) (jplus ar) (fun i => JPut (at_ h i)) (fun i => at_ h i) (fun i => map JAdd (f_adds i))) in R1;
      [|intros reg i; reflexivity|apply Z.le_refl|exact Lm|exact H1|intros i Hi; apply f_body_value, Hi].
    destruct R1 as (mem' & -> & L' & V). cbn [pbind] in H.
    assert (V' : forall i, (0 <= i < N)%Z -> nth (Z.to_nat i) mem' (0, 0) = f_h_no i).
    { intros i Hi. rewrite V by lia. destruct (Z.leb_spec 0 i); [|lia]. destruct (Z.ltb_spec i N); [|lia]. cbn [andb]. apply jadd_fold. }
    unfold f_jump_sum in H.
    assert (Z0 : repeat ((0, 0) : CR) T = map (sum_up ((0, 0) : CR) (fplus ar)) (repeat [] T)).
    { clear. induction T as [|T IH]; [reflexivity|]. cbn. f_equal. exact IH. }
    rewrite Z0 in H.
    match type of H with pbind (pbind ?q _) _ = _ => destruct q as [r2|] eqn:R2; [|discriminate] end.
    eapply (rreduce_value ((0, 0) : CR) (fplus ar) T 0 N s2 _ (fun i => [f_term i])) in R2; [|exact H2|rewrite repeat_length; lia|].
    - destruct R2 as (Ls & -> & Lt & P). cbn [pbind] in H. injection H as <-. exists Ls, mem'.
      split.
      { rewrite P. replace (concat (repeat [] T)) with (@nil summand) by (clear; induction T; [reflexivity|assumption]). cbn [app].
        replace (flat_map (fun i => [f_term i]) (zrange 0 N)) with (map f_term (zrange 0 N)); [reflexivity|].
        clear. induction (zrange 0 N) as [|i l IH]; [reflexivity|]. cbn. f_equal. }
      split; [rewrite Lt, repeat_length; reflexivity|]. split; [etransitivity; [exact L'|]; unfold m0; destruct st; [reflexivity|apply repeat_length]|]. split; [exact V'|reflexivity].
    - intros i Hi. apply zrange_in in Hi. rewrite (vread_nth coef i (0, 0)) by lia. rewrite (vread_nth mem' i (0, 0)) by lia. cbn [obind].
      rewrite V' by exact Hi. reflexivity.
  Qed.
End J.

Lemma rsum_SR {A} (f : A -> R) l : Pf_RoundedSum.rsum (map f l) = SR f l.
Proof. induction l as [|a l IH]; [reflexivity|]. cbn [map]. change (f a + Pf_RoundedSum.rsum (map f l) = f a + SR f l). rewrite IH. reflexivity. Qed.

Section E.
  Context (u eta H phi : R) (ar : arith).
  Hypothesis u0 : 0 <= u.
  Hypothesis p0 : 0 <= phi <= 1.
  Hypothesis e0 : eta <= u * phi.
  Hypothesis acc : accurate u eta H ar.
  Variables (rho : Z -> Z -> R) (lat : lattice) (N : Z) (h coef : list CR).
  Hypothesis HL : regular lat N.
  Hypothesis HS : (N + N * N * N < two64)%Z.
  Hypothesis Hh : Z.of_nat (length h) = (N + N * N * N)%Z.
  Hypothesis Hc : Z.of_nat (length coef) = N.
  Hypothesis rho1 : forall j k, (0 <= j < N)%Z -> (0 <= k < N)%Z -> Rabs (rho j k) <= 1.
  Local Notation at_ := (fun (l : list CR) i => nth (Z.to_nat i) l ((0, 0) : CR)).
  Hypothesis c1 : forall i, (0 <= i < N)%Z -> Rabs (fst (at_ coef i)) <= 1 /\ Rabs (snd (at_ coef i)) <= 1.
  Variables (T : nat) (W : R).
  Let n2 := Z.to_nat (N * N).
  Let K := (3 + n2 + 2 + Z.to_nat N + T)%nat.
  Let mass := SR (fun r => Rabs (fst (at_ h r)) + Rabs (snd (at_ h r))) (zrange 0 (N + N * N * N)).
  Hypothesis W1 : 3 * mass + (6 * IZR (N + N * N * N) + INR (S T)) * phi <= W.
  Hypothesis W2 : phi <= W * W.
  Hypothesis HK : vw u (2 * K + 2) <= 2.
  Hypothesis HW : 2 * W <= H.
  Hypothesis HWW : 4 * (W * W) <= H.
  Hypothesis H6 : 6 <= H.
  Local Notation D := (D u phi).
  Local Notation DL := (DL u phi).
  Local Notation vw := (vw u).
  Local Notation g i p := (get_3op_index N i (fst p) (snd p)).
  Lemma vw2 k : (k <= 2 * K + 2)%nat -> 1 <= vw k <= 2.
  Proof. intros L. split; [apply vw_ge, u0|]. eapply Rle_trans; [apply (vw_mono u u0 _ _ L)|exact HK]. Qed.
  Lemma fits k X : (k <= 2 * K + 2)%nat -> 0 <= X -> 2 * X <= H -> vw k * X <= H.
  Proof. intros L X0 B. pose proof (vw2 k L). assert (vw k * X <= 2 * X) by (apply Rmult_le_compat_r; lra). lra. Qed.
  Definition x_pref (j k : Z) : R := if (j =? k)%Z then 2 * rho j k - 1 else 2 * rho j k.
  Lemma pref_D j k : (0 <= j < N)%Z -> (0 <= k < N)%Z -> D 2 3 (f_pref ar rho j k) (x_pref j k).
  Proof.
    intros Hj Hk. assert (M : D 1 2 (f_mul ar 2 (rho j k)) (2 * rho j k)).
    { replace 2 with (2 * 1) at 1 by ring. apply (D_mul u eta H phi ar u0 (Logic.proj1 p0) e0 acc 0 0 2 1); [lra| | |].
      - apply fits; [lia|lra|lra].
      - apply D_exact; [lra|]. rewrite Rabs_pos_eq; lra.
      - apply D_exact; [lra|]. apply rho1; assumption. }
    unfold f_pref, x_pref. destruct (j =? k)%Z; [|apply (D_weak u phi u0 (Logic.proj1 p0) 1 2 2 3); [lia|lra|exact M]].
    replace 3 with (2 + 1) by ring. unfold Rminus. apply (D_add u eta H phi ar u0 (Logic.proj1 p0) e0 acc 1); [|exact M|].
    - apply fits; [lia|lra|lra].
    - apply (D_weak u phi u0 (Logic.proj1 p0) 0 1 1 1); [lia|lra|]. apply D_exact; [lra|]. rewrite Rabs_Ropp, Rabs_R1. lra.
  Qed.
  (** one part (real or imaginary) of h_NO[i] *)
  Definition mag (x : R) : R := 3 * (Rabs x + phi).
  Lemma mag_pos x : 0 <= mag x.
  Proof. unfold mag. pose proof (Rabs_pos x). lra. Qed.
  Lemma scaled_D j k x : (0 <= j < N)%Z -> (0 <= k < N)%Z -> 2 * mag x <= H -> D 3 (mag x) (f_mul ar (f_pref ar rho j k) x) (x_pref j k * x).
  Proof.
    intros Hj Hk B. unfold mag in *. pose proof (Rabs_pos x). apply (D_mul u eta H phi ar u0 (Logic.proj1 p0) e0 acc 2 0 3 (Rabs x + phi)); [lra| | |].
    - apply fits; [lia|lra|exact B].
    - apply pref_D; assumption.
    - apply D_exact; lra.
  Qed.
  Section Part.
    Variable part : CR -> R.
    Definition w_no (i : Z) : R := mag (part (at_ h i)) + SR (fun p => mag (part (at_ h (g i p)))) (pairs N).
    Definition x_no (i : Z) : R := part (at_ h i) + Pf_RoundedSum.rsum (map (fun p => x_pref (fst p) (snd p) * part (at_ h (g i p))) (pairs N)).
    Lemma part_D i : (0 <= i < N)%Z -> 2 * w_no i <= H ->
      D (3 + n2) (w_no i) (fold_left (f_add ar) (map (fun p => f_mul ar (f_pref ar rho (fst p) (snd p)) (part (at_ h (g i p)))) (pairs N)) (part (at_ h i))) (x_no i).
    Proof.
      intros Hi B. assert (HN := N_pos lat N HL).
      assert (Q : 0 <= SR (fun p => mag (part (at_ h (g i p)))) (pairs N)) by (apply SR_nonneg; intros; apply mag_pos).
      pose proof (mag_pos (part (at_ h i))) as M0. cbv beta in M0.
      assert (LP : length (map (fun p => f_mul ar (f_pref ar rho (fst p) (snd p)) (part (at_ h (g i p)))) (pairs N)) = n2) by (rewrite map_length; apply pairs_length; lia).
      unfold w_no, x_no. rewrite <- LP. rewrite <- rsum_SR.
      apply (fold_D u eta H phi ar u0 (Logic.proj1 p0) e0 acc 3).
      - apply (DL_map u phi 3). intros p Hp. apply pairs_in in Hp. apply scaled_D; [apply Hp|apply Hp|].
        assert (mag (part (at_ h (g i p))) <= SR (fun p => mag (part (at_ h (g i p)))) (pairs N)).
        { assert (I : In p (pairs N)) by (apply pairs_in; exact Hp). clear -I p0. induction (pairs N) as [|q l IH]; [destruct I|]. 
          change (SR ?f (q :: l)) with (f q + SR f l). cbv beta. assert (0 <= SR (fun p => mag (part (at_ h (g i p)))) l) by (apply SR_nonneg; intros; apply mag_pos).
          destruct I as [->|I]; [cbv beta in *; lra|]. specialize (IH I). pose proof (mag_pos (part (at_ h (g i q)))). cbv beta in *. lra. }
        unfold w_no in B. cbv beta in *. lra.
      - lia.
      - rewrite LP, rsum_SR. apply fits; [unfold K; lia|lra|exact B].
      - apply (D_weak u phi u0 (Logic.proj1 p0) 0 3 (mag (part (at_ h i)))); [lia|lra|]. apply D_exact; unfold mag; pose proof (Rabs_pos (part (at_ h i))); cbv beta in *; lra.
    Qed.
  End Part.

  Definition w_i (i : Z) : R := w_no fst i + w_no snd i.
  Lemma w_no_pos part i : 0 <= w_no part i.
  Proof.
    unfold w_no. pose proof (mag_pos (part (at_ h i))). assert (0 <= SR (fun p => mag (part (at_ h (g i p)))) (pairs N)) by (apply SR_nonneg; intros; apply mag_pos).
    cbv beta in *. lra.
  Qed.
  Lemma SR_const {A} (l : list A) c : SR (fun _ => c) l = INR (length l) * c.
  Proof. induction l as [|a l IH]; [cbn; ring|]. change (SR (fun _ => c) (a :: l)) with (c + SR (fun _ : A => c) l). rewrite IH. cbn [length]. rewrite S_INR. ring. Qed.
  Lemma w_total : SR w_i (zrange 0 N) = 3 * mass + 6 * IZR (N + N * N * N) * phi.
  Proof.
    assert (HN := N_pos lat N HL). set (f := fun r => mag (fst (at_ h r)) + mag (snd (at_ h r))).
    assert (E1 : SR w_i (zrange 0 N) = SR f (zrange 0 (N + N * N * N))).
    { rewrite (zrange_app 0 N (N + N * N * N)) by nia. rewrite SR_app, (triples lat N HL HS), SR_flat_map, <- SR_add. apply SR_ext. intros i _.
      unfold w_i, w_no. rewrite SR_flat_map.
      assert (E : forall q : Z -> R, SR (fun p => q (g i p)) (pairs N) = SR (fun b => SR q (map (fun c => get_3op_index N i b c) (zrange 0 N))) (zrange 0 N)).
      { intros q. unfold pairs. rewrite SR_flat_map. apply SR_ext. intros b _. rewrite !SR_map. reflexivity. }
      rewrite <- (E f). unfold f. rewrite (SR_add (fun p => mag (fst (at_ h (g i p)))) (fun p => mag (snd (at_ h (g i p))))). ring. }
    rewrite E1. unfold f, mag, mass.
    rewrite (SR_ext _ (fun r => 3 * (Rabs (fst (at_ h r)) + Rabs (snd (at_ h r))) + 6 * phi)) by (intros; ring).
    rewrite SR_add, SR_mul, SR_const, zrange_length, INR_IZR_INZ, Z2Nat.id by nia. replace (N + N * N * N - 0)%Z with (N + N * N * N)%Z by ring. ring.
  Qed.
  Lemma w_sum : SR w_i (zrange 0 N) + INR (S T) * phi <= W.
  Proof. rewrite w_total. eapply Rle_trans; [|exact W1]. apply Req_le. ring. Qed.
  Lemma w_one i : (0 <= i < N)%Z -> 2 * w_i i <= H.
  Proof.
    intros Hi. assert (w_i i <= SR w_i (zrange 0 N)).
    { assert (I : In i (zrange 0 N)) by (apply zrange_in; exact Hi). assert (P : forall r, 0 <= w_i r) by (intros r; unfold w_i; pose proof (w_no_pos fst r); pose proof (w_no_pos snd r); lra).
      clear -I P. induction (zrange 0 N) as [|r l IH]; [destruct I|]. change (SR w_i (r :: l)) with (w_i r + SR w_i l).
      assert (0 <= SR w_i l) by (apply SR_nonneg; intros; apply P). pose proof (P r). destruct I as [->|I]; [lra|]. specialize (IH I). lra. }
    pose proof w_sum. assert (0 <= INR (S T) * phi) by (apply Rmult_le_pos; [apply pos_INR|lra]). lra.
  Qed.
  Lemma f_h_no_parts i : fst (f_h_no ar rho N h i) = fold_left (f_add ar) (map (fun p => f_mul ar (f_pref ar rho (fst p) (snd p)) (fst (at_ h (g i p)))) (pairs N)) (fst (at_ h i)) /\
    snd (f_h_no ar rho N h i) = fold_left (f_add ar) (map (fun p => f_mul ar (f_pref ar rho (fst p) (snd p)) (snd (at_ h (g i p)))) (pairs N)) (snd (at_ h i)).
  Proof. unfold f_h_no, f_adds. split; [rewrite acc_fst|rewrite acc_snd]; rewrite map_map; reflexivity. Qed.
  Definition x_re (i : Z) : R := fst (at_ coef i) * x_no fst i - snd (at_ coef i) * x_no snd i.
  Definition x_im (i : Z) : R := fst (at_ coef i) * x_no snd i + snd (at_ coef i) * x_no fst i.
  Lemma term_D i : (0 <= i < N)%Z -> D (3 + n2 + 2) (w_i i) (re (f_term ar rho N h coef i)) (x_re i) /\
    D (3 + n2 + 2) (w_i i) (snd (cf_mul ar (at_ coef i) (f_h_no ar rho N h i))) (x_im i).
  Proof.
    intros Hi. pose proof (w_one i Hi) as B. pose proof (w_no_pos fst i) as P1. pose proof (w_no_pos snd i) as P2. unfold w_i in B.
    destruct (f_h_no_parts i) as [F1 F2]. 
    assert (D1 : D (3 + n2) (w_no fst i) (fst (f_h_no ar rho N h i)) (x_no fst i)) by (rewrite F1; exact (part_D fst i Hi ltac:(lra))).
    assert (D2 : D (3 + n2) (w_no snd i) (snd (f_h_no ar rho N h i)) (x_no snd i)) by (rewrite F2; exact (part_D snd i Hi ltac:(lra))).
    destruct (c1 i Hi) as [C1 C2].
    assert (M : forall c X y x, Rabs c <= 1 -> 0 <= X -> 2 * X <= H -> D (3 + n2) X y x -> D (S (3 + n2)) X (f_mul ar c y) (c * x)).
    { intros c X y x Cc X0 XB G. replace X with (1 * X) by ring. apply (D_mul u eta H phi ar u0 (Logic.proj1 p0) e0 acc 0 (3 + n2) 1 X); [rewrite Rmult_1_l; apply G| | |exact G].
      - rewrite Rmult_1_l. apply fits; [unfold K; cbn [Nat.add]; lia|exact X0|exact XB].
      - apply D_exact; [lra|exact Cc]. }
    replace (3 + n2 + 2)%nat with (S (S (3 + n2))) by lia. unfold w_i, f_term, cf_mul, x_re, x_im. cbn [re fst snd]. split.
    - unfold Rminus. apply (D_add u eta H phi ar u0 (Logic.proj1 p0) e0 acc).
      + apply fits; [unfold K; lia|lra|exact B].
      + apply M; [exact C1|exact P1|lra|exact D1].
      + apply D_opp, M; [exact C2|exact P2|lra|exact D2].
    - replace (w_no fst i + w_no snd i) with (w_no snd i + w_no fst i) by ring. apply (D_add u eta H phi ar u0 (Logic.proj1 p0) e0 acc).
      + apply fits; [unfold K; lia|lra|lra].
      + apply M; [exact C1|exact P2|lra|exact D2].
      + apply M; [exact C2|exact P1|lra|exact D1].
  Qed.
  Definition X_re : R := SR x_re (zrange 0 N).
  Definition X_im : R := SR x_im (zrange 0 N).
  Lemma norm_D Ls : Permutation (concat Ls) (map (f_term ar rho N h coef) (zrange 0 N)) -> length Ls = T ->
    Rabs (f_norm ar (f_accumulate ar (map (sum_up ((0, 0) : CR) (fplus ar)) Ls)) - (X_re * X_re + X_im * X_im)) <= (vw (2 * K + 2) - 1) * (2 * (W * W)).
  Proof.
    intros P LT. assert (HN := N_pos lat N HL). pose proof w_sum as WS.
    assert (W0 : 0 <= SR w_i (zrange 0 N)) by (apply SR_nonneg; intros r _; unfold w_i; pose proof (w_no_pos fst r); pose proof (w_no_pos snd r); lra).
    assert (T0 : 0 <= INR (S T) * phi) by (apply Rmult_le_pos; [apply pos_INR|lra]).
    assert (LZ : length (zrange 0 N) = Z.to_nat N) by (rewrite zrange_length; f_equal; ring).
    set (z := f_accumulate ar (map (sum_up ((0, 0) : CR) (fplus ar)) Ls)).
    assert (A : forall (y x : Z -> R) (Lr : list (list R)), (forall i, (0 <= i < N)%Z -> D (3 + n2 + 2) (w_i i) (y i) (x i)) ->
      Permutation (concat Lr) (map y (zrange 0 N)) -> length Lr = T ->
      D K W (fold_left (f_add ar) (map (fun l => fold_left (f_add ar) l 0) Lr) 0) (SR x (zrange 0 N))).
    { intros y x Lr G Pr Lt. apply (D_weak u phi u0 (Logic.proj1 p0) K K (SR w_i (zrange 0 N) + INR (S T) * phi) W); [lia|exact WS|].
      rewrite <- (rsum_SR x). unfold K. apply (total_D u eta H phi ar u0 (Logic.proj1 p0) e0 acc (3 + n2 + 2) (Z.to_nat N) T Lr (map y (zrange 0 N))); [exact Pr| |rewrite map_length; exact LZ|exact Lt|].
      - rewrite <- (rsum_SR w_i). apply (DL_map u phi). intros i Hi. apply G, zrange_in, Hi.
      - apply fits; [unfold K; lia|lra|lra]. }
    assert (A1 : D K W (fst z) X_re).
    { unfold z, f_accumulate. rewrite acc_fst. rewrite map_map.
      rewrite (map_ext (fun l => fst (sum_up ((0, 0) : CR) (fplus ar) l)) (fun l => fold_left (f_add ar) (map re l) 0)) by (intros l; unfold sum_up; rewrite plus_fst; reflexivity).
      rewrite <- (map_map (map re) (fun l => fold_left (f_add ar) l 0)). apply (A (fun i => re (f_term ar rho N h coef i))); [intros i Hi; apply term_D, Hi| |rewrite map_length; exact LT].
      rewrite <- concat_map, P, map_map. reflexivity. }
    assert (A2 : D K W (snd z) X_im).
    { unfold z, f_accumulate. rewrite acc_snd. rewrite map_map.
      rewrite (map_ext (fun l => snd (sum_up ((0, 0) : CR) (fplus ar) l)) (fun l => fold_left (f_add ar) (flat_map im l) 0)) by (intros l; unfold sum_up; rewrite plus_snd; reflexivity).
      rewrite <- (map_map (flat_map im) (fun l => fold_left (f_add ar) l 0)).
      apply (A (fun i => snd (cf_mul ar (at_ coef i) (f_h_no ar rho N h i)))); [intros i Hi; apply term_D, Hi| |rewrite map_length; exact LT].
      rewrite concat_flat. rewrite P. clear. induction (zrange 0 N) as [|i l IH]; [reflexivity|]. cbn [map flat_map im f_term app]. constructor. exact IH. }
    assert (M : forall y x, D K W y x -> D (S (K + K)) (W * W) (f_mul ar y y) (x * x)).
    { intros y x G. apply (D_mul u eta H phi ar u0 (Logic.proj1 p0) e0 acc K K W W); [exact W2| |exact G|exact G]. apply fits; [lia|nra|lra]. }
    pose proof (D_add u eta H phi ar u0 (Logic.proj1 p0) e0 acc (S (K + K)) (W * W) (W * W) _ _ _ _ ltac:(apply fits; [lia|nra|lra]) (M _ _ A1) (M _ _ A2)) as (_ & _ & F).
    replace (2 * K + 2)%nat with (S (S (K + K))) by lia. replace (2 * (W * W)) with (W * W + W * W) by ring. exact F.
  Qed.
End E.

Section X.
  Variables (rho : Z -> Z -> R) (N : Z) (h coef : list CR).
  Lemma sum_parts {A} (f : A -> car (cplx_ring Rring)) l :
    fst (sum_over (K := cplx_ring Rring) f l) = SR (fun a => fst (f a)) l /\ snd (sum_over (K := cplx_ring Rring) f l) = SR (fun a => snd (f a)) l.
  Proof.
    induction l as [|a l [I1 I2]]; [split; reflexivity|]. rewrite sum_over_cons. change (SR ?q (a :: l)) with (q a + SR q l). cbv beta. rewrite <- I1, <- I2. split; reflexivity.
  Qed.
  Lemma h_no_parts i : fst (h_no (F := Rring) rho N h i) = x_no rho N h fst i /\ snd (h_no (F := Rring) rho N h i) = x_no rho N h snd i.
  Proof.
    rewrite <- value_h_no. unfold value, jk_adds, x_no.
    rewrite (nested_pairs (fun j k => fmul (pref (F := Rring) rho j k) (Pf_SiteOccupation.vv (F := Rring) h (get_3op_index N i j k)) : car (cplx_ring Rring))).
    rewrite !rsum_SR. split.
    - change (fst (radd (s := cplx_ring Rring) ?a ?b)) with (fst a + fst b). f_equal. etransitivity; [apply sum_parts|]. rewrite SR_map. apply SR_ext. intros p _.
      unfold fmul, pref, x_pref. cbn. destruct (fst p =? snd p)%Z; reflexivity.
    - change (snd (radd (s := cplx_ring Rring) ?a ?b)) with (snd a + snd b). f_equal. etransitivity; [apply sum_parts|]. rewrite SR_map. apply SR_ext. intros p _.
      unfold fmul, pref, x_pref. cbn. destruct (fst p =? snd p)%Z; reflexivity.
  Qed.
  Lemma jump_parts : jump_value (F := Rring) rho N h coef = X_re rho N h coef * X_re rho N h coef + X_im rho N h coef * X_im rho N h coef.
  Proof.
    unfold jump_value, norm, X_re, X_im. destruct (sum_parts (fun i => rmul (s := cplx_ring Rring) (Pf_SiteOccupation.vv (F := Rring) coef i) (h_no (F := Rring) rho N h i)) (zrange 0 N)) as [E1 E2].
    rewrite E1, E2.
    rewrite (SR_ext _ (x_re rho N h coef)), (SR_ext (fun a => snd _) (x_im rho N h coef)).
    - reflexivity.
    - intros i _. destruct (h_no_parts i) as [F1 F2]. unfold x_im. rewrite <- F1, <- F2. reflexivity.
    - intros i _. destruct (h_no_parts i) as [F1 F2]. unfold x_re. rewrite <- F1, <- F2. reflexivity.
  Qed.
End X.
