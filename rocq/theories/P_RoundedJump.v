(** C95: the Fermi jump of the three-operator basis in floating-point numbers. *)
From Coq Require Import Reals List ZArith Permutation Lia Lra.
From Verif Require Import Base M_Operator M_Lattice Spec_Lattice M_Basis Pf_Basis M_Matrix Pf_Matrix M_Ode Pf_Ode M_Dispersion Spec_Matrix P_Matrix P_Basis
  M_OpenMP Spec_OpenMP Pf_OpenMP M_SiteOccupation Pf_SiteOccupation M_FermiJump Pf_FermiJump P_FermiJump Pf_Jump
  Spec_Stability Pf_Stability M_Rounding Spec_Rounding M_Double P_Rounding M_RoundedMeasurement Pf_Threads Pf_RoundedSum Pf_RoundedMeasurement2 Pf_RoundedMeasurement3
  P_RoundedMeasurement2 M_RoundedJump Pf_RoundedJump Pf_JumpSums Pf_JumpError Spec_RoundedJump Pf_Threads2.
Local Open Scope R_scope.
Local Open Scope list_scope.

Lemma magnitudes_SR (h : list (R * R)) n : Z.of_nat (length h) = n ->
  SR (fun r => Rabs (fst (nth (Z.to_nat r) h (0, 0))) + Rabs (snd (nth (Z.to_nat r) h (0, 0)))) (zrange 0 n) = magnitudes h.
Proof.
  intros <-. induction h as [|z h IH] using rev_ind; [reflexivity|]. rewrite app_length. cbn [length]. rewrite Nat2Z.inj_add. cbn [Z.of_nat].
  rewrite (zrange_app 0 (Z.of_nat (length h)) _) by lia. rewrite SR_app.
  rewrite (SR_ext _ (fun r => Rabs (fst (nth (Z.to_nat r) h (0, 0))) + Rabs (snd (nth (Z.to_nat r) h (0, 0))))) by (intros r Hr; apply zrange_in in Hr; rewrite app_nth1 by lia; reflexivity).
  rewrite IH. rewrite zrange_cons, zrange_nil by lia. cbn [SR]. unfold SR. cbn. rewrite Nat2Z.id, app_nth2, Nat.sub_diag by lia. cbn [nth].
  clear. unfold magnitudes. rewrite fold_right_app. cbn [fold_right]. generalize (Rabs (fst z) + Rabs (snd z)) as c. intros c.
  induction h as [|a h IH]; cbn [fold_right]; [ring|]. rewrite <- IH. ring.
Qed.
Lemma magnitudes_pos h : 0 <= magnitudes h.
Proof. unfold magnitudes. induction h as [|a h IH]; cbn; [lra|]. pose proof (Rabs_pos (fst a)). pose proof (Rabs_pos (snd a)). lra. Qed.
Lemma jump_floor : / 2 ^ 1075 <= / 2 ^ 53 * / 2 ^ 1022.
Proof. rewrite <- Rinv_mult, <- pow_add. apply Rle_refl. Qed.
Lemma inv_p2 a b : (a <= b)%nat -> / 2 ^ b <= / 2 ^ a.
Proof. intros L. apply Rinv_le_contravar; [apply p2|]. apply Rle_pow; [lra|exact L]. Qed.
Section C95.
  Variables (garbage : R -> R) (lat : lattice) (N : Z) (rho : Z -> Z -> R) (coef h : list (R * R)) (T : nat).
  Hypothesis HL : shipped lat N.
  Hypothesis HS : (N + N * N * N < two64)%Z.
  Hypothesis Hh : Z.of_nat (length h) = (N + N * N * N)%Z.
  Hypothesis Hc : Z.of_nat (length coef) = N.
  Hypothesis rho1 : forall j k, (0 <= j < N)%Z -> (0 <= k < N)%Z -> Rabs (rho j k) <= 1.
  Hypothesis c1 : phases coef.
  Hypothesis m1 : magnitudes h <= 2 ^ 400.
  Let k := (Z.to_nat (N * N) + Z.to_nat N + T + 6)%nat.
  Hypothesis Hk : INR k <= 2 ^ 50.
  Lemma jump_close Ls : Permutation (concat Ls) (map (f_term (double_arith garbage) rho N h coef) (zrange 0 N)) -> length Ls = T ->
    Rabs (f_norm (double_arith garbage) (f_accumulate (double_arith garbage) (map (sum_up ((0, 0) : CR) (fplus (double_arith garbage))) Ls)) - jump_value (F := Rring) rho N h coef)
      <= jump_error k (magnitudes h).
  Proof.
    intros P LT. rewrite jump_parts. set (W := 3 * magnitudes h + / 2 ^ 400). pose proof (magnitudes_pos h) as M0.
    assert (HR := shipped_regular _ _ HL). assert (HN := N_pos lat N HR). assert (I400 : 0 < / 2 ^ 400) by (apply Rinv_0_lt_compat, p2).
    set (K := (3 + Z.to_nat (N * N) + 2 + Z.to_nat N + T)%nat). assert (EK : k = S K) by (unfold k, K; lia).
    assert (A2 : / 2 ^ 52 = 2 * / 2 ^ 53) by (rewrite <- !pow_powerRZ || idtac; change 53%nat with (1 + 52)%nat; rewrite pow_add; cbn [pow]; field; try apply Rgt_not_eq, p2).
    assert (KU : INR (2 * K + 2) * / 2 ^ 52 <= 1 / 2).
    { replace (2 * K + 2)%nat with (2 * k)%nat by (rewrite EK; lia). rewrite mult_INR. cbn [INR]. apply Rle_trans with ((1 + 1) * 2 ^ 50 * / 2 ^ 52).
      - apply Rmult_le_compat_r; [apply Rlt_le, Rinv_0_lt_compat, p2|]. lra.
      - change 52%nat with (2 + 50)%nat. rewrite pow_add. apply Req_le. cbn [pow]. field; try apply Rgt_not_eq, p2. }
    assert (V : vw (/ 2 ^ 53) (2 * K + 2) <= 1 + 2 * (INR (2 * K + 2) * / 2 ^ 52)).
    { unfold vw. rewrite <- A2. apply power_one; [apply Rlt_le, Rinv_0_lt_compat, p2|exact KU]. }
    assert (WB : W <= 2 ^ 402).
    { unfold W. change 402%nat with (2 + 400)%nat. rewrite pow_add. pose proof (inv_p2 0 400 ltac:(lia)) as Q. cbn [pow] in Q. assert (1 <= 2 ^ 400) by (apply pow_R1_Rle; lra). cbn [pow]. lra. }
    assert (WL : / 2 ^ 400 <= W) by (unfold W; lra).
    assert (WW : 0 <= W * W <= 2 ^ 804). { split; [nra|]. change 804%nat with (402 + 402)%nat. rewrite pow_add. apply Rmult_le_compat; lra. }
    eapply Rle_trans.
    - apply (norm_D (/ 2 ^ 53) (/ 2 ^ 1075) (2 ^ 1023) (/ 2 ^ 1022) (double_arith garbage)) with (lat := lat) (T := T) (W := W); try assumption.
      + apply Rlt_le, Rinv_0_lt_compat, p2.
      + split; [apply Rlt_le, Rinv_0_lt_compat, p2|]. pose proof (inv_p2 0 1022 ltac:(lia)) as Q. cbn [pow] in Q. lra.
      + apply jump_floor.
      + apply double_ok.
      + intros i Hi. apply (Forall_nth _ coef) with (d := (0, 0)) (i := Z.to_nat i) in c1; [exact c1|lia].
      + assert (EM := magnitudes_SR h _ Hh). match goal with |- 3 * ?m + _ <= _ => change m with (SR (fun r => Rabs (fst (nth (Z.to_nat r) h (0, 0))) + Rabs (snd (nth (Z.to_nat r) h (0, 0)))) (zrange 0 (N + N * N * N))) end.
        rewrite EM. unfold W. apply Rplus_le_compat_l.
        assert (Q1 : IZR (N + N * N * N) <= 2 ^ 64) by (rewrite pow_IZR; apply IZR_le; pose proof P_EigenIo.two64_eq; change (2 ^ Z.of_nat 64)%Z with (2 ^ 64)%Z; lia).
        assert (Q2 : INR (S T) <= 2 ^ 50) by (eapply Rle_trans; [|exact Hk]; apply le_INR; unfold k; lia).
        assert (Q3 : 2 ^ 50 <= 2 ^ 64) by (apply Rle_pow; [lra|lia]).
        apply Rle_trans with (2 ^ 67 * / 2 ^ 1022).
        * apply Rmult_le_compat_r; [apply Rlt_le, Rinv_0_lt_compat, p2|]. change 67%nat with (3 + 64)%nat. rewrite pow_add. cbn [pow] in *. lra.
        * change 1022%nat with (67 + 955)%nat. rewrite Rmult_comm, p2_inv. apply inv_p2. lia.
      + apply Rle_trans with (/ 2 ^ 400 * / 2 ^ 400); [rewrite <- Rinv_mult, <- pow_add; apply inv_p2; lia|]. apply Rmult_le_compat; lra.
      + fold K. eapply Rle_trans; [exact V|]. lra.
      + apply Rle_trans with (2 * 2 ^ 402); [lra|]. change (2 ^ 403 <= 2 ^ 1023). apply Rle_pow; [lra|lia].
      + apply Rle_trans with (2 * (2 * 2 ^ 804)); [lra|]. change (2 ^ 806 <= 2 ^ 1023). apply Rle_pow; [lra|lia].
      + apply Rle_trans with (2 ^ 3); [lra|apply Rle_pow; [lra|lia]].
    - fold K. unfold jump_error. fold W. apply Rle_trans with (2 * (INR (2 * K + 2) * / 2 ^ 52) * (2 * (W * W))).
      + apply Rmult_le_compat_r; [lra|]. lra.
      + replace (2 * K + 2)%nat with (2 * k)%nat by (rewrite EK; lia). rewrite mult_INR. change 52%nat with (3 + 49)%nat. rewrite pow_add. apply Req_le. cbn [INR pow]. field; try apply Rgt_not_eq, p2.
  Qed.
End C95.

(** the jump of an evaluation in double precision against the exact one, whatever the schedules, the numbers
    of threads and the calls before *)
Theorem C95_jump : forall garbage lat N (rho : Z -> Z -> R) (coef h : list (R * R)) T s1 s2 st T' s1' s2' st' x l r, shipped lat N ->
  (N + N * N * N < two64)%Z -> Z.of_nat (length h) = (N + N * N * N)%Z -> Z.of_nat (length coef) = N ->
  (forall j k, (0 <= j < N)%Z -> (0 <= k < N)%Z -> Rabs (rho j k) <= 1) -> phases coef -> magnitudes h <= 2 ^ 400 ->
  let ev := fun a b : op hub => rho (index1 a) (index1 b) in
  let k := (Z.to_nat (N * N) + Z.to_nat N + T + 6)%nat in INR k <= 2 ^ 50 ->
  shares T 0 N s1 -> shares T 0 N s2 -> room N st -> shares T' 0 N s1' -> shares T' 0 N s2' -> room N st' ->
  fermi_jump3 (F := Rring) ev (basis3 lat) N coef h T' s1' s2' st' = Some (Ok (x, l)) ->
  f_fermi_jump3 (double_arith garbage) ev (basis3 lat) N coef h T s1 s2 st = Some r ->
  exists y l', r = Ok (y, l') /\ Rabs (y - x) <= jump_error k (magnitudes h).
Proof.
  intros garbage lat N rho coef h T s1 s2 st T' s1' s2' st' x l r HL HS Hh Hc R1 C1 M1 ev k Hk S1 S2 Rm S1' S2' Rm' HX HY.
  apply (jump3_value (F := Rring) rho lat N h (shipped_regular _ _ HL) HS Hh T' s1' s2' coef st' _ S1' S2' Hc Rm') in HX.
  destruct HX as (l0 & E & _). injection E as -> ->.
  apply (f_jump_value (double_arith garbage) rho lat N h coef (shipped_regular _ _ HL) HS Hh Hc T s1 s2 st r S1 S2 Rm) in HY.
  destruct HY as (Ls & l' & P & LT & _ & _ & ->). eexists _, l'. split; [reflexivity|].
  apply (jump_close garbage lat N rho coef h T HL HS Hh Hc R1 C1 M1 Hk Ls P LT).
Qed.
(** two evaluations in double precision, with their own schedules and numbers of threads *)
Theorem C95_schedules : forall garbage lat N (rho : Z -> Z -> R) (coef h : list (R * R)) T s1 s2 st T' s1' s2' st' y l y' l', shipped lat N ->
  (N + N * N * N < two64)%Z -> Z.of_nat (length h) = (N + N * N * N)%Z -> Z.of_nat (length coef) = N ->
  (forall j k, (0 <= j < N)%Z -> (0 <= k < N)%Z -> Rabs (rho j k) <= 1) -> phases coef -> magnitudes h <= 2 ^ 400 ->
  let ev := fun a b : op hub => rho (index1 a) (index1 b) in
  let k := (Z.to_nat (N * N) + Z.to_nat N + T + 6)%nat in let k' := (Z.to_nat (N * N) + Z.to_nat N + T' + 6)%nat in
  INR k <= 2 ^ 50 -> INR k' <= 2 ^ 50 ->
  shares T 0 N s1 -> shares T 0 N s2 -> room N st -> shares T' 0 N s1' -> shares T' 0 N s2' -> room N st' ->
  f_fermi_jump3 (double_arith garbage) ev (basis3 lat) N coef h T s1 s2 st = Some (Ok (y, l)) ->
  f_fermi_jump3 (double_arith garbage) ev (basis3 lat) N coef h T' s1' s2' st' = Some (Ok (y', l')) ->
  Rabs (y - y') <= jump_error (k + k') (magnitudes h) /\
  forall i, (0 <= i < N)%Z -> nth (Z.to_nat i) l (0, 0) = nth (Z.to_nat i) l' (0, 0).
Proof.
  intros garbage lat N rho coef h T s1 s2 st T' s1' s2' st' y l y' l' HL HS Hh Hc R1 C1 M1 ev k k' Hk Hk' S1 S2 Rm S1' S2' Rm' HY HY'.
  apply (f_jump_value (double_arith garbage) rho lat N h coef (shipped_regular _ _ HL) HS Hh Hc T s1 s2 st _ S1 S2 Rm) in HY.
  apply (f_jump_value (double_arith garbage) rho lat N h coef (shipped_regular _ _ HL) HS Hh Hc T' s1' s2' st' _ S1' S2' Rm') in HY'.
  destruct HY as (Ls & l0 & P & LT & _ & V & E). destruct HY' as (Ls' & l0' & P' & LT' & _ & V' & E'). injection E as -> ->. injection E' as -> ->.
  split; [|intros i Hi; rewrite V, V' by exact Hi; reflexivity].
  pose proof (jump_close garbage lat N rho coef h T HL HS Hh Hc R1 C1 M1 Hk Ls P LT) as A.
  pose proof (jump_close garbage lat N rho coef h T' HL HS Hh Hc R1 C1 M1 Hk' Ls' P' LT') as A'.
  match goal with |- Rabs (?a - ?b) <= _ => match type of A with Rabs (_ - ?x) <= _ => replace (a - b) with ((a - x) - (b - x)) by ring end end.
  eapply Rle_trans; [apply Rabs_triang|]. rewrite Rabs_Ropp. unfold jump_error in *. rewrite plus_INR.
  match goal with |- _ + _ <= (?a + ?b) * ?q / ?d => replace ((a + b) * q / d) with (a * q / d + b * q / d) by (unfold Rdiv; ring) end.
  apply Rplus_le_compat; assumption.
Qed.
Lemma omap_ext_in {A B} (f g : A -> outcome B) l : (forall x, In x l -> f x = g x) -> omap f l = omap g l.
Proof.
  induction l as [|x l IH]; intros H; [reflexivity|]. cbn. rewrite (H x) by (left; reflexivity). rewrite IH by (intros; apply H; right; assumption). reflexivity.
Qed.
Lemma oconcat_ext_in {A B} (f g : A -> outcome (list B)) l : (forall x, In x l -> f x = g x) -> oconcat f l = oconcat g l.
Proof.
  induction l as [|x l IH]; intros H; [reflexivity|]. cbn. rewrite (H x) by (left; reflexivity). rewrite IH by (intros; apply H; right; assumption). reflexivity.
Qed.
(** only which thread executes which iterations (in which order) matters, not how the threads interleave;
    the distribution of the first loop does not matter at all *)
Theorem C95_interleaving : forall ar lat N (rho : Z -> Z -> R) (coef h : list (R * R)) T s1 s2 st s1' s2' st' y l y' l', shipped lat N ->
  (N + N * N * N < two64)%Z -> Z.of_nat (length h) = (N + N * N * N)%Z -> Z.of_nat (length coef) = N ->
  let ev := fun a b : op hub => rho (index1 a) (index1 b) in
  shares T 0 N s1 -> shares T 0 N s2 -> room N st -> shares T 0 N s1' -> shares T 0 N s2' -> room N st' -> who s2 = who s2' ->
  f_fermi_jump3 ar ev (basis3 lat) N coef h T s1 s2 st = Some (Ok (y, l)) ->
  f_fermi_jump3 ar ev (basis3 lat) N coef h T s1' s2' st' = Some (Ok (y', l')) -> y = y'.
Proof.
  intros ar lat N rho coef h T s1 s2 st s1' s2' st' y l y' l' HL HS Hh Hc ev S1 S2 Rm S1' S2' Rm' Hw HY HY'.
  pose proof (f_jump_value ar rho lat N h coef (shipped_regular _ _ HL) HS Hh Hc T s1 s2 st _ S1 S2 Rm HY) as (Ls0 & l0 & _ & _ & L0 & V & E). injection E as _ El; subst l0.
  pose proof (f_jump_value ar rho lat N h coef (shipped_regular _ _ HL) HS Hh Hc T s1' s2' st' _ S1' S2' Rm' HY') as (Ls0' & l0' & _ & _ & L0' & V' & E'). injection E' as _ El'; subst l0'.
  unfold f_fermi_jump3, f_jump_sum in HY, HY'.
  destruct (rpar_for _ _ s1 _ _) as [[m|]|] in HY; try discriminate. destruct (rpar_for _ _ s1' _ _) as [[m'|]|] in HY'; try discriminate.
  cbn [pbind] in HY, HY'.
  match type of HY with pbind (pbind ?q _) _ = _ => destruct q as [[a|]|] eqn:E1; try discriminate end.
  match type of HY' with pbind (pbind ?q _) _ = _ => destruct q as [[a'|]|] eqn:E1'; try discriminate end.
  cbn [pbind] in HY, HY'. injection HY as <- <-. injection HY' as <- <-. assert (HN := N_pos lat N (shipped_regular _ _ HL)).
  assert (Ll : (N <= Z.of_nat (length m))%Z) by (unfold room in Rm; destruct st as [q|]; [apply Z.le_trans with (Z.of_nat (length q)); [exact Rm|]|apply Z.le_trans with (Z.of_nat (Z.to_nat N)); [lia|]]; apply Z.eq_le_incl; f_equal; symmetry; exact L0).
  assert (Ll' : (N <= Z.of_nat (length m'))%Z) by (unfold room in Rm'; destruct st' as [q|]; [apply Z.le_trans with (Z.of_nat (length q)); [exact Rm'|]|apply Z.le_trans with (Z.of_nat (Z.to_nat N)); [lia|]]; apply Z.eq_le_incl; f_equal; symmetry; exact L0').
  assert (EQ : Ok a = Ok a'); [|injection EQ as ->; reflexivity].
  assert (G : forall m0, (N <= Z.of_nat (length m0))%Z -> (forall i, (0 <= i < N)%Z -> nth (Z.to_nat i) m0 (0, 0) = f_h_no ar rho N h i) -> forall i, In i (zrange 0 N) ->
    obind (vread coef i) (fun c => obind (vread m0 i) (fun x => Ok [CSum (cf_mul ar c x)])) = Ok [f_term ar rho N h coef i]).
  { intros m0 Lm Vm i Hi. apply zrange_in in Hi. rewrite (vread_nth coef i (0, 0)) by lia. rewrite (vread_nth m0 i (0, 0)) by lia. cbn [obind]. rewrite Vm by exact Hi. reflexivity. }
  assert (X : forall m0 s, shares T 0 N s -> (N <= Z.of_nat (length m0))%Z -> (forall i, (0 <= i < N)%Z -> nth (Z.to_nat i) m0 (0, 0) = f_h_no ar rho N h i) ->
    rpar_reduce ((0, 0) : CR) (fplus ar) s (fun i => obind (vread coef i) (fun c => obind (vread m0 i) (fun x => Ok [CSum (cf_mul ar c x)]))) (repeat ((0, 0) : CR) T) =
    rpar_reduce ((0, 0) : CR) (fplus ar) s (fun i => Ok [f_term ar rho N h coef i]) (repeat ((0, 0) : CR) T)).
  { intros m0 s Sh Lm Vm. unfold rpar_reduce. erewrite omap_ext_in; [reflexivity|]. intros [t its] Hin. cbn [fst snd].
    apply oconcat_ext_in. intros i Hi. rewrite (G m0 Lm Vm); [reflexivity|]. destruct Sh as [_ HP]. eapply Permutation_in; [exact HP|].
    apply in_concat. exists its. split; [apply in_combine_r in Hin; exact Hin|exact Hi]. }
  assert (F1 := eq_trans (eq_sym (X m s2 S2 Ll V)) E1). assert (F1' := eq_trans (eq_sym (X m' s2' S2' Ll' V')) E1'). exact (rreduce_interleaving _ _ _ _ _ _ _ _ Hw F1 F1').
Qed.
(** the threads finish *)
Theorem C95_completes : forall ar ev basis N (coef h : list (R * R)) T w1 w2 st,
  exists t1 t2, f_fermi_jump3 ar ev basis N coef h T (mkSch w1 t1) (mkSch w2 t2) st <> None.
Proof.
  intros ar ev basis N coef h T w1 w2 st. unfold f_fermi_jump3, f_jump_sum.
  match goal with |- exists t1 t2, pbind (rpar_for ?z ?ad _ ?b ?m) _ <> None => destruct (rpar_for_finishes z ad w1 b m) as (t1 & P1); exists t1 end.
  match goal with |- exists t2, pbind ?q _ <> None => assert (P1' : q <> None) by exact P1; destruct q as [[x1|]|]; [|exists []; cbn [pbind]; discriminate|congruence] end. cbn [pbind].
  match goal with |- exists t2, pbind (pbind (rpar_reduce ?z ?ad _ ?b ?m) _) _ <> None => destruct (rreduce_finishes z ad w2 b m) as (t2 & P2); exists t2 end.
  match goal with |- pbind (pbind ?q _) _ <> None => assert (P2' : q <> None) by exact P2; destruct q as [[x2|]|]; [cbn [pbind]; discriminate|cbn [pbind]; discriminate|congruence] end.
Qed.
