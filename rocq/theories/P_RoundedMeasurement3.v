(** PROPERTY C93, defect: whether the assertion of a vanishing imaginary part holds depends on the schedule. *)
From Coq Require Import Reals Lra List ZArith Lia Permutation Bool.
From Flocq Require Import Core.
From Verif Require Import Base Instances M_Operator M_Basis M_Matrix M_Ode M_Dispersion M_Number M_OpenMP Spec_OpenMP M_SiteOccupation Spec_Stability
  M_Rounding M_Double Pf_Double P_Rounding M_RoundedMeasurement Spec_RoundedMeasurement Pf_Threads Pf_Threads2.
Local Open Scope R_scope.
Local Open Scope list_scope.

(** multiples of 2^-55 *)
Definition val (k : Z) : R := IZR k * bpow radix2 (-55).
Definition exactb (k : Z) : bool :=
  ((Z.abs k <? 2 ^ 53) || ((k mod 8 =? 0) && (Z.abs (k / 8) <? 2 ^ 53)) || ((k mod 16 =? 0) && (Z.abs (k / 16) <? 2 ^ 53)))%Z.
Lemma val_double m j : (Z.abs m < 2 ^ 53)%Z -> (0 <= j)%Z -> is_double (val (m * 2 ^ j)).
Proof.
  intros Hm Hj. apply generic_format_FLT. exists (Float radix2 m (j - 55)).
  - unfold val, F2R. cbn [Fnum Fexp]. rewrite mult_IZR. change (2 ^ j)%Z with (radix2 ^ j)%Z. rewrite IZR_Zpower by exact Hj.
    rewrite Rmult_assoc, <- bpow_plus. reflexivity.
  - cbn [Fnum]. exact Hm.
  - cbn [Fexp]. lia.
Qed.
Lemma val_small k : (Z.abs k <= 2 ^ 100)%Z -> Rabs (val k) <= bpow radix2 1023.
Proof.
  intros H. unfold val. rewrite Rabs_mult, (Rabs_pos_eq (bpow _ _)) by apply bpow_ge_0. rewrite <- abs_IZR.
  apply Rle_trans with (bpow radix2 100 * bpow radix2 (-55)).
  - apply Rmult_le_compat_r; [apply bpow_ge_0|]. rewrite <- IZR_Zpower by lia. apply IZR_le. exact H.
  - rewrite <- bpow_plus. apply bpow_le. lia.
Qed.
Lemma exactb_exact garbage k : exactb k = true -> to_double garbage (val k) = val k.
Proof.
  unfold exactb. rewrite !orb_true_iff, !andb_true_iff, !Z.ltb_lt, !Z.eqb_eq. intros H.
  assert (Q : exists m j, k = (m * 2 ^ j)%Z /\ (Z.abs m < 2 ^ 53)%Z /\ (0 <= j <= 4)%Z).
  { destruct H as [[H|[E H]]|[E H]].
    - exists k, 0%Z. lia.
    - exists (k / 8)%Z, 3%Z. split; [|lia]. pose proof (Z.div_mod k 8 ltac:(lia)). change (2 ^ 3)%Z with 8%Z. lia.
    - exists (k / 16)%Z, 4%Z. split; [|lia]. pose proof (Z.div_mod k 16 ltac:(lia)). change (2 ^ 4)%Z with 16%Z. lia. }
  destruct Q as (m & j & -> & Hm & Hj). apply double_exact; [apply val_double; lia|]. apply val_small.
  rewrite Z.abs_mul, (Z.abs_eq (2 ^ j)) by (apply Z.pow_nonneg; lia).
  apply Z.le_trans with (2 ^ 53 * 2 ^ 4)%Z; [|lia]. apply Z.mul_le_mono_nonneg; [lia|lia|apply Z.pow_nonneg; lia|apply Z.pow_le_mono_r; lia].
Qed.
(** between 1 and 2, doubles are the multiples of 2^-52 *)
Lemma round_near m r : (2 ^ 55 <= 8 * m + r < 2 ^ 56)%Z -> (-4 < r < 4)%Z -> round_double (val (8 * m + r)) = val (8 * m).
Proof.
  intros Hk Hr. unfold round_double, round, scaled_mantissa, cexp.
  assert (M : mag radix2 (val (8 * m + r)) = 1%Z :> Z).
  { apply mag_unique_pos. unfold val. split.
    - apply Rle_trans with (bpow radix2 55 * bpow radix2 (-55)); [rewrite <- bpow_plus; apply bpow_le; lia|].
      apply Rmult_le_compat_r; [apply bpow_ge_0|]. rewrite <- IZR_Zpower by lia. apply IZR_le. exact (Logic.proj1 Hk).
    - apply Rlt_le_trans with (bpow radix2 56 * bpow radix2 (-55)); [|rewrite <- bpow_plus; apply bpow_le; lia].
      apply Rmult_lt_compat_r; [apply bpow_gt_0|]. rewrite <- IZR_Zpower by lia. apply IZR_lt. exact (Logic.proj2 Hk). }
  rewrite M. replace (FLT_exp (-1074) 53 1) with (-52)%Z by reflexivity.
  replace (ZnearestE (val (8 * m + r) * bpow radix2 (- (-52)))) with m.
  - unfold F2R, val. cbn [Fnum Fexp]. rewrite mult_IZR. replace (bpow radix2 (-52)) with (8 * bpow radix2 (-55)); [ring|].
    change 8 with (IZR (radix2 ^ 3)). rewrite IZR_Zpower by lia. rewrite <- bpow_plus. reflexivity.
  - symmetry. apply Znearest_imp. unfold val. rewrite Rmult_assoc, <- bpow_plus. change (-55 + - (-52))%Z with (Z.opp 3). rewrite (bpow_opp radix2 3).
    rewrite <- IZR_Zpower by lia. change (radix2 ^ 3)%Z with 8%Z. rewrite plus_IZR, mult_IZR.
    destruct Hr as [R1 R2]. apply IZR_lt in R1, R2. replace ((8 * IZR m + IZR r) * / 8 - IZR m) with (IZR r / 8) by field.
    apply Rabs_lt. lra.
Qed.
Lemma val_opp k : val (- k) = - val k.
Proof. unfold val. rewrite opp_IZR. ring. Qed.
Lemma round_near_opp m r : (2 ^ 55 <= 8 * m + r < 2 ^ 56)%Z -> (-4 < r < 4)%Z -> round_double (val (- (8 * m + r))) = val (- (8 * m)).
Proof. intros Hk Hr. rewrite !val_opp. unfold round_double. rewrite round_NE_opp. f_equal. apply round_near; assumption. Qed.

Section Refuted.
  Variable garbage : R -> R.
  Notation ar := (double_arith garbage).
  Lemma add_val a b : f_add ar (val a) (val b) = to_double garbage (val (a + b)).
  Proof. cbn [f_add double_arith]. f_equal. unfold val. rewrite plus_IZR. ring. Qed.
  Lemma mul_val p k : f_mul ar (IZR p) (val k) = to_double garbage (val (p * k)).
  Proof. cbn [f_mul double_arith]. f_equal. unfold val. rewrite mult_IZR. ring. Qed.
  Lemma half_val k : f_div ar (val (2 * k)) 2 = to_double garbage (val k).
  Proof. cbn [f_div double_arith]. f_equal. unfold val. rewrite mult_IZR. field. Qed.

  (** the vector: 1, i, i y, i y with y = 5 / 2^55; its parts *)
  Definition px (i : Z) : Z := if (i =? 0)%Z then 1 else 0.
  Definition pk (i : Z) : Z := if (i =? 0)%Z then 0 else if (i =? 1)%Z then (2 ^ 55)%Z else 5.
  Definition el (i : Z) : CR := (IZR (px i), val (pk i)).
  Definition vec4 : list CR := [el 0; el 1; el 2; el 3].
  Definition mono (i : Z) : monomial hub := [hop true i true].
  Definition conj (i : Z) : monomial hub := [hop false i true].
  Definition basis4 : list (monomial hub) := [mono 0; mono 1; mono 2; mono 3].
  Definition conj4 : list (monomial hub) := [conj 0; conj 1; conj 2; conj 3].
  Definition ev1 (a b : op hub) : R := 1.
  Definition term (i j : Z) : CR := f_conjugate_product ar (f_mul ar 2 1) (el i) (el j).
  Definition terms (i : Z) : list summand := map (fun j => CSum (term i j)) (zrange 0 4).
  Definition im (i j : Z) : Z := (px j * pk i - px i * pk j)%Z.

  Lemma adds i : In i (zrange 0 4) ->
    omap (fun j => f_product basis4 conj4 vec4 (f_so1 ar ev1) (f_with_conjugate ar) i j) (zrange 0 (f_size basis4)) = Ok (terms i).
  Proof.
    change (zrange 0 4) with [0; 1; 2; 3]%Z. intros [<-|[<-|[<-|[<-|[]]]]]; reflexivity.
  Qed.
  Lemma two : f_mul ar 2 1 = 2.
  Proof. cbn [f_mul double_arith]. rewrite Rmult_1_r. apply double_exact; [apply (double_int 2); cbn; lia|]. change 2 with (bpow radix2 1) at 1. rewrite Rabs_pos_eq by apply bpow_ge_0. apply bpow_le. lia. Qed.
  Lemma term_im i j : In i (zrange 0 4) -> In j (zrange 0 4) -> snd (term i j) = val (im i j).
  Proof.
    intros Hi Hj. assert (X : exactb (- px i * pk j) = true /\ exactb (px j * pk i) = true /\ exactb (im i j) = true /\ exactb (2 * im i j) = true /\ im i j = (- px i * pk j + px j * pk i)%Z).
    { change (zrange 0 4) with [0; 1; 2; 3]%Z in Hi, Hj. destruct Hi as [<-|[<-|[<-|[<-|[]]]]], Hj as [<-|[<-|[<-|[<-|[]]]]]; repeat split. }
    destruct X as (X1 & X2 & X3 & X4 & X5).
    unfold term. rewrite two. unfold f_conjugate_product, f_multiply_with_conjugate, cf_scale, el. cbn [fst snd].
    rewrite <- opp_IZR, !mul_val. rewrite (exactb_exact garbage _ X1), (exactb_exact garbage _ X2), add_val, <- X5, (exactb_exact garbage _ X3).
    rewrite mul_val, (exactb_exact garbage _ X4), half_val. apply exactb_exact. exact X3.
  Qed.
  Lemma sum_im l : forall z, Forall (fun p => In (fst p) (zrange 0 4) /\ In (snd p) (zrange 0 4)) l ->
    snd (fold_left (fplus ar) (map (fun p => CSum (term (fst p) (snd p))) l) z) = fold_left (fun x p => f_add ar x (val (im (fst p) (snd p)))) l (snd z).
  Proof.
    induction l as [|[i j] l IH]; intros z F; [reflexivity|]. cbn [map fold_left fst snd]. inversion F as [|? ? [Hi Hj] F']; subst. rewrite IH by exact F'.
    cbn [fplus cf_add snd fst]. rewrite term_im by assumption. reflexivity.
  Qed.
  Lemma sum_rows its : Forall (fun i => In i (zrange 0 4)) its ->
    snd (sum_up ((0, 0) : CR) (fplus ar) (flat_map terms its)) = fold_left (fun x p => f_add ar x (val (im (fst p) (snd p)))) (list_prod its (zrange 0 4)) (val 0).
  Proof.
    intros F. unfold sum_up. replace (flat_map terms its) with (map (fun p => CSum (term (fst p) (snd p))) (list_prod its (zrange 0 4))).
    - rewrite sum_im; [|apply Forall_forall; intros [i j] Hin; apply in_prod_iff in Hin; rewrite Forall_forall in F; cbn [fst snd]; split; [apply F|]; apply Hin].
      f_equal. unfold val. cbn. ring.
    - clear F. induction its as [|i its IH]; [reflexivity|]. cbn [list_prod flat_map]. rewrite map_app, IH, map_map. reflexivity.
  Qed.
  (** one step of the summation *)
  Lemma step_exact a i j l c : c = (a + im i j)%Z -> exactb c = true ->
    fold_left (fun x p => f_add ar x (val (im (fst p) (snd p)))) ((i, j) :: l) (val a) = fold_left (fun x p => f_add ar x (val (im (fst p) (snd p)))) l (val c).
  Proof. intros -> X. cbn [fold_left fst snd]. rewrite add_val, (exactb_exact garbage _ X). reflexivity. Qed.
  Lemma step_up a i j l m r : (a + im i j = 8 * m + r)%Z -> (2 ^ 55 <= 8 * m + r < 2 ^ 56)%Z -> (-4 < r < 4)%Z ->
    fold_left (fun x p => f_add ar x (val (im (fst p) (snd p)))) ((i, j) :: l) (val a) = fold_left (fun x p => f_add ar x (val (im (fst p) (snd p)))) l (val (8 * m)).
  Proof.
    intros E H1 H2. cbn [fold_left fst snd]. rewrite add_val, E, double_round by (apply val_small; lia). rewrite round_near by assumption. reflexivity.
  Qed.
  Lemma step_down a i j l m r : (a + im i j = - (8 * m + r))%Z -> (2 ^ 55 <= 8 * m + r < 2 ^ 56)%Z -> (-4 < r < 4)%Z ->
    fold_left (fun x p => f_add ar x (val (im (fst p) (snd p)))) ((i, j) :: l) (val a) = fold_left (fun x p => f_add ar x (val (im (fst p) (snd p)))) l (val (- (8 * m))).
  Proof.
    intros E H1 H2. cbn [fold_left fst snd]. rewrite add_val, E, double_round by (apply val_small; lia). rewrite round_near_opp by assumption. reflexivity.
  Qed.
  Ltac ex := erewrite step_exact; [|cbv; reflexivity|vm_compute; reflexivity].
  Ltac down mm rr := rewrite (step_down _ _ _ _ mm rr); [|vm_compute; reflexivity|split; vm_compute; congruence|split; vm_compute; reflexivity].
  Ltac up mm rr := rewrite (step_up _ _ _ _ mm rr); [|vm_compute; reflexivity|split; vm_compute; congruence|split; vm_compute; reflexivity].
  Lemma row0 : fold_left (fun x p => f_add ar x (val (im (fst p) (snd p)))) (list_prod [0]%Z (zrange 0 4)) (val 0) = val (- (2 ^ 55 + 16)).
  Proof.
    change (list_prod [0]%Z (zrange 0 4)) with [(0, 0); (0, 1); (0, 2); (0, 3)]%Z. ex. ex.
    down (2 ^ 52 + 1)%Z (-3)%Z. down (2 ^ 52 + 2)%Z (-3)%Z. reflexivity.
  Qed.
  Lemma one_thread : fold_left (fun x p => f_add ar x (val (im (fst p) (snd p)))) (list_prod [0; 1; 2; 3]%Z (zrange 0 4)) (val 0) = val (- 6).
  Proof.
    change (list_prod [0; 1; 2; 3]%Z (zrange 0 4)) with (list_prod [0]%Z (zrange 0 4) ++ list_prod [1; 2; 3]%Z (zrange 0 4)). rewrite fold_left_app, row0.
    change (list_prod [1; 2; 3]%Z (zrange 0 4)) with [(1, 0); (1, 1); (1, 2); (1, 3); (2, 0); (2, 1); (2, 2); (2, 3); (3, 0); (3, 1); (3, 2); (3, 3)]%Z.
    do 12 ex. reflexivity.
  Qed.
  Lemma other_thread : fold_left (fun x p => f_add ar x (val (im (fst p) (snd p)))) (list_prod [2; 3; 1]%Z (zrange 0 4)) (val 0) = val (2 ^ 55 + 8).
  Proof.
    change (list_prod [2; 3; 1]%Z (zrange 0 4)) with [(2, 0); (2, 1); (2, 2); (2, 3); (3, 0); (3, 1); (3, 2); (3, 3); (1, 0); (1, 1); (1, 2); (1, 3)]%Z.
    do 8 ex. up (2 ^ 52 + 1)%Z 2%Z. do 3 ex. reflexivity.
  Qed.

  Lemma run T w : length w = T -> Permutation (concat w) (zrange 0 4) ->
    exists tr y, f_site_occupation1 ar ev1 basis4 conj4 vec4 T (mkSch w tr) = Some (Ok y) /\
      snd y = fold_left (f_add ar) (map (fun its => fold_left (fun x p => f_add ar x (val (im (fst p) (snd p)))) (list_prod its (zrange 0 4)) (val 0)) w) (val 0).
  Proof.
    intros L P. set (adds1 := fun i => omap (fun j => f_product basis4 conj4 vec4 (f_so1 ar ev1) (f_with_conjugate ar) i j) (zrange 0 (f_size basis4))).
    destruct (rreduce_finishes ((0, 0) : CR) (fplus ar) w adds1 (f_zeros T)) as (tr & E). exists tr.
    assert (In4 : forall i, In i (concat w) -> In i (zrange 0 4)) by (intros i; apply (Permutation_in i P)).
    destruct (rpar_reduce ((0, 0) : CR) (fplus ar) (mkSch w tr) adds1 (f_zeros T)) as [r|] eqn:R; [|congruence].
    pose proof (rreduce_exact ((0, 0) : CR) (fplus ar) (mkSch w tr) adds1 terms T r L (fun i Hi => adds i (In4 i Hi)) R) as ->.
    cbn [who] in R. exists (f_accumulate ar (map (fun its => sum_up ((0, 0) : CR) (fplus ar) (flat_map terms its)) w)). split.
    - unfold f_site_occupation1, f_reduce. fold adds1. rewrite R. reflexivity.
    - unfold f_accumulate. clear L R P. assert (In5 : forall its, In its w -> Forall (fun i => In i (zrange 0 4)) its).
      { intros its Hits. apply Forall_forall. intros i Hi. apply In4, in_concat. exists its. split; assumption. }
      clear In4 E tr.
      assert (Q : forall z : CR, snd (fold_left (cf_add ar) (map (fun its => sum_up ((0, 0) : CR) (fplus ar) (flat_map terms its)) w) z) =
        fold_left (f_add ar) (map (fun its => fold_left (fun x p => f_add ar x (val (im (fst p) (snd p)))) (list_prod its (zrange 0 4)) (val 0)) w) (snd z)).
      { induction w as [|its w' IH]; intros z; cbn [map fold_left]; [reflexivity|]. rewrite IH by (intros; apply In5; right; assumption).
        cbn [cf_add snd]. rewrite sum_rows by (apply In5; left; reflexivity). reflexivity. }
      rewrite Q. f_equal. unfold val. cbn. ring.
  Qed.
End Refuted.

Definition epsilon : R := / 2 ^ 52.
Lemma val_eps k : val (8 * k) = IZR k * epsilon.
Proof.
  unfold val, epsilon. rewrite mult_IZR. replace (/ 2 ^ 52) with (8 * bpow radix2 (-55)); [ring|].
  rewrite <- (bm 52). change 8 with (IZR (radix2 ^ 3)). rewrite IZR_Zpower by lia. rewrite <- bpow_plus. reflexivity.
Qed.
Lemma eps_pos : 0 < epsilon.
Proof. unfold epsilon. apply Rinv_0_lt_compat, pow_lt. lra. Qed.
(** in double precision, whether [assert(types::IsZero(result.imag()))] (site_occupation.hpp 64) holds depends
    on how the runtime distributes the iterations: it holds with one thread and fails with two *)
Theorem C93_assert_refuted : forall garbage, exists ev basis conjugate_basis v s s' y y', (forall a b, Rabs (ev a b) <= 1) /\ norm2 v <= 4 /\
  shares 1 0 (Z.of_nat (length basis)) s /\ shares 2 0 (Z.of_nat (length basis)) s' /\
  f_site_occupation1 (double_arith garbage) ev basis conjugate_basis v 1 s = Some (Ok y) /\ is_zero_fl (/ 2 ^ 52) (snd y) = true /\
  f_site_occupation1 (double_arith garbage) ev basis conjugate_basis v 2 s' = Some (Ok y') /\ is_zero_fl (/ 2 ^ 52) (snd y') = false.
Proof.
  intros garbage.
  destruct (run garbage 1 [[0; 1; 2; 3]]%Z eq_refl (Permutation_refl _)) as (tr & y & E & Y).
  assert (P2 : Permutation (concat [[0]; [2; 3; 1]]%Z) (zrange 0 4)).
  { cbn [concat app]. change (zrange 0 4) with [0; 1; 2; 3]%Z. apply perm_skip. apply (Permutation_app_comm [2; 3]%Z [1]%Z). }
  destruct (run garbage 2 [[0]; [2; 3; 1]]%Z eq_refl P2) as (tr' & y' & E' & Y').
  exists ev1, basis4, conj4, vec4, (mkSch [[0; 1; 2; 3]]%Z tr), (mkSch [[0]; [2; 3; 1]]%Z tr'), y, y'.
  split; [intros; unfold ev1; rewrite Rabs_R1; lra|].
  split.
  { unfold norm2, vec4, el, px, pk. cbn [sum_over map fold_right fst snd Z.eqb Pos.eqb]. change (2 ^ 55)%Z with (8 * 2 ^ 52)%Z. rewrite val_eps.
    assert (V5 : 0 <= val 5 <= 1 / 2).
    { unfold val. split; [apply Rmult_le_pos; [lra|apply bpow_ge_0]|]. apply Rle_trans with (bpow radix2 3 * bpow radix2 (-55)).
      - apply Rmult_le_compat_r; [apply bpow_ge_0|]. cbn. lra.
      - rewrite <- bpow_plus. apply Rle_trans with (bpow radix2 (-1)); [apply bpow_le; lia|]. cbn. lra. }
    replace (IZR (2 ^ 52) * epsilon) with 1.
    2:{ unfold epsilon. rewrite (pow_IZR 2 52). change (2 ^ Z.of_nat 52)%Z with (2 ^ 52)%Z. field. apply not_0_IZR. lia. }
    replace (val 0) with 0 by (unfold val; ring). cbn. nra. }
  split; [split; [cbn; lia|apply Permutation_refl]|]. split; [split; [cbn; lia|exact P2]|].
  split; [exact E|]. cbn [map fold_left] in Y, Y'. rewrite one_thread, add_val, exactb_exact in Y by reflexivity.
  rewrite row0, other_thread, add_val, exactb_exact, add_val, exactb_exact in Y' by reflexivity.
  split.
  { rewrite Y. unfold is_zero_fl, Rltb. fold epsilon. destruct (Rlt_dec _ _) as [_|N]; [reflexivity|]. exfalso. apply N.
    change (val (0 + -6)) with (val (Z.opp 6)). rewrite (val_opp 6), Rabs_Ropp. pose proof (val_eps 1) as V1. change (8 * 1)%Z with 8%Z in V1.
    rewrite Rmult_1_l in V1. rewrite <- V1. unfold val. rewrite Rabs_pos_eq by (apply Rmult_le_pos; [lra|apply bpow_ge_0]).
    apply Rmult_lt_compat_r; [apply bpow_gt_0|lra]. }
  split; [exact E'|]. rewrite Y'. unfold is_zero_fl, Rltb. fold epsilon. destruct (Rlt_dec _ _) as [C|_]; [|reflexivity]. exfalso. revert C.
  match goal with |- context [val ?k] => change (val k) with (val (8 * -1)) end. rewrite val_eps. pose proof eps_pos.
  replace (-1 * epsilon) with (- epsilon) by ring. rewrite Rabs_Ropp, Rabs_pos_eq by lra. lra.
Qed.
