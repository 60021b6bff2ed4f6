(** PROOFS: IEEE double precision satisfies the error model; the stored matrices are exact. *)
From Coq Require Import Reals Lra Psatz List ZArith Lia Sorting.Sorted Sorting.Permutation.
From Flocq Require Import Core Relative.
From Verif Require Import Base M_Lattice Spec_Lattice M_Operator M_Basis Pf_Basis M_Matrix M_Dispersion Spec_Matrix Pf_Matrix Pf_Matrix2 P_Matrix Spec_Stability M_Ode P_Ode Pf_Stability Pf_Stability2 Pf_Stability3
  P_Stability M_Rounding Spec_Rounding Pf_Rounding M_Double.
Local Open Scope R_scope.
Local Open Scope list_scope.

#[local] Instance prec53 : Prec_gt_0 53. Proof. reflexivity. Qed.
Lemma round_max x : Rabs x <= bpow radix2 1023 -> Rabs (round_double x) <= bpow radix2 1023.
Proof.
  intros B. unfold round_double. apply abs_round_le_generic; [apply FLT_exp_valid; exact prec53|apply valid_rnd_N| |exact B].
  apply generic_format_bpow. unfold FLT_exp. lia.
Qed.
Lemma double_round garbage x : Rabs x <= bpow radix2 1023 -> to_double garbage x = round_double x.
Proof.
  intros B. unfold to_double. destruct (Rlt_dec (Rabs (round_double x)) (bpow radix2 1024)) as [_|N]; [reflexivity|].
  exfalso. apply N. eapply Rle_lt_trans; [apply round_max; exact B|]. apply bpow_lt. lia.
Qed.
Lemma double_within garbage x : within (bpow radix2 (-53)) (bpow radix2 (-1075)) (bpow radix2 1023) (to_double garbage x) x.
Proof.
  intros B. rewrite (double_round garbage x B). unfold round_double.
  destruct (error_N_FLT radix2 (-1074) 53 ltac:(lia) (fun x => negb (Z.even x)) x) as (eps & eta & He & Ht & _ & E). unfold ZnearestE in *. rewrite E.
  replace (x * (1 + eps) + eta - x) with (eps * x + eta) by ring. eapply Rle_trans; [apply Rabs_triang|]. rewrite Rabs_mult.
  assert (E1 : / 2 * bpow radix2 (-53 + 1) = bpow radix2 (-53)) by (rewrite (bpow_plus radix2 (-53) 1); change (bpow radix2 1) with 2; lra).
  assert (E2 : / 2 * bpow radix2 (-1074) = bpow radix2 (-1075)) by (replace (-1074)%Z with (-1075 + 1)%Z by lia; rewrite (bpow_plus radix2 (-1075) 1); change (bpow radix2 1) with 2; lra).
  change (Rabs eps <= / 2 * bpow radix2 (-53 + 1)) in He. rewrite E1 in He. rewrite E2 in Ht. apply Rplus_le_compat; [|exact Ht]. apply Rmult_le_compat_r; [apply Rabs_pos|exact He].
Qed.
Lemma double_accurate garbage : accurate (bpow radix2 (-53)) (bpow radix2 (-1075)) (bpow radix2 1023) (double_arith garbage).
Proof. intros a b. split; [apply double_within|]. split; [apply double_within|]. intros _. apply double_within. Qed.

(** doubles are not rounded *)
Lemma double_exact garbage x : is_double x -> Rabs x <= bpow radix2 1023 -> to_double garbage x = x.
Proof. intros D B. rewrite double_round by exact B. unfold round_double. apply round_generic; [apply valid_rnd_N|exact D]. Qed.
Lemma double_zero garbage : to_double garbage 0 = 0.
Proof. apply double_exact; [apply generic_format_0|rewrite Rabs_R0; apply bpow_ge_0]. Qed.
Lemma double_opp x : is_double x -> is_double (- x).
Proof. intros D. apply generic_format_opp. exact D. Qed.
(** multiplication of a real entry by i is exact *)
Lemma times_i garbage x : is_double x -> Rabs x <= bpow radix2 1023 ->
  cf_mul (double_arith garbage) imag_unit (real x) = rmul imag_unit (real x).
Proof.
  intros D B. unfold cf_mul, double_arith, imag_unit, real. cbn [f_add f_mul fst snd].
  replace (0 * x) with 0 by ring. replace (1 * 0) with 0 by ring. replace (0 * 0) with 0 by ring. replace (1 * x) with x by ring.
  rewrite (double_exact garbage x D B), double_zero. replace (0 + - 0) with 0 by ring. replace (0 + x) with x by ring.
  rewrite (double_exact garbage x D B), double_zero. cbn. f_equal; ring.
Qed.

(** ** The stored matrices *)
Lemma sort_len sort (l : list (triplet CR)) : sorts_by_column sort -> length (sort l) = length l.
Proof. intros Hs. apply Permutation_length, Hs. Qed.
Lemma pairs_values sort (l : list (triplet CR)) (V : CR -> Prop) : sorts_by_column sort -> Forall (fun t => V (t_val t)) l -> Forall (fun e => V (snd e)) (pairs (sort l)).
Proof.
  intros Hs F. rewrite Forall_forall in *. intros e He. unfold pairs in He. apply in_map_iff in He as (t & <- & Ht). cbn [snd]. apply F.
  apply (Permutation_in _ (Logic.proj1 (Hs l))). exact Ht.
Qed.
Section Shape.
  Context (sort : list (triplet CR) -> list (triplet CR)) (J U : R) (lat : lattice) (N : Z).
  Hypothesis Hs : sorts_by_column sort.
  Hypothesis Hl : shipped3 lat N.
  Let HG := shipped3_graph lat N Hl.
  Let z := Z.to_nat (lat_coordination lat).
  Definition one_of (e : CR) : Prop := exists x, e = real x /\ (x = J \/ x = - J \/ x = U / 2).
  Lemma neigh_len i : site N i -> length (lat_neighbors lat i) = z.
  Proof. intros Hi. pose proof (g_len _ _ HG i Hi) as E. unfold z. lia. Qed.
  Lemma one_J : one_of (real J). Proof. exists J. auto. Qed.
  Lemma one_mJ : one_of (ropp (real J)). Proof. exists (- J). split; [|auto]. cbn. rewrite Ropp_0. reflexivity. Qed.
  Lemma one_U : one_of (rmul (real U) (real (1 / 2))). Proof. exists (U / 2). split; [|auto]. apply (injective_projections (A:=R) (B:=R)); cbn; field. Qed.
  Lemma kinetic_shape m : (N * lat_coordination lat < two64)%Z -> init_kinetic_matrix sort (real J : CR) lat = Ok m ->
    Forall (fun r => (length r <= z)%nat /\ Forall (fun e => one_of (snd e)) r) (bm_done m) /\ bm_cur m = [].
  Proof.
    intros Hf Em. rewrite (init_kinetic_closed sort Hs _ lat N HG Hf) in Em. injection Em as <-. cbn [bm_done bm_cur]. split; [|reflexivity].
    apply Forall_forall. intros r Hr. apply in_map_iff in Hr as (i & <- & Hi). apply zrange_in in Hi. split.
    - rewrite pairs_len, sort_len by exact Hs. unfold kinetic_triplets1. rewrite map_length, neigh_len by exact Hi. lia.
    - apply pairs_values; [exact Hs|]. unfold kinetic_triplets1. apply Forall_forall. intros t Ht. apply in_map_iff in Ht as (j & <- & _). apply one_mJ.
  Qed.
  Lemma full_shape m : fits3 lat N -> init_matrix sort (real J : CR) (real U) (real (1 / 2)) lat = Ok m ->
    Forall (fun r => (length r <= 3 * z + 2)%nat /\ Forall (fun e => one_of (snd e)) r) (bm_done m) /\ bm_cur m = [].
  Proof.
    intros Hf Em. pose proof (fits3_S3 lat N HG Hf) as HS. rewrite (init_matrix_closed sort Hs _ _ _ lat N HG HS Hf) in Em.
    injection Em as <-. cbn [bm_done bm_cur]. split; [|reflexivity].
    assert (K : forall l (f : Z -> triplet CR), (forall x, one_of (t_val (f x))) -> Forall (fun t => one_of (t_val t)) (map f l)).
    { intros l f Hf'. apply Forall_forall. intros t Ht. apply in_map_iff in Ht as (j & <- & _). apply Hf'. }
    apply Forall_app. split; apply Forall_forall; intros r Hr; apply in_map_iff in Hr as (i & <- & Hi); apply zrange_in in Hi; split.
    - rewrite pairs_len, sort_len by exact Hs. unfold triplets1, kinetic_triplets1. rewrite app_length, map_length, neigh_len by exact Hi. cbn [length]. lia.
    - apply pairs_values; [exact Hs|]. unfold triplets1, kinetic_triplets1. apply Forall_app. split; [apply K; intros x; apply one_mJ|].
      constructor; [apply one_U|]. constructor; [apply one_U|constructor].
    - destruct (dec_spec lat N HG HS i ltac:(lia)) as (I1 & I2 & I3 & _). rewrite pairs_len, sort_len by exact Hs.
      unfold triplets3, kinetic_triplets3. rewrite !app_length, !map_length, !neigh_len by assumption. destruct (_ && _); cbn [length]; lia.
    - apply pairs_values; [exact Hs|]. unfold triplets3, kinetic_triplets3. apply Forall_app. split; [apply Forall_app; split; [apply K; intros x; apply one_mJ|apply Forall_app; split; apply K; intros x; [apply one_mJ|apply one_J]]|].
      apply Forall_app. split; [destruct (_ && _); [constructor; [apply one_U|constructor]|constructor]|constructor; [apply one_U|constructor]].
  Qed.
End Shape.
Lemma scale_exact garbage J U (m : bmat CR) w : is_double J -> is_double (U / 2) -> Rabs J <= bpow radix2 1023 -> Rabs (U / 2) <= bpow radix2 1023 ->
  Forall (fun r => (length r <= w)%nat /\ Forall (fun e => one_of J U (snd e)) r) (bm_done m) -> bm_cur m = [] ->
  fbm_scale (double_arith garbage) imag_unit m = bm_scale imag_unit m.
Proof.
  intros DJ DU BJ BU F C. unfold fbm_scale, bm_scale. rewrite C. cbn [map]. f_equal. apply map_ext_in. intros r Hr. rewrite Forall_forall in F. destruct (F r Hr) as [_ G].
  apply map_ext_in. intros e He. rewrite Forall_forall in G. destruct (G e He) as (x & Ex & Hx). rewrite Ex. f_equal. apply times_i.
  - destruct Hx as [->|[->| ->]]; [exact DJ|apply double_opp; exact DJ|exact DU].
  - destruct Hx as [->|[->| ->]]; [exact BJ|rewrite Rabs_Ropp; exact BJ|exact BU].
Qed.
Lemma scale_lengths (m : bmat CR) w V : Forall (fun r => (length r <= w)%nat /\ Forall (fun e => V (snd e)) r) (bm_done m) ->
  Forall (fun r => (length r <= w)%nat) (bm_done (bm_scale imag_unit m)).
Proof.
  intros F. cbn [bm_scale bm_done]. rewrite Forall_forall in *. intros r Hr. apply in_map_iff in Hr as (r' & <- & Hr'). rewrite map_length. apply (F r' Hr').
Qed.
