(** PROPERTY C111, in double precision: without interaction the zeros of the real and imaginary parts are exact. *)
From Coq Require Import Reals Lra Psatz.
From Flocq Require Core.Raux Core.Generic_fmt Core.Round_NE.
From Verif Require Import Base M_Operator M_Lattice Spec_Lattice Pf_Lattice P_Lattice M_Basis Pf_Basis P_Basis M_Matrix M_Ode M_Dispersion M_OpenMP M_TimeLoop Spec_TimeLoop Spec_Ode
  Pf_Matrix Spec_Matrix Pf_Matrix2 P_Matrix Spec_LatticeReal Pf_Ode Spec_Stability Pf_Stability2 P_Stability Spec_Programs M_Programs Pf_Programs P_TimeLoop P_Programs Spec_ParticleHole P_ParticleHole
  M_Rounding M_Double M_RoundedMeasurement M_DoublePrograms Spec_DoublePrograms Pf_DoublePrograms P_DoublePrograms.
Local Open Scope R_scope.
Local Open Scope list_scope.
Local Notation len u := (Z.of_nat (length u)).

Section Zeros.
  Context (ar : arith).
  (** the only laws used *)
  Hypothesis A0 : f_add ar 0 0 = 0.
  Hypothesis M0 : forall x, f_mul ar 0 x = 0.
  Hypothesis M1 : forall x, f_mul ar x 0 = 0.
  (** real on white, imaginary on black *)
  Definition shaded (w : bool) (z : CR) : Prop := if w then snd z = 0 else fst z = 0.
  Context (white : Z -> bool).
  Definition shaded_list (v : list CR) : Prop := forall k, shaded (white (Z.of_nat k)) (nth k v (0, 0)).
  Lemma sh_add w x y : shaded w x -> shaded w y -> shaded w (cf_add ar x y).
  Proof. destruct w, x as [a b], y as [c d]; cbn; intros -> ->; exact A0. Qed.
  Lemma sh_scale w c x : shaded w x -> shaded w (cf_scale ar c x).
  Proof. destruct w, x as [a b]; cbn; intros ->; apply M1. Qed.
  Lemma sh_zero w : shaded w (0, 0).
  Proof. destruct w; reflexivity. Qed.
  (** an imaginary matrix element between sites of different colours *)
  Lemma sh_mul w b x : shaded (negb w) x -> shaded w (cf_mul ar (0, b) x).
  Proof. destruct w, x as [c d]; cbn; intros ->; rewrite ?M0, ?M1, ?Ropp_0; exact A0. Qed.
  Lemma list_add u v : shaded_list u -> shaded_list v -> shaded_list (fv_add ar u v).
  Proof.
    intros Hu Hv k. specialize (Hu k). specialize (Hv k). revert Hu Hv. generalize (white (Z.of_nat k)). intros w. unfold fv_add. revert v k. induction u as [|a u IH]; intros v k Hu Hv; [destruct k; apply sh_zero|].
    destruct v as [|b v]; [destruct k; apply sh_zero|]. destruct k as [|k]; cbn [List.combine map nth fst snd] in *; [apply sh_add; assumption|apply IH; assumption].
  Qed.
  Lemma list_scale c u : shaded_list u -> shaded_list (fv_scale ar c u).
  Proof.
    intros Hu k. unfold fv_scale. destruct (Nat.lt_ge_cases k (length u)) as [L|L].
    - rewrite (nth_indep _ _ (cf_scale ar c ((0, 0) : CR))) by (rewrite map_length; exact L). rewrite (map_nth (cf_scale ar c)). apply sh_scale, Hu.
    - rewrite nth_overflow by (rewrite map_length; exact L). apply sh_zero.
  Qed.
  (** every stored element is imaginary and connects different colours *)
  Definition flips (m : bmat CR) : Prop := forall k e, In e (nth k (bm_done m) []) -> (0 <= fst e)%Z /\ white (fst e) = negb (white (Z.of_nat k)) /\ fst (snd e) = 0.
  Lemma list_mul m u : flips m -> shaded_list u -> shaded_list (fsp_vec ar m u).
  Proof.
    intros Hm Hu k. unfold fsp_vec. destruct (Nat.lt_ge_cases k (length (bm_done m))) as [L|L].
    - set (F := fun row : list (Z * CR) => fold_left (fun acc e => cf_add ar acc (cf_mul ar (snd e) (vget u (fst e)))) row ((0, 0) : CR)).
      rewrite (nth_indep _ _ (F [])) by (rewrite map_length; exact L). rewrite (map_nth F). unfold F. specialize (Hm k). revert Hm. generalize (nth k (bm_done m) []). intros row Hm.
      assert (G : forall acc, shaded (white (Z.of_nat k)) acc -> shaded (white (Z.of_nat k)) (fold_left (fun acc e => cf_add ar acc (cf_mul ar (snd e) (vget u (fst e)))) row acc)).
      { induction row as [|e row IH]; intros acc Ha; [exact Ha|]. cbn [fold_left]. apply IH; [intros e' He'; apply Hm; right; exact He'|]. apply sh_add; [exact Ha|].
        destruct (Hm e (or_introl eq_refl)) as (Ge & We & Ie). destruct e as [j [p q]]. cbn [fst snd] in *. subst p. apply sh_mul. rewrite <- We. unfold vget. specialize (Hu (Z.to_nat j)). rewrite Z2Nat.id in Hu by exact Ge. exact Hu. }
      apply G, sh_zero.
    - rewrite nth_overflow by (rewrite map_length; exact L). apply sh_zero.
  Qed.
  Lemma list_step h m u : flips m -> shaded_list u -> shaded_list (frk_step ar h m u).
  Proof. intros Hm Hu. unfold frk_step. cbv zeta. repeat (apply list_add || apply list_scale || (apply list_mul; [exact Hm|]) || exact Hu). Qed.
  Lemma list_run h m n : forall u, flips m -> shaded_list u -> shaded_list (frun ar h m n u).
  Proof. induction n as [|n IH]; intros u Hm Hu; [exact Hu|]. cbn [frun]. apply IH; [exact Hm|]. apply list_step; assumption. Qed.
End Zeros.
Section Double.
  Context (garbage : R -> R).
  Notation ar := (double_arith garbage).
  Lemma round_0 : to_double garbage 0 = 0.
  Proof. unfold to_double, round_double. rewrite (Generic_fmt.round_0 _ _ _ (valid_rnd := Generic_fmt.valid_rnd_N _)). rewrite Rabs_R0. destruct (Rlt_dec _ _) as [_|H]; [reflexivity|]. exfalso. apply H. apply Raux.bpow_gt_0. Qed.
  Lemma add_00 : f_add ar 0 0 = 0.
  Proof. cbn. rewrite Rplus_0_l. exact round_0. Qed.
  Lemma mul_0l x : f_mul ar 0 x = 0.
  Proof. cbn. rewrite Rmult_0_l. exact round_0. Qed.
  Lemma mul_0r x : f_mul ar x 0 = 0.
  Proof. cbn. rewrite Rmult_0_r. exact round_0. Qed.
End Double.
(** the matrix of the non-interacting chain, times i in doubles *)
Lemma kinetic_flips garbage sort J N m : sorts_by_column sort -> (3 <= N)%Z -> (N * 2 < two64)%Z -> Z.even N = true ->
  init_kinetic_matrix sort (real J : CR) (chain_lattice N) = Ok m -> flips chain_white (fbm_scale (double_arith garbage) imag_unit m).
Proof.
  intros Hs HN Hf Ev Em. assert (Hl : shipped3 (chain_lattice N) N) by (constructor; lia). pose proof (shipped3_graph _ N Hl) as HG.
  assert (W : two_coloured (chain_lattice N) N chain_white) by (apply (C111_chain N ltac:(lia)); exact Ev).
  rewrite (init_kinetic_closed sort Hs _ _ N HG Hf) in Em. injection Em as <-. intros k e He. unfold fbm_scale in He. cbn [bm_done] in He.
  rewrite map_map in He. destruct (Nat.lt_ge_cases k (Z.to_nat N)) as [L|L].
  - rewrite <- (Nat2Z.id k) in He. set (i := Z.of_nat k) in *. assert (Hi : (0 <= i < N)%Z) by lia. rewrite (nth_zrange_map _ N i _ Hi) in He. apply in_map_iff in He. destruct He as ([c v] & <- & He). unfold pairs in He. apply in_map_iff in He. destruct He as (t & Et & Ht).
    destruct (Hs (kinetic_triplets1 (real J) (chain_lattice N) i)) as [Pm _]. apply (Permutation_in _ Pm) in Ht. unfold kinetic_triplets1 in Ht. apply in_map_iff in Ht. destruct Ht as (b & <- & Hb). cbn [t_col t_val] in Et. injection Et as <- <-. cbn [fst snd].
    split; [pose proof (g_range _ _ HG i b Hi Hb) as Rb; unfold site in Rb; lia|]. split; [exact (Logic.proj2 W i b Hi Hb)|].
    unfold cf_mul, imag_unit, real. cbn [fst snd ropp]. rewrite mul_0l. cbn. rewrite Ropp_0, Rmult_0_r, (round_0 garbage), Ropp_0, Rplus_0_r. apply round_0.
  - rewrite nth_overflow in He by (rewrite map_length, zrange_length; lia). destruct He.
Qed.
(** hubbard_real_1d_kinetic_rk4_coefficients in double precision: even sites exactly real, odd sites exactly imaginary *)
Theorem C111_coefficients_kinetic_double : forall sort garbage N J dt t_end interval steps,
  sorts_by_column sort -> (3 <= N)%Z -> (N * 2 < two64)%Z -> Z.even N = true -> double_times garbage dt t_end interval steps ->
  exists h, terminates_with (f_coefficients_kinetic garbage sort N J dt t_end interval)
      (Ok (map (fun k => (time_at (to_double garbage) dt k, h k)) (written interval steps))) /\
    forall k i, (0 <= i < N)%Z -> (Z.even i = true /\ snd (vget (h k) i) = 0) \/ (Z.even i = false /\ fst (vget (h k) i) = 0).
Proof.
  intros sort garbage N J dt t_end interval steps Hs HN Hf Ev Ht.
  assert (Hl : shipped3 (chain_lattice N) N) by (constructor; lia). assert (Hs1 : shipped (chain_lattice N) N) by (constructor; lia).
  destruct (kinetic_facts sort J _ N Hs Hl Hf) as (m & Em & _). destruct (init_vector_unit N ltac:(lia)) as (h0 & E0 & L0 & V0).
  assert (Eb : Z.of_nat (length (basis1 (chain_lattice N))) = N) by (pose proof (basis1_len _ N (shipped_regular _ _ Hs1)); lia).
  exists (fun k => fprogram_run (double_arith garbage) dt m k h0). split.
  - unfold f_coefficients_kinetic, f_compute_kinetic. rewrite Eb, Em. cbn [obind]. exact (f_lines garbage dt t_end interval steps N m h0 Ht E0 _ f_coefficients).
  - intros k i Hi. assert (S : shaded_list chain_white (fprogram_run (double_arith garbage) dt m k h0)).
    { unfold fprogram_run. apply list_run; [apply add_00|apply mul_0l|apply mul_0r|exact (kinetic_flips garbage sort J N m Hs HN Hf Ev Em)|].
      intros q. destruct (Nat.lt_ge_cases q (length h0)) as [L|L]; [|rewrite nth_overflow by exact L; apply sh_zero].
      pose proof (V0 (Z.of_nat q) ltac:(lia)) as V. unfold vget in V. rewrite Nat2Z.id in V. change (nth q h0 (0, 0)) with (nth q h0 r0). rewrite V. unfold first_unit.
      destruct (Z.eqb_spec (Z.of_nat q) 0) as [->|]; [reflexivity|apply sh_zero]. }
    specialize (S (Z.to_nat i)). rewrite Z2Nat.id in S by lia. unfold shaded, chain_white in S. unfold vget. destruct (Z.even i); [left|right]; (split; [reflexivity|exact S]).
Qed.
