(** PROOFS for C79: bounds. *)
From Coq Require Import Reals Lra Psatz Lia.
From Verif Require Import Base M_Lattice Spec_Lattice Pf_Lattice M_Matrix Pf_Matrix Pf_Matrix2 Pf_MatrixEntry M_Dispersion Spec_Matrix Spec_Ode P_Ode Spec_Stability
  Pf_Stability Pf_Stability2 Pf_Stability3 P_Stability Spec_Bessel Pf_Bessel Spec_Theory M_Theory Pf_Theory Pf_Theory2.
Local Open Scope R_scope.
Local Open Scope list_scope.

Definition ring_bound' (N : Z) (t : R) : R :=
  let M := Z.to_nat (N / 2) in
  if Z.even N then t ^ (M - 1) / INR (fact (M - 1))
  else sqrt 2 * (t ^ M / INR (fact M) + t ^ S M / INR (fact (S M))).
Section Ring.
  Context (N : Z).
  Hypothesis HN : (3 <= N < two64)%Z.
  Lemma bound_0 : ring_bound N 0 = 0.
  Proof.
    unfold ring_bound. assert (H : (1 <= N / 2)%Z) by (apply Z.div_le_lower_bound; lia).
    destruct (Z.to_nat (N / 2)) as [|k] eqn:E; [lia|]. destruct (Z.even N); rewrite !pow_ne_zero by lia; unfold Rdiv; ring.
  Qed.
  Lemma bound_deriv t : derivable_pt_lim (ring_bound N) t (ring_bound' N t).
  Proof.
    unfold ring_bound, ring_bound'. assert (H : (1 <= N / 2)%Z) by (apply Z.div_le_lower_bound; lia).
    destruct (Z.to_nat (N / 2)) as [|k] eqn:E; [lia|]. rewrite Nat.sub_succ, Nat.sub_0_r. destruct (Z.even N); [apply deriv_pow|].
    apply deriv_scal. apply (derivable_pt_lim_plus (fun s => s ^ S (S k) / INR (fact (S (S k)))) (fun s => s ^ S (S (S k)) / INR (fact (S (S (S k)))))); apply deriv_pow.
  Qed.
  Lemma sc_n2 a z : fst (sc a z) * fst (sc a z) + snd (sc a z) * snd (sc a z) = a * a * (fst z * fst z + snd z * snd z).
  Proof. unfold sc. cbn. ring. Qed.
  Lemma residual_small s : 0 <= s ->
    sqrt (SR (fun i => fst (residual N s i) * fst (residual N s i) + snd (residual N s i) * snd (residual N s i)) (zrange 0 N)) <= ring_bound' N s.
  Proof.
    intros Hs. unfold ring_bound', residual.
    assert (NM : (N = 2 * (N / 2) + N mod 2)%Z) by (apply Z.div_mod; lia). pose proof (Z.mod_pos_bound N 2 ltac:(lia)) as MB.
    assert (Ev : Z.even N = (N mod 2 =? 0)%Z) by (rewrite Zmod_even; destruct (Z.even N); reflexivity). rewrite Ev.
    set (M := (N / 2)%Z) in *. set (e := (N mod 2)%Z) in *. clearbody M e.
    assert (Dd : forall j, (0 <= j < N)%Z -> chain_distance N 0 j = Z.min j (N - j)) by (intros j Hj; rewrite chain_distance_eq by (unfold site; lia); lia).
    destruct (Z.to_nat M) as [|m] eqn:EM; [lia|]. replace (Z.to_nat (M - 1)) with m by lia. rewrite Nat.sub_succ, Nat.sub_0_r.
    destruct (Z.eqb_spec e 0) as [Ee|Ee].
    - set (x := A m s + A (S (S m)) s). rewrite (SR_ext _ (fun i => if (M =? i)%Z then x * x else 0)).
      + rewrite SR_pick_eq by (apply zrange_NoDup || (apply zrange_in; lia)). change (x * x) with (Rsqr x). rewrite sqrt_Rsqr_abs. apply A_sum_bound, Hs.
      + intros i Hi. apply zrange_in in Hi. rewrite (Dd i Hi). destruct (Z.ltb_spec (Z.min i (N - i)) M), (Z.eqb_spec M i); try lia; [cbn; ring|].
        rewrite sc_n2, minus_i_norm. ring.
    - set (x := A (S m) s). set (y := A (S (S m)) s).
      rewrite (SR_ext _ (fun i => (if (M =? i)%Z then x * x + y * y else 0) + (if (M + 1 =? i)%Z then x * x + y * y else 0))).
      + rewrite SR_add, !SR_pick_eq by (apply zrange_NoDup || (apply zrange_in; lia)).
        replace (x * x + y * y + (x * x + y * y)) with (2 * (x * x + y * y)) by ring. rewrite sqrt_mult by nra.
        apply Rmult_le_compat_l; [apply sqrt_pos|].
        pose proof (A_bound (S m) s Hs) as B1. pose proof (A_bound (S (S m)) s Hs) as B2. fold x in B1. fold y in B2.
        apply Rle_trans with (Rabs x + Rabs y); [|lra].
        pose proof (Rabs_pos x). pose proof (Rabs_pos y).
        rewrite <- (sqrt_square (Rabs x + Rabs y)) by lra. apply sqrt_le_1_alt.
        pose proof (Rsqr_abs x) as Q1. pose proof (Rsqr_abs y) as Q2. unfold Rsqr in Q1, Q2. rewrite Q1, Q2. nra.
      + intros i Hi. apply zrange_in in Hi. rewrite (Dd i Hi). destruct (Z.ltb_spec (Z.min i (N - i)) M), (Z.eqb_spec M i), (Z.eqb_spec (M + 1) i); try lia; [cbn; ring| |];
        pose proof (minus_i_norm M) as E1; destruct (minus_i_power M) as [p q]; cbn in p, q, E1; cbn; fold x y;
        rewrite <- (Rmult_1_r (x * x + y * y)), <- E1; ring.
  Qed.
End Ring.
