(** PROOFS for C82. *)
From Coq Require Import Reals Lra Psatz.
From Verif Require Import Base M_Operator M_Lattice Spec_Lattice Pf_Lattice M_LatticeReal Spec_LatticeReal M_Basis Pf_Basis M_Matrix M_Ode M_Dispersion M_OpenMP M_SiteOccupation M_FermiSea M_NonVanishing Spec_Ode
  Pf_Matrix Pf_Matrix2 Pf_MatrixEntry P_Dispersion Spec_Matrix Pf_Ode P_Ode Pf_NonVanishing P_NonVanishing P_Momentum Spec_ParticleNumber P_ParticleNumber P_Dynamics
  Spec_Stability Pf_Stability Pf_Stability2 Pf_Stability3 Pf_Solution P_Stability Pf_Arrow Spec_MomentumProgram M_MomentumProgram.
Local Open Scope R_scope.
Local Open Scope list_scope.
Local Notation len u := (Z.of_nat (length u)).

Section Prog.
  Variables (N : Z) (J U : R).
  Hypothesis HN : (0 < N)%Z.
  Hypothesis Hf : (N * (1 + 3 * N) < two64)%Z.
  Let q := center N.
  Let Lc := 6 * Rabs J + Rabs U.
  Lemma q_site : site N q.
  Proof. unfold site, q, center. split; [apply Z.div_pos; lia|apply Z.div_lt; lia]. Qed.
  Lemma eps_band k : site N k -> program_eps N J k = band N J k.
  Proof. intros Hk. unfold program_eps, program_table. rewrite (Logic.proj1 (C54_chain N 1 J k HN Hk)). unfold band. rewrite Rmult_1_r. reflexivity. Qed.
  Lemma band_bound k : Rabs (band N J k) <= 2 * Rabs J.
  Proof.
    unfold band. rewrite !Rabs_mult. rewrite (Rabs_left (-2)) by lra. pose proof (COS_bound (- PI + 2 * PI * IZR k / IZR N)). pose proof (Rabs_pos J).
    assert (Rabs (cos (- PI + 2 * PI * IZR k / IZR N)) <= 1) by (apply Rabs_le; lra). nra.
  Qed.
  Lemma energy_bound r : Rabs (energy N J U r) <= 6 * Rabs J + Rabs U / 2.
  Proof.
    pose proof (Rabs_pos J). assert (U2 : Rabs (U / 2) = Rabs U / 2) by (unfold Rdiv; rewrite Rabs_mult, (Rabs_pos_eq (/ 2)) by lra; reflexivity).
    unfold energy. destruct (Z.eqb r 0).
    - eapply Rle_trans; [apply Rabs_triang|]. pose proof (band_bound (center N)). lra.
    - set (x := band N J ((r - 1) / N)). set (y := band N J ((r - 1) mod N)). set (z := band N J _).
      assert (Bx : Rabs x <= 2 * Rabs J) by apply band_bound. assert (By : Rabs y <= 2 * Rabs J) by apply band_bound. assert (Bz : Rabs z <= 2 * Rabs J) by apply band_bound.
      eapply Rle_trans; [apply Rabs_triang|]. unfold Rminus. assert (Rabs (x + y + - z) <= Rabs x + Rabs y + Rabs z).
      { eapply Rle_trans; [apply Rabs_triang|]. rewrite Rabs_Ropp. pose proof (Rabs_triang x y). lra. }
      lra.
  Qed.
  (** the matrix of the program *)
  Lemma matrix_facts : exists M, compute_matrix N J U (mom_closed N q) = Ok M /\
    acts_as CR (1 + N * N) (generator N J U) (sp_vec M) /\ well_formed M (1 + N * N).
  Proof.
    assert (Hb : is_momentum_basis N q (mom_closed N q)) by (apply mom_basis_value; [nia|apply q_site]).
    destruct (C35_matrix CR N q (fun i => real (program_eps N J i)) (real (U / 2)) (real (U / (2 * IZR N))) (mom_closed N q) HN Hf q_site Hb)
      as (m & Em & Hw & _ & M00 & M0r & Mrr & Mrc & _).
    exists (bm_scale imag_unit m). unfold compute_matrix. rewrite Em. cbn [obind]. split; [reflexivity|].
    split; [|apply (wf_scale CR imag_unit m _ Hw)].
    intros u Lu. destruct (sparse_linear CR _ _ (wf_scale CR imag_unit m _ Hw) u Lu) as [L1 L2]. split; [exact L1|]. intros i Hi. rewrite L2 by exact Hi.
    apply sum_over_ext. intros j Hj. apply zrange_in in Hj. f_equal. rewrite entry_scale.
    assert (Q : entry m i j = real (coupling N J U i j)); [|rewrite Q; unfold generator; apply (injective_projections (A := R) (B := R)); cbn; unfold q; ring].
    unfold coupling. destruct (Z.eqb_spec i j) as [<-|Hne].
    - unfold energy. destruct (Z.eqb_spec i 0) as [->|H0].
      + rewrite M00. rewrite eps_band by apply q_site. apply (injective_projections (A := R) (B := R)); cbn; unfold q; ring.
      + assert (S1 : site N ((i - 1) / N)) by (unfold site; split; [apply Z.div_pos; lia|apply Z.div_lt_upper_bound; nia]).
        assert (S2 : site N ((i - 1) mod N)) by (unfold site; apply Z.mod_pos_bound; lia).
        assert (Ei : i = (1 + ((i - 1) / N) * N + (i - 1) mod N)%Z) by (pose proof (Z.div_mod (i - 1) N ltac:(lia)); lia).
        rewrite (Mrr i ((i - 1) / N)%Z ((i - 1) mod N)%Z (((i - 1) / N + (i - 1) mod N - q) mod N)%Z).
        * assert (S3 : site N (((i - 1) / N + (i - 1) mod N - q) mod N)) by (unfold site; apply Z.mod_pos_bound; lia).
          rewrite !eps_band by assumption. fold q. apply (injective_projections (A := R) (B := R)); cbn; unfold q; ring.
        * lia.
        * rewrite Ei at 1. rewrite mom_closed_nth by assumption. reflexivity.
    - destruct (Z.eqb_spec i 0) as [->|Hi0]; cbn [orb]; [apply M0r; lia|]. destruct (Z.eqb_spec j 0) as [->|Hj0]; [apply M0r; lia|].
      rewrite Mrc by lia. reflexivity.
  Qed.
  Lemma generator_anti : anti_hermitian CR (1 + N * N) (generator N J U).
  Proof.
    intros i j _ _. unfold generator, coupling. rewrite (Z.eqb_sym j i), (orb_comm (Z.eqb j 0)). destruct (Z.eqb_spec i j) as [<-|_]; apply (injective_projections (A := R) (B := R)); cbn; unfold q; ring.
  Qed.
  Lemma generator_op : op_bound (1 + N * N) (generator N J U) Lc.
  Proof.
    apply (op_bound_real _ (coupling N J U)); [reflexivity|]. intros w.
    assert (PN : 0 < IZR N) by (apply IZR_lt; lia).
    pose proof (arrow_norm (N * N) (coupling N J U) (energy N J U) (U / (2 * IZR N)) (6 * Rabs J + Rabs U / 2)) as A.
    unfold Mw in A. replace Lc with (6 * Rabs J + Rabs U / 2 + Rabs U / 2) by (unfold Lc; field). apply A; clear A.
    - nia.
    - reflexivity.
    - intros r Hr. unfold coupling. destruct (Z.eqb_spec 0 r); [lia|]. destruct (Z.eqb_spec r 0); [lia|]. cbn. split; reflexivity.
    - intros r Hr. unfold coupling. rewrite Z.eqb_refl. reflexivity.
    - intros r c Hr Hc Hne. unfold coupling. destruct (Z.eqb_spec r c); [contradiction|]. destruct (Z.eqb_spec r 0); [lia|]. destruct (Z.eqb_spec c 0); [lia|]. reflexivity.
    - intros r _. apply energy_bound.
    - pose proof (Rabs_pos U). lra.
    - rewrite mult_IZR. replace ((Rabs U / 2) ^ 2) with (Rabs U ^ 2 / 4) by field. rewrite pow2_abs. apply Req_le. field. lra.
  Qed.
  Lemma Lc_pos : 0 <= Lc.
  Proof. unfold Lc. pose proof (Rabs_pos J). pose proof (Rabs_pos U). lra. Qed.
End Prog.

(** ** the particle number is a continuous function of the coefficients *)
Section Lip.
  Variables (L q : Z) (n : Z -> bool).
  Hypothesis HL : (0 < L)%Z.
  Hypothesis Hq : site L q.
  Let lt := fun (a b : bool) => a.
  Let F := bf (K := Rring) lt n true L q.
  Let G (r : Z) : R := if (negb (kr L q r) && (n (a1 L q r) && (n (a2 L r) && negb (n (a3 L q r)))))%bool then 2 else 0.
  Let sz := (1 + L * L)%Z.
  Let o : R := if n q then 1 else 0.
  Let I' : list (option Z * bool) := [(None, true); (None, false)] ++ map (fun p => (Some (fst p), snd p)) (idx sz).
  Definition W (x : Z * bool -> R) (p : option Z * bool) : R :=
    match fst p with
    | None => o * SR (fun i => F i * x (i, snd p)) (zrange 0 sz)
    | Some i => G i * x (i, snd p)
    end.
  Lemma W_form (h : Z -> R * R) : (particle_number_form (K := Rring) L q n h : R) = n2 I' (W (vecf h)).
  Proof.
    etransitivity; [symmetry; exact (form_value (K := Rring) lt n true L q HL Hq h)|]. fold sz.
    unfold n2, dot, I'. rewrite SR_app, SR_map, SR_idx. cbn [SR W fst snd].
    transitivity (sum_over (K := Rring) (fun i => (o * SR (fun j => F j * fst (h j)) (zrange 0 sz)) * (F i * fst (h i)) +
       ((o * SR (fun j => F j * snd (h j)) (zrange 0 sz)) * (F i * snd (h i)) + (G i * G i) * (fst (h i) * fst (h i) + snd (h i) * snd (h i)))) (zrange 0 sz)).
    - apply (sum_over_ext Rring). intros i Hi.
      transitivity (sum_over (K := Rring) (fun j => (o * (F i * fst (h i))) * (F j * fst (h j)) + ((o * (F i * snd (h i))) * (F j * snd (h j)) + delta (K := Rring) j i * ((G i * G i) * re_prod (K := Rring) (h i) (h j)))) (zrange 0 sz)).
      + apply (sum_over_ext Rring). intros j _. rewrite (gram (K := Rring) lt n true L q). fold F.
        assert (Bg : bg (K := Rring) lt n true L q i = G i * G i).
        { unfold bg, G, lt. destruct (kr L q i), (n (a1 L q i)), (n (a2 L i)), (n (a3 L q i)); cbn; ring. }
        rewrite Bg. unfold occupied, lt, o, re_prod. replace (delta (K := Rring) i j) with (delta (K := Rring) j i) by (unfold delta; rewrite Z.eqb_sym; reflexivity).
        generalize (delta (K := Rring) j i). intros dl. destruct (h i) as [a b], (h j) as [c e]. destruct (n q); cbn in *; ring.
      + rewrite !(sum_over_add Rring), !(sum_over_mul_l Rring), !sum_SR.
        assert (Sd : SR (fun j => delta (K := Rring) j i * ((G i * G i) * re_prod (K := Rring) (h i) (h j))) (zrange 0 sz) = (G i * G i) * re_prod (K := Rring) (h i) (h i)).
        { rewrite <- sum_SR. etransitivity; [exact (Pf_Liouville.sum_delta (K := Rring) (fun j => (G i * G i) * re_prod (K := Rring) (h i) (h j)) i (zrange 0 sz) (zrange_NoDup 0 sz))|].
          replace (existsb (Z.eqb i) (zrange 0 sz)) with true; [reflexivity|symmetry; apply existsb_exists; exists i; split; [exact Hi|apply Z.eqb_refl]]. }
        rewrite Sd.
        unfold re_prod. destruct (h i) as [a b]. cbn. ring.
    - rewrite !(sum_over_add Rring), !(sum_over_mul_l Rring), !sum_SR. unfold vecf. cbn [fst snd part].
      set (A := SR (fun j => F j * fst (h j)) (zrange 0 sz)). set (B := SR (fun j => F j * snd (h j)) (zrange 0 sz)).
      rewrite (SR_ext (fun i => G i * fst (h i) * (G i * fst (h i)) + G i * snd (h i) * (G i * snd (h i))) (fun i => G i * G i * (fst (h i) * fst (h i) + snd (h i) * snd (h i)))) by (intros; ring).
      assert (O2 : o * o = o) by (unfold o; destruct (n q); ring). cbn [radd rmul Rring].
      change (SR (fun i => F i * fst (h i)) (zrange 0 sz)) with A. change (SR (fun i => F i * snd (h i)) (zrange 0 sz)) with B.
      set (C := SR _ _). clearbody A B C. replace (o * A * (o * A)) with ((o * o) * A * A) by ring. replace (o * B * (o * B)) with ((o * o) * B * B) by ring. rewrite O2. ring.
  Qed.
  (** |W x|^2 <= (1 + 9 L) |x|^2 *)
  Let kx (r : Z) : R := if kr L q r then 1 else 0.
  Lemma F_sq : SR (fun i => F i * F i) (zrange 0 sz) <= 1 + 9 * IZR L.
  Proof.
    rewrite <- sum_SR. eapply Rle_trans.
    - apply Req_le. exact (sum_bf (K := Rring) lt n true L q HL Hq F).
    - assert (F0 : F 0%Z = 1) by exact (bf_0 (K := Rring) lt n true L q). rewrite F0. apply Rplus_le_compat_l. rewrite sum_SR.
      assert (Ln : INR (length (zrange 0 L)) = IZR L) by (rewrite zrange_length, INR_IZR_INZ; f_equal; lia).
      rewrite <- Ln, <- SR_one, <- SR_mul. apply SR_le. intros k Hk. apply zrange_in in Hk.
      assert (Fk : F (1 + q * L + k)%Z = 1 * (1 + ((if n k then 1 else 0) + (if n k then 1 else 0)))).
      { unfold F. etransitivity; [exact (r_bf (K := Rring) lt n true L q HL Hq q k Hq Hk)|]. unfold delta. rewrite Z.eqb_refl. reflexivity. }
      rewrite Fk. unfold occupied. cbn. unfold lt. destruct (n k); cbn; lra.
  Qed.
  Lemma W_norm x : n2 I' (W x) <= (1 + 9 * IZR L) * n2 (idx sz) x.
  Proof.
    assert (PL : 1 <= IZR L) by (apply IZR_le; lia).
    unfold n2, dot, I'. rewrite SR_app, SR_map, !SR_idx. cbn [SR W fst snd].
    assert (Half : forall c, o * SR (fun i => F i * x (i, c)) (zrange 0 sz) * (o * SR (fun i => F i * x (i, c)) (zrange 0 sz)) +
              SR (fun i => G i * x (i, c) * (G i * x (i, c))) (zrange 0 sz) <= (1 + 9 * IZR L) * SR (fun i => x (i, c) * x (i, c)) (zrange 0 sz)).
    { intros c. set (A := SR (fun i => F i * x (i, c)) (zrange 0 sz)).
      assert (A2 : A ^ 2 <= (1 + 9 * IZR L) * SR (fun i => kx i * (x (i, c) * x (i, c))) (zrange 0 sz)).
      { unfold A. rewrite (SR_ext (fun i => F i * x (i, c)) (fun i => F i * (kx i * x (i, c)))).
        - eapply Rle_trans; [apply (cauchy (zrange 0 sz) F (fun i => kx i * x (i, c)))|]. unfold n2, dot.
          rewrite (SR_ext (fun i => kx i * x (i, c) * (kx i * x (i, c))) (fun i => kx i * (x (i, c) * x (i, c)))) by (intros i _; unfold kx; destruct (kr L q i); ring).
          apply Rmult_le_compat_r; [|apply F_sq]. apply SR_nonneg. intros i _. unfold kx. destruct (kr L q i); nra.
        - intros i _. unfold F, bf, kx. destruct (kr L q i); cbn; ring. }
      assert (G2 : SR (fun i => G i * x (i, c) * (G i * x (i, c))) (zrange 0 sz) <= (1 + 9 * IZR L) * SR (fun i => (1 - kx i) * (x (i, c) * x (i, c))) (zrange 0 sz)).
      { rewrite <- SR_mul. apply SR_le. intros i _. assert (X : 0 <= x (i, c) * x (i, c)) by nra. unfold G, kx.
        destruct (kr L q i); cbn [negb andb]; [nra|]. destruct (n (a1 L q i) && (n (a2 L i) && negb (n (a3 L q i))))%bool; nra. }
      assert (Sp : SR (fun i => x (i, c) * x (i, c)) (zrange 0 sz) = SR (fun i => kx i * (x (i, c) * x (i, c))) (zrange 0 sz) + SR (fun i => (1 - kx i) * (x (i, c) * x (i, c))) (zrange 0 sz)).
      { rewrite <- SR_add. apply SR_ext. intros; ring. }
      rewrite Sp, Rmult_plus_distr_l. apply Rplus_le_compat; [|exact G2]. eapply Rle_trans; [|exact A2]. unfold o. destruct (n q); nra. }
    pose proof (Half true) as H1. pose proof (Half false) as H2. rewrite !SR_add. lra.
  Qed.
  Lemma W_sub x y p : W (fun i => x i + -1 * y i) p = W x p + -1 * W y p.
  Proof.
    destruct p as [[i|] c]; unfold W; cbn [fst snd]; [ring|].
    rewrite (SR_ext (fun i => F i * (x (i, c) + -1 * y (i, c))) (fun i => F i * x (i, c) + -1 * (F i * y (i, c)))) by (intros; ring).
    rewrite SR_add, SR_mul. ring.
  Qed.
  Lemma W_lip x y : Rabs (nrm I' (W x) - nrm I' (W y)) <= sqrt (1 + 9 * IZR L) * nrm (idx sz) (fun i => x i + -1 * y i).
  Proof.
    assert (PL : 1 <= IZR L) by (apply IZR_le; lia).
    assert (B : forall z, nrm I' (W z) <= sqrt (1 + 9 * IZR L) * nrm (idx sz) z).
    { intros z. unfold nrm. rewrite <- sqrt_mult by (try apply n2_nonneg; lra). apply sqrt_le_1_alt, W_norm. }
    assert (T : forall u v, nrm I' (W u) <= nrm I' (W v) + sqrt (1 + 9 * IZR L) * nrm (idx sz) (fun i => u i + -1 * v i)).
    { intros u v. rewrite (nrm_ext I' (W u) (fun p => W v p + W (fun i => u i + -1 * v i) p)) by (intros p _; rewrite W_sub; ring).
      eapply Rle_trans; [apply nrm_triangle|]. apply Rplus_le_compat_l, B. }
    apply Rabs_le. pose proof (T x y) as T1. pose proof (T y x) as T2.
    assert (E : nrm (idx sz) (fun i => y i + -1 * x i) = nrm (idx sz) (fun i => x i + -1 * y i)).
    { rewrite <- (nrm_neg (idx sz) (fun i => x i + -1 * y i)). apply nrm_ext. intros; ring. }
    rewrite E in T2. lra.
  Qed.
  Lemma form_le (h : Z -> R * R) : (particle_number_form (K := Rring) L q n h : R) <= (1 + 9 * IZR L) * n2 (idx sz) (vecf h).
  Proof. rewrite W_form. apply W_norm. Qed.
  Lemma form_lip (h k : Z -> R * R) : n2 (idx sz) (vecf h) <= 1 -> n2 (idx sz) (vecf k) <= 1 ->
    Rabs (particle_number_form (K := Rring) L q n h - particle_number_form (K := Rring) L q n k) <=
    2 * (1 + 9 * IZR L) * nrm (idx sz) (fun p => vecf h p + -1 * vecf k p).
  Proof.
    intros H1 H2. assert (PL : 1 <= IZR L) by (apply IZR_le; lia). rewrite !W_form. rewrite <- !nrm_sq.
    set (a := nrm I' (W (vecf h))). set (b := nrm I' (W (vecf k))). set (s := sqrt (1 + 9 * IZR L)). set (d := nrm _ _).
    assert (S2 : s * s = 1 + 9 * IZR L) by (apply sqrt_sqrt; lra). assert (S0 : 0 <= s) by apply sqrt_pos. assert (D0 : 0 <= d) by apply nrm_pos.
    assert (B : forall z, n2 (idx sz) z <= 1 -> 0 <= nrm I' (W z) <= s).
    { intros z Hz. split; [apply nrm_pos|]. unfold nrm, s. apply sqrt_le_1_alt. eapply Rle_trans; [apply W_norm|]. nra. }
    destruct (B _ H1) as [A1 A2]. destruct (B _ H2) as [B1 B2]. fold a b in A1, A2, B1, B2.
    pose proof (W_lip (vecf h) (vecf k)) as Lp. fold a b s d in Lp. replace (a * a - b * b) with ((a - b) * (a + b)) by ring. rewrite Rabs_mult, (Rabs_pos_eq (a + b)) by lra.
    apply Rle_trans with ((s * d) * (s + s)); [|rewrite <- S2; nra]. apply Rmult_le_compat; [apply Rabs_pos|lra|exact Lp|lra].
  Qed.
  Lemma form_lip2 (h k : Z -> R * R) a b : nrm (idx sz) (vecf h) <= a -> nrm (idx sz) (vecf k) <= b ->
    Rabs (particle_number_form (K := Rring) L q n h - particle_number_form (K := Rring) L q n k) <=
    (1 + 9 * IZR L) * (nrm (idx sz) (fun p => vecf h p + -1 * vecf k p) * (a + b)).
  Proof.
    intros H1 H2. assert (PL : 1 <= IZR L) by (apply IZR_le; lia). rewrite !W_form. rewrite <- !nrm_sq.
    set (x := nrm I' (W (vecf h))). set (y := nrm I' (W (vecf k))). set (s := sqrt (1 + 9 * IZR L)). set (d := nrm _ _).
    assert (S2 : s * s = 1 + 9 * IZR L) by (apply sqrt_sqrt; lra). assert (S0 : 0 <= s) by apply sqrt_pos. assert (D0 : 0 <= d) by apply nrm_pos.
    assert (B : forall z, 0 <= nrm I' (W z) <= s * nrm (idx sz) z).
    { intros z. split; [apply nrm_pos|]. unfold nrm, s. rewrite <- sqrt_mult_alt by lra. apply sqrt_le_1_alt. apply W_norm. }
    destruct (B (vecf h)) as [A1 A2]. destruct (B (vecf k)) as [B1 B2]. fold x y in A1, A2, B1, B2.
    assert (A3 : x <= s * a) by (eapply Rle_trans; [exact A2|apply Rmult_le_compat_l; assumption]). assert (B3 : y <= s * b) by (eapply Rle_trans; [exact B2|apply Rmult_le_compat_l; assumption]).
    pose proof (W_lip (vecf h) (vecf k)) as Lp. fold x y s d in Lp. replace (x * x - y * y) with ((x - y) * (x + y)) by ring. rewrite Rabs_mult, (Rabs_pos_eq (x + y)) by lra.
    apply Rle_trans with ((s * d) * (s * a + s * b)); [|rewrite <- S2; apply Req_le; ring]. apply Rmult_le_compat; [apply Rabs_pos|lra|exact Lp|lra].
  Qed.
End Lip.
