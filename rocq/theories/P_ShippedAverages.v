(** PROPERTY C68, continued: the shipped averages on a ring are not those of any state. *)
From Coq Require Import Reals Lra Psatz Ratan.
From Verif Require Import Base M_Operator M_Lattice Spec_Lattice Pf_Lattice M_LatticeReal Spec_LatticeReal M_Basis Pf_Basis P_Basis M_Matrix M_Ode M_Dispersion M_OpenMP Spec_OpenMP M_Expectation Spec_Expectation P_Expectation M_SiteOccupation Pf_SiteOccupation P_SiteOccupation M_TimeLoop Spec_TimeLoop Spec_Ode
  Pf_Matrix Spec_Matrix Pf_Matrix2 P_Matrix Spec_Stability Pf_Stability Pf_Stability2 Pf_Stability3 P_Stability Spec_Programs M_Programs Pf_Programs Pf_Programs2
  M_MatrixCheck Spec_Algebra Pf_MatrixEntry P_Ode P_Dynamics P_TimeLoop P_Programs Pf_Conserved Pf_TheoryProgram3 P_Occupation Pf_Ode.
Local Open Scope R_scope.
Local Open Scope list_scope.
Local Notation len u := (Z.of_nat (length u)).

(** 1, -1, 1, -1, ... *)
Definition stag (i : Z) : R := if Z.even i then 1 else -1.
Lemma stag_add a b : stag (a + b) = stag a * stag b.
Proof. unfold stag. rewrite Z.even_add. destruct (Z.even a), (Z.even b); cbn; ring. Qed.
Lemma stag_even a : stag (2 * a) = 1.
Proof. unfold stag. rewrite Z.even_mul. reflexivity. Qed.
Lemma stag_mod M a : (0 < M)%Z -> stag (a mod (2 * M)) = stag a.
Proof.
  intros H. rewrite (Z.div_mod a (2 * M)) at 2 by lia. rewrite stag_add. replace (2 * M * (a / (2 * M)))%Z with (2 * (M * (a / (2 * M))))%Z by ring. rewrite stag_even. ring.
Qed.
Lemma map_nodup {A B} (f : A -> B) l : (forall a b, In a l -> In b l -> f a = f b -> a = b) -> NoDup l -> NoDup (map f l).
Proof.
  intros Hf H. induction H as [|x l Hx Hl IH]; [constructor|]. cbn [map]. constructor.
  - intros C. apply in_map_iff in C as (y & E & Hy). apply Hx. rewrite (Hf x y (or_introl eq_refl) (or_intror Hy) (eq_sym E)). exact Hy.
  - apply IH. intros a b Ha Hb. apply Hf; right; assumption.
Qed.
Lemma turn_perm N i : (0 < N)%Z -> Permutation (map (fun d => (i + d) mod N)%Z (zrange 0 N)) (zrange 0 N).
Proof.
  intros HN. apply NoDup_Permutation_bis.
  - apply map_nodup; [|apply zrange_NoDup]. intros a b Ha Hb E. apply zrange_in in Ha, Hb.
    pose proof (Z.div_mod (i + a) N ltac:(lia)). pose proof (Z.div_mod (i + b) N ltac:(lia)). assert ((i + a) / N = (i + b) / N)%Z by nia. nia.
  - rewrite map_length. lia.
  - intros x Hx. apply in_map_iff in Hx as (d & <- & _). apply zrange_in. apply Z.mod_pos_bound. lia.
Qed.

Section Sum.
  Context (M : Z) (f : Z -> R).
  Hypothesis HM : (1 <= M)%Z.
  Let N := (2 * M)%Z.
  Lemma turn_sum i : (0 <= i < N)%Z -> SR (fun j => f (ring_distance N i j) * (stag i * stag j)) (zrange 0 N) = SR (fun d => f (ring_distance N 0 d) * stag d) (zrange 0 N).
  Proof.
    intros Hi. transitivity (SR (fun j => f (ring_distance N i j) * (stag i * stag j)) (map (fun d => (i + d) mod N)%Z (zrange 0 N))).
    - rewrite <- !sum_SR. apply (sum_over_perm Rring). symmetry. apply turn_perm. unfold N. lia.
    - rewrite SR_map. apply SR_ext. intros d Hd. apply zrange_in in Hd. assert (SM : stag ((i + d) mod N) = stag (i + d)) by (unfold N; apply stag_mod; lia). rewrite SM, stag_add.
      assert (E : ring_distance N i ((i + d) mod N) = ring_distance N 0 d).
      { unfold ring_distance. destruct (Z_lt_ge_dec (i + d) N); [rewrite Z.mod_small by lia; lia|].
        replace ((i + d) mod N)%Z with (i + d - N)%Z by (apply (Z.mod_unique_pos _ _ 1); lia). lia. }
      rewrite E. assert (stag i * stag i = 1) by (unfold stag; destruct (Z.even i); ring). replace (stag i * (stag i * stag d)) with (stag i * stag i * stag d) by ring. rewrite H. ring.
  Qed.
  Lemma half_sum : SR (fun d => f (ring_distance N 0 d) * stag d) (zrange 0 N) =
    f 0%Z + 2 * SR (fun d => f d * stag d) (zrange 1 M) + f M * stag M.
  Proof.
    rewrite (zrange_app 0 (M + 1) N) by (unfold N; lia). rewrite SR_app.
    rewrite (SR_ext _ (fun d => f d * stag d) (zrange 0 (M + 1))) by (intros d Hd; apply zrange_in in Hd; f_equal; f_equal; unfold ring_distance, N; lia).
    rewrite (SR_ext _ (fun d => (fun x => f x * stag x) (N - d)%Z) (zrange (M + 1) N)).
    - replace (M + 1)%Z with (N - Z.of_nat (Z.to_nat (M - 1)))%Z at 2 by (unfold N; lia). rewrite (SR_reverse (fun x => f x * stag x)).
      replace (Z.of_nat (Z.to_nat (M - 1)) + 1)%Z with M by lia.
      rewrite (zrange_cons 0) by lia. cbn [SR]. change (0 + 1)%Z with 1%Z. rewrite (zrange_app 1 M (M + 1)) by lia. rewrite SR_app, (zrange_cons M), (zrange_nil (M + 1)) by lia. cbn [SR].
      change (stag 0) with 1. ring.
    - intros d Hd. apply zrange_in in Hd. f_equal; [f_equal; unfold ring_distance, N in *; lia|]. unfold N, stag. rewrite Z.even_sub, Z.even_mul. cbn. destruct (Z.even d); reflexivity.
  Qed.
End Sum.

(** the average <c+_0 c_d> at half filling *)
Lemma half_filled d : (0 < d)%Z -> fermi_sea_1d (1 / 2 * PI) (IZR d) * stag d = if Z.even d then 0 else - / PI * (sin (PI / 2 * IZR d) / IZR d).
Proof.
  intros Hd. pose proof PI_RGT_0. assert (IZR d <> 0) by (apply not_0_IZR; lia). rewrite sea_1d by assumption. unfold stag. destruct (Z.even d) eqn:E.
  - apply Z.even_spec in E as (k & ->). rewrite mult_IZR. replace (1 / 2 * PI * (2 * IZR k)) with (IZR k * PI) by field. rewrite sin_eq_0_1 by (exists k; reflexivity). field. split; lra || (apply not_0_IZR; lia).
  - replace (1 / 2 * PI * IZR d) with (PI / 2 * IZR d) by field. field. split; lra.
Qed.
Lemma sin_odd q : sin (PI / 2 * IZR (2 * Z.of_nat q + 1)) = (-1) ^ q.
Proof.
  induction q as [|q IH]; [replace (PI / 2 * IZR (2 * Z.of_nat 0 + 1)) with (PI / 2) by (cbn; lra); apply sin_PI2|].
  replace (PI / 2 * IZR (2 * Z.of_nat (S q) + 1)) with (PI / 2 * IZR (2 * Z.of_nat q + 1) + PI) by (rewrite !plus_IZR, !mult_IZR, Nat2Z.inj_succ, succ_IZR; field).
  rewrite neg_sin, IH. cbn [pow]. ring.
Qed.
Lemma leibniz_sum n : SR (fun d => fermi_sea_1d (1 / 2 * PI) (IZR d) * stag d) (zrange 1 (2 * Z.of_nat n + 2)) = - / PI * sum_f_R0 (tg_alt PI_tg) n.
Proof.
  assert (T : forall q, tg_alt PI_tg q = (-1) ^ q / IZR (2 * Z.of_nat q + 1)).
  { intros q. unfold tg_alt, PI_tg. rewrite INR_IZR_INZ. unfold Rdiv. repeat f_equal. lia. }
  assert (O : forall q : nat, fermi_sea_1d (1 / 2 * PI) (IZR (2 * Z.of_nat q + 1)) * stag (2 * Z.of_nat q + 1) = - / PI * tg_alt PI_tg q).
  { intros q. rewrite half_filled by lia. rewrite Z.even_add, Z.even_mul. cbn [Z.even orb Bool.eqb]. rewrite sin_odd, T. reflexivity. }
  induction n as [|n IH].
  - change (2 * Z.of_nat 0 + 2)%Z with 2%Z. rewrite (zrange_cons 1), (zrange_nil (1 + 1)) by lia. cbn [SR sum_f_R0]. rewrite (O 0%nat : fermi_sea_1d (1 / 2 * PI) (IZR 1) * stag 1 = _). ring.
  - rewrite (zrange_app 1 (2 * Z.of_nat n + 2)) by lia. rewrite SR_app, IH.
    rewrite (zrange_cons (2 * Z.of_nat n + 2)), (zrange_cons (2 * Z.of_nat n + 2 + 1)), zrange_nil by lia. cbn [SR sum_f_R0].
    rewrite half_filled by lia. rewrite (Z.even_add _ 2), Z.even_mul. cbn [Z.even orb Bool.eqb].
    replace (2 * Z.of_nat n + 2 + 1)%Z with (2 * Z.of_nat (S n) + 1)%Z by lia. rewrite O. ring.
Qed.
Lemma leibniz_above p : PI / 4 < sum_f_R0 (tg_alt PI_tg) (2 * p).
Proof.
  pose proof (PI_ineq (S p)) as [_ H]. replace (2 * S p)%nat with (S (S (2 * p))) in H by lia. cbn [sum_f_R0] in H.
  assert (T : forall q, tg_alt PI_tg q = (-1) ^ q / INR (2 * q + 1)) by reflexivity. rewrite !T in H.
  replace ((-1) ^ S (S (2 * p))) with 1 in H by (cbn [pow]; rewrite pow_1_even; ring). replace ((-1) ^ S (2 * p)) with (-1) in H by (cbn [pow]; rewrite pow_1_even; ring).
  set (a := INR (2 * S (2 * p) + 1)) in *. assert (0 < a) by (apply lt_0_INR; lia).
  replace (INR (2 * S (S (2 * p)) + 1)) with (a + 2) in H by (unfold a; rewrite !plus_INR, !mult_INR, !S_INR; cbn [INR]; ring).
  assert (/ (a + 2) < / a) by (apply Rinv_lt_contravar; nra). unfold Rdiv in H. lra.
Qed.
(** On a ring of 4, 12, 20, ... sites at half filling the averages the programs compute are those of no state: the
    occupation of c+_0 - c+_1 + c+_2 - ... is negative. *)
Lemma staggered_negative p : let N := (8 * Z.of_nat p + 4)%Z in quad N (sea N (1/2)) (fun i => (stag i, 0)) < 0.
Proof.
  intros N. set (M := (2 * Z.of_nat (2 * p) + 2)%Z). assert (EN : N = (2 * M)%Z) by (unfold N, M; lia). assert (HM : (1 <= M)%Z) by (unfold M; lia).
  set (f := fun d => fermi_sea_1d (1 / 2 * PI) (IZR d)).
  unfold quad. rewrite (SR_ext _ (fun _ => f 0%Z + 2 * SR (fun d => f d * stag d) (zrange 1 M) + f M * stag M)).
  - rewrite Pf_Stability3.SR_const. assert (0 < INR (length (zrange 0 N))) by (apply lt_0_INR; rewrite zrange_length; unfold N; lia).
    assert (f 0%Z + 2 * SR (fun d => f d * stag d) (zrange 1 M) + f M * stag M < 0); [|nra].
    unfold f. rewrite half_filled by lia. replace (Z.even M) with true by (unfold M; rewrite Z.even_add, Z.even_mul; reflexivity). unfold M. rewrite leibniz_sum, sea_1d_0.
    pose proof (leibniz_above p) as Q. pose proof PI_RGT_0 as P0. set (S := sum_f_R0 (tg_alt PI_tg) (2 * p)) in *.
    replace (1 / 2 * PI / PI) with (1 / 2) by (field; lra). assert (I : 0 < / PI) by (apply Rinv_0_lt_compat; lra).
    assert (/ PI * (PI / 4) < / PI * S) by (apply Rmult_lt_compat_l; assumption). replace (/ PI * (PI / 4)) with (1 / 4) in H0 by (field; lra). lra.
  - intros i Hi. apply zrange_in in Hi. rewrite <- (half_sum M f HM), <- (turn_sum M f HM i) by lia. rewrite <- EN. apply SR_ext. intros j _. cbn [fst snd]. unfold sea. fold (f (ring_distance N i j)). ring.
Qed.
Theorem C68_shipped_averages_refuted : forall (p : nat) order T s, let N := (8 * Z.of_nat p + 4)%Z in let b := basis1 (chain_lattice N) in
  (N < two64)%Z -> Permutation order (seq 0 (length b)) -> shares T 0 N s ->
  let v := map (fun i => real (stag i) : CR) (zrange 0 N) in
  forall r, real_result (site_occupation1 (F := Rring) (1/2) (program_ev N (1/2)) b (basis_get_conjugate order b) v T s) = Some r -> exists x, r = Ok x /\ x < 0.
Proof.
  intros p order T s N b H64 Ho H1 v r E. assert (HN : (3 <= N)%Z) by (unfold N; lia).
  assert (HR : forall a b, site N a -> site N b -> table_value N (1/2) a b = table_value N (1/2) b a) by (intros; rewrite !table_sea by (assumption || lia || lra); apply sea_sym).
  assert (Lk : len v = N) by (unfold v; rewrite map_length, zrange_length; lia).
  rewrite program_by_site in E. rewrite (conjugate_all order b Ho) in E.
  destruct (site_occupation1 (F := Rring) (1/2) (by_site (F := Rring) (table_value N (1/2))) b (conjugate_basis b) v T s) as [q|] eqn:Q; [|discriminate].
  apply (one_total (F := Rring) (1/2) (table_value N (1/2)) (chain_lattice N) N v (chain_regular N ltac:(lia)) Lk _ _ _ H1) in Q.
  rewrite (fst_total1 _ _ _ HR) in Q. subst q. cbn [real_result fst snd] in E. injection E as <-.
  destruct (Req_EM_T 0 0) as [_|Cx]; [|contradiction]. eexists. split; [reflexivity|].
  rewrite (quad_ext N _ (sea N (1/2)) _ (fun i => (stag i, 0))).
  - exact (staggered_negative p).
  - intros i j Hi Hj. rewrite overlap_site by assumption. apply table_sea; assumption || lia || lra.
  - intros i Hi. unfold vget, v. exact (Pf_Ode.nth_zrange_map (fun i => real (stag i) : CR) N i _ Hi).
Qed.
Print Assumptions C68_shipped_averages_refuted.
(** met on 4 sites with two threads: the measurement of c+_0 - c+_1 + c+_2 - c+_3 comes out negative *)
Example C68_shipped_averages_met : exists s x, shares 2 0 4 s /\ x < 0 /\
  real_result (site_occupation1 (F := Rring) (1/2) (program_ev 4 (1/2)) (basis1 (chain_lattice 4)) (basis_get_conjugate (seq 0 4) (basis1 (chain_lattice 4)))
    (map (fun i => real (stag i) : CR) (zrange 0 4)) 2 s) = Some (Ok x).
Proof.
  assert (F : exists t, real_result (site_occupation1 (F := Rring) (1/2) (program_ev 4 (1/2)) (basis1 (chain_lattice 4)) (basis_get_conjugate (seq 0 4) (basis1 (chain_lattice 4)))
    (map (fun i => real (stag i) : CR) (zrange 0 4)) 2 (mkSch [[0; 2]; [1; 3]]%Z t)) <> None).
  { unfold site_occupation1. match goal with |- exists t, real_result (pbind (par_reduce _ ?a ?z) _) <> None => destruct (Pf_OpenMP.par_reduce_finishes (K := cplx_ring Rring) [[0; 2]; [1; 3]]%Z a z) as (t & Q) end.
    exists t. destruct (par_reduce (K := cplx_ring Rring) (mkSch [[0; 2]; [1; 3]]%Z t) _ _) as [[z|]|]; [discriminate|discriminate|contradiction]. }
  destruct F as (t & F). set (s := mkSch [[0; 2]; [1; 3]]%Z t) in *.
  assert (Sh : shares 2 0 4 s) by (split; [cbn; lia|cbn; apply perm_skip, perm_swap]).
  destruct (real_result _) as [r|] eqn:E; [|contradiction]. 
  destruct (C68_shipped_averages_refuted 0 (seq 0 4) 2 s eq_refl (Permutation_refl _) Sh r E) as (x & -> & Hx). exists s, x. split; [exact Sh|]. split; [exact Hx|]. exact E.
Qed.
