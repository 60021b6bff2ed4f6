(** THEOREMS: C45, C46 (Fermi jump), C69 (its physical meaning). *)
From Verif Require Import Base Spec_Fock M_Operator M_Lattice Spec_Lattice Pf_Lattice M_Basis Pf_Basis P_Basis
  M_Matrix Pf_Matrix Spec_Algebra Spec_Matrix Spec_Dynamics M_Ode Pf_Ode P_Dynamics M_Dispersion M_OpenMP Spec_OpenMP Pf_OpenMP M_SiteOccupation
  Pf_SiteOccupation M_FermiJump Pf_FermiJump Spec_Slater Spec_Jump Pf_Trace Pf_SlaterHub Pf_Jump P_SiteOccupation.
Local Open Scope list_scope.

Lemma zrange_nodup a b : NoDup (zrange a b).
Proof. unfold zrange. apply FinFun.Injective_map_NoDup; [intros x y; lia|apply seq_NoDup]. Qed.

Section FJ.
Context (F : StarRing).
Local Open Scope ring_scope_.
Add Ring FrPFJ : (rth F).
Let CF := cplx_ring F.
Add Ring CrPFJ : (rth CF).

(** ** C46: the factor tables *)
Section Ctor.
Variables cs sn : F -> F.
Lemma fill_value N T s (phase : Z -> F) ph r : (0 <= N)%Z -> shares T 0 N s -> (forall i, (0 <= i < N)%Z -> ph i = Ok (phase i)) ->
  fill cs sn s ph (zeros (Z.to_nat N)) = Some r ->
  exists table, r = Ok table /\ Z.of_nat (length table) = N /\
    forall i, (0 <= i < N)%Z -> vread table i = Ok (cs (phase i), sn (phase i)).
Proof.
  intros HN Hs Hp H. unfold fill in H.
  eapply (par_elements (K := CF) (fun i => (cs (phase i), sn (phase i))) (fun _ => []) T 0 N s) in H;
    [|lia|unfold zeros; rewrite repeat_length; lia|exact Hs|].
  - destruct H as (m & -> & L & V). exists m. split; [reflexivity|].
    assert (Lm : Z.of_nat (length m) = N) by (rewrite L; unfold zeros; rewrite repeat_length; lia).
    split; [exact Lm|]. intros i Hi. etransitivity; [apply (vread_nth m i (0, 0)); split; [apply Hi|eapply Z.lt_le_trans; [apply Hi|apply Z.eq_le_incl; symmetry; exact Lm]]|].
    f_equal. etransitivity; [apply V; lia|].
    destruct (Z.leb_spec 0 i); [|lia]. destruct (Z.ltb_spec i N); [|lia]. cbn [andb]. unfold value. rewrite sum_over_nil.
    match goal with |- @eq _ ?a ?b => change (@eq (car CF) a b) end. ring.
  - intros i Hi. apply zrange_in in Hi. rewrite Hp by exact Hi. reflexivity.
Qed.
(** the three-operator classes: one factor e^{i k_F r_i} per site *)
Theorem C46_table_1d : forall N T s k_F pos r, (0 <= N)%Z -> shares T 0 N s -> ctor_1d cs sn N s k_F pos = Some r ->
  exists table, r = Ok table /\ Z.of_nat (length table) = N /\
    forall i, (0 <= i < N)%Z -> vread table i = Ok (cs (k_F * pos i), sn (k_F * pos i)).
Proof. intros N T s k_F pos r HN Hs H. apply (fill_value N T s (fun i => k_F * pos i) _ r HN Hs (fun i _ => eq_refl) H). Qed.
Theorem C46_table_2d : forall lat N T s k_F pos r, shipped lat N -> shares T 0 N s -> ctor_2d cs sn (basis3 lat) N s k_F pos = Some r ->
  exists table, r = Ok table /\ Z.of_nat (length table) = N /\
    forall i, (0 <= i < N)%Z -> vread table i =
      Ok (cs (fst k_F * fst (pos i) + snd k_F * snd (pos i)), sn (fst k_F * fst (pos i) + snd k_F * snd (pos i))).
Proof.
  intros lat N T s k_F pos r HL Hs H. apply shipped_regular in HL. assert (HN := N_pos lat N HL).
  apply (fill_value N T s (fun i => fst k_F * fst (pos i) + snd k_F * snd (pos i)) _ r) in H; [exact H|lia|exact Hs|].
  intros i Hi. rewrite (front_read lat N (F := F) [] HL i Hi). reflexivity.
Qed.
(** DEFECT: the one-operator class and both FermiJump1D_NO classes only reserve the table, so every
    construction for at least one site writes outside of it *)
Theorem C46_reserve_refuted : forall N T s k_F pos, (0 < N)%Z -> shares T 0 N s -> ctor_reserve cs sn s k_F pos = Some UB.
Proof.
  intros N T s k_F pos HN Hs. unfold ctor_reserve, fill.
  apply (par_elements_oob (K := CF) (fun i => (cs (k_F * pos i), sn (k_F * pos i))) (fun _ => []) T 0 N s); [lia|cbn; lia|lia|exact Hs|].
  intros i Hi. reflexivity.
Qed.
End Ctor.

(** ** C45: call histories *)
(** an evaluation with a basis of a shipped lattice, a vector of the basis size, one factor per
    site, and loops shared by its threads *)
Inductive legal : call F -> Prop :=
| legal_call lat rho N coef h T s1 s2 : shipped lat N -> (N + N * N * N < two64)%Z ->
    Z.of_nat (length coef) = N -> Z.of_nat (length h) = (N + N * N * N)%Z -> shares T 0 N s1 -> shares T 0 N s2 ->
    legal (mkCall (by_site rho) (basis3 lat) N coef h T s1 s2).
(** the value by its formula:
    |sum_i f_i (h_i + sum_jk (2 <c+_j c_k> - delta_jk) h_ijk)|^2 *)
Definition formula (c : call F) : F :=
  let N := c_N c in
  let rho j k := c_ev c (hop true j true) (hop true k true) in
  norm (sum_over (K := CF) (fun i => vget (K := CF) (c_coefficients c) i *
    (vget (K := CF) (c_h c) i + sum_over (K := CF) (fun j => sum_over (fun k =>
       ((rho j k + rho j k - delta j k, 0) : CF) * vget (K := CF) (c_h c) (N + N * N * i + N * j + k)) (zrange 0 N)) (zrange 0 N)))
    (zrange 0 N)).
Lemma formula_value lat rho N coef h T s1 s2 : shipped lat N -> (N + N * N * N < two64)%Z ->
  formula (mkCall (by_site rho) (basis3 lat) N coef h T s1 s2) = jump_value rho N h coef.
Proof.
  intros HL HS. apply shipped_regular in HL. unfold formula, jump_value. cbn [c_ev c_N c_coefficients c_h]. f_equal.
  apply sum_over_ext. intros i Hi. apply zrange_in in Hi. apply (f_equal2 rmul); [reflexivity|]. unfold h_no.
  apply (f_equal2 radd); [reflexivity|]. apply sum_over_ext. intros j Hj. apply zrange_in in Hj. apply sum_over_ext. intros k Hk. apply zrange_in in Hk.
  rewrite (get_3op_index_eq lat N HL HS i j k) by assumption. apply (f_equal2 rmul).
  - f_equal. unfold by_site, pref, delta, two, hop, index1. cbn [indices fst]. destruct (j =? k)%Z; ring.
  - reflexivity.
Qed.
(** as long as no basis is larger than the first one the evaluations do not influence each other *)
Theorem C45_history : forall c cs r, Forall legal (c :: cs) -> Forall (fun d => (c_N d <= c_N c)%Z) cs ->
  evaluations (c :: cs) None = Some r -> r = Ok (map formula (c :: cs)).
Proof.
  assert (Gen : forall cs l r, Forall legal cs -> Forall (fun d => (c_N d <= Z.of_nat (length l))%Z) cs ->
    evaluations cs (Some l) = Some r -> r = Ok (map formula cs)).
  { induction cs as [|c cs IH]; intros l r HL HN H; cbn [evaluations] in H; [injection H as <-; reflexivity|].
    inversion HL as [|? ? Hc HLs]; subst. inversion HN as [|? ? Hn HNs]; subst.
    destruct (evaluate c (Some l)) as [r1|] eqn:R1; [|discriminate]. destruct Hc as [lat rho N coef h T s1 s2 A1 A2 A3 A4 A5 A6].
    cbn [c_N] in Hn. unfold evaluate in R1. cbn [c_ev c_basis c_N c_coefficients c_h c_threads c_s1 c_s2] in R1.
    apply (jump3_value rho lat N h (shipped_regular _ _ A1) A2 A4 T s1 s2 coef (Some l) r1 A5 A6 A3 Hn) in R1.
    destruct R1 as (l' & -> & L'). cbn [pbind fst snd] in H.
    destruct (evaluations cs (Some l')) as [r2|] eqn:R2; [|discriminate].
    apply IH in R2; [|exact HLs|]. 2:{ eapply Forall_impl; [|exact HNs]. intros d Hd. cbn beta in *.
      replace (Z.of_nat (length l')) with (Z.of_nat (length l)); [exact Hd|]. f_equal. symmetry. exact L'. }
    subst r2. cbn [pbind] in H. injection H as <-. cbn [map]. rewrite formula_value by assumption. reflexivity. }
  intros c cs r HL HN H. cbn [evaluations] in H. inversion HL as [|? ? Hc HLs]; subst.
  destruct (evaluate c None) as [r1|] eqn:R1; [|discriminate]. destruct Hc as [lat rho N coef h T s1 s2 A1 A2 A3 A4 A5 A6].
  cbn [c_N] in HN. unfold evaluate in R1. cbn [c_ev c_basis c_N c_coefficients c_h c_threads c_s1 c_s2] in R1.
  apply (jump3_value rho lat N h (shipped_regular _ _ A1) A2 A4 T s1 s2 coef None r1 A5 A6 A3 I) in R1.
  destruct R1 as (l' & -> & L'). cbn [pbind fst snd] in H. assert (P := N_pos lat N (shipped_regular _ _ A1)).
  destruct (evaluations cs (Some l')) as [r2|] eqn:R2; [|discriminate].
  apply Gen in R2; [|exact HLs|]. 2:{ eapply Forall_impl; [|exact HN]. intros d Hd. cbn beta in *.
    replace (Z.of_nat (length l')) with N; [exact Hd|]. transitivity (Z.of_nat (Z.to_nat N)); [lia|]. f_equal. symmetry. exact L'. }
  subst r2. cbn [pbind] in H. injection H as <-. cbn [map]. rewrite formula_value by assumption. reflexivity.
Qed.
(** DEFECT: the static h_NO keeps the size of the first evaluation, so the first later evaluation
    with a larger basis writes outside of it *)
Theorem C45_larger_basis_refuted : forall c cs d ds r, Forall legal (c :: cs) -> legal d ->
  Forall (fun d => (c_N d <= c_N c)%Z) cs -> (c_N c < c_N d)%Z ->
  evaluations (c :: cs ++ d :: ds) None = Some r -> r = UB.
Proof.
  assert (Gen : forall cs l d ds r, Forall legal cs -> legal d -> Forall (fun d => (c_N d <= Z.of_nat (length l))%Z) cs ->
    (Z.of_nat (length l) < c_N d)%Z -> evaluations (cs ++ d :: ds) (Some l) = Some r -> r = UB).
  { induction cs as [|c cs IH]; intros l d ds r HL Hd HN Hl H; cbn [app evaluations] in H.
    - destruct Hd as [lat rho N coef h T s1 s2 A1 A2 A3 A4 A5 A6]. cbn [c_N] in Hl.
      unfold evaluate in H. cbn [c_ev c_basis c_N c_coefficients c_h c_threads c_s1 c_s2] in H.
      assert (Q := jump3_oob rho lat N h (shipped_regular _ _ A1) A2 A4 T s1 s2 coef l A5 Hl).
      match type of H with pbind ?x _ = _ => assert (Q' : x = Some UB) by exact Q; rewrite Q' in H end.
      injection H as <-. reflexivity.
    - inversion HL as [|? ? Hc HLs]; subst. inversion HN as [|? ? Hn HNs]; subst.
      destruct (evaluate c (Some l)) as [r1|] eqn:R1; [|discriminate]. destruct Hc as [lat rho N coef h T s1 s2 A1 A2 A3 A4 A5 A6].
      cbn [c_N] in Hn. unfold evaluate in R1. cbn [c_ev c_basis c_N c_coefficients c_h c_threads c_s1 c_s2] in R1.
      apply (jump3_value rho lat N h (shipped_regular _ _ A1) A2 A4 T s1 s2 coef (Some l) r1 A5 A6 A3 Hn) in R1.
      destruct R1 as (l' & -> & L'). cbn [pbind fst snd] in H.
      destruct (evaluations (cs ++ d :: ds) (Some l')) as [r2|] eqn:R2; [|discriminate].
      assert (LL : Z.of_nat (length l') = Z.of_nat (length l)) by (f_equal; exact L').
      apply IH in R2; [|exact HLs|exact Hd| |].
      + subst r2. injection H as <-. reflexivity.
      + eapply Forall_impl; [|exact HNs]. intros e He. cbn beta in *. etransitivity; [exact He|]. apply Z.eq_le_incl. symmetry. exact LL.
      + eapply Z.le_lt_trans; [apply Z.eq_le_incl; exact LL|exact Hl]. }
  intros c cs d ds r HL Hd HN Hlt H. cbn [evaluations] in H. inversion HL as [|? ? Hc HLs]; subst.
  destruct (evaluate c None) as [r1|] eqn:R1; [|discriminate]. destruct Hc as [lat rho N coef h T s1 s2 A1 A2 A3 A4 A5 A6].
  cbn [c_N] in HN, Hlt. unfold evaluate in R1. cbn [c_ev c_basis c_N c_coefficients c_h c_threads c_s1 c_s2] in R1.
  apply (jump3_value rho lat N h (shipped_regular _ _ A1) A2 A4 T s1 s2 coef None r1 A5 A6 A3 I) in R1.
  destruct R1 as (l' & -> & L'). cbn [pbind fst snd] in H. assert (P := N_pos lat N (shipped_regular _ _ A1)).
  destruct (evaluations (cs ++ d :: ds) (Some l')) as [r2|] eqn:R2; [|discriminate].
  assert (LL : Z.of_nat (length l') = N) by (transitivity (Z.of_nat (Z.to_nat N)); [f_equal; exact L'|lia]).
  apply Gen in R2; [|exact HLs|exact Hd| |].
  - subst r2. injection H as <-. reflexivity.
  - eapply Forall_impl; [|exact HN]. intros e He. cbn beta in *. etransitivity; [exact He|]. apply Z.eq_le_incl. symmetry. exact LL.
  - eapply Z.le_lt_trans; [apply Z.eq_le_incl; exact LL|exact Hlt].
Qed.

(** the object without the static local (FermiJump1D_NO and the one-operator class) only reads *)
Theorem C45_plain_sum : forall N T s (coef h : list (F * F)) r, (0 <= N)%Z -> shares T 0 N s -> Z.of_nat (length coef) = N ->
  (N <= Z.of_nat (length h))%Z -> jump_sum coef h T s = Some r ->
  r = Ok (norm (sum_over (K := CF) (fun i => vget (K := CF) coef i * vget (K := CF) h i) (zrange 0 N))).
Proof.
  intros N T s coef h r HN Hs Hc Hl H. apply (sum_loop N h T s coef h r (fun i => nth (Z.to_nat i) h (0, 0)) Hs Hc Hl (fun i _ => eq_refl) H).
Qed.

(** for every distribution of the iterations there are interleavings with which both loops run to the end *)
Theorem C45_completes : forall ev basis N (coef h : list (F * F)) T w1 w2 st,
  exists t1 t2, fermi_jump3 ev basis N coef h T (mkSch w1 t1) (mkSch w2 t2) st <> None.
Proof.
  intros ev basis N coef h T w1 w2 st. unfold fermi_jump3, jump_sum.
  match goal with |- exists t1 t2, pbind (par_for _ ?b ?m) _ <> None => set (f1 := b); set (m0 := m) end.
  destruct (par_for_finishes (K := cplx_ring F) w1 f1 m0) as (t1 & P1). exists t1.
  destruct (par_for (K := cplx_ring F) (mkSch w1 t1) f1 m0) as [[x1|]|]; [|exists []; cbn [pbind]; discriminate|congruence]. cbn [pbind].
  match goal with |- exists t2, pbind (pbind (par_reduce _ ?b ?m) _) _ <> None => set (f2 := b); set (z0 := m) end.
  destruct (par_reduce_finishes (K := cplx_ring F) w2 f2 z0) as (t2 & P2). exists t2.
  destruct (par_reduce (K := cplx_ring F) (mkSch w2 t2) f2 z0) as [[x2|]|]; [cbn [pbind]; discriminate|cbn [pbind]; discriminate|congruence].
Qed.

(** ** C69: what the Fermi jump measures *)
Section State.
Variable half : F.
Hypothesis Hh : half + half = 1.
Variables (M : nat) (mode : hub -> nat) (N : Z).
Hypothesis mode_inj : numbers_orbitals mode N.
Hypothesis mode_lt : orbitals_below mode N M.
Variables (phis : list (Z -> CF)) (rho : Z -> Z -> F).
Hypothesis orth : orthonormal N phis.
Hypothesis Hrho : forall i j, site N i -> site N j -> density phis i j = ((rho i j, 0) : CF).
Let psi := slater M mode N phis.

Theorem C69_fermi_jump : forall lat (coef v : list (F * F)) T s1 s2 st r,
  shipped lat N -> (N + N * N * N < two64)%Z -> Z.of_nat (length coef) = N -> Z.of_nat (length v) = (N + N * N * N)%Z ->
  shares T 0 N s1 -> shares T 0 N s2 ->
  match st with None => True | Some l => (N <= Z.of_nat (length l))%Z end ->
  fermi_jump3 (by_site rho) (basis3 lat) N coef v T s1 s2 st = Some r ->
  let A := vec_op (K := CF) (basis3 lat) v in
  exists l, r = Ok (norm (sum_over (K := CF) (fun i => vget (K := CF) coef i *
    expect M mode (anticommutator A [mkTerm 1 [hop false i true]]) psi) (zrange 0 N)), l).
Proof.
  intros lat coef v T s1 s2 st r HL HS Hc Hv H1 H2 Hst H A. apply shipped_regular in HL. assert (HN := N_pos lat N HL).
  apply (jump3_value rho lat N v HL HS Hv T s1 s2 coef st r H1 H2 Hc Hst) in H. destruct H as (l & -> & _). exists l.
  f_equal. f_equal. unfold jump_value. f_equal. apply sum_over_ext. intros i Hi. apply zrange_in in Hi. apply (f_equal2 rmul); [reflexivity|].
  assert (EA : A = flat_map (fun i => map (fun t => mkTerm (vget (K := CF) v i * prefactor t) (operators t)) (belem F N i)) (zrange 0 (N + N * N * N))).
  { unfold A, vec_op. rewrite (combine_zrange CF v (basis3 lat) (N + N * N * N)).
    - rewrite !flat_map_concat_map, map_map. f_equal. apply map_ext_in.
      intros l' Hl'. apply zrange_in in Hl'. cbn [fst snd]. f_equal. apply (nth_belem F N lat l' HL HS Hl').
    - exact Hv.
    - rewrite (basis3_len lat N HL). nia. }
  rewrite EA. unfold psi. rewrite (expect_lincomb (K := CF) M mode N phis).
  rewrite (zrange_app 0 N (N + N * N * N)) by nia. rewrite sum_over_app. unfold h_no. apply (f_equal2 radd).
  - symmetry. rewrite (sum_over_ext _ _ (fun l => if Z.eqb l i then vget (K := CF) v l else 0) (zrange 0 N)).
    + apply (sum_pick Z.eqb Z.eqb_eq (fun l => vget (K := CF) v l) i); [apply zrange_nodup|apply zrange_in; exact Hi].
    + intros l' Hl'. apply zrange_in in Hl'. unfold belem. destruct (Z.ltb_spec l' N); [|lia].
      rewrite (expect_B1 (K := CF) ((half, 0) : CF) (HhC F half Hh) M mode N mode_inj mode_lt phis orth) by assumption.
      unfold delta. destruct (Z.eqb l' i); match goal with |- @eq _ ?a ?b => change (@eq (car CF) a b) end; ring.
  - rewrite (triples lat N HL HS), sum_over_flat_map. symmetry.
    rewrite (sum_over_ext _ _ (fun a => if Z.eqb a i then sum_over (fun j => sum_over (fun k =>
       ((pref rho j k, 0) : CF) * vv v (get_3op_index N a j k)) (zrange 0 N)) (zrange 0 N) else 0) (zrange 0 N)).
    + apply (sum_pick Z.eqb Z.eqb_eq (fun a => sum_over (fun j => sum_over (fun k =>
        ((pref rho j k, 0) : CF) * vv v (get_3op_index N a j k)) (zrange 0 N)) (zrange 0 N)) i); [apply zrange_nodup|apply zrange_in; exact Hi].
    + intros a Ha. apply zrange_in in Ha. rewrite sum_over_flat_map.
      transitivity (sum_over (K := CF) (fun b => sum_over (fun c => delta a i * (((pref rho b c, 0) : CF) * vv v (get_3op_index N a b c))) (zrange 0 N)) (zrange 0 N)).
      * apply sum_over_ext. intros b Hb. apply zrange_in in Hb. rewrite sum_over_map. apply sum_over_ext. intros c Hc'. apply zrange_in in Hc'.
        destruct (get_3op_index_range lat N HL HS a b c Ha Hb Hc') as [G1 G2].
        destruct (get_3op_index_dec lat N HL HS (get_3op_index N a b c)) as (K1 & K2 & K3 & G); [lia|].
        apply (get_3op_index_inj lat N HL HS) in G; [|assumption..]. destruct G as (E1 & E2 & E3).
        unfold belem. destruct (Z.ltb_spec (get_3op_index N a b c) N); [lia|]. rewrite E1, E2, E3.
        rewrite (expect_B3 (K := CF) ((half, 0) : CF) (HhC F half Hh) M mode N mode_inj mode_lt phis orth) by assumption.
        rewrite Hrho by assumption.
        replace (((pref rho b c, 0) : CF)) with ((1 + 1) * ((rho b c, 0) : CF) - delta b c).
        { change (vv v (get_3op_index N a b c)) with (vget (K := CF) v (get_3op_index N a b c)).
          match goal with |- @eq _ ?a ?b => change (@eq (car CF) a b) end. ring. }
        unfold pref, delta, two. destruct (b =? c)%Z; cbn; f_equal; ring.
      * destruct (Z.eqb_spec a i) as [->|Hne].
        -- apply sum_over_ext. intros b _. apply sum_over_ext. intros c _. unfold delta. rewrite Z.eqb_refl.
           match goal with |- @eq _ ?a ?b => change (@eq (car CF) a b) end. ring.
        -- apply sum_over_zero. intros b _. apply sum_over_zero. intros c _. unfold delta. destruct (Z.eqb_spec a i); [contradiction|].
           match goal with |- @eq _ ?a ?b => change (@eq (car CF) a b) end. ring.
Qed.
End State.
End FJ.
Print Assumptions C46_table_1d.
Print Assumptions C46_table_2d.
Print Assumptions C46_reserve_refuted.
Print Assumptions C45_history.
Print Assumptions C45_larger_basis_refuted.
Print Assumptions C45_plain_sum.
Print Assumptions C69_fermi_jump.
Print Assumptions C45_completes.
