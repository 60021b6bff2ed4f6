(** THEOREMS: C108 (without interaction the occupation stays at the filling factor). *)
From Coq Require Import Reals Lra Psatz Sorting.Sorted ZifyBool.
From Verif Require Import Base M_Operator M_Lattice Spec_Lattice Pf_Lattice M_LatticeReal Spec_LatticeReal M_Basis Pf_Basis P_Basis M_Matrix M_Ode M_Dispersion M_OpenMP Spec_OpenMP M_Expectation Spec_Expectation P_Expectation M_SiteOccupation Pf_SiteOccupation P_SiteOccupation M_TimeLoop Spec_TimeLoop Spec_Ode
  Pf_Matrix Spec_Matrix Pf_Matrix2 P_Matrix Spec_Stability Pf_Stability Pf_Stability2 Pf_Stability3 P_Stability Spec_Programs M_Programs Pf_Programs Pf_Programs2
  M_MatrixCheck Spec_Algebra Pf_MatrixEntry P_Ode P_Dynamics P_TimeLoop P_Programs Pf_Conserved.
Local Open Scope R_scope.
Local Open Scope list_scope.
Local Notation len u := (Z.of_nat (length u)).

(** the same between any two sites as between their images under a rotation of the ring *)
Definition on_ring (N : Z) (rho : Z -> Z -> R) : Prop := exists f : Z -> R, forall a b, site N a -> site N b -> rho a b = f (ring_distance N a b).

Definition cnt (N i j : Z) : R := (if ((i - 1) mod N =? j)%Z then 1 else 0) + (if ((i + 1) mod N =? j)%Z then 1 else 0).
Definition sig (J : R) (c d : bool) : R := match c, d with true, false => J | false, true => - J | _, _ => 0 end.

Lemma mod_up N i : (3 <= N)%Z -> site N i -> ((i + 1) mod N = if (i =? N - 1)%Z then 0 else i + 1)%Z.
Proof. intros H Hi. unfold site in Hi. destruct (Z.eqb_spec i (N - 1)); [replace (i + 1)%Z with N by lia; apply Z_mod_same_full|apply Z.mod_small; lia]. Qed.
Lemma mod_down N i : (3 <= N)%Z -> site N i -> ((i - 1) mod N = if (i =? 0)%Z then N - 1 else i - 1)%Z.
Proof.
  intros H Hi. unfold site in Hi. destruct (Z.eqb_spec i 0) as [->|]; [|apply Z.mod_small; lia].
  symmetry. apply (Z.mod_unique_pos _ _ (-1)); lia.
Qed.
Lemma site_mod N i : (3 <= N)%Z -> site N (i mod N).
Proof. intros H. unfold site. apply Z.mod_pos_bound. lia. Qed.
Lemma cnt_sym N i j : (3 <= N)%Z -> site N i -> site N j -> cnt N i j = cnt N j i.
Proof.
  intros H Hi Hj. unfold cnt. rewrite !mod_up, !mod_down by assumption. unfold site in *.
  rewrite Rplus_comm.
  destruct (Z.eqb_spec i (N - 1)), (Z.eqb_spec i 0), (Z.eqb_spec j (N - 1)), (Z.eqb_spec j 0); try lia; f_equal;
    repeat match goal with |- context[(?x =? ?y)%Z] => destruct (Z.eqb_spec x y) end; lia || reflexivity.
Qed.
Lemma dist_shift N i j : (3 <= N)%Z -> site N i -> site N j ->
  ring_distance N i ((j + 1) mod N) = ring_distance N ((i - 1) mod N) j /\
  ring_distance N i ((j - 1) mod N) = ring_distance N ((i + 1) mod N) j.
Proof.
  intros H Hi Hj. rewrite !mod_up, !mod_down by assumption. unfold site, ring_distance in *.
  split; repeat match goal with |- context[(?x =? ?y)%Z] => destruct (Z.eqb_spec x y) end; lia.
Qed.
Lemma sum_cnt N i g : (3 <= N)%Z -> SR (fun k => cnt N i k * g k) (zrange 0 N) = g ((i - 1) mod N)%Z + g ((i + 1) mod N)%Z.
Proof.
  intros H. rewrite (SR_ext _ (fun k => (if Z.eqb ((i - 1) mod N) k then g ((i - 1) mod N)%Z else 0) + (if Z.eqb ((i + 1) mod N) k then g ((i + 1) mod N)%Z else 0))).
  - rewrite SR_add, !SR_pick_eq; try apply zrange_NoDup; try (apply zrange_in; apply Z.mod_pos_bound; lia). reflexivity.
  - intros k _. unfold cnt. destruct (Z.eqb_spec ((i - 1) mod N) k) as [->|], (Z.eqb_spec ((i + 1) mod N) k) as [->|]; ring.
Qed.
Lemma ring_commute N w i j : (3 <= N)%Z -> on_ring N w -> site N i -> site N j ->
  SR (fun k => w i k * cnt N k j) (zrange 0 N) = SR (fun k => cnt N i k * w k j) (zrange 0 N).
Proof.
  intros H (f & Hf) Hi Hj. rewrite (sum_cnt N i (fun k => w k j) H).
  rewrite (SR_ext _ (fun k => cnt N j k * w i k)) by (intros k Hk; apply zrange_in in Hk; rewrite (cnt_sym N k j H Hk Hj); ring).
  rewrite (sum_cnt N j (fun k => w i k) H). rewrite !Hf by (assumption || apply site_mod; exact H).
  destruct (dist_shift N i j H Hi Hj) as [-> ->]. ring.
Qed.

Section Kin.
  Context (sort : list (triplet CR) -> list (triplet CR)) (N : Z) (J : R) (w : Z -> Z -> R).
  Hypothesis Hs : sorts_by_column sort.
  Hypothesis HN : (3 <= N)%Z.
  Hypothesis Hf : (N * 2 < two64)%Z.
  Hypothesis Hw : on_ring N w.
  Context (m : bmat CR).
  Hypothesis Em : init_kinetic_matrix sort (real J : CR) (chain_lattice N) = Ok m.
  Let lat := chain_lattice N.
  Let Hl : shipped3 lat N. Proof. constructor. lia. Qed.
  Let E := entry (bm_scale imag_unit m).
  Lemma SM_kin i c j d : site N i -> SM E (i, c) (j, d) = sig J c d * cnt N i j.
  Proof.
    intros Hi. unfold SM, E. cbn [fst snd]. rewrite (kinetic_entry sort J lat N Hs Hl Hf m Em i j Hi). unfold adjc. cbn [lat lat_neighbors chain_lattice].
    rewrite chain_neighbors_ring by (lia || exact Hi). unfold cnt.
    change (sum_over (fun x : Z => delta (K := CR) x j) [((i - 1) mod N)%Z; ((i + 1) mod N)%Z]) with (radd (delta (K := CR) ((i - 1) mod N) j) (radd (delta ((i + 1) mod N) j) r0)). unfold delta.
    destruct (((i - 1) mod N =? j)%Z), (((i + 1) mod N =? j)%Z), c, d; cbn; ring.
  Qed.
  Lemma anti_kin : forall p q, In p (idx N) -> In q (idx N) -> SM E p q = - SM E q p.
  Proof.
    intros [i c] [j d] Hp Hq. apply idx_in in Hp, Hq. cbn [fst] in *. rewrite !SM_kin by assumption. rewrite (cnt_sym N i j HN Hp Hq). destruct c, d; cbn [sig]; ring.
  Qed.
  Lemma sym_kin : forall p q, In p (idx N) -> In q (idx N) -> W w p q = W w q p.
  Proof.
    intros [i c] [j d] Hp Hq. apply idx_in in Hp, Hq. cbn [fst] in *. unfold W. cbn [fst snd]. destruct Hw as (f & Hf').
    assert (X : w i j = w j i) by (rewrite !Hf' by assumption; f_equal; unfold ring_distance; lia). rewrite X. destruct c, d; reflexivity.
  Qed.
  Lemma comm_kin : forall p q, In p (idx N) -> In q (idx N) ->
    SR (fun k => W w p k * SM E k q) (idx N) = SR (fun k => SM E p k * W w k q) (idx N).
  Proof.
    intros [i c] [j d] Hp Hq. apply idx_in in Hp, Hq. cbn [fst] in *. rewrite !SR_idx.
    rewrite (SR_ext _ (fun k => sig J c d * (w i k * cnt N k j))).
    - rewrite SR_mul, (ring_commute N w i j HN Hw Hp Hq), <- SR_mul. apply SR_ext. intros k Hk. apply zrange_in in Hk. rewrite !SM_kin by assumption. unfold W. cbn [fst snd].
      destruct c, d; cbn [Bool.eqb sig]; ring.
    - intros k Hk. apply zrange_in in Hk. rewrite !SM_kin by assumption. unfold W. cbn [fst snd]. destruct c, d; cbn [Bool.eqb sig]; ring.
  Qed.
End Kin.

Lemma overlap_site N rho i j : (0 <= i < N)%Z -> (0 <= j < N)%Z -> overlap N rho i j = rho i j.
Proof. intros Hi Hj. unfold overlap. destruct (Z.ltb_spec i N); [|lia]. destruct (Z.ltb_spec j N); [reflexivity|lia]. Qed.
Lemma lift_solution n E y : exact_solution n E y -> solution (idx n) (SM E) (fun t => vecf (y t)).
Proof. intros Hy s [i c] Hi. rewrite ap_SM. apply idx_in in Hi. cbn [fst snd] in *. destruct (Hy s i Hi) as [D1 D2]. unfold vecf. cbn [fst snd]. destruct c; cbn [part]; [exact D1|exact D2]. Qed.

(** For every table of averages that depends on the distance on the ring only, and every start vector, the
    occupation of the exact solution of the kinetic equation of motion never changes; starting with c+_0 it is the average on a site. *)
Theorem C108_exact : forall (sort : list (triplet CR) -> list (triplet CR)) N J rho,
  sorts_by_column sort -> (3 <= N)%Z -> (N * 2 < two64)%Z -> on_ring N rho ->
  exists m, init_kinetic_matrix sort (real J : CR) (chain_lattice N) = Ok m /\
    (forall y, exact_solution N (entry (bm_scale imag_unit m)) y -> forall t, occupation N rho N (y t) = occupation N rho N (y 0)) /\
    (forall y, the_solution N (entry (bm_scale imag_unit m)) y -> forall t, occupation N rho N (y t) = rho 0%Z 0%Z).
Proof.
  intros sort N J rho Hs HN Hf Hw. assert (Hl : shipped3 (chain_lattice N) N) by (constructor; lia).
  destruct (kinetic_facts sort J (chain_lattice N) N Hs Hl Hf) as (m & Em & _). exists m. split; [exact Em|].
  assert (A : forall y, exact_solution N (entry (bm_scale imag_unit m)) y -> forall t, occupation N rho N (y t) = occupation N rho N (y 0)).
  { intros y Hy t. rewrite !occupation_quad.
    assert (Q : forall v, quad N (overlap N rho) v = quad N rho v) by (intros v; apply quad_ext; [intros; apply overlap_site; assumption|reflexivity]).
    rewrite !Q, !quad_dot.
    exact (qf_conserved (idx N) _ (W rho) (anti_kin sort N J Hs HN Hf m Em) (comm_kin sort N J rho Hs HN Hf Hw m Em) _ (lift_solution N _ y Hy) t). }
  split; [exact A|]. intros y (Hy & H0 & _) t. rewrite (A y Hy t), occupation_quad, (quad_first N _ _ ltac:(lia) H0). apply overlap_site; lia.
Qed.

(** ** the program in exact arithmetic: the printed value drifts by at most N (dt L)^6 / 36 per step *)
Lemma sea_ring N filling : on_ring N (sea N filling).
Proof. exists (fun d => fermi_sea_1d (filling * PI) (IZR d)). reflexivity. Qed.
Section Drift.
  Context (sort : list (triplet CR) -> list (triplet CR)) (N : Z) (J dt c : R) (w : Z -> Z -> R) (m : bmat CR).
  Hypothesis Hs : sorts_by_column sort.
  Hypothesis HN : (3 <= N)%Z.
  Hypothesis Hf : (N * 2 < two64)%Z.
  Hypothesis Hw : on_ring N w.
  Hypothesis Hc : 0 <= c.
  Hypothesis Hb : forall i j, (0 <= i < N)%Z -> (0 <= j < N)%Z -> Rabs (w i j) <= c.
  Hypothesis Em : init_kinetic_matrix sort (real J : CR) (chain_lattice N) = Ok m.
  Let L := 2 * Rabs J.
  Hypothesis Hd : dt ^ 2 * L ^ 2 <= 8.
  Let E := entry (bm_scale imag_unit m).
  Let run sts u := run_steps CR (real (1/2)) (real (1/6)) (mkRk4 (K := CR) N (real dt)) (sp_vec (bm_scale imag_unit m)) sts u.
  Lemma drift sts : forall u, len u = N -> norm2 u <= 1 ->
    Rabs (quad N w (vget (run sts u)) - quad N w (vget u)) <= INR (length sts) * (c * IZR N * ((dt * L) ^ 6 / 36)).
  Proof.
    assert (Hl : shipped3 (chain_lattice N) N) by (constructor; lia).
    destruct (kinetic_facts sort J (chain_lattice N) N Hs Hl Hf) as (m' & Em' & A & B & C & D).
    rewrite Em in Em'. injection Em' as <-. change (neighbours (chain_lattice N) * Rabs J) with L in C, D. pose proof (row_op _ _ _ B C D) as O. fold E in A, B, C, O.
    assert (PN : 0 <= IZR N) by (apply IZR_le; lia). assert (PC : 0 <= c * IZR N) by (apply Rmult_le_pos; assumption).
    assert (P6 : 0 <= c * IZR N * ((dt * L) ^ 6 / 36)).
    { apply Rmult_le_pos; [exact PC|]. replace ((dt * L) ^ 6) with (((dt * L) ^ 3) ^ 2) by ring. pose proof (pow2_ge_0 ((dt * L) ^ 3)). lra. }
    induction sts as [|st sts IH]; intros u Lu Nu.
    - cbn [run run_steps length INR]. unfold run. cbn [run_steps]. rewrite Rminus_diag_eq by reflexivity. rewrite Rabs_R0. lra.
    - destruct (vec_step N _ _ A N dt st u Lu) as [L' V]. cbv zeta in V, L'.
      set (u' := snd (rk_step (real (1/2)) (real (1/6)) (mkRk4 (K:=CR) N (real dt)) (sp_vec (bm_scale imag_unit m)) st u)) in *.
      change (run (st :: sts) u) with (run sts u').
      assert (N' : norm2 u' <= 1).
      { pose proof (run_norm N _ _ L A B O N dt [st] Hd u Lu) as Q. cbn [run_steps] in Q. fold u' in Q. lra. }
      specialize (IH u' L' N').
      assert (Q : Rabs (quad N w (vget u') - quad N w (vget u)) <= c * IZR N * ((dt * L) ^ 6 / 36)).
      { rewrite !quad_dot.
        change (Rabs (qf (idx N) (W w) (vec u') (vec u') - qf (idx N) (W w) (vec u) (vec u)) <= c * IZR N * ((dt * L) ^ 6 / 36)).
        rewrite (qf_ext (idx N) (W w) _ _ _ _ V V).
        eapply Rle_trans; [apply (qf_drift (idx N) (SM E) (W w) (anti_kin sort N J Hs HN Hf m Em) (sym_kin N w HN Hw) (comm_kin sort N J w Hs HN Hf Hw m Em) L (c * IZR N)); try assumption|].
        - intros v. unfold qf. eapply Rle_trans; [apply dot_abs|]. pose proof (W_nrm N w c Hc Hb v ltac:(lia)) as Wn.
          pose proof (nrm_pos (idx N) v) as P0. pose proof (nrm_sq (idx N) v) as S1. rewrite <- S1. nra.
        - rewrite <- (Rmult_1_r (c * IZR N * ((dt * L) ^ 6 / 36))) at 2. apply Rmult_le_compat_l; [exact P6|]. rewrite <- (vec_n2 N _ Lu). exact Nu. }
      replace (quad N w (vget (run sts u')) - quad N w (vget u)) with ((quad N w (vget (run sts u')) - quad N w (vget u')) + (quad N w (vget u') - quad N w (vget u))) by ring.
      eapply Rle_trans; [apply Rabs_triang|]. rewrite (S_INR (length sts) : INR (length (st :: sts)) = INR (length sts) + 1). lra.
  Qed.
End Drift.
(** hubbard_real_kinetic_1d_rk4 in exact arithmetic *)
Theorem C108_program : forall sort rnd u st order sched N J filling dt t_end interval steps,
  sorts_by_column sort -> (3 <= N)%Z -> (N * 2 < two64)%Z -> times_ok rnd u dt t_end interval steps ->
  Permutation order (seq 0 (length (basis1 (chain_lattice N)))) -> shared_kinetic N sched -> 0 <= filling <= 1 ->
  let L := 2 * Rabs J in dt ^ 2 * L ^ 2 <= 8 ->
  exists o, terminates_with (occupation_kinetic sort rnd st order sched N J filling dt t_end interval)
      (Ok (map (fun k => (time_at rnd dt k, o k)) (written interval steps))) /\
    forall k r, o k = Some r -> exists x, r = Ok x /\ Rabs (x - filling) <= INR k * (IZR N * ((dt * L) ^ 6 / 36)).
Proof.
  intros sort rnd u st order sched N J filling dt t_end interval steps Hs HN Hf (T1 & T2 & T3 & T4 & T5 & T6 & T7) Ho Hsh Hfi L Hd.
  set (b := basis1 (chain_lattice N)) in *.
  set (obs := fun s => let c := sched (steps_done s) in
       real_result (site_occupation1 (F := Rring) (1/2) (program_ev N filling) b (basis_get_conjugate order b) (coefficients s)
         (threads c) (loop1 c))).
  assert (Hl : shipped3 (chain_lattice N) N) by (constructor; lia).
  assert (Eb : Z.of_nat (length b) = N) by (pose proof (basis1_len (chain_lattice N) N (chain_regular N ltac:(lia))); unfold b; lia).
  destruct (kinetic_facts sort J (chain_lattice N) N Hs Hl Hf) as (m & Em & A & B & C & D).
  change (neighbours (chain_lattice N) * Rabs J) with L in C, D. pose proof (row_op _ _ _ B C D) as O.
  destruct (init_vector_unit N ltac:(lia)) as (h0 & E0 & L0 & V0). pose proof (unit_norm N h0 ltac:(lia) L0 V0) as N0.
  set (s := fun k => times_applied (integrate N dt (bm_scale imag_unit m)) k (mkProgress 0 st h0)).
  assert (HR : forall a b, site N a -> site N b -> table_value N filling a b = table_value N filling b a) by (intros; rewrite !table_sea by (assumption || lia); apply sea_sym).
  assert (Val : forall k r, obs (s k) = Some r -> r = Ok (quad N (sea N filling) (vget (coefficients (s k))))).
  { intros k r E. unfold obs in E. destruct (integrate_iter N dt (bm_scale imag_unit m) st h0 k) as (sts & Ls & Ek & Es).
    assert (Lk : len (coefficients (s k)) = N) by (unfold s; rewrite Es; exact (run_len N _ _ A N dt sts h0 L0)).
    cbv zeta in E. set (c := sched (steps_done (s k))) in *. pose proof (Hsh (steps_done (s k))) as H1. fold c in H1.
    rewrite program_by_site in E. rewrite (conjugate_all order b Ho) in E.
    destruct (site_occupation1 (F := Rring) (1/2) (by_site (F := Rring) (table_value N filling)) b (conjugate_basis b) (coefficients (s k)) (threads c) (loop1 c)) as [q|] eqn:Q; [|discriminate].
    apply (one_total (F := Rring) (1/2) (table_value N filling) (chain_lattice N) N (coefficients (s k)) (chain_regular N ltac:(lia)) Lk _ _ _ H1) in Q.
    rewrite (fst_total1 _ _ _ HR) in Q. subst q. cbn [real_result fst snd] in E. injection E as <-.
    destruct (Req_EM_T 0 0) as [_|Cx]; [|contradiction]. f_equal. apply quad_ext; [|reflexivity].
    intros i j Hi Hj. rewrite overlap_site by assumption. apply table_sea; assumption || lia. }
  exists (fun k => obs (s k)). split.
  - destruct (C53_schedule progress _ rnd u dt t_end interval steps (integrate N dt (bm_scale imag_unit m)) obs (mkProgress 0 st h0) T1 T2 T3 T4 T5 T6 T7) as (s' & (f0 & T) & _ & _ & Out).
    exists f0. intros fuel Hfu. unfold occupation_kinetic. fold b. rewrite Eb. unfold run_main, compute_kinetic. rewrite Em. cbn [obind]. rewrite E0. fold obs. rewrite (T fuel Hfu), Out. reflexivity.
  - intros k r E. eexists. split; [exact (Val k r E)|].
    destruct (integrate_iter N dt (bm_scale imag_unit m) st h0 k) as (sts & Ls & Ek & Es). unfold s. rewrite Es.
    assert (F0 : quad N (sea N filling) (vget h0) = filling) by (rewrite (quad_first N _ _ ltac:(lia) V0); apply sea_diag; unfold site; lia).
    replace (_ - filling) with (quad N (sea N filling) (vget (run_steps CR (real (1/2)) (real (1/6)) (mkRk4 (K := CR) N (real dt)) (sp_vec (bm_scale imag_unit m)) sts h0)) - quad N (sea N filling) (vget h0)) by (rewrite F0; reflexivity). rewrite <- Ls.
    replace (IZR N * ((dt * L) ^ 6 / 36)) with (1 * IZR N * ((dt * L) ^ 6 / 36)) by ring.
    apply (drift sort N J dt 1 (sea N filling) m Hs HN Hf (sea_ring N filling) ltac:(lra)); try assumption.
    + intros i j Hi Hj. apply sea_le; assumption || lia.
    + lra.
Qed.
