(** THEOREMS: C35 (momentum-space Liouvillian matrix). *)
From Coq Require Import Sorting.Sorted ZifyBool Reals.
From Verif Require Import Base Spec_Fock FockFacts M_Operator M_Lattice Spec_Lattice Pf_Lattice M_LatticeReal Spec_LatticeReal M_Basis Pf_Basis M_Matrix
  Spec_Algebra Pf_Algebra Spec_Matrix Spec_Momentum Pf_Matrix Pf_Matrix2 Pf_Trace Pf_Wick Pf_Liouville Pf_MatrixEntry Pf_Projection P_Matrix Pf_Triplet P_Triplet Pf_Momentum.
Local Open Scope Z_scope.
Local Open Scope list_scope.

(** the basis object for momentum number [q] of a chain of [N] sites (see C28) *)
Definition is_momentum_basis (N q : Z) (b : list (monomial hub)) : Prop :=
  terminates_with (fun fuel => mom_basis fuel (momentum_chain N) q) (Ok b).
Lemma mb_closed N q b : 0 < N -> N * (1 + 3 * N) < two64 -> site N q -> is_momentum_basis N q b -> b = mom_closed N q.
Proof.
  intros HN Hf Hq (n & Hn). destruct (mom_basis_value N q ltac:(nia) Hq) as (n' & Hn').
  specialize (Hn (n + n')%nat ltac:(lia)). specialize (Hn' (n + n')%nat ltac:(lia)). congruence.
Qed.
Lemma entry_pairs {K : StarRing} (l : list (triplet K)) j :
  sum_over snd (filter (fun e => fst e =? j) (pairs l)) = weight l j.
Proof. rewrite <- column_sum_weight. unfold column_sum, pairs. rewrite !sum_over_filter, sum_over_map. reflexivity. Qed.

Section S.
Context (K : StarRing).
Add Ring KringC35 : (rth K).
Lemma w0_0 N q eps (u2 u2n : K) : weight (mtrip0 N q eps u2 u2n) 0 = radd (eps q) u2.
Proof.
  unfold mtrip0. rewrite weight_cons. cbn [t_col t_val]. rewrite Z.eqb_refl, weight_absent; [ring|].
  rewrite map_map. cbn [t_col]. rewrite map_id. intros H. apply zrange_in in H. lia.
Qed.
Lemma w0_n N q eps (u2 u2n : K) r : 1 <= r < 1 + N * N -> weight (mtrip0 N q eps u2 u2n) r = u2n.
Proof.
  intros Hr. unfold mtrip0. rewrite weight_cons. cbn [t_col t_val]. destruct (Z.eqb_spec 0 r); [lia|].
  rewrite weight_strict.
  - destruct (find (fun t => t_col t =? r) (map (fun i => mkT 0 i u2n) (zrange 1 (1 + N * N)))) as [t|] eqn:E.
    + apply find_some in E as [Ht _]. apply in_map_iff in Ht as (x & <- & _). cbn [t_val]. ring.
    + exfalso. assert (Hin : In (mkT 0 r u2n) (map (fun i => mkT 0 i u2n) (zrange 1 (1 + N * N)))) by (apply (in_map (fun i => mkT 0 i u2n)), zrange_in, Hr).
      apply (find_none _ _ E) in Hin. cbn [t_col] in Hin. rewrite Z.eqb_refl in Hin. discriminate.
  - rewrite map_map. cbn [t_col]. rewrite map_id. apply (zrange_sorted N).
Qed.
Lemma wr N q eps (u2 u2n : K) r c : 1 <= r -> weight (mtrip N q eps u2 u2n r) c =
  if c =? 0 then u2n else if c =? r then mdiag N q eps u2 r else r0.
Proof.
  intros Hr. unfold mtrip. rewrite !weight_cons. cbn [t_col t_val]. unfold weight. rewrite sum_over_nil.
  destruct (Z.eqb_spec 0 c), (Z.eqb_spec c 0); try lia.
  - destruct (Z.eqb_spec r c); [lia|ring].
  - rewrite (Z.eqb_sym c r). destruct (Z.eqb r c); ring.
Qed.

Theorem C35_matrix : forall N q (eps : Z -> K) u2 u2n b,
  0 < N -> N * (1 + 3 * N) < two64 -> site N q -> is_momentum_basis N q b ->
  exists m, mom_init_matrix b N eps u2 u2n = Ok m /\
    well_formed m (1 + N * N) /\ bm_cap m = N * (1 + 3 * N) /\
    entry m 0 0 = radd (eps q) u2 /\
    (forall r, 1 <= r < 1 + N * N -> entry m 0 r = u2n /\ entry m r 0 = u2n) /\
    (forall r i1 i2 i3, 1 <= r < 1 + N * N ->
       nth_error b (Z.to_nat r) = Some [hop true i1 true; hop true i2 false; hop false i3 false] ->
       entry m r r = radd (rsub (radd (eps i1) (eps i2)) (eps i3)) u2) /\
    (forall r c, 1 <= r < 1 + N * N -> 1 <= c < 1 + N * N -> r <> c -> entry m r c = r0) /\
    (forall r c, 0 <= r < 1 + N * N -> 0 <= c < 1 + N * N -> entry m r c = entry m c r).
Proof.
  intros N q eps u2 u2n b HN Hf Hq Hb. apply mb_closed in Hb; try assumption. subst b.
  eexists. split; [apply (mom_closed_form N q eps u2 u2n HN Hf)|].
  split; [|split; [reflexivity|]].
  - apply wf_of; cbn [bm_size bm_done bm_cur bm_cap].
    + reflexivity.
    + unfold mrows. cbn [length]. rewrite map_length, zrange_length. nia.
    + reflexivity.
    + intros r [<-|Hr]; [eexists; split; [reflexivity|apply mtrip0_good; assumption]|].
      apply in_map_iff in Hr as (x & <- & Hx). apply zrange_in in Hx. eexists. split; [reflexivity|]. apply mtrip_good; assumption.
    + rewrite nonzeros_total. cbn [bm_done bm_cur length]. unfold mrows.
      assert (Q : (total (map (fun r => pairs (mtrip N q eps u2 u2n r)) (zrange 1 (1 + N * N))) <= length (zrange 1 (1 + N * N)) * 2)%nat).
      { apply (total_map_le N). intros x _. cbn. lia. }
      rewrite zrange_length in Q.
      replace (total (pairs (mtrip0 N q eps u2 u2n) :: map (fun r => pairs (mtrip N q eps u2 u2n r)) (zrange 1 (1 + N * N))))
        with (length (pairs (mtrip0 N q eps u2 u2n)) + total (map (fun r => pairs (mtrip N q eps u2 u2n r)) (zrange 1 (1 + N * N))))%nat by reflexivity.
      rewrite pairs_len. unfold mtrip0. cbn [length]. rewrite map_length, zrange_length. nia.
  - assert (E0 : forall c, entry (mkB (1 + N * N) (N * (1 + 3 * N)) (mrows N q eps u2 u2n) []) 0 c = weight (mtrip0 N q eps u2 u2n) c).
    { intros c. unfold entry, row_of. cbn [bm_done Z.to_nat]. rewrite mrow0. apply entry_pairs. }
    assert (Er : forall r c, 1 <= r < 1 + N * N -> entry (mkB (1 + N * N) (N * (1 + 3 * N)) (mrows N q eps u2 u2n) []) r c = weight (mtrip N q eps u2 u2n r) c).
    { intros r c Hr. unfold entry, row_of. cbn [bm_done]. rewrite mrow by exact Hr. apply entry_pairs. }
    split; [|split; [|split; [|split]]].
    + rewrite E0. apply w0_0.
    + intros r Hr. rewrite E0, Er, w0_n, wr by lia. split; reflexivity.
    + intros r i1 i2 i3 Hr Hn. rewrite Er, wr by lia. rewrite Z.eqb_refl. destruct (Z.eqb_spec r 0); [lia|].
      destruct (m_range N q HN r Hr) as (R1 & R2 & R3 & Ei). rewrite <- Ei in Hn at 1. rewrite mom_closed_nth in Hn by assumption.
      unfold mom_mono, hop in Hn. injection Hn as <- <- <-. reflexivity.
    + intros r c Hr Hc Hne. rewrite Er, wr by lia. destruct (Z.eqb_spec c 0); [lia|]. destruct (Z.eqb_spec c r); [lia|reflexivity].
    + intros r c Hr Hc. destruct (Z.eq_dec r 0) as [->|Hr0], (Z.eq_dec c 0) as [->|Hc0].
      * reflexivity.
      * rewrite E0, Er, w0_n, wr by lia. reflexivity.
      * rewrite E0, Er, w0_n, wr by lia. reflexivity.
      * rewrite !Er, !wr by lia. destruct (Z.eqb_spec c 0); [lia|]. destruct (Z.eqb_spec r 0); [lia|].
        destruct (Z.eqb_spec c r) as [->|]; [rewrite Z.eqb_refl; reflexivity|]. destruct (Z.eqb_spec r c); [lia|reflexivity].
Qed.

(** With u2 = U/2 and u2n = U/(2N) = g/2 the matrix is the commutator with the Hubbard
    Hamiltonian, projected on the basis (and orthogonal to it otherwise). *)
Theorem C35_projection : forall N q (eps : Z -> K) g U half b mode M,
  0 < N -> N * (1 + 3 * N) < two64 -> site N q -> is_momentum_basis N q b ->
  radd half half = r1 -> per_site N g U -> numbers_orbitals mode N -> orbitals_below mode N M ->
  exists m, mom_init_matrix b N eps (rmul U half) (rmul g half) = Ok m /\
    forall row col x y, 0 <= row -> 0 <= col ->
      nth_error b (Z.to_nat row) = Some x -> nth_error b (Z.to_nat col) = Some y ->
      frobenius M (terms_elem mode (basis_op y)) (comm_elem mode (H_disp N eps ++ H_sc N g) (basis_op x)) =
      rmul (entry m row col) (frobenius M (terms_elem mode (basis_op y)) (terms_elem mode (basis_op y))).
Proof.
  intros N q eps g U half b mode M HN Hf Hq Hb Hh Hg Hm Hbel.
  destruct (C35_matrix N q eps (rmul U half) (rmul g half) b HN Hf Hq Hb) as (m & Em & _ & _ & M00 & M0r & Mrr & Mrc & _).
  exists m. split; [exact Em|]. intros row col x y R0 C0 Hx Hy.
  apply mb_closed in Hb; try assumption. subst b.
  assert (L : length (mom_closed N q) = Z.to_nat (1 + N * N)) by (rewrite mom_closed_length by exact HN; nia).
  assert (Rr : (Z.to_nat row < length (mom_closed N q))%nat) by (apply nth_error_Some; congruence).
  assert (Rc : (Z.to_nat col < length (mom_closed N q))%nat) by (apply nth_error_Some; congruence).
  assert (Cases : forall r z, 0 <= r -> (Z.to_nat r < length (mom_closed N q))%nat -> nth_error (mom_closed N q) (Z.to_nat r) = Some z ->
    (r = 0 /\ z = [hop true q true]) \/ exists i1 i2, 1 <= r < 1 + N * N /\ site N i1 /\ site N i2 /\ r = 1 + i1 * N + i2 /\
       z = [hop true i1 true; hop true i2 false; hop false ((i1 - q + i2) mod N) false]).
  { intros r z H0 Hr Hz. destruct (Z.eq_dec r 0) as [->|Hne].
    - left. split; [reflexivity|]. cbn in Hz. congruence.
    - right. destruct (m_range N q HN r ltac:(lia)) as (A1 & A2 & A3 & A4). exists (m1 N r), (m2 N r).
      split; [lia|]. split; [exact A1|]. split; [exact A2|]. split; [lia|]. rewrite <- A4 in Hz at 1.
      rewrite mom_closed_nth in Hz by assumption. injection Hz as <-. unfold mom_mono.
      replace (m1 N r + m2 N r - q) with (m1 N r - q + m2 N r) by lia. reflexivity. }
  assert (Dm : forall i1 i2, site N ((i1 - q + i2) mod N)) by (intros; unfold site; apply Z.mod_pos_bound; lia).
  destruct (Cases row x R0 Rr Hx) as [[-> ->]|(i1 & i2 & Hr & I1 & I2 & Er & ->)]; destruct (Cases col y C0 Rc Hy) as [[-> ->]|(j1 & j2 & Hc & J1 & J2 & Ec & ->)];
    cbn [basis_op]; change (index1 (hop true q true)) with q;
    repeat match goal with |- context [index1 (hop ?a ?b ?c)] => change (index1 (hop a b c)) with b end.
  - rewrite M00, (G11 half Hh N mode Hm M Hbel) by assumption. etransitivity; [exact (p00 N q eps g U half HN Hq Hh Hg mode Hm M Hbel)|].
    unfold delta. rewrite Z.eqb_refl. ring.
  - rewrite (Logic.proj1 (M0r col Hc)), (G33 half Hh N mode Hm M Hbel) by (assumption || apply Dm).
    etransitivity; [exact (p0n N q eps g U half HN Hq Hh Hg mode Hm M Hbel j1 j2 J1 J2)|]. unfold delta. rewrite !Z.eqb_refl. ring.
  - rewrite (Logic.proj2 (M0r row Hr)), (G11 half Hh N mode Hm M Hbel) by assumption.
    etransitivity; [exact (col0 N q eps g U half HN Hq Hh Hg mode Hm M Hbel i1 i2 I1 I2)|]. unfold delta. rewrite !Z.eqb_refl. ring.
  - rewrite (G33 half Hh N mode Hm M Hbel) by (assumption || apply Dm).
    etransitivity; [exact (coln N q eps g U half HN Hh Hg mode Hm M Hbel i1 i2 j1 j2 I1 I2 J1 J2)|].
    destruct (Z.eq_dec row col) as [Eq|Hne].
    + rewrite <- Eq. rewrite Er, Ec in Eq. assert (i1 = j1) by (unfold site in *; destruct (Z.lt_trichotomy i1 j1) as [|[|]]; [exfalso; nia|assumption|exfalso; nia]). subst i1. assert (i2 = j2) as -> by lia.
      rewrite (Mrr row _ _ _ Hr Hx). unfold delta. rewrite !Z.eqb_refl. ring.
    + rewrite (Mrc row col Hr Hc Hne). unfold delta. destruct (Z.eqb_spec i1 j1) as [->|]; [|ring].
      destruct (Z.eqb_spec i2 j2) as [->|]; [lia|ring].
Qed.
(** The first row, [H, c+_q], is exact. *)
Theorem C35_first_row_exact : forall N q (eps : Z -> K) g U half b mode,
  0 < N -> N * (1 + 3 * N) < two64 -> site N q -> is_momentum_basis N q b ->
  radd half half = r1 -> per_site N g U -> numbers_orbitals mode N ->
  exists m, mom_init_matrix b N eps (rmul U half) (rmul g half) = Ok m /\
    forall s t, comm_elem mode (H_disp N eps ++ H_sc N g) (B1 q) s t = combination mode basis_op b (row_of m 0) s t.
Proof.
  intros N q eps g U half b mode HN Hf Hq Hb Hh Hg Hm. apply mb_closed in Hb; try assumption. subst b.
  eexists. split; [apply (mom_closed_form N q eps (rmul U half) (rmul g half) HN Hf)|].
  intros s t. rewrite (row0 N q eps g U half HN Hq Hh Hg mode Hm s t).
  unfold row_of. cbn [bm_done Z.to_nat]. rewrite mrow0. unfold combination, pairs. rewrite sum_over_map. unfold mtrip0. rewrite sum_over_cons.
  cbn [fst snd t_col t_val]. change (Z.to_nat 0) with 0%nat. cbn [nth_error mom_closed basis_op]. change (index1 (hop true q true)) with q.
  f_equal. rewrite sum_over_map. cbn [fst snd t_col t_val].
  (* both sides enumerate the three-operator elements in row-major order *)
  assert (Hperm : zrange 1 (1 + N * N) = flat_map (fun i1 => map (fun i2 => 1 + i1 * N + i2) (Zseq N)) (Zseq N)).
  { assert (G : forall k, zrange 1 (1 + Z.of_nat k * N) = flat_map (fun i1 => map (fun i2 => 1 + i1 * N + i2) (Zseq N)) (Zseq (Z.of_nat k))).
    { induction k as [|k IH]; [reflexivity|].
      rewrite (zrange_app 1 (1 + Z.of_nat k * N)) by nia. rewrite IH.
      assert (Ez : Zseq (Z.of_nat (S k)) = Zseq (Z.of_nat k) ++ [Z.of_nat k]).
      { rewrite <- !zrange_Zseq. rewrite (zrange_app 0 (Z.of_nat k)) by lia. f_equal. rewrite zrange_cons by lia. rewrite zrange_nil by lia. reflexivity. }
      rewrite Ez, flat_map_app. f_equal. cbn [flat_map]. rewrite app_nil_r.
      unfold zrange, Zseq. rewrite map_map. replace (1 + Z.of_nat (S k) * N - (1 + Z.of_nat k * N)) with N by lia.
      apply map_ext. intros a. lia. }
    specialize (G (Z.to_nat N)). rewrite Z2Nat.id in G by lia. exact G. }
  rewrite Hperm, sum_over_flat_map. apply sum_over_ext. intros i1 H1. apply Zseq_in in H1. rewrite sum_over_map. apply sum_over_ext. intros i2 H2. apply Zseq_in in H2.
  rewrite mom_closed_nth by assumption. unfold mom_mono. cbn [basis_op].
  repeat match goal with |- context [index1 (hop ?a ?b ?c)] => change (index1 (hop a b c)) with b end.
  replace (i1 + i2 - q) with (i1 - q + i2) by lia. reflexivity.
Qed.
End S.
Print Assumptions C35_matrix.
Print Assumptions C35_projection.
Print Assumptions C35_first_row_exact.
