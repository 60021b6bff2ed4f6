(** PROOFS: the matrix of the momentum-space program in an arithmetic that may round. *)
From Coq Require Import Reals Lra Psatz List ZArith Lia Sorting.Sorted.
From Flocq Require Import Core.
From Verif Require Import Base M_Operator M_Lattice Spec_Lattice Pf_Lattice M_LatticeReal M_Basis Pf_Basis M_Matrix M_Ode M_Dispersion Pf_Matrix Pf_Matrix2 Pf_MatrixEntry Spec_Matrix Pf_Triplet P_Matrix Pf_Momentum P_Momentum
  Spec_Stability Pf_Stability Pf_Stability2 M_Rounding Spec_Rounding M_Double Pf_Double M_DoubleMomentum.
Local Open Scope list_scope.

(** a matrix with a diagonal and constant first row and column *)
Section Arrow.
  Context {K : StarRing}.
  Variables (N q : Z) (D : Z -> K) (be : K).
  Local Open Scope Z_scope.
  Hypothesis HN : 0 < N.
  Hypothesis Hq : site N q.
  Hypothesis Hfit : N * (1 + 3 * N) < two64.
  Let SZ := 1 + N * N.
  Definition atrip0 : list (triplet K) := mkT 0 0 (D 0) :: map (fun i => mkT 0 i be) (zrange 1 SZ).
  Definition atrip (r : Z) : list (triplet K) := [mkT r 0 be; mkT r r (D r)].
  Definition arows : list (list (Z * K)) := pairs atrip0 :: map (fun r => pairs (atrip r)) (zrange 1 SZ).
  Definition arrow_mat : bmat K := mkB SZ (N * (1 + 3 * N)) arows [].
  Lemma atrip0_good : row_good SZ atrip0.
  Proof.
    assert (C : map t_col atrip0 = 0 :: zrange 1 SZ).
    { unfold atrip0. cbn [map t_col]. rewrite map_map. cbn [t_col]. rewrite map_id. reflexivity. }
    split.
    - rewrite C. constructor; [apply (zrange_sorted N)|]. apply Forall_forall. intros x Hx. apply zrange_in in Hx. lia.
    - apply Forall_forall. intros t Ht. apply (in_map t_col) in Ht. rewrite C in Ht. destruct Ht as [<-|Ht].
      + unfold site, SZ. nia.
      + apply zrange_in in Ht. unfold site. lia.
  Qed.
  Lemma atrip_good r : 1 <= r < SZ -> row_good SZ (atrip r).
  Proof.
    intros Hr. split; cbn [map t_col atrip].
    - repeat constructor. lia.
    - unfold atrip, site, SZ in *. repeat (apply Forall_cons; [cbn [t_col]; lia|]). apply Forall_nil.
  Qed.
  Lemma arow0 : nth 0 arows [] = pairs atrip0.
  Proof. reflexivity. Qed.
  Lemma arow r : 1 <= r < SZ -> nth (Z.to_nat r) arows [] = pairs (atrip r).
  Proof.
    intros Hr. unfold arows. replace (Z.to_nat r) with (S (Z.to_nat (r - 1))) by lia. cbn [nth]. apply nth_error_nth.
    rewrite nth_error_map, zrange_nth by exact Hr. reflexivity.
  Qed.
  Lemma arrow_wf : well_formed arrow_mat SZ.
  Proof.
    apply wf_of; cbn [arrow_mat bm_size bm_done bm_cur bm_cap].
    - reflexivity.
    - unfold arows. cbn [length]. rewrite map_length, zrange_length. unfold SZ. nia.
    - reflexivity.
    - intros r [<-|Hr]; [eexists; split; [reflexivity|apply atrip0_good]|].
      apply in_map_iff in Hr as (x & <- & Hx). apply zrange_in in Hx. eexists. split; [reflexivity|]. apply atrip_good; assumption.
    - rewrite nonzeros_total. cbn [arrow_mat bm_done bm_cur length]. unfold arows.
      assert (Q : (total (map (fun r => pairs (atrip r)) (zrange 1 SZ)) <= length (zrange 1 SZ) * 2)%nat) by (apply (total_map_le N); intros x _; cbn; lia).
      rewrite zrange_length in Q.
      replace (total (pairs atrip0 :: map (fun r => pairs (atrip r)) (zrange 1 SZ))) with (length (pairs atrip0) + total (map (fun r => pairs (atrip r)) (zrange 1 SZ)))%nat by reflexivity.
      rewrite pairs_len. unfold atrip0. cbn [length]. rewrite map_length, zrange_length. unfold SZ in *. nia.
  Qed.
  Local Open Scope ring_scope_.
  Add Ring KringArrow : (rth K).
  Lemma arrow_entry r c : (0 <= r < SZ)%Z -> (0 <= c < SZ)%Z ->
    entry arrow_mat r c = if Z.eqb r c then D r else if (Z.eqb r 0 || Z.eqb c 0)%bool then be else 0.
  Proof.
    intros Hr Hc. unfold entry, row_of, arrow_mat. cbn [bm_done]. destruct (Z.eq_dec r 0) as [->|R0].
    - cbn [Z.to_nat]. rewrite arow0, entry_pairs. unfold atrip0. rewrite weight_cons. cbn [t_col t_val]. destruct (Z.eqb_spec 0 c) as [<-|Hn].
      + rewrite weight_absent; [ring|]. rewrite map_map. cbn [t_col]. rewrite map_id. intros H. apply zrange_in in H. lia.
      + rewrite weight_strict.
        * cbn [orb Z.eqb]. destruct (find (fun t => Z.eqb (t_col t) c) (map (fun i => mkT 0 i be) (zrange 1 SZ))) as [t|] eqn:E.
          -- apply find_some in E as [Ht _]. apply in_map_iff in Ht as (x & <- & _). cbn [t_val]. ring.
          -- exfalso. assert (Hin : In (mkT 0 c be) (map (fun i => mkT 0 i be) (zrange 1 SZ))) by (apply (in_map (fun i => mkT 0 i be)), zrange_in; lia).
             apply (find_none _ _ E) in Hin. cbn [t_col] in Hin. rewrite Z.eqb_refl in Hin. discriminate.
        * rewrite map_map. cbn [t_col]. rewrite map_id. apply (zrange_sorted N).
    - rewrite arow by lia. rewrite entry_pairs. unfold atrip. rewrite !weight_cons. cbn [t_col t_val]. unfold weight. rewrite sum_over_nil.
      destruct (Z.eqb_spec r 0); [lia|]. cbn [orb]. destruct (Z.eqb_spec 0 c), (Z.eqb_spec r c), (Z.eqb_spec c 0); try lia; ring.
  Qed.
  Lemma arrow_short : Forall (fun r => (length r <= Z.to_nat SZ)%nat) arows.
  Proof.
    unfold arows. constructor.
    - rewrite pairs_len. unfold atrip0. cbn [length]. rewrite map_length, zrange_length. unfold SZ. nia.
    - apply Forall_forall. intros x Hx. apply in_map_iff in Hx as (r & <- & _). cbn [pairs map length atrip]. assert (1 <= N * N)%Z by nia. unfold SZ. lia.
  Qed.
End Arrow.

Section Matrix.
  Variables (ar : arith) (N q : Z) (disp : Z -> R) (U size : R).
  Local Open Scope Z_scope.
  Hypothesis HN : 0 < N.
  Hypothesis Hq : site N q.
  Hypothesis Hfit : N * (1 + 3 * N) < two64.
  Let SZ := 1 + N * N.
  (** the diagonal and the other matrix elements, with all roundings *)
  Definition f_energy (r : Z) : R :=
    if Z.eqb r 0 then f_add ar (disp q) (f_div ar U 2)
    else f_add ar (f_add ar (f_add ar (disp (m1 N r)) (disp (m2 N r))) (- disp (m3 N q r))) (f_div ar U 2).
  Definition f_coupling : R := f_div ar U (f_mul ar 2 size).
  Lemma f_closed_form : f_mom_init_matrix ar (mom_closed N q) N disp U size = Ok (arrow_mat (K := CR) N (fun r => real (f_energy r)) (real f_coupling)).
  Proof.
    assert (L : Z.of_nat (length (mom_closed N q)) = SZ) by (rewrite mom_closed_length by exact HN; unfold SZ; nia).
    assert (B : forall r, 1 <= r < SZ -> nth_error (mom_closed N q) (Z.to_nat r) = Some (mom_mono N q (m1 N r) (m2 N r))).
    { intros r Hr. destruct (m_range N q HN r Hr) as (R1 & R2 & R3 & E). rewrite <- E at 1. apply mom_closed_nth; assumption. }
    assert (Eb : mom_closed N q = [hop true q true] :: tl (mom_closed N q)) by reflexivity.
    unfold f_mom_init_matrix. rewrite L. set (b := mom_closed N q) in *. clearbody b. rewrite Eb at 1. change (index1 (hop true q true)) with q.
    assert (Cap : mom_number_of_elements N = N * (1 + 3 * N)).
    { unfold mom_number_of_elements. rewrite (u64_id (3 * N)) by nia. rewrite (u64_id (1 + 3 * N)) by nia. apply u64_id. nia. }
    rewrite Cap. cbv zeta. fold f_coupling. change (f_add ar (disp q) (f_div ar U 2)) with (f_energy 0).
    set (D := fun r => real (f_energy r) : CR). set (be := real f_coupling : CR). change (real (f_energy 0) : CR) with (D 0).
    assert (R0 : forall k : bmat CR -> outcome (bmat CR), obind (bm_append (bm_new SZ (N * (1 + 3 * N))) 0 0 (D 0)) (fun m =>
        obind (ofold (fun m i => bm_append m 0 i be) (zrange 1 SZ) m) (fun m => obind (bm_finalize m 0) k)) =
        obind (write_row (bm_new SZ (N * (1 + 3 * N))) 0 (atrip0 N D be)) k).
    { intros k. unfold write_row, atrip0. cbn [ofold t_col t_val]. destruct (bm_append _ _ _ _) as [m|]; [|reflexivity]. cbn [obind].
      rewrite <- (ofold_map (fun m t => bm_append m 0 (t_col t) (t_val t)) (fun i => mkT 0 i be)).
      cbn [t_col t_val]. rewrite obind_assoc. reflexivity. }
    rewrite R0. rewrite write_row_ok; [|reflexivity|reflexivity|apply atrip0_good; exact HN|].
    2:{ rewrite nonzeros_total. cbn [bm_new bm_done bm_cur bm_cap length total fold_right]. unfold atrip0. cbn [length]. rewrite map_length, zrange_length. unfold SZ. nia. }
    cbn [obind bm_new bm_size bm_cap bm_done app].
    rewrite (ofold_ext _ (fun m row => obind (Ok (atrip D be row)) (fun ts => write_row m row ts))).
    2:{ intros r m Hr. apply zrange_in in Hr. rewrite (B r Hr). unfold mom_mono.
        change (index1 (hop true (m1 N r) true)) with (m1 N r). change (index1 (hop true (m2 N r) false)) with (m2 N r).
        change (index1 (hop false ((m1 N r + m2 N r - q) mod N) false)) with (m3 N q r).
        assert (Dr : D r = real (f_add ar (f_add ar (f_add ar (disp (m1 N r)) (disp (m2 N r))) (- disp (m3 N q r))) (f_div ar U 2))).
        { unfold D, f_energy. destruct (Z.eqb_spec r 0); [lia|reflexivity]. }
        rewrite <- Dr. cbn [obind]. unfold write_row, atrip. cbn [ofold t_col t_val].
        destruct (bm_append m r 0 be) as [m'|]; [|reflexivity]. cbn [obind]. destruct (bm_append m' r r (D r)); reflexivity. }
    pose proof (fill_ok (fun row => Ok (atrip D be row)) (atrip D be) 2 (Z.to_nat (SZ - 1)) 1 (mkB SZ (N * (1 + 3 * N)) [pairs (atrip0 N D be)] [])) as H.
    cbn [bm_size bm_cap bm_done bm_cur app length] in H.
    replace (1 + Z.of_nat (Z.to_nat (SZ - 1))) with SZ in H by (unfold SZ; nia). rewrite H; clear H.
    - reflexivity.
    - reflexivity.
    - reflexivity.
    - intros r Hr. split; [reflexivity|]. split; [apply atrip_good; [exact HN|exact Hr]|cbn; lia].
    - rewrite nonzeros_total. cbn [bm_done bm_cur length total fold_right]. rewrite pairs_len. unfold atrip0. cbn [length].
      rewrite map_length, zrange_length. unfold SZ. nia.
  Qed.
End Matrix.
