(** THEOREMS: C27-C29 (bases). *)
From Coq Require Import Reals.
From Verif Require Import Base M_Operator Spec_Fock FockFacts Spec_Algebra M_Lattice Spec_Lattice Pf_Lattice
  M_LatticeReal Spec_LatticeReal Pf_LatticeReal P_LatticeReal Instances M_Basis Pf_Basis.
Local Open Scope Z_scope.
Local Open Scope list_scope.

(** The lattices the library ships, with [N] sites. *)
Inductive shipped : lattice -> Z -> Prop :=
| ship_chain N : 0 < N < two64 -> shipped (chain_lattice N) N
| ship_square Nx Ny : 0 < Nx -> 0 < Ny -> Nx * Ny < two64 -> shipped (square_lattice Nx Ny) (Nx * Ny).
Lemma shipped_regular lat N : shipped lat N -> regular lat N.
Proof. intros [M H|Nx Ny H1 H2 H3]; [apply chain_regular, H|apply square_regular; assumption]. Qed.

(** ** C27: real-space bases *)
Theorem C27_one_operator_basis : forall lat N, shipped lat N ->
  length (basis1 lat) = Z.to_nat N /\
  (forall i, site N i -> nth_error (basis1 lat) (Z.to_nat i) = Some [hop true i true]).
Proof.
  intros lat N H. apply shipped_regular in H. split; [apply (basis1_len lat N H)|].
  intros i Hi. apply (basis1_nth lat N H i Hi).
Qed.
Print Assumptions C27_one_operator_basis.
Theorem C27_three_operator_basis : forall lat N, shipped lat N -> N + N * N * N < two64 ->
  Z.of_nat (length (basis3 lat)) = N + N * N * N /\
  (forall i, site N i -> nth_error (basis3 lat) (Z.to_nat i) = Some [hop true i true]) /\
  (forall i1 i2 i3, site N i1 -> site N i2 -> site N i3 ->
     nth_error (basis3 lat) (Z.to_nat (get_3op_index N i1 i2 i3)) =
     Some [hop true i1 true; hop true i2 false; hop false i3 false]) /\
  NoDup (basis3 lat).
Proof.
  intros lat N H Hf. apply shipped_regular in H. pose proof (N_pos lat N H) as HN.
  split; [rewrite (basis3_len lat N H); nia|].
  split; [intros i Hi; apply (basis3_nth1 lat N H i Hi)|].
  split; [intros i1 i2 i3 H1 H2 H3; apply (basis3_get lat N H Hf); assumption|].
  apply (basis3_nodup lat N H Hf).
Qed.
Print Assumptions C27_three_operator_basis.
Theorem C27_index_bijection : forall lat N, shipped lat N -> N + N * N * N < two64 ->
  (forall i1 i2 i3, site N i1 -> site N i2 -> site N i3 ->
     get_3op_index N i1 i2 i3 = N + N * N * i1 + N * i2 + i3 /\
     N <= get_3op_index N i1 i2 i3 < N + N * N * N) /\
  (forall i1 i2 i3 j1 j2 j3,
     site N i1 -> site N i2 -> site N i3 -> site N j1 -> site N j2 -> site N j3 ->
     get_3op_index N i1 i2 i3 = get_3op_index N j1 j2 j3 -> i1 = j1 /\ i2 = j2 /\ i3 = j3) /\
  (forall j, N <= j < N + N * N * N -> exists i1 i2 i3,
     site N i1 /\ site N i2 /\ site N i3 /\ get_3op_index N i1 i2 i3 = j).
Proof.
  intros lat N H Hf. apply shipped_regular in H. split; [|split].
  - intros i1 i2 i3 H1 H2 H3. split; [apply (get_3op_index_eq lat N H Hf); assumption|].
    apply (get_3op_index_range lat N H Hf); assumption.
  - apply (get_3op_index_inj lat N H Hf).
  - intros j Hj. destruct (get_3op_index_dec lat N H Hf j Hj) as (H1 & H2 & H3 & E). eauto 10.
Qed.
Print Assumptions C27_index_bijection.
(** Without that bound the index does wrap: two different triples collide. *)
Theorem C27_overflow : exists N i1 i2 i3 j1 j2 j3, 0 < N < two64 /\
  site N i1 /\ site N i2 /\ site N i3 /\ site N j1 /\ site N j2 /\ site N j3 /\
  (i1, i2, i3) <> (j1, j2, j3) /\ get_3op_index N i1 i2 i3 = get_3op_index N j1 j2 j3.
Proof.
  exists (2 ^ 32), 0, 0, 0, 1, 0, 0. unfold site. vm_compute. repeat split; congruence.
Qed.
Print Assumptions C27_overflow.
Example C27_example : shipped (chain_lattice 3) 3 /\ 3 + 3 * 3 * 3 < two64 /\ get_3op_index 3 2 1 0 = 24 /\
  shipped (square_lattice 2 2) (2 * 2).
Proof. split; [constructor; vm_compute; auto|]. split; [reflexivity|]. split; [reflexivity|]. constructor; reflexivity. Qed.

(** ** C28: momentum-space basis *)
Theorem C28_momentum_basis : forall N q, 0 < N < two64 - 1 -> N * N + 1 < two64 -> site N q ->
  exists b, terminates_with (fun fuel => mom_basis fuel (momentum_chain N) q) (Ok b) /\
  Z.of_nat (length b) = 1 + N * N /\
  nth_error b 0 = Some [hop true q true] /\
  (forall i1 i2, site N i1 -> site N i2 -> exists i3, site N i3 /\
     nth_error b (Z.to_nat (mom_get_3op_index N i1 i2)) =
       Some [hop true i1 true; hop true i2 false; hop false i3 false] /\
     exists m : Z, (let k i := (- PI + IZR i * (2 * PI / IZR N)) in
       k i1 + k i2 - k i3 = k q + IZR m * (2 * PI))%R) /\
  NoDup b.
Proof.
  intros N q HN Hf Hq. exists (mom_closed N q). split; [apply mom_basis_value; assumption|].
  assert (Hix : forall i1 i2, site N i1 -> site N i2 -> mom_get_3op_index N i1 i2 = 1 + i1 * N + i2).
  { unfold site. intros i1 i2 H1 H2. unfold mom_get_3op_index.
    rewrite (u64_id (i1 * N)) by nia. rewrite (u64_id (1 + _)) by nia. apply u64_id. nia. }
  split; [rewrite mom_closed_length by lia; nia|]. split; [reflexivity|]. split.
  - intros i1 i2 H1 H2. exists ((i1 + i2 - q) mod N).
    split; [unfold site; apply Z.mod_pos_bound; lia|].
    split; [rewrite Hix by assumption; apply mom_closed_nth; [lia|assumption|assumption]|].
    set (d := i1 + i2 - q). exists (d / N). cbv beta zeta.
    assert (HN0 : (IZR N <> 0)%R) by (apply not_0_IZR; lia).
    assert (E : (IZR i1 + IZR i2 - IZR q = IZR (d mod N) + IZR (d / N) * IZR N)%R).
    { rewrite <- mult_IZR, <- plus_IZR, <- plus_IZR, <- minus_IZR. f_equal.
      pose proof (Z.div_mod d N). unfold d in *. lia. }
    replace (IZR i1) with (IZR q - IZR i2 + (IZR (d mod N) + IZR (d / N) * IZR N))%R by (rewrite <- E; ring).
    field. exact HN0.
  - unfold mom_closed. constructor.
    + rewrite <- flat_map_concat_map. intros H. apply in_flat_map in H as (i1 & _ & H).
      apply in_map_iff in H as (i2 & E & _). discriminate.
    + rewrite <- flat_map_concat_map. pose proof (Zseq_nodup N) as Hn.
      assert (G : forall l, NoDup l -> NoDup (flat_map (fun i1 => map (mom_mono N q i1) (Zseq N)) l)).
      { induction 1 as [|x l Hx Hl IH]; [constructor|]. cbn [flat_map].
        assert (HI : NoDup (map (mom_mono N q x) (Zseq N))).
        { apply FinFun.Injective_map_NoDup; [|exact Hn]. intros a b E. unfold mom_mono, hop in E. injection E as E1 _. exact E1. }
        clear Hn. revert HI. generalize (Zseq N) at 1 2 as r. induction r as [|y r IHr]; intros HI; [exact IH|].
        cbn [map app]. inversion HI; subst. constructor; [|apply IHr; assumption].
        intros Hin. apply in_app_or in Hin as [Hin|Hin]; [contradiction|].
        apply in_flat_map in Hin as (z & Hz & Hin). apply in_map_iff in Hin as (w & E & _).
        unfold mom_mono in E. injection E as E1 E2 E3. subst z. contradiction. }
      apply G, Hn.
Qed.
Print Assumptions C28_momentum_basis.
Example C28_example : 0 < 4 < two64 - 1 /\ 4 * 4 + 1 < two64 /\ site 4 2.
Proof. unfold site. vm_compute. intuition congruence. Qed.

(** ** C29: conjugate basis, for every schedule of the parallel loop *)
Theorem C29_conjugate_basis : forall (b : list (monomial hub)) order,
  Permutation order (seq 0 (length b)) ->
  length (basis_get_conjugate order b) = length b /\
  forall i m, nth_error b i = Some m ->
    exists m', nth_error (basis_get_conjugate order b) i = Some m' /\
      forall (K : StarRing) (mode : hub -> nat) (s t : N),
        elem (K := K) mode m' t s = elem mode m s t.
Proof.
  intros b order Hp. unfold basis_get_conjugate. rewrite fold_update_all by exact Hp.
  split; [apply map_length|]. intros i m Hm. exists (mono_conjugate m).
  split; [rewrite nth_error_map, Hm; reflexivity|].
  intros K mode s t. unfold elem. rewrite <- amp_adj. f_equal. unfold ladders, adj, mono_conjugate.
  rewrite !map_map, <- !map_rev, !map_map, rev_involutive. apply map_ext. intros o.
  cbn [op_conjugate creator indices fst snd]. rewrite ?negb_involutive. reflexivity.
Qed.
Print Assumptions C29_conjugate_basis.
Example C29_example : Permutation [2; 0; 1]%nat (seq 0 (length (basis1 (chain_lattice 3)))) /\
  basis_get_conjugate [2; 0; 1]%nat (basis1 (chain_lattice 3)) =
  [[hop false 0 true]; [hop false 1 true]; [hop false 2 true]].
Proof.
  split; [|reflexivity]. cbn. apply (perm_trans (l' := [0; 2; 1]%nat)); [constructor|do 2 constructor].
Qed.
