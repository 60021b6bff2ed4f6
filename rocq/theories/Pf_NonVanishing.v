(** Proofs about the non-vanishing expectation values in the Fermi sea. *)
From Verif Require Import Base Spec_Fock FockFacts Pf_FockDiag M_Operator M_Lattice Spec_Lattice Pf_Lattice M_Basis Pf_Basis M_Matrix Pf_Matrix Spec_Algebra Spec_Matrix
  Spec_FermiSea M_Number M_Dispersion M_OpenMP Pf_OpenMP M_SiteOccupation M_FermiSea Pf_FermiSea P_FermiSea M_NonVanishing.
Local Open Scope list_scope.

Section P.
  Context {Fl : Type} (lt : Fl -> Fl -> bool) (sort : list (Z * bool) -> list (Z * bool)).
  Variables (eps : Z -> Fl) (ef : Fl).
  Hypothesis sort_ok : forall l, Permutation (sort l) l.
  Variables (mode : hub -> nat) (L q : Z) (s0 : N).
  Hypothesis mode_inj : numbers_orbitals mode L.
  Hypothesis Hs0 : is_fermi_sea lt eps ef mode L s0.
  Hypothesis HL : (0 < L)%Z.
  Hypothesis Hq : site L q.

  Definition a1 (r : Z) : Z := if (r =? 0)%Z then q else ((r - 1) / L)%Z.
  Definition a2 (r : Z) : Z := ((r - 1) mod L)%Z.
  Definition a3 (r : Z) : Z := ((a1 r + a2 r - q) mod L)%Z.
  Let SZ : Z := (1 + L * L)%Z.
  Notation b := (mom_closed L q).
  Notation cb := (map mono_conjugate (mom_closed L q)).
  Lemma a_site r : (0 <= r < SZ)%Z -> site L (a1 r) /\ site L (a2 r) /\ site L (a3 r).
  Proof.
    intros Hr. unfold a3, a2, site. pose proof (Z.mod_pos_bound (r - 1) L HL). pose proof (Z.mod_pos_bound (a1 r + (r - 1) mod L - q) L HL).
    repeat split; try lia; unfold a1; destruct (Z.eqb_spec r 0); try (apply Hq).
    - apply Z.div_pos; lia.
    - apply Z.div_lt_upper_bound; [lia|]. unfold SZ in Hr. nia.
  Qed.
  Lemma len_b : Z.of_nat (length b) = SZ.
  Proof. rewrite mom_closed_length by exact HL. unfold SZ. nia. Qed.
  Definition bm (r : Z) : monomial hub :=
    if (r =? 0)%Z then [hop true q true] else [hop true (a1 r) true; hop true (a2 r) false; hop false (a3 r) false].
  Definition cm (r : Z) : monomial hub :=
    if (r =? 0)%Z then [hop false q true] else [hop true (a3 r) false; hop false (a2 r) false; hop false (a1 r) true].
  Lemma nth_b r : (0 <= r < SZ)%Z -> nth_error b (Z.to_nat r) = Some (bm r).
  Proof.
    intros Hr. unfold bm. destruct (Z.eqb_spec r 0) as [->|Hn]; [reflexivity|].
    destruct (a_site r Hr) as (S1 & S2 & S3). unfold a1 in S1. destruct (Z.eqb_spec r 0) as [|_]; [contradiction|].
    pose proof (Z.div_mod (r - 1) L ltac:(lia)) as Dm. assert (E : r = (1 + ((r - 1) / L) * L + (r - 1) mod L)%Z) by lia.
    rewrite E at 1. rewrite mom_closed_nth by (assumption || exact S2). unfold mom_mono, a3, a2, a1.
    destruct (Z.eqb_spec r 0); [contradiction|]. reflexivity.
  Qed.
  Lemma read_b r : (0 <= r < SZ)%Z -> vread b r = Ok (bm r).
  Proof. intros Hr. unfold vread. destruct (Z.ltb_spec r 0); [lia|]. rewrite nth_b by exact Hr. reflexivity. Qed.
  Lemma read_c r : (0 <= r < SZ)%Z -> vread cb r = Ok (cm r).
  Proof.
    intros Hr. unfold vread. destruct (Z.ltb_spec r 0); [lia|]. rewrite nth_error_map, nth_b by exact Hr. cbn [option_map]. f_equal.
    unfold bm, cm. destruct (r =? 0)%Z; reflexivity.
  Qed.
  Notation am m s := (snd (apply_monomial lt sort eps ef m s)).
  Notation ao o s := (snd (apply_operator lt sort eps ef o s)).
  Definition st_list : list sea := map (fun i => am (cm i) fermi_sea) (zrange 0 SZ).
  Lemma states_ok : nv_states lt sort eps ef b cb = Ok st_list.
  Proof.
    unfold nv_states. rewrite len_b. rewrite (oconcat_ok _ (fun i => [am (cm i) fermi_sea])).
    - reflexivity.
    - intros i Hi. apply zrange_in in Hi. rewrite read_c by lia. reflexivity.
  Qed.
  Lemma read_st r : (0 <= r < SZ)%Z -> vread st_list r = Ok (am (cm r) fermi_sea).
  Proof.
    intros Hr. unfold vread. destruct (Z.ltb_spec r 0); [lia|]. unfold st_list. rewrite nth_error_map.
    pose proof (zrange_nth 0 SZ r ltac:(lia)) as E. rewrite Z.sub_0_r in E. rewrite E. reflexivity.
  Qed.

  (** does a product of operators bring the Fermi sea back? *)
  Notation lads := (ladders (T := hub) mode).
  Lemma initial_diag calls : on_sites L calls ->
    is_initial_fermi_sea (run lt sort eps ef calls) = match diag (lads (product calls)) s0 with Some _ => true | None => false end.
  Proof.
    intros Hc. pose proof (C47_tracks_occupation lt sort eps ef mode L s0 calls sort_ok mode_inj Hs0 Hc) as Q.
    unfold diag. destruct (act (lads (product calls)) s0) as [[sg t]|]; [|apply Q].
    destruct Q as (_ & _ & _ & _ & _ & _ & Q). destruct (N.eqb_spec t s0) as [E|E].
    - apply Q, E.
    - apply not_true_iff_false. intros H. apply E, Q, H.
  Qed.
  Notation nn x := (lt (eps x) ef).
  Definition kr (r : Z) : bool := if (r =? 0)%Z then true else (a2 r =? a3 r)%Z.
  Lemma kr_a1 r : (0 <= r < SZ)%Z -> kr r = true -> a1 r = q.
  Proof.
    intros Hr. unfold kr, a1 at 1. destruct (Z.eqb_spec r 0) as [|Hn]; [reflexivity|]. rewrite Z.eqb_eq. unfold a3.
    destruct (a_site r Hr) as (S1 & S2 & S3). assert (A : a1 r = ((r - 1) / L)%Z) by (unfold a1; destruct (Z.eqb_spec r 0); [contradiction|reflexivity]).
    rewrite <- A. intros E. unfold site in *.
    pose proof (Z.div_mod (a1 r + a2 r - q) L ltac:(lia)) as Dm. rewrite <- E in Dm.
    set (k := ((a1 r + a2 r - q) / L)%Z) in *. assert (a1 r - q = L * k)%Z by lia. assert (k = 0)%Z by nia. nia.
  Qed.
  Lemma modes_up x y : site L x -> site L y -> Nat.eqb (mode (x, true)) (mode (y, true)) = (x =? y)%Z.
  Proof.
    intros Hx Hy. destruct (Z.eqb_spec x y) as [->|Hn]; [apply Nat.eqb_refl|]. apply Nat.eqb_neq. intros E. apply Hn. apply (mode_inj x true y true Hx Hy E).
  Qed.
  Lemma modes_down x y : site L x -> site L y -> Nat.eqb (mode (x, false)) (mode (y, false)) = (x =? y)%Z.
  Proof.
    intros Hx Hy. destruct (Z.eqb_spec x y) as [->|Hn]; [apply Nat.eqb_refl|]. apply Nat.eqb_neq. intros E. apply Hn. apply (mode_inj x false y false Hx Hy E).
  Qed.
  Lemma modes_ud x y : site L x -> site L y -> mode (x, false) <> mode (y, true).
  Proof. intros Hx Hy E. destruct (mode_inj x false y true Hx Hy E). discriminate. Qed.
  Lemma occ_up x : site L x -> occ s0 (mode (x, true)) = nn x. Proof. intros H. exact (Hs0 x true H). Qed.
  Lemma occ_down x : site L x -> occ s0 (mode (x, false)) = nn x. Proof. intros H. exact (Hs0 x false H). Qed.
  Lemma d2 x y : site L x -> site L y ->
    diag (lads [hop true x true; hop false y true]) s0 = if ((x =? y)%Z && nn x)%bool then Some false else None.
  Proof.
    intros Hx Hy. etransitivity; [exact (diag2 s0 (mode (x, true)) (mode (y, true)))|]. rewrite modes_up by assumption. rewrite (occ_up x ltac:(assumption)). reflexivity.
  Qed.
  Lemma d4 x y k l : site L x -> site L y -> site L k -> site L l ->
    diag (lads [hop true x true; hop true k false; hop false l false; hop false y true]) s0 =
    if ((x =? y)%Z && nn x && ((k =? l)%Z && nn k))%bool then Some false else None.
  Proof.
    intros Hx Hy Hk Hl. etransitivity; [apply (diag4 s0 (mode (x, true)) (mode (y, true)) (mode (k, false)) (mode (l, false))); apply modes_ud; assumption|].
    rewrite modes_up, modes_down by assumption. rewrite (occ_up x ltac:(assumption)), (occ_down k ltac:(assumption)). reflexivity.
  Qed.
  Lemma d6 x y k l l' k' : site L x -> site L y -> site L k -> site L l -> site L k' -> site L l' ->
    diag (lads [hop true x true; hop true k false; hop false l false; hop true l' false; hop false k' false; hop false y true]) s0 =
    if ((x =? y)%Z && nn x && (if (k =? l)%Z then (k' =? l')%Z && (nn k && nn k') else (k =? k')%Z && (l =? l')%Z && (nn k && negb (nn l))))%bool then Some false else None.
  Proof.
    intros Hx Hy Hk Hl Hk' Hl'.
    etransitivity; [apply (diag6 s0 (mode (x, true)) (mode (y, true)) (mode (k, false)) (mode (l, false)) (mode (l', false)) (mode (k', false))); apply modes_ud; assumption|].
    rewrite modes_up, !modes_down by assumption. rewrite (occ_up x ltac:(assumption)), (occ_down k ltac:(assumption)), (occ_down k' ltac:(assumption)), (occ_down l ltac:(assumption)). reflexivity.
  Qed.

  (** the tests of the constructor *)
  Notation initial s := (is_initial_fermi_sea s).
  Lemma sites_cons (o : op hub) l : site L (index1 o) -> Forall (fun o => site L (index1 o)) l -> Forall (fun o => site L (index1 o)) (o :: l).
  Proof. intros. apply Forall_cons; assumption. Qed.
  Ltac on_sites := unfold on_sites, product; cbn [rev app flat_map operators_of];
    repeat (apply sites_cons; [first [assumption|cbn; assumption]|]); apply Forall_nil.
  Lemma i11 x y : site L x -> site L y -> initial (ao (hop true x true) (ao (hop false y true) fermi_sea)) = ((x =? y)%Z && nn x)%bool.
  Proof.
    intros Hx Hy. change (ao (hop true x true) (ao (hop false y true) fermi_sea)) with (run lt sort eps ef [CallOperator (hop false y true); CallOperator (hop true x true)]).
    rewrite initial_diag by on_sites. unfold product. cbn [rev app flat_map operators_of]. rewrite d2 by assumption. destruct ((x =? y)%Z && nn x)%bool; reflexivity.
  Qed.
  Lemma i00 : initial (am (bm 0) (am (cm 0) fermi_sea)) = nn q.
  Proof.
    change (am (bm 0) (am (cm 0) fermi_sea)) with (run lt sort eps ef [CallMonomial (cm 0); CallMonomial (bm 0)]).
    unfold bm, cm. cbn [Z.eqb]. rewrite initial_diag by on_sites. unfold product. cbn [rev app flat_map operators_of]. rewrite d2 by assumption. rewrite Z.eqb_refl. cbn [andb].
    destruct (nn q); reflexivity.
  Qed.
  Lemma kr_q r : (1 <= r < SZ)%Z -> (a2 r =? a3 r)%Z = kr r.
  Proof. intros Hr. unfold kr. destruct (Z.eqb_spec r 0); [lia|reflexivity]. Qed.
  Lemma i31 r : (1 <= r < SZ)%Z -> initial (am (bm r) (am (cm 0) fermi_sea)) = (kr r && (nn q && nn (a2 r)))%bool.
  Proof.
    intros Hr. destruct (a_site r ltac:(lia)) as (S1 & S2 & S3).
    change (am (bm r) (am (cm 0) fermi_sea)) with (run lt sort eps ef [CallMonomial (cm 0); CallMonomial (bm r)]).
    unfold bm, cm. destruct (Z.eqb_spec r 0); [lia|]. cbn [Z.eqb]. rewrite initial_diag by on_sites. unfold product. cbn [rev app flat_map operators_of].
    rewrite d4 by assumption. rewrite kr_q by exact Hr. destruct (kr r) eqn:Ek; [|rewrite !andb_false_r; reflexivity].
    rewrite (kr_a1 r ltac:(lia) Ek), Z.eqb_refl. cbn [andb]. destruct (nn q && nn (a2 r))%bool; reflexivity.
  Qed.
  Lemma i13 r : (1 <= r < SZ)%Z -> initial (am (bm 0) (am (cm r) fermi_sea)) = (kr r && (nn q && nn (a2 r)))%bool.
  Proof.
    intros Hr. destruct (a_site r ltac:(lia)) as (S1 & S2 & S3).
    change (am (bm 0) (am (cm r) fermi_sea)) with (run lt sort eps ef [CallMonomial (cm r); CallMonomial (bm 0)]).
    unfold bm, cm. destruct (Z.eqb_spec r 0); [lia|]. cbn [Z.eqb]. rewrite initial_diag by on_sites. unfold product. cbn [rev app flat_map operators_of].
    rewrite d4 by assumption. rewrite (Z.eqb_sym (a3 r)), kr_q by exact Hr. destruct (kr r) eqn:Ek; [|rewrite !andb_false_r; reflexivity].
    pose proof Ek as Ek'. rewrite <- kr_q, Z.eqb_eq in Ek' by exact Hr. rewrite <- Ek'.
    rewrite (kr_a1 r ltac:(lia) Ek), Z.eqb_refl. cbn [andb]. destruct (nn q && nn (a2 r))%bool; reflexivity.
  Qed.
  Lemma i13' r : (1 <= r < SZ)%Z -> initial (ao (hop true q true) (am (cm r) fermi_sea)) = (kr r && (nn q && nn (a2 r)))%bool.
  Proof.
    intros Hr. destruct (a_site r ltac:(lia)) as (S1 & S2 & S3). rewrite <- (i13 r Hr).
    change (ao (hop true q true) (am (cm r) fermi_sea)) with (run lt sort eps ef [CallMonomial (cm r); CallOperator (hop true q true)]).
    change (am (bm 0) (am (cm r) fermi_sea)) with (run lt sort eps ef [CallMonomial (cm r); CallMonomial (bm 0)]).
    unfold bm, cm. destruct (Z.eqb_spec r 0); [lia|]. cbn [Z.eqb]. rewrite !initial_diag by on_sites. reflexivity.
  Qed.
  (** is (i, j) listed? *)
  Definition flag (i j : Z) : bool :=
    if (kr i && kr j)%bool then nn q else ((i =? j)%Z && (nn (a1 i) && (nn (a2 i) && negb (nn (a3 i)))))%bool.
  Lemma a_inj i j : (1 <= i < SZ)%Z -> (1 <= j < SZ)%Z -> a1 i = a1 j -> a2 i = a2 j -> i = j.
  Proof.
    intros Hi Hj. unfold a1, a2. destruct (Z.eqb_spec i 0); [lia|]. destruct (Z.eqb_spec j 0); [lia|]. intros E1 E2.
    pose proof (Z.div_mod (i - 1) L ltac:(lia)). pose proof (Z.div_mod (j - 1) L ltac:(lia)). rewrite E1, E2 in *. lia.
  Qed.
  Lemma i33 i j : (1 <= i < SZ)%Z -> (1 <= j < SZ)%Z ->
    initial (am (bm i) (am (cm j) fermi_sea)) = if (kr i && kr j)%bool then (nn q && (nn (a2 i) && nn (a2 j)))%bool else flag i j.
  Proof.
    intros Hi Hj. destruct (a_site i ltac:(lia)) as (S1 & S2 & S3). destruct (a_site j ltac:(lia)) as (T1 & T2 & T3).
    change (am (bm i) (am (cm j) fermi_sea)) with (run lt sort eps ef [CallMonomial (cm j); CallMonomial (bm i)]).
    unfold bm, cm. destruct (Z.eqb_spec i 0); [lia|]. destruct (Z.eqb_spec j 0); [lia|]. cbn [Z.eqb]. rewrite initial_diag by on_sites. unfold product. cbn [rev app flat_map operators_of].
    rewrite d6 by assumption. rewrite !kr_q by assumption. unfold flag. destruct (kr i) eqn:Ei; cbn [andb].
    - destruct (kr j) eqn:Ej; cbn [andb].
      + rewrite (kr_a1 i ltac:(lia) Ei), (kr_a1 j ltac:(lia) Ej), Z.eqb_refl. cbn [andb]. destruct (nn q && (nn (a2 i) && nn (a2 j)))%bool; reflexivity.
      + rewrite andb_false_r. destruct (Z.eqb_spec i j) as [E|]; [congruence|reflexivity].
    - destruct (Z.eqb_spec i j) as [<-|Hne].
      + rewrite !Z.eqb_refl. cbn [andb]. match goal with |- _ = ?x => destruct x; reflexivity end.
      + destruct (Z.eqb_spec (a1 i) (a1 j)) as [E1|]; [|reflexivity]. destruct (Z.eqb_spec (a2 i) (a2 j)) as [E2|]; [|cbn [andb]; rewrite andb_false_r; reflexivity].
        exfalso. apply Hne. apply a_inj; assumption.
  Qed.

  Context {K : StarRing}.
  Add Ring KringNV : (rth K).
  Local Open Scope ring_scope_.
  (** the factor of one basis element with i2 = i3, and the value of an entry *)
  Definition fac (c : K) (r : Z) : K := if (r =? 0)%Z then 1 else (if nn (a2 r) then 1 + 1 else 0) + c.
  Definition val (c : K) (i j : Z) : K := if (kr i && kr j)%bool then fac c i * fac c j else 1 + 1 + (1 + 1).
  Definition entry_list (p : Z * Z) : list (contribution (K := K)) :=
    if flag (fst p) (snd p) then [(fst p, snd p, val 1 (fst p) (snd p))] else [].
  Lemma SZ_pos : (0 < SZ)%Z. Proof. unfold SZ. nia. Qed.
  Lemma nv_00_ok : nv_00 (K := K) lt sort eps ef b st_list = Ok (entry_list (0, 0)%Z).
  Proof.
    pose proof SZ_pos. unfold nv_00. rewrite read_st, read_b by lia. cbn [obind]. rewrite i00. unfold entry_list, flag. cbn [fst snd]. change (kr 0) with true. cbn [andb].
    destruct (nn q); [|reflexivity]. do 3 f_equal. unfold val, fac. change (kr 0) with true. cbn [andb Z.eqb]. ring.
  Qed.
  Lemma kron_b r : (1 <= r < SZ)%Z -> kron (bm r) 1 2 = Ok (kr r).
  Proof. intros Hr. rewrite <- kr_q by exact Hr. unfold bm. destruct (Z.eqb_spec r 0); [lia|]. reflexivity. Qed.
  Lemma kron_c r : (1 <= r < SZ)%Z -> kron (cm r) 0 1 = Ok (kr r).
  Proof. intros Hr. rewrite <- kr_q, Z.eqb_sym by exact Hr. unfold cm. destruct (Z.eqb_spec r 0); [lia|]. reflexivity. Qed.
  Lemma fac_pos c r : (1 <= r)%Z -> fac c r = (if nn (a2 r) then 1 + 1 else 0) + c.
  Proof. intros Hr. unfold fac. destruct (Z.eqb_spec r 0); [lia|reflexivity]. Qed.
  Lemma b0 r : (1 <= r < SZ)%Z -> vread (bm r) 0 = Ok (hop true (a1 r) true).
  Proof. intros Hr. unfold bm. destruct (Z.eqb_spec r 0); [lia|]. reflexivity. Qed.
  Lemma c2 r : (1 <= r < SZ)%Z -> vread (cm r) 2 = Ok (hop false (a1 r) true).
  Proof. intros Hr. unfold cm. destruct (Z.eqb_spec r 0); [lia|]. reflexivity. Qed.
  Lemma nv_i0_ok i : (1 <= i < SZ)%Z -> nv_i0 (K := K) lt sort eps ef b cb st_list i = Ok (entry_list (i, 0)%Z).
  Proof.
    intros Hi. unfold nv_i0. rewrite read_st, read_b, read_c by lia. cbn [obind]. rewrite kron_b by exact Hi. cbn [obind].
    unfold assign, bump. rewrite i31 by exact Hi. unfold entry_list, flag, val. cbn [fst snd]. change (kr 0) with true. rewrite andb_true_r. destruct (kr i) eqn:Ek; cbn [andb].
    - change (vread (cm 0) 0) with (Ok (hop false q true)). rewrite b0 by exact Hi. cbn [obind]. rewrite (kr_a1 i ltac:(lia) Ek), i11, Z.eqb_refl by assumption. cbn [andb].
      rewrite (fac_pos 1 i) by lia. destruct (nn q); cbn [andb]; [|reflexivity].
      destruct (nn (a2 i)); unfold emplace; cbn [fst snd]; do 3 f_equal; unfold fac; cbn [Z.eqb]; ring.
    - destruct (Z.eqb_spec i 0); [lia|]. reflexivity.
  Qed.
  Lemma nv_0i_ok i : (1 <= i < SZ)%Z -> nv_0i (K := K) lt sort eps ef b cb st_list i = Ok (entry_list (0, i)%Z).
  Proof.
    intros Hi. unfold nv_0i. rewrite read_st, read_b, read_c by lia. cbn [obind]. rewrite kron_c by exact Hi. cbn [obind].
    unfold assign, bump. rewrite i13 by exact Hi. unfold entry_list, flag, val. cbn [fst snd]. change (kr 0) with true. cbn [andb]. destruct (kr i) eqn:Ek; cbn [andb].
    - change (vread (bm 0) 0) with (Ok (hop true q true)). rewrite c2 by exact Hi. cbn [obind]. rewrite (kr_a1 i ltac:(lia) Ek), i11, Z.eqb_refl by assumption. cbn [andb].
      rewrite (fac_pos 1 i) by lia. destruct (nn q); cbn [andb]; [|reflexivity].
      destruct (nn (a2 i)); unfold emplace; cbn [fst snd]; do 3 f_equal; unfold fac; cbn [Z.eqb]; ring.
    - destruct (Z.eqb_spec 0 i); [lia|]. reflexivity.
  Qed.
  Lemma nv_ij_ok i j : (1 <= i < SZ)%Z -> (1 <= j < SZ)%Z -> nv_ij (K := K) lt sort eps ef b cb st_list i j = Ok (entry_list (i, j)%Z).
  Proof.
    intros Hi Hj. pose proof SZ_pos. unfold nv_ij. rewrite !read_st, !read_b, read_c by lia. cbn [obind]. rewrite kron_b, kron_c by assumption. cbn [obind].
    unfold assign, bump. rewrite (i33 i j Hi Hj). unfold entry_list, val. cbn [fst snd]. destruct (kr i) eqn:Ei, (kr j) eqn:Ej; cbn [andb obind].
    - change (vread (bm 0) 0) with (Ok (hop true q true)). rewrite b0, c2 by assumption. cbn [obind]. rewrite i31, i13' by assumption. rewrite Ei, Ej. cbn [andb].
      rewrite (kr_a1 i ltac:(lia) Ei), (kr_a1 j ltac:(lia) Ej), i11, Z.eqb_refl by assumption. cbn [andb].
      unfold flag. rewrite Ei, Ej. cbn [andb]. rewrite !fac_pos by lia.
      destruct (nn q); cbn [andb]; [|reflexivity].
      destruct (nn (a2 i)), (nn (a2 j)); cbn [andb]; unfold emplace; cbn [fst snd]; do 3 f_equal; ring.
    - change (vread (bm 0) 0) with (Ok (hop true q true)). cbn [obind]. rewrite i13' by assumption. rewrite Ej. cbn [andb].
      unfold flag. rewrite Ei, Ej. cbn [andb]. destruct (Z.eqb_spec i j) as [E|]; [congruence|]. reflexivity.
    - rewrite i31 by assumption. rewrite Ei. cbn [andb]. unfold flag. rewrite Ei, Ej. cbn [andb]. destruct (Z.eqb_spec i j) as [E|]; [congruence|]. reflexivity.
    - destruct (flag i j); reflexivity.
  Qed.
  Definition all_pairs : list (Z * Z) :=
    (0, 0)%Z :: map (fun i => (i, 0)%Z) (zrange 1 SZ) ++ map (fun i => (0, i)%Z) (zrange 1 SZ) ++
    flat_map (fun i => map (fun j => (i, j)) (zrange 1 SZ)) (zrange 1 SZ).
  Lemma flat_map_map {A B C} (f : B -> list C) (g : A -> B) l : flat_map f (map g l) = flat_map (fun x => f (g x)) l.
  Proof. induction l as [|x l IH]; cbn; [reflexivity|]. rewrite IH. reflexivity. Qed.
  Lemma flat_map_flat {A B C} (f : B -> list C) (g : A -> list B) l : flat_map f (flat_map g l) = flat_map (fun x => flat_map f (g x)) l.
  Proof. induction l as [|x l IH]; cbn; [reflexivity|]. rewrite flat_map_app, IH. reflexivity. Qed.
  Lemma non_vanishing_ok : non_vanishing (K := K) lt sort eps ef b cb = Ok (flat_map entry_list all_pairs).
  Proof.
    unfold non_vanishing. rewrite states_ok, len_b. cbn [obind]. rewrite nv_00_ok. cbn [obind].
    rewrite (oconcat_ok _ (fun i => entry_list (i, 0)%Z)) by (intros i Hi; apply zrange_in in Hi; apply nv_i0_ok; lia). cbn [obind].
    rewrite (oconcat_ok _ (fun i => entry_list (0, i)%Z)) by (intros i Hi; apply zrange_in in Hi; apply nv_0i_ok; lia). cbn [obind].
    rewrite (oconcat_ok _ (fun i => flat_map (fun j => entry_list (i, j)) (zrange 1 SZ))).
    - cbn [obind]. f_equal. unfold all_pairs. cbn [flat_map]. rewrite !flat_map_app, !flat_map_map, flat_map_flat. do 3 f_equal.
      apply flat_map_ext. intros i. rewrite flat_map_map. reflexivity.
    - intros i Hi. apply zrange_in in Hi. apply oconcat_ok. intros j Hj. apply zrange_in in Hj. apply nv_ij_ok; lia.
  Qed.
End P.
