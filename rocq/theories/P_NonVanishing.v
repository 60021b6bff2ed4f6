(** THEOREMS: C49, C50 (non-vanishing expectation values and particle number in momentum space). *)
From Coq Require Import Reals Lra.
From Verif Require Import Base Spec_Fock FockFacts Pf_FockDiag M_Operator M_Lattice Spec_Lattice Pf_Lattice M_LatticeReal Spec_LatticeReal M_Basis Pf_Basis M_Matrix Pf_Matrix Spec_Algebra Spec_Matrix
  Spec_FermiSea M_Number M_Dispersion M_OpenMP Pf_OpenMP M_SiteOccupation Pf_SiteOccupation P_SiteOccupation M_FermiSea Pf_FermiSea P_FermiSea M_NonVanishing Pf_NonVanishing Pf_Matrix2 P_Momentum P_FermiJump.
Local Open Scope list_scope.

Section Expect.
  Context {Fl : Type} (lt : Fl -> Fl -> bool).
  Variables (eps : Z -> Fl) (ef : Fl) (mode : hub -> nat) (L q : Z) (s0 : N).
  Hypothesis mode_inj : numbers_orbitals mode L.
  Hypothesis Hs0 : is_fermi_sea lt eps ef mode L s0.
  Hypothesis HL : (0 < L)%Z.
  Hypothesis Hq : site L q.
  Context {K : StarRing}.
  Add Ring KringPNV : (rth K).
  Local Open Scope ring_scope_.
  Notation nn x := (lt (eps x) ef).
  Lemma amp_bool w (f : bool) : diag w s0 = (if f then Some false else None) -> amp (K := K) w s0 s0 = if f then 1 else 0.
  Proof. intros H. rewrite amp_diag, H. destruct f; reflexivity. Qed.
  Lemma e2 x y : site L x -> site L y -> elem (K := K) mode [hop true x true; hop false y true] s0 s0 = if ((x =? y)%Z && nn x)%bool then 1 else 0.
  Proof. intros. apply amp_bool. eapply d2; eassumption. Qed.
  Lemma e4 x y k l : site L x -> site L y -> site L k -> site L l ->
    elem (K := K) mode [hop true x true; hop true k false; hop false l false; hop false y true] s0 s0 = if ((x =? y)%Z && nn x && ((k =? l)%Z && nn k))%bool then 1 else 0.
  Proof. intros. apply amp_bool. eapply d4; eassumption. Qed.
  Lemma e6 x y k l l' k' : site L x -> site L y -> site L k -> site L l -> site L k' -> site L l' ->
    elem (K := K) mode [hop true x true; hop true k false; hop false l false; hop true l' false; hop false k' false; hop false y true] s0 s0 =
    if ((x =? y)%Z && nn x && (if (k =? l)%Z then (k' =? l')%Z && (nn k && nn k') else (k =? k')%Z && (l =? l')%Z && (nn k && negb (nn l))))%bool then 1 else 0.
  Proof. intros. apply amp_bool. eapply d6; eassumption. Qed.
  Lemma conj_delta x y : kconj (delta (K := K) x y) = delta x y.
  Proof. unfold delta. destruct (x =? y)%Z; [apply conj_1|apply conj_0]. Qed.
  Lemma delta_b x y : delta (K := K) x y = if (x =? y)%Z then 1 else 0. Proof. reflexivity. Qed.
  Notation a1 := (a1 L q). Notation a2 := (a2 L). Notation a3 := (a3 L q). Notation bm := (bm L q). Notation kr := (kr L q).
  Notation flag := (flag lt eps ef L q). Notation val := (val lt eps ef L q).
  (** <FS| B_i B_j^+ |FS> for B = c+ (2 c+ c + c delta) *)
  Lemma expectation_value (c : K) i j : kconj c = c -> (0 <= i < 1 + L * L)%Z -> (0 <= j < 1 + L * L)%Z ->
    expectation_in mode s0 (shifted_op c (bm i)) (shifted_op c (bm j)) = if flag i j then val c i j else 0.
  Proof.
    intros Hc Hi Hj. destruct (a_site L q HL Hq i Hi) as (S1 & S2 & S3). destruct (a_site L q HL Hq j Hj) as (T1 & T2 & T3).
    unfold expectation_in, bm, Pf_NonVanishing.bm. destruct (Z.eqb_spec i 0) as [->|Ni], (Z.eqb_spec j 0) as [->|Nj];
      cbn [shifted_op dagger map op_mul flat_map app prefactor operators rev]; unfold terms_elem; rewrite ?sum_over_cons, ?sum_over_nil; unfold term_elem; cbn [prefactor operators app];
      repeat match goal with |- context [index1 (hop ?x ?y ?z)] => change (index1 (hop x y z)) with y end;
      repeat match goal with |- context [op_conjugate (hop ?x ?y ?z)] => change (op_conjugate (hop x y z)) with (hop (negb x) y z); cbn [negb] end;
      rewrite ?conj_mul, ?conj_add, ?conj_1, ?conj_delta, ?Hc, ?delta_b;
      rewrite ?e2, ?e4, ?e6 by assumption;
      unfold flag, Pf_NonVanishing.flag, val, Pf_NonVanishing.val, fac.
    - change (kr 0) with true. rewrite Z.eqb_refl. cbn [andb Z.eqb]. destruct (nn q); ring.
    - change (kr 0) with true. destruct (Z.eqb_spec j 0) as [|_]; [contradiction|].
      destruct (Z.eqb_spec 0 j) as [|_]; [congruence|]. cbn [andb Z.eqb]. rewrite (Z.eqb_sym (a3 j)), !(kr_q L q j) by lia.
      destruct (kr j) eqn:Ej; cbn [andb]; [|rewrite !andb_false_r; ring].
      rewrite (kr_a1 L q HL Hq j ltac:(lia) Ej), Z.eqb_refl. cbn [andb].
      pose proof Ej as Ej'. rewrite <- (kr_q L q j), Z.eqb_eq in Ej' by lia. rewrite <- Ej'. destruct (nn q), (nn (a2 j)); cbn [andb]; ring.
    - change (kr 0) with true. rewrite andb_true_r. destruct (Z.eqb_spec i 0) as [|_]; [contradiction|]. cbn [Z.eqb].
      rewrite !(kr_q L q i) by lia.
      destruct (kr i) eqn:Ei; cbn [andb]; [|rewrite !andb_false_r; ring].
      rewrite (kr_a1 L q HL Hq i ltac:(lia) Ei), Z.eqb_refl. cbn [andb]. destruct (nn q), (nn (a2 i)); cbn [andb]; ring.
    - destruct (Z.eqb_spec i 0) as [|_]; [contradiction|]. destruct (Z.eqb_spec j 0) as [|_]; [contradiction|].
      rewrite !(Z.eqb_sym (a3 j) (a2 j)), !(kr_q L q i), !(kr_q L q j) by lia. destruct (kr i) eqn:Ei, (kr j) eqn:Ej; cbn [andb].
      + rewrite (kr_a1 L q HL Hq i ltac:(lia) Ei), (kr_a1 L q HL Hq j ltac:(lia) Ej), Z.eqb_refl. cbn [andb].
        pose proof Ej as Ej'. rewrite <- (kr_q L q j), Z.eqb_eq in Ej' by lia. rewrite <- Ej'.
        destruct (nn q), (nn (a2 i)), (nn (a2 j)); cbn [andb]; ring.
      + rewrite !andb_false_r. destruct (Z.eqb_spec i j) as [E|]; [congruence|]. cbn [andb].  ring.
      + destruct (Z.eqb_spec i j) as [E|]; [congruence|]. cbn [andb]. rewrite !andb_false_r.
        destruct (Z.eqb_spec (a2 i) (a2 j)) as [E2|]; [|cbn [andb]; rewrite !andb_false_r; ring].
        destruct (Z.eqb_spec (a1 i) (a1 j)) as [E1|]; [|cbn [andb]; ring].
        exfalso. apply n. apply (a_inj L q HL); try lia; assumption.
      + destruct (Z.eqb_spec i j) as [<-|Hne].
        * rewrite !Z.eqb_refl, !andb_false_r. cbn [andb]. destruct (nn (a1 i)), (nn (a2 i)), (nn (a3 i)); cbn [andb negb]; ring.
        * rewrite !andb_false_r. destruct (Z.eqb_spec (a2 i) (a2 j)) as [E2|]; [|cbn [andb]; rewrite !andb_false_r; ring].
          destruct (Z.eqb_spec (a1 i) (a1 j)) as [E1|]; [|cbn [andb]; ring].
          exfalso. apply Hne. apply (a_inj L q HL); try lia; assumption.
  Qed.
End Expect.

(** the monomials whose operator carries no Kronecker term *)
Definition without_delta (m : monomial hub) : Prop :=
  match m with [_] => True | [_; y; z] => index1 y <> index1 z | _ => False end.

Section C49.
  Context {Fl : Type} (lt : Fl -> Fl -> bool) (sort : list (Z * bool) -> list (Z * bool)).
  Variables (eps : Z -> Fl) (ef : Fl) (mode : hub -> nat) (L q : Z) (s0 : N).
  Hypothesis sort_ok : forall l, Permutation (sort l) l.
  Hypothesis mode_inj : numbers_orbitals mode L.
  Hypothesis Hs0 : is_fermi_sea lt eps ef mode L s0.
  Hypothesis HL : (0 < L)%Z.
  Hypothesis Hq : site L q.
  Notation b := (mom_closed L q).
  Lemma in_pairs p : In p (all_pairs L) <-> (0 <= fst p < 1 + L * L)%Z /\ (0 <= snd p < 1 + L * L)%Z.
  Proof.
    destruct p as [i j]. cbn [fst snd]. unfold all_pairs. cbn [In]. rewrite !in_app_iff, !in_map_iff, in_flat_map. split.
    - intros [H|[(x & E & Hx)|[(x & E & Hx)|(x & Hx & Hy)]]].
      + inversion H; subst. nia.
      + inversion E; subst. apply zrange_in in Hx. lia.
      + inversion E; subst. apply zrange_in in Hx. lia.
      + apply in_map_iff in Hy as (y & E & Hy). inversion E; subst. apply zrange_in in Hx. apply zrange_in in Hy. lia.
    - intros [Hi Hj]. destruct (Z.eq_dec i 0) as [->|Ni], (Z.eq_dec j 0) as [->|Nj].
      + left. reflexivity.
      + right. right. left. exists j. split; [reflexivity|apply zrange_in; lia].
      + right. left. exists i. split; [reflexivity|apply zrange_in; lia].
      + right. right. right. exists i. split; [apply zrange_in; lia|]. apply in_map_iff. exists j. split; [reflexivity|apply zrange_in; lia].
  Qed.
  Lemma nodup_inj {A B} (f : A -> B) l : (forall x y, f x = f y -> x = y) -> NoDup l -> NoDup (map f l).
  Proof. intros Hf. apply FinFun.Injective_map_NoDup. intros x y. apply Hf. Qed.
  Lemma nodup_prod {A B} (l : list A) (l' : list B) : NoDup l -> NoDup l' -> NoDup (flat_map (fun i => map (fun j => (i, j)) l') l).
  Proof.
    intros Hl Hl'. induction Hl as [|x l Hx Hl IH]; cbn [flat_map]; [constructor|].
    apply nodup_app; [apply nodup_inj; [intros ? ? E; congruence|exact Hl']|exact IH|].
    intros p Hp Hq'. apply in_map_iff in Hp as (y & <- & _). apply in_flat_map in Hq' as (z & Hz & Hy). apply in_map_iff in Hy as (w & E & _). congruence.
  Qed.
  Lemma nodup_pairs : NoDup (all_pairs L).
  Proof.
    unfold all_pairs. constructor.
    - rewrite !in_app_iff, !in_map_iff, in_flat_map. intros [(x & E & Hx)|[(x & E & Hx)|(x & Hx & Hy)]].
      + apply zrange_in in Hx. inversion E. lia.
      + apply zrange_in in Hx. inversion E. lia.
      + apply in_map_iff in Hy as (y & E & Hy). apply zrange_in in Hx. inversion E. lia.
    - apply nodup_app; [apply nodup_inj; [intros ? ? E; congruence|apply zrange_nodup]| |].
      + apply nodup_app; [apply nodup_inj; [intros ? ? E; congruence|apply zrange_nodup]|apply nodup_prod; apply zrange_nodup|].
        intros p Hp Hq'. apply in_map_iff in Hp as (y & <- & _). apply in_flat_map in Hq' as (z & Hz & Hy). apply in_map_iff in Hy as (w & E & _).
        apply zrange_in in Hz. inversion E. lia.
      + intros p Hp Hq'. apply in_map_iff in Hp as (y & <- & Hy). apply zrange_in in Hy. rewrite in_app_iff, in_map_iff, in_flat_map in Hq'.
        destruct Hq' as [(z & E & Hz)|(z & Hz & Hw)]; [inversion E; lia|]. apply in_map_iff in Hw as (w & E & Hw). apply zrange_in in Hw. inversion E. lia.
  Qed.
  Context {K : StarRing}.
  Notation ent := (entry_list lt eps ef L q (K := K)).
  Lemma entries_keys l : map fst (flat_map ent l) = filter (fun p => flag lt eps ef L q (fst p) (snd p)) l.
  Proof.
    induction l as [|[i j] l IH]; [reflexivity|]. cbn [flat_map filter]. etransitivity; [apply map_app|]. etransitivity; [apply (f_equal (app _)); exact IH|]. unfold entry_list. cbn [fst snd].
    destruct (flag lt eps ef L q i j); reflexivity.
  Qed.
  Lemma in_entries i j v : In (i, j, v) (flat_map ent (all_pairs L)) <->
    (0 <= i < 1 + L * L)%Z /\ (0 <= j < 1 + L * L)%Z /\ flag lt eps ef L q i j = true /\ v = val lt eps ef L q r1 i j.
  Proof.
    rewrite in_flat_map. split.
    - intros ([i' j'] & Hp & H). unfold entry_list in H. cbn [fst snd] in H. destruct (flag lt eps ef L q i' j') eqn:F; [|contradiction].
      destruct H as [H|[]]. inversion H; subst. apply in_pairs in Hp. cbn [fst snd] in Hp. tauto.
    - intros (Hi & Hj & F & ->). exists (i, j). split; [apply in_pairs; cbn; tauto|]. unfold entry_list. cbn [fst snd]. rewrite F. left. reflexivity.
  Qed.
  Lemma nth_bm i x : nth_error b i = Some x -> (0 <= Z.of_nat i < 1 + L * L)%Z /\ x = bm L q (Z.of_nat i).
  Proof.
    intros H. assert (Hi : (i < length b)%nat) by (apply nth_error_Some; congruence). rewrite mom_closed_length in Hi by exact HL.
    assert (Hr : (0 <= Z.of_nat i < 1 + L * L)%Z) by nia. split; [exact Hr|].
    pose proof (nth_b L q HL Hq (Z.of_nat i) Hr) as Q. rewrite Nat2Z.id in Q. congruence.
  Qed.
  Lemma conj_order order : Permutation order (seq 0 (length b)) -> basis_get_conjugate order b = map mono_conjugate b.
  Proof. intros H. exact (conjugate_all order b H). Qed.
  Add Ring KringPNV2 : (rth K).
  (** basis_op is the shift by -1 *)
  Lemma basis_op_shift r : basis_op (K := K) (bm L q r) = shifted_op (ropp r1) (bm L q r).
  Proof.
    unfold bm. destruct (r =? 0)%Z; [reflexivity|]. cbn [basis_op shifted_op]. unfold B3. do 3 f_equal. unfold delta. destruct (_ =? _)%Z; ring.
  Qed.
End C49.

(** The pairs listed are exactly those whose expectation value does not vanish, each once. *)
Theorem C49_support : forall {Fl} (lt : Fl -> Fl -> bool) sort eps ef mode L q s0 b order,
  (forall l, Permutation (sort l) l) -> numbers_orbitals mode L -> is_fermi_sea lt eps ef mode L s0 ->
  (0 < L)%Z -> (L * (1 + 3 * L) < two64)%Z -> site L q -> is_momentum_basis L q b -> Permutation order (seq 0 (length b)) ->
  exists l, non_vanishing (K := Rring) lt sort eps ef b (basis_get_conjugate order b) = Ok l /\
    NoDup (map fst l) /\
    (forall i j v, In (i, j, v) l -> (0 <= i < Z.of_nat (length b))%Z /\ (0 <= j < Z.of_nat (length b))%Z) /\
    forall i j x y, nth_error b i = Some x -> nth_error b j = Some y ->
      ((exists v, In (Z.of_nat i, Z.of_nat j, v) l) <-> expectation_in (K := Rring) mode s0 (basis_op x) (basis_op y) <> 0%R).
Proof.
  intros Fl lt sort eps ef mode L q s0 b order Hs Hm Hf HL HB Hq Hb Ho. apply mb_closed in Hb; try assumption. subst b.
  eexists. split; [rewrite conj_order by exact Ho; apply (non_vanishing_ok lt sort eps ef Hs mode L q s0 Hm Hf HL Hq)|].
  split; [rewrite entries_keys; apply NoDup_filter, nodup_pairs|]. split.
  { intros i j v H. apply (in_entries lt eps ef L q HL) in H. rewrite (len_b L q HL). tauto. }
  intros i j x y Hx Hy. apply nth_bm in Hx; try assumption. apply nth_bm in Hy; try assumption. destruct Hx as [Hi ->], Hy as [Hj ->].
  rewrite !basis_op_shift, (expectation_value lt eps ef mode L q s0 Hm Hf HL Hq) by (assumption || (rewrite conj_opp, conj_1; reflexivity)).
  split.
  - intros (v & H). apply (in_entries lt eps ef L q HL) in H. destruct H as (_ & _ & -> & _). unfold val. destruct (kr L q (Z.of_nat i) && kr L q (Z.of_nat j))%bool.
    + unfold fac. destruct (Z.of_nat i =? 0)%Z, (Z.of_nat j =? 0)%Z, (lt (eps (a2 L (Z.of_nat i))) ef), (lt (eps (a2 L (Z.of_nat j))) ef); cbn; lra.
    + cbn. lra.
  - intros H. eexists. apply (in_entries lt eps ef L q HL). split; [exact Hi|]. split; [exact Hj|]. split; [|reflexivity].
    destruct (flag lt eps ef L q (Z.of_nat i) (Z.of_nat j)); [reflexivity|]. contradiction H. reflexivity.
Qed.

(** The listed value is the expectation value for basis operators c+ (2 c+ c + delta). *)
Theorem C49_values : forall {Fl} (lt : Fl -> Fl -> bool) sort eps ef mode L q s0 b order (K : StarRing),
  (forall l, Permutation (sort l) l) -> numbers_orbitals mode L -> is_fermi_sea lt eps ef mode L s0 ->
  (0 < L)%Z -> (L * (1 + 3 * L) < two64)%Z -> site L q -> is_momentum_basis L q b -> Permutation order (seq 0 (length b)) ->
  exists l, non_vanishing (K := K) lt sort eps ef b (basis_get_conjugate order b) = Ok l /\
    forall i j x y v, nth_error b i = Some x -> nth_error b j = Some y -> In (Z.of_nat i, Z.of_nat j, v) l ->
      v = expectation_in mode s0 (shifted_op r1 x) (shifted_op r1 y) /\
      (without_delta x -> without_delta y -> v = expectation_in mode s0 (basis_op x) (basis_op y)).
Proof.
  intros Fl lt sort eps ef mode L q s0 b order K Hs Hm Hf HL HB Hq Hb Ho. apply mb_closed in Hb; try assumption. subst b.
  eexists. split; [rewrite conj_order by exact Ho; apply (non_vanishing_ok lt sort eps ef Hs mode L q s0 Hm Hf HL Hq)|].
  intros i j x y v Hx Hy H. apply nth_bm in Hx; try assumption. apply nth_bm in Hy; try assumption. destruct Hx as [Hi ->], Hy as [Hj ->].
  apply (in_entries lt eps ef L q HL) in H. destruct H as (_ & _ & F & ->). rewrite !basis_op_shift.
  rewrite (expectation_value lt eps ef mode L q s0 Hm Hf HL Hq r1) by (assumption || apply conj_1). rewrite F. split; [reflexivity|].
  intros Wx Wy. rewrite (expectation_value lt eps ef mode L q s0 Hm Hf HL Hq (ropp r1)) by (assumption || (rewrite conj_opp, conj_1; reflexivity)). rewrite F.
  assert (W : forall r, (0 <= r)%Z -> without_delta (bm L q r) -> kr L q r = true -> r = 0%Z).
  { intros r Hr W. unfold kr, bm in *. destruct (Z.eqb_spec r 0); [auto|]. cbn [without_delta] in W. unfold index1 in W. cbn [hop indices fst] in W. rewrite Z.eqb_eq. contradiction. }
  unfold val. destruct (kr L q (Z.of_nat i)) eqn:Ei, (kr L q (Z.of_nat j)) eqn:Ej; cbn [andb]; try reflexivity.
  apply W in Ei; [|lia|assumption]. apply W in Ej; [|lia|assumption]. rewrite Ei, Ej. reflexivity.
Qed.

Section FV.
Context (K : StarRing).
Add Ring KringPNV3 : (rth K).
Lemma fac_values (f : bool) :
  rmul (radd (if f then radd r1 r1 else r0) r1) r1 = (if f then radd (radd r1 r1) r1 else r1) :> K /\
  rmul (radd (if f then radd r1 r1 else r0) (ropp r1)) r1 = (if f then r1 else ropp r1) :> K.
Proof. destruct f; split; ring. Qed.
End FV.
(** For the basis operators of the matrix, c+ (2 c+ c - delta) (C35), the values are wrong: for
    every occupied q and every momentum k, the element c+_q c+_k c_k and the element c+_q
    get the value 3 or 1 (k occupied or not) instead of 1 or -1. *)
Theorem C49_delta_sign_refuted : forall {Fl} (lt : Fl -> Fl -> bool) sort eps ef mode L q s0 b order k (K : StarRing),
  (forall l, Permutation (sort l) l) -> numbers_orbitals mode L -> is_fermi_sea lt eps ef mode L s0 ->
  (0 < L)%Z -> (L * (1 + 3 * L) < two64)%Z -> site L q -> is_momentum_basis L q b -> Permutation order (seq 0 (length b)) ->
  site L k -> lt (eps q) ef = true ->
  exists l i x, non_vanishing (K := K) lt sort eps ef b (basis_get_conjugate order b) = Ok l /\
    nth_error b i = Some x /\ x = [hop true q true; hop true k false; hop false k false] /\
    In (Z.of_nat i, 0%Z, if lt (eps k) ef then radd (radd r1 r1) r1 else r1) l /\
    expectation_in (K := K) mode s0 (basis_op x) (B1 q) = if lt (eps k) ef then r1 else ropp r1.
Proof.
  intros Fl lt sort eps ef mode L q s0 b order k K Hs Hm Hf HL HB Hq Hb Ho Hk Oq. apply mb_closed in Hb; try assumption. subst b.
  set (r := (1 + q * L + k)%Z). unfold site in *. assert (Hr : (1 <= r < 1 + L * L)%Z) by (unfold r; nia).
  assert (D : ((r - 1) / L = q /\ (r - 1) mod L = k)%Z).
  { unfold r. replace (1 + q * L + k - 1)%Z with (k + q * L)%Z by lia. rewrite Z.div_add, Z.mod_add, Z.div_small, Z.mod_small by lia. lia. }
  assert (A1 : a1 L q r = q) by (unfold a1; destruct (Z.eqb_spec r 0); [reflexivity|apply D]). assert (A2 : a2 L r = k) by apply D.
  assert (A3 : a3 L q r = k) by (unfold a3; rewrite A1, A2; replace (q + k - q)%Z with k by lia; apply Z.mod_small; lia).
  assert (Kr : kr L q r = true) by (unfold kr; rewrite A2, A3, Z.eqb_refl; destruct (r =? 0)%Z; reflexivity).
  eexists. exists (Z.to_nat r). eexists. split; [rewrite conj_order by exact Ho; apply (non_vanishing_ok lt sort eps ef Hs mode L q s0 Hm Hf HL Hq)|].
  assert (Nr : nth_error (mom_closed L q) (Z.to_nat r) = Some [hop true q true; hop true k false; hop false k false]).
  { rewrite (nth_b L q HL Hq r ltac:(lia)). unfold bm. rewrite A1, A2, A3. destruct (Z.eqb_spec r 0); [lia|reflexivity]. }
  split; [exact Nr|]. split; [reflexivity|]. rewrite Z2Nat.id by lia. split.
  - apply (in_entries lt eps ef L q HL). split; [lia|]. split; [nia|]. unfold flag, val. rewrite Kr. change (kr L q 0) with true. cbn [andb]. split; [exact Oq|].
    unfold fac. rewrite A2. destruct (Z.eqb_spec r 0); [lia|]. cbn [Z.eqb]. symmetry. apply fac_values.
  - pose proof (expectation_value lt eps ef mode L q s0 Hm Hf HL Hq (ropp (r1 (s := K))) r 0 ltac:(rewrite conj_opp, conj_1; reflexivity) ltac:(lia) ltac:(nia)) as Q.
    rewrite <- !basis_op_shift in Q. replace (bm L q r) with [hop true q true; hop true k false; hop false k false] in Q by (unfold bm; rewrite A1, A2, A3; destruct (Z.eqb_spec r 0); [lia|reflexivity]).
    etransitivity; [exact Q|]. unfold flag, val. rewrite Kr. change (kr L q 0) with true. cbn [andb]. rewrite Oq. unfold fac. rewrite A2. destruct (Z.eqb_spec r 0); [lia|]. cbn [Z.eqb]. apply fac_values.
Qed.

(** ** C50: the particle number *)
Section C50.
  Context {K : StarRing}.
  Add Ring KringPN : (rth K).
  Local Open Scope ring_scope_.
  (** real and imaginary part of x * conj(y) *)
  Definition re_prod (x y : K * K) : K := fst x * fst y + snd x * snd y.
  Definition im_prod (x y : K * K) : K := snd x * fst y - fst x * snd y.
  (** sum_i sum_j part(vec[i] conj(vec[j])) <FS| B_i B_j^+ |FS> *)
  Definition double_sum (part : K * K -> K * K -> K) (mode : hub -> nat) (s0 : N) (b : list (monomial hub)) (vec : list (K * K)) : K :=
    sum_over (fun i => sum_over (fun j =>
      part (nth i vec (0, 0)) (nth j vec (0, 0)) * expectation_in mode s0 (shifted_op 1 (nth i b [])) (shifted_op 1 (nth j b [])))
      (seq 0 (length b))) (seq 0 (length b)).

  Definition vn (vec : list (K * K)) (i : Z) : K * K := nth (Z.to_nat i) vec (0, 0).
  Lemma vn_read vec i : (0 <= i < Z.of_nat (length vec))%Z -> vread vec i = Ok (vn vec i).
  Proof.
    intros H. unfold vread, vn. destruct (Z.ltb_spec i 0); [lia|]. rewrite (nth_error_nth' vec (0, 0)) by lia. reflexivity.
  Qed.
  Lemma pn_fold vec : forall (l : list (contribution (K := K))) r, (forall i j v, In (i, j, v) l -> (0 <= i < Z.of_nat (length vec))%Z /\ (0 <= j < Z.of_nat (length vec))%Z) ->
    ofold (fun result e =>
        let '(i, j, value) := e in
        if (i =? j)%Z
        then obind (vread vec i) (fun x => Ok (fst result + norm x * value, snd result))
        else obind (vread vec i) (fun x => obind (vread vec j) (fun y =>
               let p := multiply_with_conjugate x y in
               Ok (fst result + fst p * value, snd result + snd p * value)))) l r =
    Ok (fst r + sum_over (fun e => re_prod (vn vec (fst (fst e))) (vn vec (snd (fst e))) * snd e) l,
        snd r + sum_over (fun e => im_prod (vn vec (fst (fst e))) (vn vec (snd (fst e))) * snd e) l).
  Proof.
    induction l as [|[[i j] v] l IH]; intros r H.
    - cbn [ofold]. rewrite !sum_over_nil. f_equal. destruct r as [x y]. cbn [fst snd]. f_equal; ring.
    - cbn [ofold]. destruct (H i j v (or_introl eq_refl)) as [Hi Hj]. rewrite (vn_read vec i Hi), (vn_read vec j Hj). cbn [obind].
      rewrite !sum_over_cons. cbn [fst snd]. destruct (Z.eqb_spec i j) as [->|Hne]; cbn [obind]; rewrite IH by (intros ? ? ? Q; eapply H; right; exact Q); cbn [fst snd]; f_equal; f_equal;
        match goal with |- _ + ?S1 = _ + (_ + ?S2) => change S2 with S1; generalize S1; intros ? end; unfold multiply_with_conjugate, norm, re_prod, im_prod; cbn [fst snd]; ring.
  Qed.
  Lemma sum_antisym {A} (g : A -> A -> K) (l : list A) : (forall x, g x x = 0) -> (forall x y, g x y = - g y x) ->
    sum_over (fun i => sum_over (fun j => g i j) l) l = 0.
  Proof.
    intros H0 Ha. induction l as [|x l IH]; [apply sum_over_nil|].
    rewrite sum_over_cons. rewrite sum_over_cons, H0.
    rewrite (sum_over_ext _ (fun i => sum_over (fun j => g i j) (x :: l)) (fun i => g i x + sum_over (fun j => g i j) l)) by (intros i _; apply sum_over_cons).
    rewrite sum_over_add, IH. rewrite (sum_over_ext _ (fun i => g i x) (fun i => - g x i)) by (intros i _; apply Ha). rewrite sum_over_opp. change (fun j => g x j) with (g x). ring.
  Qed.
  Lemma sum_pairs (g : Z -> Z -> K) L : sum_over (fun p => g (fst p) (snd p)) (all_pairs L) =
    sum_over (fun i => sum_over (fun j => g i j) (zrange 0 (1 + L * L))) (zrange 0 (1 + L * L)).
  Proof.
    unfold all_pairs. rewrite sum_over_cons, !sum_over_app, !sum_over_map, sum_over_flat_map. cbn [fst snd].
    rewrite (zrange_cons 0 (1 + L * L)) by nia. change (0 + 1)%Z with 1%Z. rewrite !sum_over_cons.
    rewrite (sum_over_ext _ (fun i => sum_over (fun j => g i j) (0%Z :: zrange 1 (1 + L * L))) (fun i => g i 0%Z + sum_over (fun j => g i j) (zrange 1 (1 + L * L)))) by (intros i _; apply sum_over_cons).
    rewrite sum_over_add. rewrite (sum_over_ext _ (fun i => sum_over (fun p => g (fst p) (snd p)) (map (fun j => (i, j)) (zrange 1 (1 + L * L)))) (fun i => sum_over (fun j => g i j) (zrange 1 (1 + L * L)))) by (intros i _; rewrite sum_over_map; reflexivity).
    ring.
  Qed.
  Lemma sum_zrange (f : Z -> K) n : sum_over f (zrange 0 (Z.of_nat n)) = sum_over (fun i => f (Z.of_nat i)) (seq 0 n).
  Proof. unfold zrange. rewrite sum_over_map, Z.sub_0_r, Nat2Z.id. apply sum_over_ext. intros i _. f_equal. Qed.

Theorem C50_particle_number : forall {Fl} (lt : Fl -> Fl -> bool) sort eps ef mode L q s0 b order vec,
    (forall l, Permutation (sort l) l) -> numbers_orbitals mode L -> is_fermi_sea lt eps ef mode L s0 ->
    (0 < L)%Z -> (L * (1 + 3 * L) < two64)%Z -> site L q -> is_momentum_basis L q b -> Permutation order (seq 0 (length b)) ->
    length vec = length b ->
    exists l, non_vanishing (K := K) lt sort eps ef b (basis_get_conjugate order b) = Ok l /\
      pn_result l vec = Ok (double_sum re_prod mode s0 b vec, 0) /\
      double_sum im_prod mode s0 b vec = 0.
  Proof.
    intros Fl lt sort eps ef mode L q s0 b order vec Hs Hm Hf HL HB Hq Hb Ho Hv. apply mb_closed in Hb; try assumption. subst b.
    eexists. split; [rewrite conj_order by exact Ho; apply (non_vanishing_ok lt sort eps ef Hs mode L q s0 Hm Hf HL Hq)|].
    assert (Len : Z.of_nat (length (mom_closed L q)) = (1 + L * L)%Z) by apply (len_b L q HL).
    assert (D : forall part, sum_over (fun e : contribution => part (vn vec (fst (fst e))) (vn vec (snd (fst e))) * snd e) (flat_map (entry_list lt eps ef L q) (all_pairs L)) =
                double_sum part mode s0 (mom_closed L q) vec).
    { intros part. rewrite sum_over_flat_map. etransitivity; [|etransitivity; [apply (sum_pairs (fun i j => part (vn vec i) (vn vec j) *
        expectation_in mode s0 (shifted_op 1 (bm L q i)) (shifted_op 1 (bm L q j))) L)|]].
      - apply sum_over_ext. intros [i j] Hp. apply (in_pairs L HL) in Hp. cbn [fst snd] in *. destruct Hp as [Hi Hj].
        rewrite (expectation_value lt eps ef mode L q s0 Hm Hf HL Hq) by (assumption || apply conj_1). unfold entry_list. cbn [fst snd].
        destruct (flag lt eps ef L q i j); [rewrite sum_over_cons, sum_over_nil; cbn [fst snd]|rewrite sum_over_nil]; ring.
      - rewrite <- Len. rewrite sum_zrange. unfold double_sum. apply sum_over_ext. intros i Hi. rewrite sum_zrange. apply sum_over_ext. intros j Hj.
        apply in_seq in Hi. apply in_seq in Hj. unfold vn. rewrite !Nat2Z.id.
        assert (B : forall k, (k < length (mom_closed L q))%nat -> nth k (mom_closed L q) [] = bm L q (Z.of_nat k)).
        { intros k Hk. apply nth_error_nth with (d := []). pose proof (nth_b L q HL Hq (Z.of_nat k) ltac:(lia)) as Q. rewrite Nat2Z.id in Q. exact Q. }
        rewrite !B by lia. reflexivity. }
    assert (I0 : double_sum im_prod mode s0 (mom_closed L q) vec = 0).
    { rewrite <- D, sum_over_flat_map.
      etransitivity; [|etransitivity; [apply (sum_pairs (fun i j => im_prod (vn vec i) (vn vec j) * (if flag lt eps ef L q i j then val lt eps ef L q 1 i j else 0)) L)|]].
      - apply sum_over_ext. intros [i j] Hp. unfold entry_list. cbn [fst snd].
        destruct (flag lt eps ef L q i j); [rewrite sum_over_cons, sum_over_nil; cbn [fst snd]|rewrite sum_over_nil]; ring.
      - apply sum_antisym.
        + intros i. unfold im_prod. ring.
        + intros i j. assert (F : flag lt eps ef L q i j = flag lt eps ef L q j i).
          { unfold flag. rewrite (andb_comm (kr L q i)). destruct (kr L q j && kr L q i)%bool; [reflexivity|]. rewrite (Z.eqb_sym i j). destruct (Z.eqb_spec j i) as [->|]; reflexivity. }
          assert (V : val lt eps ef L q (K := K) 1 i j = val lt eps ef L q 1 j i).
          { unfold val. rewrite (andb_comm (kr L q i)). destruct (kr L q j && kr L q i)%bool; [ring|reflexivity]. }
          rewrite F, V. unfold im_prod. ring. }
    split; [|exact I0]. unfold pn_result. rewrite pn_fold.
    - cbn [fst snd]. f_equal. f_equal.
      + etransitivity; [apply (f_equal (radd 0)); exact (D re_prod)|ring].
      + etransitivity; [apply (f_equal (radd 0)); etransitivity; [exact (D im_prod)|exact I0]|ring].
    - intros i j v H. apply (in_entries lt eps ef L q HL) in H. rewrite Hv, Len. tauto.
  Qed.
End C50.

(** sort(): the comparison is a strict order that distinguishes different index pairs, so the
    sorted list is unique (the pairs are distinct, C49_support). *)
Theorem C49_sort_comparison : forall (K : StarRing) (a b c : contribution (K := K)),
  nv_less a a = false /\
  (nv_less a b = true -> nv_less b c = true -> nv_less a c = true) /\
  (nv_less a b = false -> nv_less b a = false -> fst a = fst b).
Proof.
  intros K [[i j] x] [[i' j'] x'] [[i'' j''] x'']. unfold nv_less. cbn [fst snd].
  rewrite Z.ltb_irrefl, Z.eqb_refl, Z.ltb_irrefl. split; [reflexivity|]. split.
  - destruct (Z.ltb_spec i i'), (Z.eqb_spec i i'), (Z.ltb_spec i' i''), (Z.eqb_spec i' i''), (Z.ltb_spec i i''), (Z.eqb_spec i i''),
      (Z.ltb_spec j j'), (Z.ltb_spec j' j''), (Z.ltb_spec j j''); intros; try reflexivity; try discriminate; lia.
  - destruct (Z.ltb_spec i i'), (Z.eqb_spec i i'), (Z.ltb_spec i' i), (Z.eqb_spec i' i), (Z.ltb_spec j j'), (Z.ltb_spec j' j); intros; try discriminate; f_equal; lia.
Qed.
