(** THEOREMS: C50 (closed form of the particle number, it is never negative). *)
From Coq Require Import Reals Lra.
From Verif Require Import Base Spec_Fock FockFacts Pf_FockDiag M_Operator M_Lattice Spec_Lattice Pf_Lattice M_LatticeReal Spec_LatticeReal M_Basis Pf_Basis M_Matrix Pf_Matrix Spec_Algebra Spec_Matrix
  Spec_FermiSea M_Number M_Dispersion M_OpenMP Pf_OpenMP M_SiteOccupation Pf_SiteOccupation P_SiteOccupation M_FermiSea Pf_FermiSea P_FermiSea M_NonVanishing Pf_NonVanishing Pf_Matrix2 P_Momentum P_FermiJump P_NonVanishing
  Pf_Liouville Pf_Jump Spec_ParticleNumber.
Local Open Scope list_scope.

Section Form.
  Context {K : StarRing}.
  Add Ring KringPF : (rth K).
  Local Open Scope ring_scope_.
  Context {Fl : Type} (lt : Fl -> Fl -> bool) (eps : Z -> Fl) (ef : Fl) (mode : hub -> nat) (L q : Z) (s0 : N).
  Hypothesis Hm : numbers_orbitals mode L.
  Hypothesis Hf : is_fermi_sea lt eps ef mode L s0.
  Hypothesis HL : (0 < L)%Z.
  Hypothesis Hq : site L q.
  Let n k := lt (eps k) ef.
  Notation occ01 := (occupied (K := K)).
  Definition bf (r : Z) : K := occ01 (kr L q r) * fac lt eps ef L 1 r.
  Definition bg (r : Z) : K := occ01 (negb (kr L q r)) * ((1 + 1 + (1 + 1)) * occ01 (n (a1 L q r) && (n (a2 L r) && negb (n (a3 L q r)))))%bool.
  Lemma gram i j : (if flag lt eps ef L q i j then val lt eps ef L q 1 i j else 0) =
    occ01 (n q) * (bf i * bf j) + delta i j * bg i.
  Proof.
    unfold flag, val, bf, bg, delta. fold (n q) (n (a1 L q i)) (n (a2 L i)) (n (a3 L q i)).
    destruct (kr L q i) eqn:Ki, (kr L q j) eqn:Kj, (Z.eqb_spec i j) as [E|E]; try (subst j; congruence); cbn [andb negb occupied];
      destruct (n q); cbn [occupied]; try destruct (n (a1 L q i) && (n (a2 L i) && negb (n (a3 L q i))))%bool; cbn [occupied]; ring.
  Qed.
  Lemma sum_split (F : Z -> K) : sum_over F (zrange 0 (1 + L * L)) =
    F 0%Z + sum_over (fun k1 => sum_over (fun k2 => F (1 + k1 * L + k2)%Z) (zrange 0 L)) (zrange 0 L).
  Proof.
    rewrite zrange_cons by nia. rewrite sum_over_cons. f_equal. change (0 + 1)%Z with 1%Z.
    rewrite zrange_blocks by lia. rewrite ?sum_over_flat_map. apply sum_over_ext. intros k1 _.
    rewrite ?zrange_shift by lia. rewrite sum_over_map. reflexivity.
  Qed.
  Section Idx.
    Variables k1 k2 : Z.
    Hypothesis H1 : site L k1.
    Hypothesis H2 : site L k2.
    Let r := (1 + k1 * L + k2)%Z.
    Lemma r_ne : (r =? 0)%Z = false.
    Proof. apply Z.eqb_neq. unfold r, site in *. nia. Qed.
    Lemma r_a1 : a1 L q r = k1.
    Proof. unfold a1. rewrite r_ne. unfold r, site in *. replace (1 + k1 * L + k2 - 1)%Z with (k2 + k1 * L)%Z by ring. rewrite Z.div_add, Z.div_small by lia. ring. Qed.
    Lemma r_a2 : a2 L r = k2.
    Proof. unfold a2, r, site in *. replace (1 + k1 * L + k2 - 1)%Z with (k2 + k1 * L)%Z by ring. rewrite Z.mod_add, Z.mod_small by lia. reflexivity. Qed.
    Lemma r_a3 : a3 L q r = ((k1 + k2 - q) mod L)%Z.
    Proof. unfold a3. rewrite r_a1, r_a2. reflexivity. Qed.
    Lemma r_kr : kr L q r = (k1 =? q)%Z.
    Proof.
      assert (Rr : (0 <= r < 1 + L * L)%Z) by (unfold r, site in *; nia).
      destruct (Z.eqb_spec k1 q) as [E|E].
      - unfold kr. rewrite r_ne. apply Z.eqb_eq. rewrite r_a2, r_a3, E. unfold site in *. replace (q + k2 - q)%Z with k2 by ring. symmetry. apply Z.mod_small. lia.
      - destruct (kr L q r) eqn:Ek; [|reflexivity]. exfalso. apply E. rewrite <- r_a1. apply (kr_a1 L q HL Hq r Rr Ek).
    Qed.
    Lemma r_bf : bf r = delta k1 q * (1 + (occ01 (n k2) + occ01 (n k2))).
    Proof. unfold bf. rewrite r_kr. unfold fac, delta. rewrite r_ne, r_a2. fold (n k2). destruct (k1 =? q)%Z, (n k2); cbn [occupied]; ring. Qed.
    Lemma r_bg : bg r = if (k1 =? q)%Z then 0 else (1 + 1 + 1 + 1) * (occ01 (n k1) * occ01 (n k2) * occ01 (negb (n ((k1 + k2 - q) mod L)%Z))).
    Proof. unfold bg. rewrite r_kr, r_a1, r_a2, r_a3. destruct (k1 =? q)%Z, (n k1), (n k2), (n ((k1 + k2 - q) mod L)%Z); cbn [occupied negb andb]; ring. Qed.
  End Idx.
  Lemma bf_0 : bf 0 = 1.
  Proof. unfold bf, kr, fac. cbn [Z.eqb occupied]. ring. Qed.
  Lemma bg_0 : bg 0 = 0.
  Proof. unfold bg, kr. cbn [Z.eqb occupied negb]. ring. Qed.
  Lemma sum_bf (X : Z -> K) : sum_over (fun i => bf i * X i) (zrange 0 (1 + L * L)) =
    X 0%Z + sum_over (fun k => (1 + (occ01 (n k) + occ01 (n k))) * X (1 + q * L + k)%Z) (zrange 0 L).
  Proof.
    rewrite sum_split, bf_0. f_equal; [ring|].
    rewrite (sum_over_ext _ _ (fun k1 => delta k1 q * sum_over (fun k => (1 + (occ01 (n k) + occ01 (n k))) * X (1 + k1 * L + k)%Z) (zrange 0 L))).
    - rewrite (sum_delta (fun k1 => sum_over (fun k => (1 + (occ01 (n k) + occ01 (n k))) * X (1 + k1 * L + k)%Z) (zrange 0 L))) by apply zrange_nodup.
      replace (existsb (Z.eqb q) (zrange 0 L)) with true; [reflexivity|]. symmetry. apply existsb_exists. exists q. split; [apply zrange_in; exact Hq|apply Z.eqb_refl].
    - intros k1 H1. apply zrange_in in H1. rewrite <- sum_over_mul_l. apply sum_over_ext. intros k2 H2. apply zrange_in in H2. rewrite r_bf by assumption. ring.
  Qed.
  Lemma sum_bg (X : Z -> K) : sum_over (fun i => bg i * X i) (zrange 0 (1 + L * L)) =
    sum_over (fun k1 => sum_over (fun k2 => if (k1 =? q)%Z then 0 else
      (1 + 1 + 1 + 1) * (occ01 (n k1) * occ01 (n k2) * occ01 (negb (n ((k1 + k2 - q) mod L)%Z)) * X (1 + k1 * L + k2)%Z)) (zrange 0 L)) (zrange 0 L).
  Proof.
    rewrite sum_split, bg_0. etransitivity; [apply (f_equal (fun x => x + _)); instantiate (1 := 0); ring|]. rewrite (Radd_0_l (rth K)).
    apply sum_over_ext. intros k1 H1. apply zrange_in in H1. apply sum_over_ext. intros k2 H2. apply zrange_in in H2.
    rewrite r_bg by assumption. destruct (k1 =? q)%Z; ring.
  Qed.
  Lemma form_value (h : Z -> K * K) :
    sum_over (fun i => sum_over (fun j => re_prod (h i) (h j) * (if flag lt eps ef L q i j then val lt eps ef L q 1 i j else 0)) (zrange 0 (1 + L * L))) (zrange 0 (1 + L * L)) =
    particle_number_form L q n h.
  Proof.
    unfold particle_number_form. rewrite <- (sum_bg (fun i => abs2 (h i))).
    assert (S : scattering L q n h = (sum_over (fun i => bf i * fst (h i)) (zrange 0 (1 + L * L)), sum_over (fun i => bf i * snd (h i)) (zrange 0 (1 + L * L)))).
    { unfold scattering. rewrite (sum_bf (fun i => fst (h i))), (sum_bf (fun i => snd (h i))). reflexivity. }
    rewrite S. unfold abs2 at 1. cbn [fst snd].
    set (I := zrange 0 (1 + L * L)). set (A := sum_over (fun i => bf i * fst (h i)) I). set (B := sum_over (fun i => bf i * snd (h i)) I).
    transitivity (sum_over (fun i => (occ01 (n q) * A) * (bf i * fst (h i)) + ((occ01 (n q) * B) * (bf i * snd (h i)) + bg i * abs2 (h i))) I).
    - apply sum_over_ext. intros i Hi.
      transitivity (sum_over (fun j => (occ01 (n q) * (bf i * fst (h i))) * (bf j * fst (h j)) + ((occ01 (n q) * (bf i * snd (h i))) * (bf j * snd (h j)) + delta j i * (bg i * re_prod (h i) (h j)))) I).
      + apply sum_over_ext. intros j _. rewrite gram. unfold re_prod. replace (delta i j) with (delta (K := K) j i) by (unfold delta; rewrite Z.eqb_sym; reflexivity). ring.
      + rewrite !sum_over_add, !sum_over_mul_l. rewrite (sum_delta (fun j => bg i * re_prod (h i) (h j))) by apply zrange_nodup.
        replace (existsb (Z.eqb i) I) with true; [|symmetry; apply existsb_exists; exists i; split; [exact Hi|apply Z.eqb_refl]].
        fold A B. unfold re_prod, abs2. ring.
    - rewrite !sum_over_add, !sum_over_mul_l. fold A B. ring.
  Qed.
  Lemma double_sum_form (vec : list (K * K)) : double_sum re_prod mode s0 (mom_closed L q) vec = particle_number_form L q n (vn vec).
  Proof.
    rewrite <- form_value. assert (Len : Z.of_nat (length (mom_closed L q)) = (1 + L * L)%Z) by apply (len_b L q HL).
    unfold double_sum. rewrite <- Len, sum_zrange. apply sum_over_ext. intros i Hi. rewrite sum_zrange. apply sum_over_ext. intros j Hj.
    apply in_seq in Hi. apply in_seq in Hj. unfold vn. rewrite !Nat2Z.id. f_equal.
    assert (B : forall k, (k < length (mom_closed L q))%nat -> nth k (mom_closed L q) [] = bm L q (Z.of_nat k)).
    { intros k Hk. apply nth_error_nth with (d := []). pose proof (nth_b L q HL Hq (Z.of_nat k) ltac:(lia)) as Q. rewrite Nat2Z.id in Q. exact Q. }
    rewrite !B by lia. apply (expectation_value lt eps ef mode L q s0 Hm Hf HL Hq); [apply conj_1|lia|lia].
  Qed.
End Form.

(** there is a state with the orbitals below the Fermi energy occupied *)
Definition orbital_of (i : hub) : nat := 2 * Z.to_nat (fst i) + (if snd i then 0 else 1).
Lemma orbital_of_numbers N : numbers_orbitals orbital_of N.
Proof.
  intros i sp j sp' [Hi _] [Hj _] H. unfold orbital_of in H. cbn [fst snd] in H.
  destruct sp, sp'; (split; [|first [reflexivity|exfalso; lia]]); lia.
Qed.
Lemma bits_exist (f : nat -> bool) m : exists s : N, forall k, (k < m)%nat -> occ s k = f k.
Proof.
  induction m as [|m (s & IH)]; [exists 0%N; intros k Hk; lia|].
  exists (if f m then N.setbit s (N.of_nat m) else N.clearbit s (N.of_nat m)). intros k Hk. unfold occ in *.
  destruct (Nat.eq_dec k m) as [->|Hne].
  - destruct (f m); [apply N.setbit_eq|apply N.clearbit_eq].
  - destruct (f m); [rewrite N.setbit_neq|rewrite N.clearbit_neq]; try lia; apply IH; lia.
Qed.
Lemma fermi_sea_exists {Fl} (lt : Fl -> Fl -> bool) eps ef L : exists s0, is_fermi_sea lt eps ef orbital_of L s0.
Proof.
  destruct (bits_exist (fun k => lt (eps (Z.of_nat (Nat.div2 k))) ef) (2 * Z.to_nat L)) as (s0 & H). exists s0. intros i spin Hi.
  rewrite H; unfold orbital_of; cbn [fst snd]; unfold site in Hi.
  - assert (D : Nat.div2 (2 * Z.to_nat i + (if spin then 0 else 1)) = Z.to_nat i).
    { destruct spin; [rewrite Nat.add_0_r; apply Nat.div2_double|]. rewrite Nat.add_1_r. apply Nat.div2_succ_double. }
    rewrite D, Z2Nat.id by lia. reflexivity.
  - destruct spin; lia.
Qed.

(** What operator() returns, for every coefficient vector. *)
Theorem C50_closed_form : forall (K : StarRing) {Fl} (lt : Fl -> Fl -> bool) sort eps ef L q b order,
  (forall l, Permutation (sort l) l) ->
  (0 < L)%Z -> (L * (1 + 3 * L) < two64)%Z -> site L q -> is_momentum_basis L q b -> Permutation order (seq 0 (length b)) ->
  exists l, non_vanishing (K := K) lt sort eps ef b (basis_get_conjugate order b) = Ok l /\
    forall vec : list (K * K), length vec = length b ->
    pn_result l vec = Ok (particle_number_form L q (fun k => lt (eps k) ef) (fun i => nth (Z.to_nat i) vec (r0, r0)), r0).
Proof.
  intros K Fl lt sort eps ef L q b order Hs HL HB Hq Hb Ho.
  destruct (fermi_sea_exists lt eps ef L) as (s0 & Hf). pose proof (orbital_of_numbers L) as Hm.
  destruct (C50_particle_number lt sort eps ef orbital_of L q s0 b order (repeat ((r0, r0) : K * K) (length b)) Hs Hm Hf HL HB Hq Hb Ho ltac:(apply repeat_length)) as (l & El & _ & _).
  exists l. split; [exact El|]. intros vec Hv.
  destruct (C50_particle_number lt sort eps ef orbital_of L q s0 b order vec Hs Hm Hf HL HB Hq Hb Ho Hv) as (l' & El' & Ep & _).
  assert (l' = l) by congruence. subst l'.
  rewrite Ep. apply mb_closed in Hb; try assumption. subst b.
  rewrite (double_sum_form lt eps ef orbital_of L q s0 Hm Hf HL Hq). reflexivity.
Qed.

(** With real numbers the particle number is never negative, whatever the coefficients. *)
Lemma form_nonneg L q n (h : Z -> R * R) : (0 <= (particle_number_form (K := Rring) L q n h : R))%R.
Proof.
  assert (O : forall o, (0 <= (occupied (K := Rring) o : R) <= 1)%R) by (intros []; cbn; lra).
  assert (A : forall z : Rring * Rring, (0 <= (abs2 (K := Rring) z : R))%R).
  { intros [x y]. unfold abs2. cbn. pose proof (Rle_0_sqr x). pose proof (Rle_0_sqr y). unfold Rsqr in *. lra. }
  assert (S : forall (f : Z -> R) m, (forall i, 0 <= f i)%R -> (0 <= (sum_over (K := Rring) f m : R))%R).
  { intros f m Hf0. induction m as [|a m IH]; [rewrite sum_over_nil; cbn; lra|]. rewrite sum_over_cons. cbn in IH |- *. pose proof (Hf0 a). lra. }
  unfold particle_number_form. apply Rplus_le_le_0_compat.
  - apply Rmult_le_pos; [apply O|apply A].
  - apply S. intros k1. apply S. intros k2. destruct (k1 =? q)%Z; [cbn; lra|].
    repeat apply Rmult_le_pos; try apply O; try apply A. cbn. lra.
Qed.
Theorem C50_nonnegative : forall {Fl} (lt : Fl -> Fl -> bool) sort eps ef L q b order,
  (forall l, Permutation (sort l) l) ->
  (0 < L)%Z -> (L * (1 + 3 * L) < two64)%Z -> site L q -> is_momentum_basis L q b -> Permutation order (seq 0 (length b)) ->
  exists l, non_vanishing (K := Rring) lt sort eps ef b (basis_get_conjugate order b) = Ok l /\
    forall vec : list (R * R), length vec = length b ->
    exists x, pn_result (K := Rring) l vec = Ok ((x, 0%R) : Rring * Rring) /\ (0 <= x)%R.
Proof.
  intros Fl lt sort eps ef L q b order Hs HL HB Hq Hb Ho.
  destruct (C50_closed_form Rring lt sort eps ef L q b order Hs HL HB Hq Hb Ho) as (l & El & Ep).
  exists l. split; [exact El|]. intros vec Hv. eexists. split; [exact (Ep vec Hv)|apply form_nonneg].
Qed.
Print Assumptions C50_closed_form.
Print Assumptions C50_nonnegative.
