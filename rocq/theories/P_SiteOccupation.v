(** THEOREMS: C42, C43, C44 (site occupation). *)
From Verif Require Import Base Spec_Fock FockFacts M_Operator M_Lattice Spec_Lattice Pf_Lattice M_Basis Pf_Basis P_Basis
  M_Matrix Pf_Matrix Spec_Algebra Spec_Matrix Spec_Dynamics M_Ode P_Dynamics M_Number M_Dispersion M_OpenMP Spec_OpenMP Pf_OpenMP M_SiteOccupation
  Pf_SiteOccupation Spec_Slater Pf_Slater Pf_SlaterHub.
Local Open Scope list_scope.

(** the value of the expectation value function of two operators depends on their sites only *)
Definition by_site {F : StarRing} (rho : Z -> Z -> F) (x y : op hub) : F := rho (index1 x) (index1 y).

(** the function operator() uses for a pair of monomials of the given lengths *)
Definition expectation {F : StarRing} (half : F) (ev : op hub -> op hub -> F) (a b : monomial hub) : outcome F :=
  if Nat.eqb (length a) 1 then if Nat.eqb (length b) 1 then so_1_1 ev a b else so_1_3 half ev a b
  else if Nat.eqb (length b) 1 then so_3_1 half ev a b else so_3_3 ev a b.
(** get_conjugate() of a basis is the list of the conjugate monomials, whatever the loop order (C29) *)
Lemma conjugate_all order b : Permutation order (seq 0 (length b)) -> basis_get_conjugate order b = conjugate_basis b.
Proof. apply fold_update_all. Qed.

(** ** C44: reductions do not depend on the schedule *)
Theorem C44_reduction : forall (K : StarRing) (T : nat) lo hi s (adds : Z -> list K) r,
  shares T lo hi s ->
  par_reduce s (fun i => Ok (adds i)) (repeat r0 T) = Some r ->
  exists results, r = Ok results /\
    accumulate results = sum_over (fun i => sum_over (fun x => x) (adds i)) (zrange lo hi).
Proof.
  intros K T lo hi s adds r Hs H.
  destruct (par_reduce_value T lo hi s _ adds (repeat r0 T) r Hs (Nat.eq_le_incl _ _ (eq_sym (repeat_length r0 T))) (fun i _ => eq_refl) H) as (res & -> & _ & E).
  exists res. split; [reflexivity|]. rewrite accumulate_sum, E.
  rewrite sum_over_zero; [apply add0l|]. intros x Hx. apply repeat_spec in Hx. exact Hx.
Qed.
Print Assumptions C44_reduction.
(** different threads never touch the same element of [results] *)
Theorem C44_no_sharing : forall (K : StarRing) s (adds : Z -> list K) progs,
  omap (fun p => oconcat (fun i => Ok (flat_map (plus_assign (fst p)) (adds i))) (snd p))
    (combine (seq 0 (length (who s))) (who s)) = Ok progs ->
  forall t t' p p' o o', t <> t' -> nth_error progs t = Some p -> nth_error progs t' = Some p' ->
    In o p -> In o' p' -> cell o <> cell o'.
Proof.
  intros K s adds progs E t t' p p' o o' Ht Hp Hp' Ho Ho'.
  rewrite (omap_ok _ (red_prog adds)) in E.
  2:{ intros [k its] _. cbn [fst snd]. unfold red_prog. cbn [fst snd].
      rewrite (oconcat_ok _ (fun i => flat_map (plus_assign k) (adds i))) by reflexivity.
      f_equal. induction its as [|i its IH]; cbn [flat_map]; [reflexivity|]. rewrite flat_map_app, IH. reflexivity. }
  injection E as <-. rewrite nth_error_map in Hp, Hp'.
  destruct (nth_error (combine _ _) t) as [q|] eqn:Q; [|discriminate].
  destruct (nth_error (combine _ _) t') as [q'|] eqn:Q'; [|discriminate].
  injection Hp as <-. injection Hp' as <-. apply red_prog_cell in Ho, Ho'.
  apply nth_error_combine_seq in Q, Q'. lia.
Qed.
Print Assumptions C44_no_sharing.
(** for every distribution of the iterations some interleaving runs to the end *)
Theorem C44_completes : forall (K : StarRing) w (adds : Z -> outcome (list K)) results,
  exists tr, par_reduce (mkSch w tr) adds results <> None.
Proof. intros. apply par_reduce_finishes. Qed.
Print Assumptions C44_completes.

Section Occ.
Context (F : StarRing) (half : F) (Hh : radd half half = r1).
Local Open Scope ring_scope_.
Add Ring FrOcc : (rth F).
Let CF := cplx_ring F.
Add Ring CrOcc : (rth CF).

(** the site occupation does not depend on thread count, distribution or interleaving *)
Theorem C44_site_occupation : forall rho lat N (v : list (F * F)) order T s1 s2 s3 T' s1' s2' s3' r r',
  shipped lat N -> (N + N * N * N < two64)%Z -> Z.of_nat (length v) = (N + N * N * N)%Z ->
  Permutation order (seq 0 (length (basis3 lat))) ->
  shares T 0 N s1 -> shares T 0 N s2 -> shares T N (N + N * N * N) s3 ->
  shares T' 0 N s1' -> shares T' 0 N s2' -> shares T' N (N + N * N * N) s3' ->
  let run sym T s1 s2 s3 := site_occupation3 half (by_site rho) (basis3 lat) (basis_get_conjugate order (basis3 lat)) v sym N T s1 s2 s3 in
  (run false T s1 s2 s3 = Some r -> run false T' s1' s2' s3' = Some r' -> r = r' /\ exists x, r = Ok x) /\
  ((forall a b, site N a -> site N b -> rho a b = rho b a) ->
   run true T s1 s2 s3 = Some r -> run true T' s1' s2' s3' = Some r' -> r = r' /\ exists x, r = Ok x).
Proof.
  intros rho lat N v order T s1 s2 s3 T' s1' s2' s3' r r' HL HS Hv Ho H1 H2 H3 H1' H2' H3' run. apply shipped_regular in HL.
  unfold run. rewrite conjugate_all by exact Ho. split.
  - intros R R'.
    apply (full_total half rho lat N v HL HS Hv T s1 s2 s3 r H1 H2 H3) in R.
    apply (full_total half rho lat N v HL HS Hv T' s1' s2' s3' r' H1' H2' H3') in R'. split; [congruence|]. eexists. exact R.
  - intros HR R R'.
    apply (symmetric_total half rho lat N v HL HS Hv T s1 s2 s3 r HR H1 H2 H3) in R.
    apply (symmetric_total half rho lat N v HL HS Hv T' s1' s2' s3' r' HR H1' H2' H3') in R'. split; [congruence|]. eexists. exact R.
Qed.

(** for every distribution of the iterations there are interleavings with which all loops run to the end *)
Theorem C44_site_occupation_completes : forall rho basis conj (v : list (F * F)) sym N T w1 w2 w3,
  exists t1 t2 t3, site_occupation3 half (by_site rho) basis conj v sym N T (mkSch w1 t1) (mkSch w2 t2) (mkSch w3 t3) <> None.
Proof.
  intros rho basis conj v sym N T w1 w2 w3. unfold site_occupation3.
  match goal with |- exists t1 t2 t3, pbind (par_reduce _ ?a1 ?z) (fun r => pbind (par_reduce _ ?a2 r) (fun r' => pbind (par_reduce _ ?a3 r') _)) <> None =>
    set (f1 := a1); set (f2 := a2); set (f3 := a3); set (z0 := z) end.
  destruct (par_reduce_finishes (K := cplx_ring F) w1 f1 z0) as (t1 & P1). exists t1.
  destruct (par_reduce (K := cplx_ring F) (mkSch w1 t1) f1 z0) as [[x1|]|]; [|exists [], []; cbn [pbind]; discriminate|congruence]. cbn [pbind].
  destruct (par_reduce_finishes (K := cplx_ring F) w2 f2 x1) as (t2 & P2). exists t2.
  destruct (par_reduce (K := cplx_ring F) (mkSch w2 t2) f2 x1) as [[x2|]|]; [|exists []; cbn [pbind]; discriminate|congruence]. cbn [pbind].
  destruct (par_reduce_finishes (K := cplx_ring F) w3 f3 x2) as (t3 & P3). exists t3.
  destruct (par_reduce (K := cplx_ring F) (mkSch w3 t3) f3 x2) as [[x3|]|]; [cbn [pbind]; discriminate|cbn [pbind]; discriminate|congruence].
Qed.

(** ** C42: the shortcut gives the same number, and the number is real *)
Theorem C42_shortcut : forall rho lat N (v : list (F * F)) order T s1 s2 s3 T' s1' s2' s3' r r',
  shipped lat N -> (N + N * N * N < two64)%Z -> Z.of_nat (length v) = (N + N * N * N)%Z ->
  Permutation order (seq 0 (length (basis3 lat))) ->
  shares T 0 N s1 -> shares T 0 N s2 -> shares T N (N + N * N * N) s3 ->
  shares T' 0 N s1' -> shares T' 0 N s2' -> shares T' N (N + N * N * N) s3' ->
  (forall a b, site N a -> site N b -> rho a b = rho b a) ->
  let run sym T s1 s2 s3 := site_occupation3 half (by_site rho) (basis3 lat) (basis_get_conjugate order (basis3 lat)) v sym N T s1 s2 s3 in
  run true T s1 s2 s3 = Some r -> run false T' s1' s2' s3' = Some r' ->
  exists x : F, r = Ok (x, 0) /\ r' = Ok (x, 0).
Proof.
  intros rho lat N v order T s1 s2 s3 T' s1' s2' s3' r r' HL HS Hv Ho H1 H2 H3 H1' H2' H3' HR run R R'. apply shipped_regular in HL.
  unfold run in R, R'. rewrite conjugate_all in R, R' by exact Ho.
  apply (symmetric_total half rho lat N v HL HS Hv T s1 s2 s3 r HR H1 H2 H3) in R.
  apply (full_total half rho lat N v HL HS Hv T' s1' s2' s3' r' H1' H2' H3') in R'.
  pose proof (total_real half Hh rho lat N v HL HS HR) as Im.
  exists (fst (total half rho N v)).
  assert (E : total half rho N v = (fst (total half rho N v), 0)) by (rewrite <- Im; apply surjective_pairing).
  rewrite <- E. auto.
Qed.
(** the code's expectation values of the basis elements *)
Lemma expectation_Ef : forall rho lat N i j a b,
  shipped lat N -> (N + N * N * N < two64)%Z -> (0 <= i)%Z -> (0 <= j)%Z ->
  nth_error (basis3 lat) (Z.to_nat i) = Some a -> nth_error (basis3 lat) (Z.to_nat j) = Some b ->
  (i < N + N * N * N)%Z /\ (j < N + N * N * N)%Z /\
  expectation half (by_site rho) a (mono_conjugate (T := hub) b) = Ok (Ef half rho N i j).
Proof.
  intros rho lat N i j a b' HL HS Hi Hj Ha Eb. apply shipped_regular in HL.
  assert (Ri : (i < N + N * N * N)%Z) by (pose proof (basis3_len lat N HL); assert (Z.to_nat i < length (basis3 lat))%nat by (apply nth_error_Some; congruence); pose proof (N_pos lat N HL); nia).
  assert (Rj : (j < N + N * N * N)%Z) by (pose proof (basis3_len lat N HL); assert (Z.to_nat j < length (basis3 lat))%nat by (apply nth_error_Some; congruence); pose proof (N_pos lat N HL); nia).
  split; [exact Ri|]. split; [exact Rj|].
  assert (A : vread (basis3 lat) i = Ok a) by (apply vread_some; assumption).
  assert (B : vread (conjugate_basis (basis3 lat)) j = Ok (mono_conjugate (T := hub) b')).
  { apply vread_some; [assumption|]. unfold conjugate_basis. rewrite nth_error_map, Eb. reflexivity. }
  set (cb := mono_conjugate (T := hub) b') in *.
  set (v := repeat (0, 0) (Z.to_nat (N + N * N * N)) : list (F * F)).
  assert (Hv : Z.of_nat (length v) = (N + N * N * N)%Z) by (unfold v; rewrite repeat_length; lia).
  assert (P : forall e0, (forall mult, product (basis3 lat) (conjugate_basis (basis3 lat)) v e0 mult i j = Ok (mult (Ef half rho N i j) (vv v i) (vv v j))) -> e0 a cb = Ok (Ef half rho N i j)).
  { intros e0 Q. specialize (Q (fun x _ _ => (x, 0))). unfold product in Q. rewrite A, B in Q. cbn [obind] in Q.
    destruct (e0 a cb) as [x|]; cbn [obind] in Q; [|discriminate].
    rewrite !(vread_nth v _ (0, 0)) in Q by lia. cbn [obind] in Q. injection Q as ->. reflexivity. }
  unfold expectation.
  destruct (Z_lt_le_dec i N) as [Li|Li], (Z_lt_le_dec j N) as [Lj|Lj].
  - rewrite (read1 lat N v HL i) in A by lia. rewrite (readc1 lat N v HL j) in B by lia.
    injection A as <-. injection B as <-. cbn [length Nat.eqb]. apply P. intros mult. apply product_1_1; assumption || lia.
  - rewrite (read1 lat N v HL i) in A by lia. rewrite (readc3 lat N v HL HS j) in B by lia.
    injection A as <-. injection B as <-. cbn [length Nat.eqb]. apply P. intros mult. apply product_1_3; assumption || lia.
  - rewrite (read3 lat N v HL HS i) in A by lia. rewrite (readc1 lat N v HL j) in B by lia.
    injection A as <-. injection B as <-. cbn [length Nat.eqb]. apply P. intros mult. apply product_3_1; assumption || lia.
  - rewrite (read3 lat N v HL HS i) in A by lia. rewrite (readc3 lat N v HL HS j) in B by lia.
    injection A as <-. injection B as <-. cbn [length Nat.eqb]. apply P. intros mult. apply product_3_3; assumption || lia.
Qed.
(** the full sum spelled out *)
Theorem C42_double_sum : forall rho lat N (v : list (F * F)) order T s1 s2 s3 r,
  shipped lat N -> (N + N * N * N < two64)%Z -> Z.of_nat (length v) = (N + N * N * N)%Z ->
  Permutation order (seq 0 (length (basis3 lat))) ->
  shares T 0 N s1 -> shares T 0 N s2 -> shares T N (N + N * N * N) s3 ->
  site_occupation3 half (by_site rho) (basis3 lat) (basis_get_conjugate order (basis3 lat)) v false N T s1 s2 s3 = Some r ->
  exists e : Z -> Z -> F,
    (forall i j a b, (0 <= i)%Z -> (0 <= j)%Z ->
       nth_error (basis3 lat) (Z.to_nat i) = Some a -> nth_error (basis3 lat) (Z.to_nat j) = Some b ->
       expectation half (by_site rho) a (mono_conjugate (T := hub) b) = Ok (e i j)) /\
    r = Ok (sum_over (K := CF) (fun i => sum_over (fun j =>
              ((e i j * half, 0) : CF) * (vget (K := CF) v i * kconj (vget (K := CF) v j))) (zrange 0 (N + N * N * N))) (zrange 0 (N + N * N * N))).
Proof.
  intros rho lat N v order T s1 s2 s3 r HL HS Hv Ho H1 H2 H3 R.
  rewrite conjugate_all in * by exact Ho.
  apply (full_total half rho lat N v (shipped_regular _ _ HL) HS Hv T s1 s2 s3 r H1 H2 H3) in R.
  exists (Ef half rho N). split; [|exact R].
  intros i j a b Hi Hj Ha Hb. apply (expectation_Ef rho lat N i j a b HL HS Hi Hj Ha Hb).
Qed.

(** ** C43: the expectation values are those of a paramagnetic Slater determinant *)
Section State.
Variables (M : nat) (mode : hub -> nat) (N : Z).
Hypothesis mode_inj : numbers_orbitals mode N.
Hypothesis mode_lt : orbitals_below mode N M.
(** orbitals of the determinant; its density matrix is the real function [rho] *)
Variables (phis : list (Z -> CF)) (rho : Z -> Z -> F).
Hypothesis orth : orthonormal N phis.
Hypothesis Hrho : forall i j, site N i -> site N j -> density phis i j = ((rho i j, 0) : CF).
Let psi := slater M mode N phis.

Lemma HhC : radd ((half, 0) : CF) (half, 0) = r1.
Proof. cbn. f_equal; [exact Hh|ring]. Qed.
Lemma delta_emb a b : delta (K := CF) a b = ((dl a b, 0) : CF).
Proof. unfold delta, dl. destruct (a =? b)%Z; reflexivity. Qed.
Definition belem (i : Z) : list (term hub CF) :=
  if (i <? N)%Z then B1 i else B3 (dec1 N i) (dec2 N i) (dec3 N i).
Lemma twice (x : F) : two * x * half = x.
Proof. transitivity ((half + half) * x); [unfold two; ring|rewrite Hh; ring]. Qed.
Ltac halfring := match goal with |- ?l = ?r => transitivity (two * r * half); [unfold eight, four, two; ring|apply twice] end.
Lemma Ef_ov i j lat : regular lat N -> (N + N * N * N < two64)%Z -> (0 <= i < N + N * N * N)%Z -> (0 <= j < N + N * N * N)%Z ->
  ((Ef half rho N i j * half, 0) : CF) = braket M (adjoint_apply M mode (belem i) psi) (adjoint_apply M mode (belem j) psi).
Proof.
  intros HL HS Hi Hj. unfold Ef, belem.
  destruct (Z.ltb_spec i N) as [Li|Li], (Z.ltb_spec j N) as [Lj|Lj]; unfold E11, E13, E31, E33.
  - etransitivity; [|symmetry; apply (ov11 (K := CF) ((half, 0) : CF) HhC M mode N mode_inj mode_lt phis orth); unfold site; lia].
    rewrite Hrho by (unfold site; lia). f_equal. apply twice.
  - destruct (get_3op_index_dec lat N HL HS j) as (K1 & K2 & K3 & _); [lia|].
    assert (Si : site N i) by (unfold site; lia).
    etransitivity; [|symmetry; apply (ov13 (K := CF) ((half, 0) : CF) HhC M mode N mode_inj mode_lt phis orth); assumption].
    rewrite !Hrho, delta_emb by assumption. cbn. f_equal; [|ring].
    transitivity ((half + half) * (two * rho (dec3 N j) (dec2 N j) - (half + half) * dl (dec3 N j) (dec2 N j)) * rho i (dec1 N j));
      [unfold four, two; ring|]. rewrite Hh. unfold two. ring.
  - destruct (get_3op_index_dec lat N HL HS i) as (K1 & K2 & K3 & _); [lia|].
    assert (Sj : site N j) by (unfold site; lia).
    etransitivity; [|symmetry; apply (ov31 (K := CF) ((half, 0) : CF) HhC M mode N mode_inj mode_lt phis orth); assumption].
    rewrite !Hrho, delta_emb by assumption. cbn. f_equal; [|ring].
    transitivity ((half + half) * (two * rho (dec2 N i) (dec3 N i) - (half + half) * dl (dec2 N i) (dec3 N i)) * rho (dec1 N i) j);
      [unfold four, two; ring|]. rewrite Hh. unfold two. ring.
  - destruct (get_3op_index_dec lat N HL HS j) as (K1 & K2 & K3 & _); [lia|].
    destruct (get_3op_index_dec lat N HL HS i) as (I1 & I2 & I3 & _); [lia|].
    etransitivity; [|symmetry; apply (ov33 (K := CF) ((half, 0) : CF) HhC M mode N mode_inj mode_lt phis orth); assumption].
    rewrite !Hrho, !delta_emb by assumption. cbn. f_equal; [|ring]. halfring.
Qed.

Lemma belem_op lat : regular lat N -> (N + N * N * N < two64)%Z -> forall n x, (Z.of_nat n < N + N * N * N)%Z ->
  nth_error (basis3 lat) n = Some x -> belem (Z.of_nat n) = basis_op (K := CF) x.
Proof.
  intros HL HS n x Hn Hx. unfold belem. destruct (Z.ltb_spec (Z.of_nat n) N).
  - pose proof (basis3_nth1 lat N HL (Z.of_nat n) ltac:(unfold site; lia)) as P. rewrite Nat2Z.id in P. rewrite Hx in P. injection P as ->. reflexivity.
  - destruct (get_3op_index_dec lat N HL HS (Z.of_nat n)) as (K1 & K2 & K3 & G); [lia|].
    pose proof (basis3_get lat N HL HS _ _ _ K1 K2 K3) as P. rewrite G, Nat2Z.id, Hx in P. injection P as ->. reflexivity.
Qed.
(** every value used by operator() is twice the overlap of the two basis operators of C30/C33 in
    the determinant (the code halves it) *)
Theorem C43_expectation_values : forall lat i j a b,
  shipped lat N -> (N + N * N * N < two64)%Z ->
  nth_error (basis3 lat) i = Some a -> nth_error (basis3 lat) j = Some b ->
  exists e, expectation half (by_site rho) a (mono_conjugate (T := hub) b) = Ok e /\
    ((e * half, 0) : CF) = braket M (adjoint_apply M mode (basis_op a) psi) (adjoint_apply M mode (basis_op b) psi).
Proof.
  intros lat i j a b HL HS Ha Hb.
  destruct (expectation_Ef rho lat N (Z.of_nat i) (Z.of_nat j) a b HL HS) as (Ri & Rj & E); [lia|lia|rewrite Nat2Z.id; assumption|rewrite Nat2Z.id; assumption|].
  exists (Ef half rho N (Z.of_nat i) (Z.of_nat j)). split; [exact E|]. apply shipped_regular in HL.
  rewrite (Ef_ov (Z.of_nat i) (Z.of_nat j) lat HL HS) by lia.
  rewrite (belem_op lat HL HS i a), (belem_op lat HL HS j b) by assumption. reflexivity.
Qed.
(** overlaps are sesquilinear *)
Lemma overlap_lincomb n (f : Z -> CF) (A : Z -> list (term hub CF)) :
  (forall i, (0 <= i < n)%Z -> on N (A i)) ->
  let V := flat_map (fun i => map (fun t => mkTerm (f i * prefactor t) (operators t)) (A i)) (zrange 0 n) in
  braket M (adjoint_apply M mode V psi) (adjoint_apply M mode V psi) =
  sum_over (fun i => sum_over (fun j => braket M (adjoint_apply M mode (A i) psi) (adjoint_apply M mode (A j) psi) * (f i * kconj (f j))) (zrange 0 n)) (zrange 0 n).
Proof.
  intros HA V.
  assert (HV : on N V).
  { unfold on, V. apply Forall_flat_map, Forall_forall. intros i Hi. apply zrange_in in Hi. apply Forall_map.
    eapply Forall_impl; [|exact (HA i Hi)]. intros t Ht. exact Ht. }
  unfold psi. rewrite (overlap (K := CF) M mode N mode_lt phis V V HV HV).
  unfold V at 2. rewrite sum_over_flat_map. apply sum_over_ext. intros i Hi. apply zrange_in in Hi. rewrite sum_over_map. cbn [prefactor operators].
  unfold V. rewrite (sum_over_ext _ _ (fun a => sum_over (fun j => sum_over (fun b =>
     (f i * kconj (f j)) * (prefactor a * kconj (prefactor b) * E M (labs N) (ml mode) (chis phis) (map (lo mode) (operators a ++ mono_conjugate (T := hub) (operators b))))) (A j)) (zrange 0 n))).
  - rewrite sum_over_swap. apply sum_over_ext. intros j Hj. apply zrange_in in Hj.
    rewrite (overlap (K := CF) M mode N mode_lt phis (A i) (A j) (HA i Hi) (HA j Hj)).
    rewrite <- sum_over_mul_r. apply sum_over_ext. intros a _. rewrite <- sum_over_mul_r. apply sum_over_ext. intros b _.
    match goal with |- @eq _ ?a ?b => change (@eq (car CF) a b) end. ring.
  - intros a _. rewrite sum_over_flat_map. apply sum_over_ext. intros j Hj. rewrite sum_over_map. apply sum_over_ext. intros b _.
    cbn [prefactor operators]. rewrite conj_mul. match goal with |- @eq _ ?a ?b => change (@eq (car CF) a b) end. ring.
Qed.
Lemma rho_symmetric : forall a b, site N a -> site N b -> rho a b = rho b a.
Proof.
  intros a b Ha Hb. pose proof (Hrho a b Ha Hb) as E1. pose proof (Hrho b a Hb Ha) as E2.
  assert (Q : density phis a b = kconj (density phis b a)).
  { unfold density. rewrite conj_sum_over. apply sum_over_ext. intros f _. rewrite conj_mul, conj_inv.
    match goal with |- @eq _ ?a ?b => change (@eq (car CF) a b) end. ring. }
  rewrite E1, E2 in Q. apply (f_equal fst) in Q. exact Q.
Qed.
Lemma on_belem lat i : regular lat N -> (N + N * N * N < two64)%Z -> (0 <= i < N + N * N * N)%Z -> on N (belem i).
Proof.
  intros HL HS Hi. unfold belem, on. destruct (Z.ltb_spec i N).
  - unfold B1. apply Forall_cons; [apply Forall_cons; [cbn; unfold site; lia|apply Forall_nil]|apply Forall_nil].
  - destruct (get_3op_index_dec lat N HL HS i) as (K1 & K2 & K3 & _); [lia|]. unfold B3. repeat (apply Forall_cons; [repeat (apply Forall_cons; [cbn; assumption|]); apply Forall_nil|]); apply Forall_nil.
Qed.
Lemma nth_belem lat i : regular lat N -> (N + N * N * N < two64)%Z -> (0 <= i < N + N * N * N)%Z ->
  basis_op (K := CF) (nth (Z.to_nat i) (basis3 lat) []) = belem i.
Proof.
  intros HL HS Hi. rewrite <- (belem_op lat HL HS (Z.to_nat i) (nth (Z.to_nat i) (basis3 lat) [])).
  - f_equal. lia.
  - lia.
  - apply nth_error_nth'. rewrite (basis3_len lat N HL). pose proof (N_pos lat N HL). nia.
Qed.

(** ... and the sum is the expectation value of A A^+, A = sum_k v_k B_k, in the determinant *)
Theorem C43_site_occupation : forall lat (v : list (F * F)) sym order T s1 s2 s3 r,
  shipped lat N -> (N + N * N * N < two64)%Z -> Z.of_nat (length v) = (N + N * N * N)%Z ->
  Permutation order (seq 0 (length (basis3 lat))) ->
  shares T 0 N s1 -> shares T 0 N s2 -> shares T N (N + N * N * N) s3 ->
  site_occupation3 half (by_site rho) (basis3 lat) (basis_get_conjugate order (basis3 lat)) v sym N T s1 s2 s3 = Some r ->
  let A := vec_op (K := CF) (basis3 lat) v in
  r = Ok (braket M (adjoint_apply M mode A psi) (adjoint_apply M mode A psi)).
Proof.
  intros lat v sym order T s1 s2 s3 r HL HS Hv Ho H1 H2 H3 R A. apply shipped_regular in HL.
  rewrite conjugate_all in R by exact Ho.
  assert (E : r = Ok (total half rho N v)).
  { destruct sym.
    - exact (symmetric_total half rho lat N v HL HS Hv T s1 s2 s3 r rho_symmetric H1 H2 H3 R).
    - exact (full_total half rho lat N v HL HS Hv T s1 s2 s3 r H1 H2 H3 R). }
  rewrite E. f_equal.
  assert (EA : A = flat_map (fun i => map (fun t => mkTerm (vget (K := CF) v i * prefactor t) (operators t)) (belem i)) (zrange 0 (N + N * N * N))).
  { unfold A, vec_op. rewrite (combine_zrange CF v (basis3 lat) (N + N * N * N)).
    - rewrite flat_map_concat_map, map_map, <- flat_map_concat_map. rewrite !flat_map_concat_map. f_equal. apply map_ext_in.
      intros i Hi. apply zrange_in in Hi. cbn [fst snd]. rewrite (nth_belem lat i HL HS Hi). reflexivity.
    - exact Hv.
    - rewrite (basis3_len lat N HL). pose proof (N_pos lat N HL). nia. }
  rewrite EA, overlap_lincomb by (intros i Hi; apply (on_belem lat i HL HS Hi)).
  unfold total. apply sum_over_ext. intros i Hi. apply zrange_in in Hi. apply sum_over_ext. intros j Hj. apply zrange_in in Hj.
  unfold g. rewrite (Ef_ov i j lat HL HS Hi Hj). reflexivity.
Qed.
(** one-operator basis *)
Theorem C43_site_occupation1 : forall lat (v : list (F * F)) order T s r,
  shipped lat N -> Z.of_nat (length v) = N -> Permutation order (seq 0 (length (basis1 lat))) -> shares T 0 N s ->
  site_occupation1 half (by_site rho) (basis1 lat) (basis_get_conjugate order (basis1 lat)) v T s = Some r ->
  let A := vec_op (K := CF) (basis1 lat) v in
  r = Ok (braket M (adjoint_apply M mode A psi) (adjoint_apply M mode A psi)).
Proof.
  intros lat v order T s r HL Hv Ho H1 R A. apply shipped_regular in HL.
  rewrite conjugate_all in R by exact Ho.
  rewrite (one_total half rho lat N v HL Hv T s r H1 R). f_equal.
  assert (EA : A = flat_map (fun i => map (fun t => mkTerm (vget (K := CF) v i * prefactor t) (operators t)) (B1 i)) (zrange 0 N)).
  { unfold A, vec_op. rewrite (combine_zrange CF v (basis1 lat) N).
    - rewrite !flat_map_concat_map, map_map. f_equal. apply map_ext_in.
      intros i Hi. apply zrange_in in Hi. cbn [fst snd]. assert (Q : nth (Z.to_nat i) (basis1 lat) [] = [hop true i true]) by (apply nth_error_nth, (basis1_nth lat N HL i Hi)). rewrite Q. reflexivity.
    - exact Hv.
    - rewrite (basis1_len lat N HL). pose proof (N_pos lat N HL). lia. }
  rewrite EA, overlap_lincomb.
  - unfold total1. apply sum_over_ext. intros i Hi. apply zrange_in in Hi. apply sum_over_ext. intros j Hj. apply zrange_in in Hj.
    unfold g1. f_equal. unfold E11.
    etransitivity; [|symmetry; apply (ov11 (K := CF) ((half, 0) : CF) HhC M mode N mode_inj mode_lt phis orth); assumption].
    rewrite Hrho by assumption. f_equal. apply twice.
  - intros i Hi. unfold B1, on. apply Forall_cons; [apply Forall_cons; [exact Hi|apply Forall_nil]|apply Forall_nil].
Qed.
End State.
End Occ.
Print Assumptions C44_site_occupation.
Print Assumptions C44_site_occupation_completes.
Print Assumptions C42_shortcut.
Print Assumptions C42_double_sum.
Print Assumptions C43_expectation_values.
Print Assumptions C43_site_occupation.
Print Assumptions C43_site_occupation1.
