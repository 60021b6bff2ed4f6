(** Proofs about the double sums of the site occupation. *)
From Verif Require Import Base M_Operator M_Lattice Spec_Lattice M_Basis Pf_Basis M_Matrix Pf_Matrix M_Number M_Dispersion
  M_OpenMP Spec_OpenMP Pf_OpenMP M_SiteOccupation.
Local Open Scope list_scope.

Lemma vread_nth {A} (l : list A) i d : (0 <= i < Z.of_nat (length l))%Z -> vread l i = Ok (nth (Z.to_nat i) l d).
Proof.
  intros H. unfold vread. destruct (Z.ltb_spec i 0); [lia|]. rewrite (nth_error_nth' l d) by lia. reflexivity.
Qed.
Lemma vread_some {A} (l : list A) i x : (0 <= i)%Z -> nth_error l (Z.to_nat i) = Some x -> vread l i = Ok x.
Proof. intros H E. unfold vread. destruct (Z.ltb_spec i 0); [lia|]. rewrite E. reflexivity. Qed.

Section Tri.
  Context {K : StarRing}.
  Local Open Scope ring_scope_.
  Add Ring KrTri : (rth K).
  Lemma triangle (g : Z -> Z -> K) lo n :
    sum_over (fun i => sum_over (fun j => g i j + g j i) (zrange lo i) + g i i) (zrange lo (lo + Z.of_nat n)) =
    sum_over (fun i => sum_over (fun j => g i j) (zrange lo (lo + Z.of_nat n))) (zrange lo (lo + Z.of_nat n)).
  Proof.
    induction n as [|n IH].
    - rewrite zrange_nil by lia. reflexivity.
    - rewrite (zrange_app lo (lo + Z.of_nat n) (lo + Z.of_nat (S n))) by lia.
      rewrite !sum_over_app, IH.
      replace (zrange (lo + Z.of_nat n) (lo + Z.of_nat (S n))) with [(lo + Z.of_nat n)%Z].
      2:{ rewrite zrange_cons by lia. rewrite zrange_nil by lia. reflexivity. }
      rewrite !sum_over_cons, !sum_over_nil.
      rewrite (sum_over_ext _ (fun i => sum_over (fun j => g i j) (zrange lo (lo + Z.of_nat n) ++ [(lo + Z.of_nat n)%Z]))
        (fun i => sum_over (fun j => g i j) (zrange lo (lo + Z.of_nat n)) + g i (lo + Z.of_nat n)%Z) (zrange lo (lo + Z.of_nat n))).
      2:{ intros i _. rewrite sum_over_app, sum_over_cons, sum_over_nil. ring. }
      rewrite !sum_over_add, sum_over_app, sum_over_cons, sum_over_nil.
      change (sum_over (fun j => g (lo + Z.of_nat n)%Z j)) with (sum_over (g (lo + Z.of_nat n)%Z)). ring.
  Qed.
End Tri.

Section SO.
  Context {F : StarRing} (half : F) (Hh : radd half half = r1).
  Local Open Scope ring_scope_.
  Add Ring FrSO : (rth F).
  Variables (rho : Z -> Z -> F) (lat : lattice) (N : Z) (v : list (F * F)).
  Definition evr (x y : op hub) : F := rho (index1 x) (index1 y).
  Hypothesis HL : regular lat N.
  Let CF := cplx_ring F.
  Add Ring CrSO : (rth CF).
  Definition dl (a b : Z) : F := if (a =? b)%Z then 1 else 0.
  Definition conjugate_basis (b : list (monomial hub)) := map (mono_conjugate (T := hub)) b.
  Definition vv (i : Z) : CF := nth (Z.to_nat i) v (0, 0).

  Definition E11 (i j : Z) : F := two * rho i j.
  Definition E13 (i j1 j2 j3 : Z) : F := four * ((rho j3 j2 - half * dl j3 j2) * rho i j1).
  Definition E31 (i1 i2 i3 j : Z) : F := four * ((rho i2 i3 - half * dl i2 i3) * rho i1 j).
  Definition E33 (i1 i2 i3 j1 j2 j3 : Z) : F :=
    eight * rho i1 j1 * rho i2 i3 * rho j3 j2 + eight * rho i1 j1 * rho i2 j2 * (dl i3 j3 - rho j3 i3)
    - four * dl i2 i3 * rho i1 j1 * rho j3 j2 - four * dl j3 j2 * rho i1 j1 * rho i2 i3
    + two * dl i2 i3 * dl j3 j2 * rho i1 j1.
  Definition Ef (i j : Z) : F :=
    if (i <? N)%Z then
      if (j <? N)%Z then E11 i j else E13 i (dec1 N j) (dec2 N j) (dec3 N j)
    else
      if (j <? N)%Z then E31 (dec1 N i) (dec2 N i) (dec3 N i) j
      else E33 (dec1 N i) (dec2 N i) (dec3 N i) (dec1 N j) (dec2 N j) (dec3 N j).

  Lemma dl_sym a b : dl a b = dl b a.
  Proof. unfold dl. rewrite Z.eqb_sym. reflexivity. Qed.
  (** *** One-operator basis *)
  Section One.
    Hypothesis Hv : Z.of_nat (length v) = N.
    Lemma product1 mult i j : (0 <= i < N)%Z -> (0 <= j < N)%Z ->
      product (basis1 lat) (conjugate_basis (basis1 lat)) v (so1_ev evr) mult i j = Ok (mult (E11 i j) (vv i) (vv j)).
    Proof.
      intros Hi Hj. unfold product.
      rewrite (vread_some _ _ _ (Logic.proj1 Hi) (basis1_nth lat N HL i Hi)). cbn [obind].
      rewrite (vread_some (conjugate_basis (basis1 lat)) j [hop false j true]);
        [|lia|unfold conjugate_basis; rewrite nth_error_map, (basis1_nth lat N HL j Hj); reflexivity].
      cbn [obind so1_ev]. rewrite !(vread_nth v _ (0, 0)) by lia. reflexivity.
    Qed.
    Definition g1 (i j : Z) : CF := ((E11 i j * half, 0) : CF) * (vv i * kconj (vv j)).
    Definition total1 : CF := sum_over (fun i => sum_over (fun j => g1 i j) (zrange 0 N)) (zrange 0 N).
    Lemma one_total T s r : shares T 0 N s ->
      site_occupation1 half evr (basis1 lat) (conjugate_basis (basis1 lat)) v T s = Some r -> r = Ok total1.
    Proof.
      intros Hs H. unfold site_occupation1 in H.
      assert (L0 : length (zeros (F := F) T) = T) by apply repeat_length.
      assert (Sz : size (basis1 lat) = N) by (unfold size; rewrite (basis1_len lat N HL); destruct HL as (_ & _ & ?); lia).
      rewrite Sz in H.
      match type of H with pbind (par_reduce _ ?a _) _ = _ => destruct (par_reduce (K := cplx_ring F) s a (zeros T)) as [r1'|] eqn:R1; [|discriminate] end.
      eapply (par_reduce_value T 0 N s _ (fun i => map (fun j => g1 i j) (zrange 0 N))) in R1;
        [|exact Hs|apply Nat.eq_le_incl; symmetry; exact L0|].
      - destruct R1 as (x1 & -> & L1 & Q1). cbn [pbind] in H. injection H as <-. f_equal. rewrite accumulate_sum. etransitivity; [exact Q1|].
        unfold total1. assert (Z0 : sum_over (K := CF) (fun x => x) (zeros T) = 0)
          by (apply sum_over_zero; intros x Hx; apply repeat_spec in Hx; exact Hx).
        rewrite Z0. rewrite (sum_over_ext _ (fun i => sum_over (fun x => x) (map (fun j => g1 i j) (zrange 0 N)))
          (fun i => sum_over (fun j => g1 i j) (zrange 0 N))) by (intros; apply sum_over_map).
        match goal with |- @eq _ ?a ?b => change (@eq (car CF) a b) end. ring.
      - intros i Hi. apply zrange_in in Hi. apply omap_ok. intros j Hj. apply zrange_in in Hj. rewrite product1 by assumption. f_equal.
        unfold with_conjugate, halve, fmul, multiply_with_conjugate, g1. destruct (vv i) as [a b], (vv j) as [c d]. cbn. f_equal; ring.
    Qed.
  End One.

  (** *** Three-operator basis *)
  Hypothesis HS : (N + N * N * N < two64)%Z.
  Hypothesis Hv : Z.of_nat (length v) = (N + N * N * N)%Z.
  Let S3 := (N + N * N * N)%Z.
  Let B := basis3 lat.
  Let CB := conjugate_basis B.
  Lemma Npos : (0 < N)%Z. Proof. apply HL. Qed.
  Lemma read1 i : (0 <= i < N)%Z -> vread B i = Ok [hop true i true].
  Proof. intros Hi. apply vread_some; [lia|]. apply (basis3_nth1 lat N HL i Hi). Qed.
  Lemma read3 i : (N <= i < S3)%Z -> vread B i = Ok [hop true (dec1 N i) true; hop true (dec2 N i) false; hop false (dec3 N i) false].
  Proof.
    intros Hi. pose proof Npos. destruct (get_3op_index_dec lat N HL HS i Hi) as (H1 & H2 & H3 & E).
    apply vread_some; [lia|]. rewrite <- E at 1. apply (basis3_get lat N HL HS _ _ _ H1 H2 H3).
  Qed.
  Lemma readc {A} i m : vread (A := monomial hub) B i = Ok m -> vread CB i = Ok (mono_conjugate (T := hub) m) \/ A = True.
  Proof.
    intros H. left. unfold vread in *. destruct (i <? 0)%Z; [discriminate|].
    unfold CB, conjugate_basis. rewrite nth_error_map. destruct (nth_error B (Z.to_nat i)); [|discriminate].
    inversion H. reflexivity.
  Qed.
  Lemma readc1 i : (0 <= i < N)%Z -> vread CB i = Ok [hop false i true].
  Proof. intros H. destruct (readc (A := False) _ _ (read1 i H)) as [E|E]; [exact E|]. exfalso. rewrite E. exact I. Qed.
  Lemma readc3 i : (N <= i < S3)%Z -> vread CB i = Ok [hop true (dec3 N i) false; hop false (dec2 N i) false; hop false (dec1 N i) true].
  Proof. intros H. destruct (readc (A := False) _ _ (read3 i H)) as [E|E]; [exact E|]. exfalso. rewrite E. exact I. Qed.

  Ltac rd := unfold product; rewrite ?read1, ?read3, ?readc1, ?readc3 by assumption; cbn [obind];
    unfold so_1_1, so_1_3, so_3_1, so_3_3, hop, index2, index1; cbn [creator indices snd fst negb andb obind];
    rewrite !(vread_nth v _ (0, 0)) by (pose proof Npos; nia); cbn [obind]; f_equal; unfold Ef, evr, index1; cbn [indices fst].
  Ltac lt := repeat match goal with |- context[(?a <? ?b)%Z] => destruct (Z.ltb_spec a b); [try lia|try lia] end.

  Lemma product_1_1 mult i j : (0 <= i < N)%Z -> (0 <= j < N)%Z ->
    product B CB v (so_1_1 evr) mult i j = Ok (mult (Ef i j) (vv i) (vv j)).
  Proof. intros Hi Hj. rd. lt. reflexivity. Qed.
  Lemma product_1_3 mult i j : (0 <= i < N)%Z -> (N <= j < S3)%Z ->
    product B CB v (so_1_3 half evr) mult i j = Ok (mult (Ef i j) (vv i) (vv j)).
  Proof.
    intros Hi Hj. rd. lt. f_equal. unfold E13, dl. destruct (dec3 N j =? dec2 N j)%Z; f_equal; ring.
  Qed.
  Lemma product_3_1 mult i j : (N <= i < S3)%Z -> (0 <= j < N)%Z ->
    product B CB v (so_3_1 half evr) mult i j = Ok (mult (Ef i j) (vv i) (vv j)).
  Proof.
    intros Hi Hj. rd. lt. f_equal. unfold E31, dl. destruct (dec2 N i =? dec3 N i)%Z; f_equal; ring.
  Qed.
  Lemma product_3_3 mult i j : (N <= i < S3)%Z -> (N <= j < S3)%Z ->
    product B CB v (so_3_3 evr) mult i j = Ok (mult (Ef i j) (vv i) (vv j)).
  Proof.
    intros Hi Hj. rd. lt. f_equal. unfold E33, dl.
    destruct (dec2 N i =? dec3 N i)%Z, (dec3 N j =? dec2 N j)%Z, (dec3 N i =? dec3 N j)%Z; cbn [andb]; ring.
  Qed.

  Definition sym_on : Prop := forall a b, site N a -> site N b -> rho a b = rho b a.
  Lemma Ef_sym i j : sym_on -> (0 <= i < S3)%Z -> (0 <= j < S3)%Z -> Ef i j = Ef j i.
  Proof.
    intros HR Hi Hj. unfold Ef.
    destruct (Z.ltb_spec i N) as [Li|Li], (Z.ltb_spec j N) as [Lj|Lj]; unfold E11, E13, E31, E33.
    - rewrite HR by (unfold site; lia). reflexivity.
    - destruct (get_3op_index_dec lat N HL HS j) as (K1 & K2 & K3 & _); [unfold S3 in *; lia|].
      rewrite (HR i), (HR (dec3 N j)), (dl_sym (dec3 N j)) by (try assumption; unfold site; lia). reflexivity.
    - destruct (get_3op_index_dec lat N HL HS i) as (K1 & K2 & K3 & _); [unfold S3 in *; lia|].
      rewrite (HR _ j), (HR (dec3 N i)), (dl_sym (dec3 N i)) by (try assumption; unfold site; lia). reflexivity.
    - destruct (get_3op_index_dec lat N HL HS j) as (K1 & K2 & K3 & _); [unfold S3 in *; lia|].
      destruct (get_3op_index_dec lat N HL HS i) as (I1 & I2 & I3 & _); [unfold S3 in *; lia|].
      rewrite (HR (dec1 N j) (dec1 N i)), (HR (dec3 N j) (dec2 N j)), (HR (dec2 N j) (dec2 N i)), (HR (dec3 N i) (dec2 N i)),
        (HR (dec3 N i) (dec3 N j)), (dl_sym (dec3 N i)), (dl_sym (dec2 N j)), (dl_sym (dec2 N i)) by assumption. ring.
  Qed.

  (** the double sum *)
  Definition g (i j : Z) : CF := ((Ef i j * half, 0) : CF) * (vv i * kconj (vv j)).
  Definition total : CF := sum_over (fun i => sum_over (fun j => g i j) (zrange 0 S3)) (zrange 0 S3).

  Lemma with_conjugate_g i j : (with_conjugate half (Ef i j) (vv i) (vv j) : CF) = g i j.
  Proof.
    unfold with_conjugate, halve, fmul, multiply_with_conjugate, g. destruct (vv i) as [a b], (vv j) as [c d]. cbn. f_equal; ring.
  Qed.
  Lemma with_products_g i j : Ef i j = Ef j i -> (with_products half (Ef i j) (vv i) (vv j) : CF) = g i j + g j i.
  Proof.
    intros E. unfold with_products, of_real, add_conjugate_products, g. rewrite <- E.
    destruct (vv i) as [a b], (vv j) as [c d]. cbn. f_equal; ring.
  Qed.
  Lemma with_norm_g i : (with_norm half (Ef i i) (vv i) (vv i) : CF) = g i i.
  Proof.
    unfold with_norm, of_real, norm, g. destruct (vv i) as [a b]. cbn. f_equal; ring.
  Qed.
  Lemma size_eq : size B = S3.
  Proof. unfold size, B. rewrite (basis3_len lat N HL). pose proof Npos. unfold S3. nia. Qed.

  Lemma total_split : total =
    sum_over (fun i => sum_over (fun j => g i j) (zrange 0 N)) (zrange 0 N) +
    sum_over (fun i => sum_over (fun j => g i j + g j i) (zrange N S3)) (zrange 0 N) +
    sum_over (fun i => sum_over (fun j => g i j) (zrange N S3)) (zrange N S3).
  Proof.
    unfold total. pose proof Npos. rewrite (zrange_app 0 N S3) by (unfold S3; nia). rewrite sum_over_app.
    rewrite !(sum_over_ext _ (fun i => sum_over (fun j => g i j) (zrange 0 N ++ zrange N S3))
      (fun i => sum_over (fun j => g i j) (zrange 0 N) + sum_over (fun j => g i j) (zrange N S3))) by (intros; apply sum_over_app).
    rewrite !sum_over_add.
    rewrite (sum_over_ext _ (fun i => sum_over (fun j => g i j + g j i) (zrange N S3))
      (fun i => sum_over (fun j => g i j) (zrange N S3) + sum_over (fun j => g j i) (zrange N S3)) (zrange 0 N)) by (intros; apply sum_over_add).
    rewrite sum_over_add. rewrite (sum_over_swap _ (fun i j => g j i) (zrange 0 N) (zrange N S3)). ring.
  Qed.

  Lemma zeros_sum T : sum_over (K := CF) (fun x => x) (zeros T) = 0.
  Proof. apply sum_over_zero. intros x Hx. apply repeat_spec in Hx. exact Hx. Qed.

  (** three reductions after one another *)
  Lemma three_loops T s1 s2 s3 a1 a2 a3 g1 g2 g3 r :
    shares T 0 N s1 -> shares T 0 N s2 -> shares T N S3 s3 ->
    (forall i, In i (zrange 0 N) -> a1 i = Ok (g1 i)) ->
    (forall i, In i (zrange 0 N) -> a2 i = Ok (g2 i)) ->
    (forall i, In i (zrange N S3) -> a3 i = Ok (g3 i)) ->
    pbind (par_reduce (K := CF) s1 a1 (zeros T)) (fun results =>
    pbind (par_reduce (K := CF) s2 a2 results) (fun results =>
    pbind (par_reduce (K := CF) s3 a3 results) (fun results => Some (Ok (accumulate results))))) = Some r ->
    r = Ok (sum_over (fun i => sum_over (fun x => x) (g1 i)) (zrange 0 N) +
            sum_over (fun i => sum_over (fun x => x) (g2 i)) (zrange 0 N) +
            sum_over (fun i => sum_over (fun x => x) (g3 i)) (zrange N S3) : CF).
  Proof.
    intros S1 S2 S3' A1 A2 A3 H.
    assert (L0 : length (zeros (F := F) T) = T) by apply repeat_length.
    destruct (par_reduce s1 a1 (zeros T)) as [r1'|] eqn:R1; [|discriminate].
    destruct (par_reduce_value T 0 N s1 a1 g1 (zeros T) r1' S1 ltac:(apply Nat.eq_le_incl; symmetry; exact L0) A1 R1) as (x1 & -> & L1 & Q1).
    cbn [pbind] in H.
    destruct (par_reduce s2 a2 x1) as [r2'|] eqn:R2; [|discriminate].
    destruct (par_reduce_value T 0 N s2 a2 g2 x1 r2' S2 ltac:(rewrite L1; apply Nat.eq_le_incl; symmetry; exact L0) A2 R2) as (x2 & -> & L2 & Q2).
    cbn [pbind] in H.
    destruct (par_reduce s3 a3 x2) as [r3'|] eqn:R3; [|discriminate].
    destruct (par_reduce_value T N S3 s3 a3 g3 x2 r3' S3' ltac:(rewrite L2, L1; apply Nat.eq_le_incl; symmetry; exact L0) A3 R3) as (x3 & -> & L3 & Q3).
    cbn [pbind] in H. injection H as <-. f_equal.
    rewrite accumulate_sum, Q3, Q2, Q1, zeros_sum. ring.
  Qed.

  Lemma sum_id_map {A} (f : A -> CF) l : sum_over (fun x => x) (map f l) = sum_over f l.
  Proof. apply sum_over_map. Qed.

  Lemma full_total T s1 s2 s3 r :
    shares T 0 N s1 -> shares T 0 N s2 -> shares T N S3 s3 ->
    site_occupation3 half evr B CB v false N T s1 s2 s3 = Some r -> r = Ok total.
  Proof.
    intros H1 H2 H3 H. unfold site_occupation3 in H.
    apply (three_loops T s1 s2 s3 _ _ _
      (fun i => map (fun j => g i j) (zrange 0 N)) (fun i => map (fun j => g i j + g j i) (zrange N S3)) (fun i => map (fun j => g i j) (zrange N S3))) in H;
      try assumption.
    - rewrite H, total_split. f_equal. f_equal; [f_equal|]; apply sum_over_ext; intros i _; apply sum_id_map.
    - intros i Hi. apply zrange_in in Hi. unfold full_1_1. apply omap_ok. intros j Hj. apply zrange_in in Hj.
      rewrite product_1_1 by assumption. f_equal. apply with_conjugate_g.
    - intros i Hi. apply zrange_in in Hi. unfold full_1_3. rewrite size_eq. apply omap_ok. intros j Hj. apply zrange_in in Hj.
      rewrite product_1_3, product_3_1 by assumption. cbn [oplus obind]. f_equal.
      etransitivity; [|apply (f_equal2 (fun a b : CF => a + b) (with_conjugate_g i j) (with_conjugate_g j i))]. reflexivity.
    - intros i Hi. apply zrange_in in Hi. unfold full_3_3. rewrite size_eq. apply omap_ok. intros j Hj. apply zrange_in in Hj.
      rewrite product_3_3 by assumption. f_equal. apply with_conjugate_g.
  Qed.

  Lemma symmetric_total T s1 s2 s3 r : sym_on ->
    shares T 0 N s1 -> shares T 0 N s2 -> shares T N S3 s3 ->
    site_occupation3 half evr B CB v true N T s1 s2 s3 = Some r -> r = Ok total.
  Proof.
    intros HR H1 H2 H3 H. unfold site_occupation3 in H. pose proof Npos as HN.
    apply (three_loops T s1 s2 s3 _ _ _
      (fun i => map (fun j => g i j + g j i) (zrange 0 i) ++ [g i i]) (fun i => map (fun j => g i j + g j i) (zrange N S3))
      (fun i => map (fun j => g i j + g j i) (zrange N i) ++ [g i i])) in H; try assumption.
    - rewrite H, total_split. f_equal. f_equal; [f_equal|].
      + pose proof (triangle g 0 (Z.to_nat N)) as Tr. replace (0 + Z.of_nat (Z.to_nat N))%Z with N in Tr by lia.
        rewrite <- Tr. apply sum_over_ext. intros i _. rewrite sum_over_app, sum_id_map, sum_over_cons, sum_over_nil. ring.
      + apply sum_over_ext. intros i _. apply sum_id_map.
      + pose proof (triangle g N (Z.to_nat (N * N * N))) as Tr.
        replace (N + Z.of_nat (Z.to_nat (N * N * N)))%Z with S3 in Tr by (unfold S3; nia).
        rewrite <- Tr. apply sum_over_ext. intros i _. rewrite sum_over_app, sum_id_map, sum_over_cons, sum_over_nil. ring.
    - intros i Hi. apply zrange_in in Hi. unfold symmetric_1_1.
      rewrite (omap_ok _ (fun j => g i j + g j i)).
      + cbn [obind]. rewrite product_1_1 by assumption. cbn [obind]. do 3 f_equal. apply with_norm_g.
      + intros j Hj. apply zrange_in in Hj. rewrite product_1_1 by lia. f_equal. apply with_products_g, Ef_sym; [exact HR|unfold S3 in *; nia|unfold S3 in *; nia].
    - intros i Hi. apply zrange_in in Hi. unfold symmetric_1_3. rewrite size_eq. apply omap_ok. intros j Hj. apply zrange_in in Hj.
      rewrite product_1_3 by assumption. f_equal. apply with_products_g, Ef_sym; [exact HR|unfold S3 in *; nia|unfold S3 in *; nia].
    - intros i Hi. apply zrange_in in Hi. unfold symmetric_3_3.
      rewrite (omap_ok _ (fun j => g i j + g j i)).
      + cbn [obind]. rewrite product_3_3 by assumption. cbn [obind]. do 3 f_equal. apply with_norm_g.
      + intros j Hj. apply zrange_in in Hj. rewrite product_3_3 by lia. f_equal. apply with_products_g, Ef_sym; [exact HR|unfold S3 in *; nia|unfold S3 in *; nia].
  Qed.

  Lemma total_real : sym_on -> snd total = 0.
  Proof.
    intros HR. assert (C : kconj total = total).
    { unfold total at 1. rewrite conj_sum_over.
      rewrite (sum_over_ext _ _ (fun i => sum_over (fun j => g j i) (zrange 0 S3))).
      - rewrite sum_over_swap. reflexivity.
      - intros i Hi. apply zrange_in in Hi. rewrite conj_sum_over. apply sum_over_ext. intros j Hj. apply zrange_in in Hj. unfold g.
        rewrite !conj_mul, conj_inv. rewrite (Ef_sym j i HR) by assumption.
        replace (kconj ((Ef i j * half, 0) : CF)) with ((Ef i j * half, 0) : CF) by (cbn; f_equal; ring). ring. }
    assert (Hs : - snd total = snd total) by (apply (f_equal snd) in C; exact C).
    transitivity ((half + half) * snd total); [rewrite Hh; ring|].
    transitivity (half * (snd total + snd total)); [ring|]. rewrite <- Hs at 1. ring.
  Qed.
End SO.
