(** Proofs: the momentum-space matrix. *)
From Coq Require Import Sorting.Sorted ZifyBool.
From Verif Require Import Base Spec_Fock FockFacts M_Operator M_Lattice Spec_Lattice Pf_Lattice M_Basis Pf_Basis M_Matrix
  Spec_Algebra Pf_Algebra Pf_Commutator Spec_Matrix Spec_Momentum Pf_Matrix Pf_Matrix2 Pf_Trace Pf_Wick Pf_Liouville Pf_MatrixEntry Pf_Projection.
Local Open Scope list_scope.

(** ** closed form *)
Section Closed.
  Context {K : StarRing}.
  Variables (N q : Z) (eps : Z -> K) (u2 u2n : K).
  Local Open Scope Z_scope.
  Hypothesis HN : 0 < N.
  Hypothesis Hq : site N q.
  Hypothesis Hfit : N * (1 + 3 * N) < two64.
  Let SZ := 1 + N * N.
  Definition m1 (r : Z) : Z := (r - 1) / N.
  Definition m2 (r : Z) : Z := (r - 1) mod N.
  Definition m3 (r : Z) : Z := (m1 r + m2 r - q) mod N.
  Lemma m_range r : 1 <= r < SZ -> site N (m1 r) /\ site N (m2 r) /\ site N (m3 r) /\ 1 + m1 r * N + m2 r = r.
  Proof.
    intros Hr. unfold m3, m1, m2, site, SZ in *. pose proof (Z.div_mod (r - 1) N ltac:(lia)). pose proof (Z.mod_pos_bound (r - 1) N HN).
    pose proof (Z.mod_pos_bound ((r - 1) / N + (r - 1) mod N - q) N HN).
    assert (0 <= (r - 1) / N) by (apply Z.div_pos; lia). assert ((r - 1) / N < N) by (apply Z.div_lt_upper_bound; nia). set (a := (r - 1) / N) in *. set (b := (r - 1) mod N) in *. set (c := (a + b - q) mod N) in *. clearbody a b c. lia.
  Qed.
  Definition mdiag (r : Z) : K := radd (rsub (radd (eps (m1 r)) (eps (m2 r))) (eps (m3 r))) u2.
  Definition mtrip0 : list (triplet K) := mkT 0 0 (radd (eps q) u2) :: map (fun i => mkT 0 i u2n) (zrange 1 SZ).
  Definition mtrip (r : Z) : list (triplet K) := [mkT r 0 u2n; mkT r r (mdiag r)].
  Definition mrows : list (list (Z * K)) := pairs mtrip0 :: map (fun r => pairs (mtrip r)) (zrange 1 SZ).

  Lemma zrange_sorted lo hi : StronglySorted Z.lt (zrange lo hi).
  Proof.
    destruct (Z.ltb_spec lo hi); [|rewrite zrange_nil by lia; constructor].
    remember (Z.to_nat (hi - lo)) as n eqn:E. revert lo H E. induction n as [|n IH]; intros lo H E; [lia|].
    rewrite zrange_cons by lia. constructor.
    - destruct (Z.ltb_spec (lo + 1) hi); [apply IH; lia|rewrite zrange_nil by lia; constructor].
    - apply Forall_forall. intros x Hx. apply zrange_in in Hx. lia.
  Qed.
  Lemma mtrip0_good : row_good SZ mtrip0.
  Proof.
    assert (C : map t_col mtrip0 = 0 :: zrange 1 SZ).
    { unfold mtrip0. cbn [map t_col]. rewrite map_map. cbn [t_col]. rewrite map_id. reflexivity. }
    split.
    - rewrite C. constructor; [apply zrange_sorted|]. apply Forall_forall. intros x Hx. apply zrange_in in Hx. lia.
    - apply Forall_forall. intros t Ht. apply (in_map t_col) in Ht. rewrite C in Ht. destruct Ht as [<-|Ht].
      + unfold site, SZ. nia.
      + apply zrange_in in Ht. unfold site. lia.
  Qed.
  Lemma mtrip_good r : 1 <= r < SZ -> row_good SZ (mtrip r).
  Proof.
    intros Hr. split; cbn [map t_col mtrip].
    - repeat constructor. lia.
    - unfold mtrip, site, SZ in *. repeat (apply Forall_cons; [cbn [t_col]; lia|]). apply Forall_nil.
  Qed.
  Lemma ofold_map {A B S} (f : S -> B -> outcome S) (g : A -> B) l : forall s, ofold (fun s x => f s (g x)) l s = ofold f (map g l) s.
  Proof. induction l as [|x l IH]; intros s; [reflexivity|]. cbn [ofold map]. destruct (f s (g x)); [|reflexivity]. cbn [obind]. apply IH. Qed.
  Lemma obind_assoc {A B C} (x : outcome A) (f : A -> outcome B) (g : B -> outcome C) : obind (obind x f) g = obind x (fun a => obind (f a) g).
  Proof. destruct x; reflexivity. Qed.
  Lemma ofold_ext' {A S} (f g : S -> A -> outcome S) l : (forall x s, In x l -> f s x = g s x) ->
    forall s, ofold f l s = ofold g l s.
  Proof. apply ofold_ext. Qed.
  Lemma mom_closed_form : mom_init_matrix (mom_closed N q) N eps u2 u2n = Ok (mkB SZ (N * (1 + 3 * N)) mrows []).
  Proof.
    assert (L : Z.of_nat (length (mom_closed N q)) = SZ) by (rewrite mom_closed_length by exact HN; unfold SZ; nia).
    assert (B : forall r, 1 <= r < SZ -> nth_error (mom_closed N q) (Z.to_nat r) = Some (mom_mono N q (m1 r) (m2 r))).
    { intros r Hr. destruct (m_range r Hr) as (R1 & R2 & R3 & E). rewrite <- E at 1. apply mom_closed_nth; assumption. }
    assert (Eb : mom_closed N q = [hop true q true] :: tl (mom_closed N q)) by reflexivity.
    unfold mom_init_matrix. rewrite L. set (b := mom_closed N q) in *. clearbody b. rewrite Eb at 1. change (index1 (hop true q true)) with q.
    assert (Cap : mom_number_of_elements N = N * (1 + 3 * N)).
    { unfold mom_number_of_elements. rewrite (u64_id (3 * N)) by nia. rewrite (u64_id (1 + 3 * N)) by nia. apply u64_id. nia. }
    rewrite Cap.
    assert (R0 : forall k : bmat K -> outcome (bmat K), obind (bm_append (bm_new SZ (N * (1 + 3 * N))) 0 0 (radd (eps q) u2)) (fun m =>
        obind (ofold (fun m i => bm_append m 0 i u2n) (zrange 1 SZ) m) (fun m => obind (bm_finalize m 0) k)) =
        obind (write_row (bm_new SZ (N * (1 + 3 * N))) 0 mtrip0) k).
    { intros k. unfold write_row, mtrip0. cbn [ofold t_col t_val]. destruct (bm_append _ _ _ _) as [m|]; [|reflexivity]. cbn [obind].
      rewrite <- (ofold_map (fun m t => bm_append m 0 (t_col t) (t_val t)) (fun i => mkT 0 i u2n)).
      cbn [t_col t_val]. rewrite obind_assoc. reflexivity. }
    rewrite R0. rewrite write_row_ok; [|reflexivity|reflexivity|exact mtrip0_good|].
    2:{ rewrite nonzeros_total. cbn [bm_new bm_done bm_cur bm_cap length total fold_right]. unfold mtrip0. cbn [length]. rewrite map_length, zrange_length. unfold SZ. nia. }
    cbn [obind bm_new bm_size bm_cap bm_done app].
    rewrite (ofold_ext _ (fun m row => obind (Ok (mtrip row)) (fun ts => write_row m row ts))).
    2:{ intros r m Hr. apply zrange_in in Hr. rewrite (B r Hr). unfold mom_mono.
        change (index1 (hop true (m1 r) true)) with (m1 r). change (index1 (hop true (m2 r) false)) with (m2 r).
        change (index1 (hop false ((m1 r + m2 r - q) mod N) false)) with (m3 r).
        cbn [obind]. unfold write_row, mtrip. cbn [ofold t_col t_val]. fold (mdiag r).
        destruct (bm_append m r 0 u2n) as [m'|]; [|reflexivity]. cbn [obind]. destruct (bm_append m' r r (mdiag r)); reflexivity. }
    pose proof (fill_ok (fun row => Ok (mtrip row)) mtrip 2 (Z.to_nat (SZ - 1)) 1 (mkB SZ (N * (1 + 3 * N)) [pairs mtrip0] [])) as H.
    cbn [bm_size bm_cap bm_done bm_cur app length] in H.
    replace (1 + Z.of_nat (Z.to_nat (SZ - 1))) with SZ in H by (unfold SZ; nia). rewrite H; clear H.
    - reflexivity.
    - reflexivity.
    - reflexivity.
    - intros r Hr. split; [reflexivity|]. split; [apply mtrip_good, Hr|reflexivity].
    - rewrite nonzeros_total. cbn [bm_done bm_cur length total fold_right]. rewrite pairs_len. unfold mtrip0. cbn [length].
      rewrite map_length, zrange_length. unfold SZ. nia.
  Qed.
  Lemma mrow0 : nth 0 mrows [] = pairs mtrip0.
  Proof. reflexivity. Qed.
  Lemma mrow r : 1 <= r < SZ -> nth (Z.to_nat r) mrows [] = pairs (mtrip r).
  Proof.
    intros Hr. unfold mrows. replace (Z.to_nat r) with (S (Z.to_nat (r - 1))) by lia. cbn [nth]. apply nth_error_nth.
    rewrite nth_error_map, zrange_nth by exact Hr. reflexivity.
  Qed.
End Closed.

(** ** physics *)
Section Phys.
  Context {K : StarRing}.
  Local Open Scope ring_scope_.
  Add Ring KringMo : (rth K).
  Variables (N q : Z) (eps : Z -> K) (g U half : K).
  Hypothesis HN : (0 < N)%Z.
  Hypothesis Hq : site N q.
  Hypothesis Hhalf : half + half = 1.
  Hypothesis Hg : per_site N g U.
  Variable mode : hub -> nat.
  Hypothesis mode_inj : numbers_orbitals mode N.
  Variable M : nat.
  Hypothesis mode_below : orbitals_below mode N M.
  Local Notation E A := (terms_elem (K := K) mode A).
  Local Notation Fr A X := (frobenius M (E A) X).
  Local Notation dd a b c := ((a - b + c) mod N)%Z.

  Lemma d_site a b c : site N (dd a b c).
  Proof. unfold site. apply Z.mod_pos_bound. exact HN. Qed.
  Lemma mod_site x y : site N x -> site N y -> ((x - y) mod N = 0)%Z -> x = y.
  Proof.
    unfold site. intros Hx Hy H. apply Z.mod_divide in H; [|lia]. destruct H as [k Hk]. assert (k = 0)%Z by nia. subst. lia.
  Qed.
  Lemma mod_eq_site (x y : Z) (z : Z) : site N y -> (x mod N = y)%Z <-> ((x - y) mod N = 0)%Z.
  Proof.
    unfold site. intros Hy. split; intros H.
    - rewrite Zminus_mod, H, (Z.mod_small y N) by lia. rewrite Z.sub_diag. apply Zmod_0_l.
    - apply Z.mod_divide in H; [|lia]. destruct H as [k Hk]. replace x with (y + k * N)%Z by lia. rewrite Z.mod_add by lia. apply Z.mod_small. lia.
  Qed.
  (** c = d exactly when a = b *)
  Lemma delta_cd a b c : site N a -> site N b -> site N c -> delta c (dd a b c) = (delta a b : K).
  Proof.
    intros Ha Hb Hc. unfold delta. destruct (Z.eqb_spec a b) as [->|Hne].
    - replace (b - b + c)%Z with c by lia. rewrite Z.mod_small by (unfold site in Hc; lia). rewrite Z.eqb_refl. reflexivity.
    - destruct (Z.eqb_spec c (dd a b c)) as [Ec|]; [|reflexivity]. exfalso. apply Hne.
      symmetry in Ec. apply (mod_eq_site _ c 0 Hc) in Ec. apply mod_site; try assumption. replace (a - b)%Z with (a - b + c - c)%Z by lia. exact Ec.
  Qed.
  Lemma d_diag b c : site N c -> dd b b c = c.
  Proof. intros Hc. replace (b - b + c)%Z with c by lia. apply Z.mod_small. exact Hc. Qed.
  Lemma sum_ph' (f : Z -> K) i : site N i -> sum_over (fun k => delta k i * f k) (Zseq N) = f i.
  Proof.
    intros Hi. rewrite sum_delta by apply Zseq_nodup.
    replace (existsb (Z.eqb i) (Zseq N)) with true; [reflexivity|]. symmetry. apply existsb_exists. exists i.
    split; [apply Zseq_in; exact Hi|apply Z.eqb_refl].
  Qed.

  Section ST.
  Variables s t : BinNums.N.
  Local Notation F := (fun w => elem (K := K) mode w s t).
  Local Notation cw := (cw1 (K := K) mode s t).
  (** dispersion *)
  Lemma disp_cw L x R : site N (index1 x) ->
    sum_over (fun h => prefactor h * cw (operators h) L [x] R) (H_disp N eps) =
    (if creator x then eps (index1 x) else - eps (index1 x)) * F (L ++ x :: R).
  Proof.
    intros Hx. unfold H_disp. rewrite sum_over_flat_map.
    rewrite (sum_over_ext _ _ (fun k => delta k (index1 x) * ((if creator x then eps k else - eps k) * F (L ++ x :: R)))).
    - rewrite (sum_ph' (fun k => (if creator x then eps k else - eps k) * F (L ++ x :: R)) (index1 x) Hx). reflexivity.
    - intros k Hk. apply Zseq_in in Hk. rewrite sum_over_map, !sum_over_cons, sum_over_nil. cbn [prefactor operators].
      fold (num k true) (num k false). rewrite !(num_cw N mode mode_inj s t) by assumption.
      destruct (spin_of x), (creator x); cbn [Bool.eqb]; ring.
  Qed.
  Lemma disp_B1 i : site N i -> comm_elem mode (H_disp N eps) (B1 i) s t = eps i * E (B1 i) s t.
  Proof.
    intros Hi. rewrite comm_elem_cw. unfold B1 at 1. rewrite sum_over_cons, sum_over_nil. cbn [prefactor operators].
    rewrite disp_cw by exact Hi. rewrite E1_eq. cbn [hop creator app]. change (index1 (hop true i true)) with i. unfold hop. ring.
  Qed.
  Lemma disp_B3 i j k : site N i -> site N j -> site N k ->
    comm_elem mode (H_disp N eps) (B3 i j k) s t = (eps i + eps j - eps k) * E (B3 i j k) s t.
  Proof.
    intros Hi Hj Hk. rewrite comm_elem_cw. unfold B3 at 1. rewrite !sum_over_cons, sum_over_nil. cbn [prefactor operators].
    rewrite cw_cons, (cw_cons mode s t _ _ (hop true j false)). cbn [app]. rewrite !disp_cw by assumption. rewrite E3_eq. cbn [hop creator app].
    change (index1 (hop true i true)) with i. change (index1 (hop true j false)) with j. change (index1 (hop false k false)) with k.
    unfold delta, hop. destruct (Z.eqb_spec j k) as [->|]; ring.
  Qed.
  (** scattering: mean-field part plus particle-hole symmetric part *)
  Definition quad a b c d : list (op hub) := [hop true a true; hop false b true; hop true c false; hop false d false].
  Definition sum3 (f : Z -> Z -> Z -> K) : K :=
    sum_over (fun a => sum_over (fun b => sum_over (fun c => f a b c) (Zseq N)) (Zseq N)) (Zseq N).
  Lemma sum3_ext f f' : (forall a b c, site N a -> site N b -> site N c -> f a b c = f' a b c) -> sum3 f = sum3 f'.
  Proof.
    intros H. apply sum_over_ext. intros a Ha. apply sum_over_ext. intros b Hb. apply sum_over_ext. intros c Hc.
    apply Zseq_in in Ha, Hb, Hc. apply H; assumption.
  Qed.
  Lemma sum3_add f f' : sum3 (fun a b c => f a b c + f' a b c) = sum3 f + sum3 f'.
  Proof.
    unfold sum3. rewrite <- sum_over_add. apply sum_over_ext. intros a _. rewrite <- sum_over_add. apply sum_over_ext. intros b _. apply sum_over_add.
  Qed.
  Lemma sum3_scale c f : sum3 (fun x y z => c * f x y z) = c * sum3 f.
  Proof.
    unfold sum3. rewrite <- sum_over_mul_l. apply sum_over_ext. intros a _. rewrite <- sum_over_mul_l. apply sum_over_ext. intros b _. apply sum_over_mul_l.
  Qed.
  Lemma sum_H_sc f : sum_over f (H_sc N g) = sum3 (fun a b c => f (mkTerm g (quad a b c (dd a b c)))).
  Proof.
    unfold H_sc, sum3. rewrite sum_over_flat_map. apply sum_over_ext. intros a _. rewrite sum_over_flat_map. apply sum_over_ext. intros b _.
    apply sum_over_map.
  Qed.
  Lemma per_site_sum x : sum_over (fun _ => g * x) (Zseq N) = U * x.
  Proof. rewrite (sum_over_mul_r _ x (fun _ : Z => g) (Zseq N)). rewrite Hg. reflexivity. Qed.
  Lemma Hph_sum (f : term hub K -> K) a b c d : sum_over f (Hph half a b c d) =
    f (mkTerm 1 (quad a b c d)) + (f (mkTerm (- (half * delta c d)) [hop true a true; hop false b true])
    + (f (mkTerm (- (half * delta a b)) [hop true c false; hop false d false]) + (f (mkTerm (half * half * delta a b * delta c d) []) + 0))).
  Proof. unfold Hph, quad. rewrite !sum_over_cons, sum_over_nil. reflexivity. Qed.
  Lemma sc_split W : on_sites N W -> charge (K := K) W = 1 ->
    sum_over (fun h => prefactor h * cw (operators h) [] W []) (H_sc N g) =
    U * half * F W + sum3 (fun a b c => g * sum_over (fun h => prefactor h * cw (operators h) [] W []) (Hph half a b c (dd a b c))).
  Proof.
    intros HW Hc. rewrite sum_H_sc. cbn [prefactor operators].
    rewrite (sum3_ext _ (fun a b c => g * sum_over (fun h => prefactor h * cw (operators h) [] W []) (Hph half a b c (dd a b c))
       + (delta a b * (g * (half * cw (num a true) [] W [])) + delta a b * (g * (half * cw (num c false) [] W []))))).
    - rewrite sum3_add. rewrite sum3_add.
      assert (S1 : sum3 (fun a b c => delta a b * (g * (half * cw (num a true) [] W []))) = U * (half * sum_over (fun k => cw (num k true) [] W []) (Zseq N))).
      { unfold sum3. rewrite <- sum_over_mul_l, <- sum_over_mul_l. apply sum_over_ext. intros a Ha. apply Zseq_in in Ha.
        rewrite (sum_over_ext _ _ (fun b => delta b a * (U * (half * cw (num a true) [] W [])))).
        - rewrite (sum_ph' (fun _ => U * (half * cw (num a true) [] W [])) a Ha). reflexivity.
        - intros b _. rewrite sum_over_mul_l, per_site_sum, delta_sym. reflexivity. }
      assert (S2 : sum3 (fun a b c => delta a b * (g * (half * cw (num c false) [] W []))) = U * (half * sum_over (fun k => cw (num k false) [] W []) (Zseq N))).
      { unfold sum3. rewrite (sum_over_ext _ _ (fun a => g * (half * sum_over (fun k => cw (num k false) [] W []) (Zseq N)))).
        - apply per_site_sum.
        - intros a Ha. apply Zseq_in in Ha.
          rewrite (sum_over_ext _ _ (fun b => delta b a * (g * (half * sum_over (fun k => cw (num k false) [] W []) (Zseq N))))).
          + rewrite (sum_ph' (fun _ => g * (half * sum_over (fun k => cw (num k false) [] W []) (Zseq N))) a Ha). reflexivity.
          + intros b _. rewrite sum_over_mul_l, (delta_sym a b), !sum_over_mul_l. reflexivity. }
      rewrite S1, S2.
      pose proof (number_cw (K := K) N mode mode_inj s t [] W [] HW) as Nc. rewrite sum_over_add, Hc in Nc. cbn [app] in Nc. rewrite app_nil_r in Nc.
      transitivity (sum3 (fun a b c => g * sum_over (fun h => prefactor h * cw (operators h) [] W []) (Hph half a b c (dd a b c)))
        + U * half * (sum_over (fun k => cw (num k true) [] W []) (Zseq N) + sum_over (fun k => cw (num k false) [] W []) (Zseq N))); [ring|].
      rewrite Nc. ring.
    - intros a b c Ha Hb Hc'. rewrite Hph_sum. cbn [prefactor operators].
      assert (Z0 : cw [] [] W [] = 0) by (unfold cw1; cbn [app]; ring). rewrite Z0.
      rewrite (delta_cd a b c Ha Hb Hc'). fold (quad a b c (dd a b c)). unfold delta. destruct (Z.eqb_spec a b) as [->|Hne].
      + rewrite (d_diag b c Hc'). fold (num b true) (num c false). ring.
      + ring.
  Qed.
  Lemma sc_comm B : Forall (fun b : term hub K => on_sites N (operators b)) B -> (forall b, In b B -> charge (K := K) (operators b) = 1) ->
    comm_elem mode (H_sc N g) B s t = U * half * E B s t + sum3 (fun a b c => g * comm_elem mode (Hph half a b c (dd a b c)) B s t).
  Proof.
    intros HB Hc. rewrite comm_elem_cw.
    rewrite (sum3_ext _ (fun a b c => sum_over (fun x => prefactor x * (g * sum_over (fun h => prefactor h * cw (operators h) [] (operators x) []) (Hph half a b c (dd a b c)))) B)).
    2:{ intros a b c _ _ _. rewrite comm_elem_cw, <- sum_over_mul_l. apply sum_over_ext. intros x _. ring. }
    unfold terms_elem. rewrite <- sum_over_mul_l.
    assert (Sw : sum3 (fun a b c => sum_over (fun x => prefactor x * (g * sum_over (fun h => prefactor h * cw (operators h) [] (operators x) []) (Hph half a b c (dd a b c)))) B)
       = sum_over (fun x => prefactor x * sum3 (fun a b c => g * sum_over (fun h => prefactor h * cw (operators h) [] (operators x) []) (Hph half a b c (dd a b c)))) B).
    { rewrite (sum_over_ext _ (fun x => prefactor x * sum3 _) (fun x => sum3 (fun a b c => prefactor x * (g * sum_over (fun h => prefactor h * cw (operators h) [] (operators x) []) (Hph half a b c (dd a b c)))))) by (intros; symmetry; apply sum3_scale).
      unfold sum3. symmetry. rewrite sum_over_swap. apply sum_over_ext. intros a _. rewrite sum_over_swap. apply sum_over_ext. intros b _. rewrite sum_over_swap. reflexivity. }
    rewrite Sw, <- sum_over_add. apply sum_over_ext. intros x Hx. eapply Forall_forall in HB; [|exact Hx].
    rewrite sc_split by (auto). unfold term_elem. ring.
  Qed.
  (** row 0 *)
  Lemma quad_up a b c d : site N a -> site N b -> site N c -> site N d ->
    cw (quad a b c d) [] [hop true q true] [] = delta b q * F [hop true a true; hop true c false; hop false d false].
  Proof.
    intros Ha Hb Hc Hd. unfold cw1, quad. cbn [app].
    pose proof (bil_pass (K := K) mode s t (hop true c false) (hop false d false) (hop true q true) [hop true a true; hop false b true] []) as P1.
    pose proof (bil_pass (K := K) mode s t (hop true a true) (hop false b true) (hop true q true) [] [hop true c false; hop false d false]) as P2.
    rewrite !(d_compat N mode mode_inj) in P1, P2 by assumption.
    unfold compat, cdelta, spin_of, index1 in P1, P2. cbn [hop creator indices fst snd negb Bool.eqb andb] in P1, P2.
    cbn [app] in P1, P2. cbv beta in P1, P2.
    match goal with |- ?x - ?y = _ => match type of P1 with _ - ?m = _ => transitivity ((x - m) + (m - y)); [ring|] end end.
    rewrite P1, P2. rewrite (delta_sym q b). ring.
  Qed.
  Lemma row0 : comm_elem mode (H_disp N eps ++ H_sc N g) (B1 q) s t =
    (eps q + U * half) * E (B1 q) s t +
    sum_over (fun i1 => sum_over (fun i2 => g * half * E (B3 i1 i2 (dd i1 q i2)) s t) (Zseq N)) (Zseq N).
  Proof.
    rewrite comm_app, disp_B1 by exact Hq. rewrite comm_elem_cw. unfold B1 at 2. rewrite sum_over_cons, sum_over_nil. cbn [prefactor operators].
    rewrite sum_H_sc. cbn [prefactor operators].
    rewrite (sum3_ext _ (fun a b c => delta b q * (g * F [hop true a true; hop true c false; hop false (dd a b c) false])))
      by (intros a b c Ha Hb Hc; rewrite quad_up by (try apply d_site; assumption); ring).
    assert (L : sum3 (fun a b c => delta b q * (g * F [hop true a true; hop true c false; hop false (dd a b c) false])) =
      sum_over (fun a => sum_over (fun c => g * F [hop true a true; hop true c false; hop false (dd a q c) false]) (Zseq N)) (Zseq N)).
    { unfold sum3. apply sum_over_ext. intros a _.
      rewrite (sum_over_ext _ _ (fun b => delta b q * sum_over (fun c => g * F [hop true a true; hop true c false; hop false (dd a b c) false]) (Zseq N)))
        by (intros; apply sum_over_mul_l).
      apply (sum_ph' (fun b => sum_over (fun c => g * F [hop true a true; hop true c false; hop false (dd a b c) false]) (Zseq N)) q Hq). }
    rewrite L. 
    rewrite (sum_over_ext _ (fun i1 => sum_over (fun i2 => g * half * _) (Zseq N)) (fun a =>
       sum_over (fun c => g * F [hop true a true; hop true c false; hop false (dd a q c) false]) (Zseq N) - delta a q * (U * half * F [hop true a true]))).
    - rewrite sum_over_sub, (sum_ph' (fun a => U * half * F [hop true a true]) q Hq). rewrite E1_eq. ring.
    - intros a Ha. apply Zseq_in in Ha.
      transitivity (sum_over (fun c => g * F [hop true a true; hop true c false; hop false (dd a q c) false] - g * (delta a q * (half * F [hop true a true]))) (Zseq N)).
      + apply sum_over_ext. intros c Hc. apply Zseq_in in Hc. rewrite E3_eq, (delta_cd a q c Ha Hq Hc).
        transitivity ((half + half) * g * F [hop true a true; hop true c false; hop false (dd a q c) false] - g * (delta a q * (half * F [hop true a true]))); [ring|rewrite Hhalf; ring].
      + rewrite sum_over_sub, per_site_sum. ring.
  Qed.
  End ST.

  (** projections of the scattering term on three-operator rows *)
  Lemma onH' a b c d : site N a -> site N b -> site N c -> site N d -> terms_on (K := K) N (Hph half a b c d).
  Proof. intros. unfold terms_on, on_sites, Hph; repeat (apply Forall_cons || apply Forall_nil); cbn [operators]; repeat (apply Forall_cons || apply Forall_nil); unfold index1, hop; cbn [indices fst]; assumption. Qed.
  Ltac lens := intros xa xb Ha Hb; cbn in Ha, Hb; repeat match goal with H : _ \/ _ |- _ => destruct H | H : False |- _ => destruct H end; subst xa xb; cbn [operators length app]; (split; [cbn; lia|reflexivity]).
  Lemma mph1 a b c d j i1 i2 i3 : site N a -> site N b -> site N c -> site N d -> site N j -> site N i1 -> site N i2 -> site N i3 ->
    Fr (B1 j) (fun s t => comm_elem mode (Hph half a b c d) (B3 i1 i2 i3) s t) =
    half * half * delta a j * delta i1 b * delta c i3 * delta i2 d * two_pow M.
  Proof.
    intros. rewrite (frob_comm half Hhalf N mode mode_inj M mode_below 4) by (try apply on1; try apply on3; try apply onH'; try assumption; lens).
    rewrite ph_31 by exact Hhalf. ring.
  Qed.
  Lemma mph3 a b c d j1 j2 j3 i1 i2 i3 : site N a -> site N b -> site N c -> site N d ->
    site N j1 -> site N j2 -> site N j3 -> site N i1 -> site N i2 -> site N i3 ->
    Fr (B3 j1 j2 j3) (fun s t => comm_elem mode (Hph half a b c d) (B3 i1 i2 i3) s t) = 0.
  Proof.
    intros. rewrite (frob_comm half Hhalf N mode mode_inj M mode_below 5) by (try apply on1; try apply on3; try apply onH'; try assumption; lens).
    rewrite ph_33 by exact Hhalf. ring.
  Qed.
  Lemma frob_sum3 A X : Fr A (fun s t => sum3 (fun a b c => X a b c s t)) = sum3 (fun a b c => Fr A (X a b c)).
  Proof.
    unfold sum3. rewrite (frob_sum M (E A) (fun a s t => sum_over (fun b => sum_over (fun c => X a b c s t) (Zseq N)) (Zseq N))).
    apply sum_over_ext. intros a _. rewrite (frob_sum M (E A) (fun b s t => sum_over (fun c => X a b c s t) (Zseq N))).
    apply sum_over_ext. intros b _. apply (frob_sum M (E A) (fun c s t => X a b c s t)).
  Qed.
  Lemma comm3m i1 i2 i3 s t : site N i1 -> site N i2 -> site N i3 ->
    comm_elem mode (H_disp N eps ++ H_sc N g) (B3 i1 i2 i3) s t =
    (eps i1 + eps i2 - eps i3 + U * half) * E (B3 i1 i2 i3) s t
    + sum3 (fun a b c => g * comm_elem mode (Hph half a b c (dd a b c)) (B3 i1 i2 i3) s t).
  Proof.
    intros H1 H2 H3. rewrite comm_app, disp_B3, sc_comm by (try assumption; try apply on3; try assumption; intros; eapply charge1; eassumption). ring.
  Qed.
  Lemma col0 i1 i2 : site N i1 -> site N i2 ->
    Fr (B1 q) (fun s t => comm_elem mode (H_disp N eps ++ H_sc N g) (B3 i1 i2 (dd i1 q i2)) s t) = g * half * (half * two_pow M).
  Proof.
    intros H1 H2. pose proof (d_site i1 q i2) as H3.
    rewrite (frob_ext M _ _ _ (fun s t => comm3m i1 i2 (dd i1 q i2) s t H1 H2 H3)).
    rewrite frob_add, frob_scale, (G13 half Hhalf N mode mode_inj M mode_below) by assumption.
    rewrite (frob_sum3 (B1 q) (fun a b c s t => g * comm_elem mode (Hph half a b c (dd a b c)) (B3 i1 i2 (dd i1 q i2)) s t)).
    rewrite (sum3_ext _ (fun a b c => delta a q * (delta b i1 * (delta c (dd i1 q i2) * (delta i2 (dd a b c) * (g * (half * half * two_pow M))))))).
    2:{ intros a b c Ha Hb Hc. rewrite frob_scale, mph1 by (try assumption; apply d_site). rewrite (delta_sym i1 b). ring. }
    unfold sum3.
    rewrite (sum_over_ext _ _ (fun a => delta a q * (sum_over (fun b => delta b i1 * sum_over (fun c => delta c (dd i1 q i2) * (delta i2 (dd a b c) * (g * (half * half * two_pow M)))) (Zseq N)) (Zseq N)))).
    2:{ intros a _. rewrite <- sum_over_mul_l. apply sum_over_ext. intros b _. rewrite <- !sum_over_mul_l. reflexivity. }
    rewrite (sum_ph' (fun a => sum_over (fun b => delta b i1 * sum_over (fun c => delta c (dd i1 q i2) * (delta i2 (dd a b c) * (g * (half * half * two_pow M)))) (Zseq N)) (Zseq N)) q Hq).
    rewrite (sum_ph' (fun b => sum_over (fun c => delta c (dd i1 q i2) * (delta i2 (dd q b c) * (g * (half * half * two_pow M)))) (Zseq N)) i1 H1).
    rewrite (sum_ph' (fun c => delta i2 (dd q i1 c) * (g * (half * half * two_pow M))) (dd i1 q i2) H3).
    replace (dd q i1 (dd i1 q i2)) with i2.
    - unfold delta. rewrite Z.eqb_refl. ring.
    - rewrite Zplus_mod_idemp_r. replace (q - i1 + (i1 - q + i2))%Z with i2 by lia. symmetry. apply Z.mod_small. exact H2.
  Qed.
  Lemma coln i1 i2 j1 j2 : site N i1 -> site N i2 -> site N j1 -> site N j2 ->
    Fr (B3 j1 j2 (dd j1 q j2)) (fun s t => comm_elem mode (H_disp N eps ++ H_sc N g) (B3 i1 i2 (dd i1 q i2)) s t) =
    (eps i1 + eps i2 - eps (dd i1 q i2) + U * half) * (delta i1 j1 * delta i2 j2) * (half * two_pow M).
  Proof.
    intros H1 H2 G1 G2. pose proof (d_site i1 q i2) as H3. pose proof (d_site j1 q j2) as G3.
    rewrite (frob_ext M _ _ _ (fun s t => comm3m i1 i2 (dd i1 q i2) s t H1 H2 H3)).
    rewrite frob_add, frob_scale, (G33 half Hhalf N mode mode_inj M mode_below) by assumption.
    rewrite (frob_sum3 (B3 j1 j2 (dd j1 q j2)) (fun a b c s t => g * comm_elem mode (Hph half a b c (dd a b c)) (B3 i1 i2 (dd i1 q i2)) s t)).
    rewrite (sum3_ext _ (fun _ _ _ => 0 * 0)).
    2:{ intros a b c Ha Hb Hc. rewrite frob_scale, mph3 by (try assumption; apply d_site). ring. }
    rewrite sum3_scale. unfold delta. destruct (Z.eqb_spec i1 j1) as [->|]; [|ring]. destruct (Z.eqb_spec i2 j2) as [->|]; [|ring]. rewrite Z.eqb_refl. ring.
  Qed.
  (** row 0 projected *)
  Lemma p00 : Fr (B1 q) (fun s t => comm_elem mode (H_disp N eps ++ H_sc N g) (B1 q) s t) = (eps q + U * half) * (half * two_pow M).
  Proof.
    rewrite (frob_ext M _ _ _ row0), frob_add, frob_scale, (G11 half Hhalf N mode mode_inj M mode_below) by exact Hq.
    rewrite (frob_sum M (E (B1 q)) (fun i1 s t => sum_over (fun i2 => g * half * E (B3 i1 i2 (dd i1 q i2)) s t) (Zseq N))).
    rewrite sum_over_zero.
    - unfold delta. rewrite Z.eqb_refl. ring.
    - intros i1 H1. apply Zseq_in in H1. rewrite (frob_sum M (E (B1 q)) (fun i2 s t => g * half * E (B3 i1 i2 (dd i1 q i2)) s t)).
      apply sum_over_zero. intros i2 H2. apply Zseq_in in H2. rewrite frob_scale, (G13 half Hhalf N mode mode_inj M mode_below) by (try assumption; apply d_site). ring.
  Qed.
  Lemma p0n j1 j2 : site N j1 -> site N j2 ->
    Fr (B3 j1 j2 (dd j1 q j2)) (fun s t => comm_elem mode (H_disp N eps ++ H_sc N g) (B1 q) s t) = g * half * (half * two_pow M).
  Proof.
    intros G1 G2. pose proof (d_site j1 q j2) as G3.
    rewrite (frob_ext M _ _ _ row0), frob_add, frob_scale, (G31 half Hhalf N mode mode_inj M mode_below) by assumption.
    rewrite (frob_sum M (E (B3 j1 j2 (dd j1 q j2))) (fun i1 s t => sum_over (fun i2 => g * half * E (B3 i1 i2 (dd i1 q i2)) s t) (Zseq N))).
    rewrite (sum_over_ext _ _ (fun i1 => delta i1 j1 * (g * half * (half * two_pow M)))).
    - rewrite (sum_ph' (fun _ => g * half * (half * two_pow M)) j1 G1). ring.
    - intros i1 H1. apply Zseq_in in H1. rewrite (frob_sum M (E (B3 j1 j2 (dd j1 q j2))) (fun i2 s t => g * half * E (B3 i1 i2 (dd i1 q i2)) s t)).
      rewrite (sum_over_ext _ _ (fun i2 => delta i2 j2 * (delta i1 j1 * (g * half * (half * two_pow M))))).
      + rewrite (sum_ph' (fun _ => delta i1 j1 * (g * half * (half * two_pow M))) j2 G2). reflexivity.
      + intros i2 H2. apply Zseq_in in H2. rewrite frob_scale, (G33 half Hhalf N mode mode_inj M mode_below) by (try assumption; apply d_site).
        unfold delta. destruct (Z.eqb_spec i1 j1) as [->|]; [|ring]. destruct (Z.eqb_spec i2 j2) as [->|]; [|ring]. rewrite Z.eqb_refl. ring.
  Qed.
End Phys.
