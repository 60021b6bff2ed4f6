(** PROPERTY C118 (continued): with interaction and hopping the truncation shows at once. *)
From Coq Require Import Reals Lra Psatz.
From Verif Require Import Base Spec_Fock FockFacts M_Operator M_Lattice Spec_Lattice Pf_Lattice M_Basis Pf_Basis M_Matrix M_MatrixCheck M_Ode M_Dispersion M_OpenMP Spec_Algebra Spec_Dynamics
  Pf_Matrix Spec_Matrix Pf_Matrix2 Pf_Trace Pf_Wick Pf_Liouville Pf_Projection Pf_MatrixEntry P_Matrix Spec_Stability Pf_Stability Pf_Stability2 Pf_Stability3 P_Stability Spec_Ode Pf_Ode P_Ode Pf_Commutator P_Dynamics P_DynamicsKinetic Spec_Programs P_OccupationFree Pf_Symmetry Pf_Theory Pf_Theory2 Pf_LightCone Spec_Truncation M_Programs Pf_Programs P_Parameters Ex_Matrix Pf_Truncation P_Truncation Spec_Closure P_Closure.
Local Open Scope R_scope.
Local Open Scope list_scope.
Local Notation len u := (Z.of_nat (length u)).
From Coq Require Import Ranalysis5.

Section Strict.
  Context (sort : list (triplet CR) -> list (triplet CR)) (J U : R) (lat : lattice) (N : Z) (mode : hub -> nat) (M : nat).
  Hypothesis Hs : sorts_by_column sort.
  Hypothesis Hl : shipped3 lat N.
  Hypothesis Hf : fits3 lat N.
  Hypothesis Hm : numbers_orbitals mode N.
  Hypothesis Hb : orbitals_below mode N M.
  Hypothesis Jn : J <> 0.
  Hypothesis Un : U <> 0.
  Let HG := shipped3_graph lat N Hl.
  Let HS := fits3_S3 lat N HG Hf.
  Let n := (N + N * N * N)%Z.
  Let H := H_kin lat (real J : CR) ++ H_int lat (real U).
  Let B := basis3 lat.
  Context (m : bmat CR).
  Hypothesis Em : init_matrix sort (real J : CR) (real U) (real (1/2)) lat = Ok m.
  Let E := entry (bm_scale imag_unit m).
  Variable y : R -> Z -> CR.
  Hypothesis Hy : the_solution n E y.
  Let id3 := get_3op_index N.
  Let site0 : site N 0.
  Proof. pose proof (HNpos lat N HG). unfold site. lia. Qed.
  (** a neighbour of site 0 *)
  Lemma next_site : exists a, site N a /\ a <> 0%Z /\ adjc (K := CR) lat a 0 = r1.
  Proof.
    pose proof (g_len _ _ HG 0%Z site0) as L. pose proof (g_co _ _ HG) as C.
    destruct (lat_neighbors lat 0) as [|a l] eqn:En; [cbn in L; lia|]. assert (Ha : In a (lat_neighbors lat 0)) by (rewrite En; left; reflexivity).
    pose proof (g_range _ _ HG 0%Z a site0 Ha) as Sa. exists a. split; [exact Sa|]. split; [intros ->; exact (g_irr _ _ HG 0%Z site0 Ha)|].
    unfold adjc, delta. apply (sum_pick Z.eqb Z.eqb_eq (fun _ => r1 : CR) 0%Z); [apply (g_nodup _ _ HG a Sa)|apply (g_sym _ _ HG 0%Z a site0 Ha)].
  Qed.
  Local Lemma CR_zero (x : CR) : fst x = 0 -> snd x = 0 -> x = r0.
  Proof. destruct x as [a b]. cbn. intros -> ->. reflexivity. Qed.
  (** a coefficient that vanishes on an interval has a vanishing right-hand side there *)
  Lemma flat i (eps : R) : (0 <= i < n)%Z -> (forall s, 0 < s < eps -> y s i = r0) -> forall s, 0 < s < eps -> sum_over (K := CR) (fun j => rmul (E i j) (y s j)) (zrange 0 n) = r0.
  Proof.
    intros Hi Z0 s Hs'. destruct Hy as (Ht & _). destruct (Ht s i Hi) as [D1 D2].
    apply CR_zero.
    - apply (uniqueness_limite (fun _ => 0) s); [|apply derivable_pt_lim_const]. refine (derivable_pt_lim_locally_ext _ _ s 0 eps _ Hs' _ D1). intros z Hz. rewrite (Z0 z Hz). reflexivity.
    - apply (uniqueness_limite (fun _ => 0) s); [|apply derivable_pt_lim_const]. refine (derivable_pt_lim_locally_ext _ _ s 0 eps _ Hs' _ D2). intros z Hz. rewrite (Z0 z Hz). reflexivity.
  Qed.
  Local Lemma mul0 (a b : CR) : b = r0 -> rmul a b = r0.
  Proof. intros ->. destruct a as [x z]. cbn. apply (f_equal2 (@pair R R)); cbn; ring. Qed.
  Local Lemma mul0l (a b : CR) : a = r0 -> rmul a b = r0.
  Proof. intros ->. destruct b as [x z]. cbn. apply (f_equal2 (@pair R R)); cbn; ring. Qed.
  Lemma all_deep (eps : R) : 0 < eps ->
    (forall s j, 0 < s < eps -> (0 <= j < n)%Z -> level N j = 2%Z -> y s j = r0) -> False.
  Proof.
    intros Pe Z0. destruct next_site as (a & Sa & Na & Aa).
    assert (Ri : forall b c d, site N b -> site N c -> site N d -> (0 <= id3 b c d < n)%Z).
    { intros b c d S1 S2 S3. unfold id3. rewrite (get_3op_index_eq lat N (g_reg _ _ HG) HS) by assumption. unfold n, site in *. nia. }
    pose proof (Ri a 0%Z 0%Z Sa site0 site0) as Rd. pose proof (Ri 0%Z 0%Z 0%Z site0 site0 site0) as Ro.
    (* the coefficient of the doublon operator at site 0 *)
    assert (Y1 : forall s, 0 < s < eps -> y s (id3 0 0 0)%Z = r0).
    { intros s Hs'. assert (La : level N (id3 a 0 0)%Z = 2%Z) by (unfold id3; rewrite (level_3 lat N Hl Hf) by assumption; destruct (Z.eqb_spec a 0); [contradiction|reflexivity]).
      pose proof (flat (id3 a 0 0)%Z eps Rd (fun q Hq => Z0 q _ Hq Rd La) s Hs') as F.
      rewrite (sum_over_ext CR _ (fun j => if (j =? id3 0 0 0)%Z then rmul (E (id3 a 0 0)%Z (id3 0 0 0)%Z) (y s j) else r0)) in F.
      - rewrite (sum_pick Z.eqb Z.eqb_eq _ _ _ (zrange_nodup n) (Logic.proj2 (zrange_in 0 n _) Ro)) in F.
        unfold E, id3 in F. rewrite (entry_33 sort J U lat N Hs Hl Hf m Em), (weight_33 _ _ _ lat N HG HS), Aa in F by assumption.
        unfold delta in F. rewrite Z.eqb_refl in F. destruct (Z.eqb_spec a 0) as [|_]; [contradiction|].
        unfold id3. revert F. generalize (y s (get_3op_index N 0 0 0)). generalize (adjc (K := CR) lat 0 0). intros [q1 q2] [y1 y2] F. unfold real, imag_unit in F. cbn in F. injection F as F1 F2.
        apply CR_zero; cbn; apply (Rmult_eq_reg_l J); try exact Jn; rewrite Rmult_0_r; nra.
      - intros j Hj. apply zrange_in in Hj. destruct (Z.eqb_spec j (id3 0 0 0)%Z) as [->|Nj]; [reflexivity|].
        destruct (cases lat N Hl Hf j Hj) as [Qj|(b & c & d & Hb1 & Hc & Hd & ->)].
        + apply mul0l. unfold E, id3. rewrite (entry_31 sort J U lat N Hs Hl Hf m Em) by assumption. unfold delta. destruct (Z.eqb_spec j a) as [->|].
          * destruct (Z.eqb_spec a 0); [contradiction|]. cbn. apply (f_equal2 (@pair R R)); cbn; ring.
          * destruct (Z.eqb_spec j 0); cbn; apply (f_equal2 (@pair R R)); cbn; ring.
        + destruct (Z.eqb_spec b c) as [<-|e1]; [destruct (Z.eqb_spec b d) as [<-|e2]|].
          * apply mul0l. assert (Nb : b <> 0%Z) by (intros ->; apply Nj; reflexivity). unfold E, id3. rewrite (entry_33 sort J U lat N Hs Hl Hf m Em), (weight_33 _ _ _ lat N HG HS) by assumption.
            unfold delta. destruct (Z.eqb_spec 0 b) as [e|_]; [congruence|]. generalize (adjc (K := CR) lat a b) (adjc (K := CR) lat 0 b). intros [p1 p2] [q1 q2]. destruct (a =? b)%Z; cbn; apply (f_equal2 (@pair R R)); cbn; ring.
          * apply mul0, Z0; [exact Hs'|exact Hj|]. rewrite (level_3 lat N Hl Hf) by assumption. destruct (Z.eqb_spec b d); [contradiction|]. rewrite andb_false_r. reflexivity.
          * apply mul0, Z0; [exact Hs'|exact Hj|]. rewrite (level_3 lat N Hl Hf) by assumption. destruct (Z.eqb_spec b c); [contradiction|]. reflexivity. }
    assert (Y0 : forall s, 0 < s < eps -> y s 0%Z = r0).
    { intros s Hs'. pose proof (flat (id3 0 0 0)%Z eps Ro Y1 s Hs') as F.
      rewrite (sum_over_ext CR _ (fun j => if (j =? 0)%Z then rmul (E (id3 0 0 0)%Z 0%Z) (y s j) else r0)) in F.
      - rewrite (sum_pick Z.eqb Z.eqb_eq _ _ _ (zrange_nodup n)) in F by (apply zrange_in; unfold n; unfold site in site0; nia).
        unfold E, id3 in F. rewrite (entry_31 sort J U lat N Hs Hl Hf m Em) in F by assumption. unfold delta in F. rewrite Z.eqb_refl in F.
        revert F. generalize (y s 0%Z). intros [y1 y2] F. unfold real, imag_unit in F. cbn in F. injection F as F1 F2.
        apply CR_zero; cbn; apply (Rmult_eq_reg_l U); try exact Un; rewrite Rmult_0_r; nra.
      - intros j Hj. apply zrange_in in Hj. destruct (Z.eqb_spec j 0%Z) as [->|Nj]; [reflexivity|].
        destruct (cases lat N Hl Hf j Hj) as [Qj|(b & c & d & Hb1 & Hc & Hd & ->)].
        + apply mul0l. unfold E, id3. rewrite (entry_31 sort J U lat N Hs Hl Hf m Em) by assumption. unfold delta. destruct (Z.eqb_spec j 0); [contradiction|]. cbn. apply (f_equal2 (@pair R R)); cbn; ring.
        + destruct (Z.eqb_spec b c) as [<-|e1]; [destruct (Z.eqb_spec b d) as [<-|e2]|].
          * destruct (Z.eq_dec b 0) as [->|Nb]; [apply mul0, Y1, Hs'|]. apply mul0l. unfold E, id3. rewrite (entry_33 sort J U lat N Hs Hl Hf m Em), (weight_33 _ _ _ lat N HG HS) by assumption.
            unfold delta. destruct (Z.eqb_spec 0 b) as [e|_]; [congruence|]. generalize (adjc (K := CR) lat 0 b). intros [q1 q2]. cbn; apply (f_equal2 (@pair R R)); cbn; ring.
          * apply mul0, Z0; [exact Hs'|exact Hj|]. rewrite (level_3 lat N Hl Hf) by assumption. destruct (Z.eqb_spec b d); [contradiction|]. rewrite andb_false_r. reflexivity.
          * apply mul0, Z0; [exact Hs'|exact Hj|]. rewrite (level_3 lat N Hl Hf) by assumption. destruct (Z.eqb_spec b c); [contradiction|]. reflexivity. }
    destruct Hy as (Ht & I0 & _). assert (R0 : (0 <= 0 < n)%Z) by (unfold n; unfold site in site0; nia).
    destruct (Ht 0 0%Z R0) as [D1 _].
    pose proof (derivable_continuous_pt _ 0 (exist _ _ D1)) as Cn. destruct (Cn (1/2) ltac:(lra)) as (d & Pd & Q).
    set (x := Rmin (d / 2) (eps / 2)). assert (Px : 0 < x /\ x < d /\ x < eps).
    { unfold x. pose proof (Rmin_l (d / 2) (eps / 2)). pose proof (Rmin_r (d / 2) (eps / 2)). pose proof (Rmin_pos (d / 2) (eps / 2) ltac:(lra) ltac:(lra)). lra. }
    assert (Qx := Q x). cbn in Qx. unfold R_dist, D_x, no_cond in Qx.
    rewrite (Y0 x ltac:(lra)), (I0 0%Z R0) in Qx. unfold first_unit in Qx. cbn in Qx.
    assert (A : Rabs (0 - 1) < 1 / 2) by (apply Qx; split; [split; [exact I|lra]|rewrite Rminus_0_r, Rabs_pos_eq; lra]).
    rewrite Rabs_left in A; lra.
  Qed.
End Strict.

(** with hopping and interaction the operator the program evolves leaves the true motion at once: they agree on no interval [0, eps) *)
Theorem C118_strict : forall (sort : list (triplet CR) -> list (triplet CR)) J U lat N mode M m y X eps,
  sorts_by_column sort -> shipped3 lat N -> fits3 lat N -> numbers_orbitals mode N -> orbitals_below mode N M ->
  init_matrix sort (real J : CR) (real U) (real (1/2)) lat = Ok m -> the_solution (N + N * N * N) (entry (bm_scale imag_unit m)) y ->
  heisenberg M (terms_elem mode (H_kin lat (real J) ++ H_int lat (real U))) X ->
  J <> 0 -> U <> 0 -> 0 < eps ->
  ~ (forall t s u, 0 <= t < eps -> In s (fock M) -> In u (fock M) ->
       terms_elem mode (vec_op (basis3 lat) (map (y t) (zrange 0 (N + N * N * N)))) s u = X t s u).
Proof.
  intros sort J U lat N mode M m y X eps Hs Hl Hf Hm Hb Em Hy HX Jn Un Pe Eq.
  set (n := (N + N * N * N)%Z) in *. set (H := H_kin lat (real J : CR) ++ H_int lat (real U)) in *.
  assert (Hn : (0 <= n)%Z) by (pose proof (HNpos lat N (shipped3_graph lat N Hl)); unfold n; nia).
  set (h := fun t => map (y t) (zrange 0 n)).
  assert (Lh : forall t, len (h t) = n) by (intros t; unfold h; rewrite map_length, zrange_length; lia).
  assert (Vh : forall t j, (0 <= j < n)%Z -> vget (h t) j = y t j) by (intros t j Hj; exact (nth_zrange_map (y t) n j _ Hj)).
  assert (Ag : forall t s u, terms_elem mode (vec_op (basis3 lat) (h t)) s u = Am mode (basis3 lat) n (y t) s u).
  { intros t s u. rewrite (vec_Am lat N mode Hl (h t) s u (Lh t)). unfold Am. apply sum_over_ext. intros j Hj. apply zrange_in in Hj. rewrite Vh by exact Hj. reflexivity. }
  apply (all_deep sort J U lat N Hs Hl Hf Jn Un m Em y Hy eps Pe). intros t j Ht Hj Lj. fold n in Hj.
  (* nothing is missed at time t *)
  assert (Ms : forall a b, In a (fock M) -> In b (fock M) -> missed mode (basis3 lat) n H (entry m) (y t) a b = r0).
  { intros a b Sa Sb.
    pose proof (A_motion sort J U lat N mode M Hs Hl Hf Hb m Em y Hy t a b Sa) as D. cbv zeta in D. fold n H in D. destruct D as [D1 D2].
    destruct (HX t a b Sa Sb) as [E1 E2].
    assert (Loc : forall z, 0 < z < eps -> X z a b = Am mode (basis3 lat) n (y z) a b) by (intros z Hz; rewrite <- (Eq z a b ltac:(lra) Sa Sb); apply Ag).
    assert (Bk : bracket M (terms_elem mode H) (X t) a b = bracket M (terms_elem mode H) (Am mode (basis3 lat) n (y t)) a b).
    { unfold bracket. apply sum_over_ext. intros u Hu. rewrite <- (Eq t a u ltac:(lra) Sa Hu), <- (Eq t u b ltac:(lra) Hu Sb). fold (h t). rewrite !Ag. reflexivity. }
    cbv zeta in E1, E2. rewrite Bk in E1, E2.
    assert (F1 := uniqueness_limite _ _ _ _ (derivable_pt_lim_locally_ext _ _ t 0 eps _ Ht (fun z Hz => f_equal fst (Loc z Hz)) E1) D1).
    assert (F2 := uniqueness_limite _ _ _ _ (derivable_pt_lim_locally_ext _ _ t 0 eps _ Ht (fun z Hz => f_equal snd (Loc z Hz)) E2) D2).
    revert F1 F2. generalize (bracket M (terms_elem mode H) (Am mode (basis3 lat) n (y t)) a b) (missed (K := CR) mode (basis3 lat) n H (entry m) (y t) a b).
    intros [p q] [v w] F1 F2. cbn in F1, F2. apply (f_equal2 (@pair R R)); cbn; lra. }
  assert (Cl : U = 0 \/ forall j, (0 <= j < n)%Z -> several_sites (nth (Z.to_nat j) (basis3 lat) []) = true -> vget (h t) j = r0).
  { apply (C120_closed J U lat N mode M (h t) Hl Hf Hm Hb (Lh t)). exists (sp_vec m (h t)). split; [apply (product_vec sort J U lat N Hs Hl Hf m Em (h t) (Lh t))|].
    intros a b Sa Sb. fold H. pose proof (product_misses sort J U lat N mode M Hs Hl Hf Hb m Em (h t) (Lh t) a b Sa) as P. fold n H in P.
    assert (Mv : missed mode (basis3 lat) n H (entry m) (vget (h t)) a b = r0).
    { rewrite <- (Ms a b Sa Sb). unfold missed. apply sum_over_ext. intros k Hk. apply zrange_in in Hk. rewrite Vh by exact Hk. reflexivity. }
    rewrite Mv in P. revert P. generalize (terms_elem (K := CR) mode (vec_op (basis3 lat) (sp_vec m (h t))) a b) (comm_elem (K := CR) mode H (vec_op (basis3 lat) (h t)) a b).
    intros [p q] [v w] P. cbn in P. injection P as P1 P2. apply (f_equal2 (@pair R R)); cbn; lra. }
  destruct Cl as [C|C]; [contradiction|]. rewrite <- (Vh t j Hj). apply (C j Hj). rewrite (several_level lat N Hl Hf (h t) j Hj), Lj. reflexivity.
Qed.

(** the chain of four sites with J = U = 1: the two motions part before time 1/1000000 *)
Example C118_strict_example : exists m y X,
  init_matrix isort (real 1 : CR) (real 1) (real (1/2)) (chain_lattice 4) = Ok m /\ the_solution 68 (entry (bm_scale imag_unit m)) y /\
  heisenberg 8 (terms_elem orbital (H_kin (chain_lattice 4) (real 1 : CR) ++ H_int (chain_lattice 4) (real 1))) X /\
  (forall s u, In s (fock 8) -> In u (fock 8) -> X 0 s u = terms_elem orbital (B1 0) s u) /\
  ~ (forall t s u, 0 <= t < / 1000000 -> In s (fock 8) -> In u (fock 8) ->
       terms_elem orbital (vec_op (basis3 (chain_lattice 4)) (map (y t) (zrange 0 68))) s u = X t s u).
Proof.
  assert (T : (4 < two64)%Z) by reflexivity. assert (Hl : shipped3 (chain_lattice 4) 4) by (constructor; lia). assert (Hf : fits3 (chain_lattice 4) 4) by (unfold fits3; apply big; reflexivity).
  destruct (C118_motion 1 1 _ 4 orbital 8 (terms_elem orbital (B1 0)) Hl (orbital_below 4)) as (X & HX & X0 & _).
  assert (Hs : sorts_by_column (K := CR) isort) by exact isort_ok.
  destruct (full_facts isort 1 1 _ 4 Hs Hl Hf) as (m & Em & _).
  destruct (the_solution_exists isort 1 1 _ 4 m Hs Hl Hf Em) as (y & Hy).
  exists m, y, X. split; [exact Em|]. split; [exact Hy|]. split; [exact HX|]. split; [exact X0|].
  apply (C118_strict isort 1 1 _ 4 orbital 8 m y X (/ 1000000) Hs Hl Hf (orbital_numbers 4) (orbital_below 4) Em Hy HX); lra.
Qed.
