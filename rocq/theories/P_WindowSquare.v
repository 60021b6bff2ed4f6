(** PROPERTY C119: the size of the square lattice does not matter until the light cone meets itself. *)
From Coq Require Import Reals Lra Psatz.
From Verif Require Import Base M_Operator M_Lattice Spec_Lattice Pf_Lattice P_Lattice M_LatticeReal Spec_LatticeReal M_Basis Pf_Basis P_Basis M_Matrix M_Ode M_Dispersion M_OpenMP M_TimeLoop Spec_TimeLoop
  Pf_Matrix Spec_Matrix Pf_Matrix2 P_Matrix Spec_Stability Pf_Stability Pf_Stability2 Pf_Stability3 P_Stability Spec_Programs M_Programs Pf_Programs Pf_Programs2 Spec_Ode Pf_Ode P_Ode P_TimeLoop P_Programs M_JumpPrograms P_JumpPrograms Pf_MatrixEntry P_OccupationFree Pf_Symmetry P_Symmetry Ex_Matrix Ex_Programs Spec_LightCone Pf_LightCone P_LightCone Spec_Window Pf_Window P_Window Spec_Grow Pf_Grow P_Grow Spec_WindowSquare.
Local Open Scope R_scope.
Local Open Scope list_scope.
Local Notation len u := (Z.of_nat (length u)).
Local Notation far L := (torus_distance L).

Definition shift_of (L s : Z) : shift := (offset L (s / L), offset L (s mod L)).
Section Torus.
  Context (L D : Z).
  Hypothesis HL : (2 * D + 1 <= L)%Z.
  Hypothesis H3 : (3 <= L)%Z.
  Lemma shift_range o : site (L * L) (at_shift L o).
  Proof. unfold site, at_shift. pose proof (at_range L (fst o) ltac:(lia)). pose proof (at_range L (snd o) ltac:(lia)). unfold site in *. nia. Qed.
  Lemma shift_xy o : (at_shift L o / L = at_offset L (fst o) /\ at_shift L o mod L = at_offset L (snd o))%Z.
  Proof.
    unfold at_shift. pose proof (at_range L (snd o) ltac:(lia)) as H. unfold site in H. rewrite Z.div_add_l, Z.div_small by lia. split; [lia|]. rewrite Z.add_comm, Z.mod_add, Z.mod_small by lia. reflexivity.
  Qed.
  Lemma shift_dist o : (hops o <= D)%Z -> far L (at_shift L o) = hops o.
  Proof. unfold hops. intros H. unfold torus_distance. destruct (shift_xy o) as [-> ->]. rewrite !(at_dist L D HL) by lia. reflexivity. Qed.
  Lemma shift_at o : (hops o <= D)%Z -> shift_of L (at_shift L o) = o.
  Proof. unfold hops. intros H. unfold shift_of. destruct (shift_xy o) as [-> ->]. rewrite !(offset_at L D HL) by lia. destruct o; reflexivity. Qed.
  Lemma at_of_shift s : site (L * L) s -> (far L s <= D)%Z -> at_shift L (shift_of L s) = s /\ hops (shift_of L s) = far L s.
  Proof.
    intros Hs H. unfold site in Hs. assert (Hx : site L (s / L)) by (unfold site; split; [apply Z.div_pos; lia|apply Z.div_lt_upper_bound; lia]). assert (Hy : site L (s mod L)) by (apply Z.mod_pos_bound; lia).
    unfold torus_distance in *. assert (P : forall x, site L x -> (0 <= ring_distance L 0 x)%Z) by (intros x Q; unfold ring_distance, site in *; lia). pose proof (P _ Hx). pose proof (P _ Hy).
    destruct (at_of_offset L D HL _ Hx ltac:(lia)) as [X1 X2], (at_of_offset L D HL _ Hy ltac:(lia)) as [Y1 Y2].
    unfold at_shift, hops, shift_of. cbn [fst snd]. rewrite X1, X2, Y1, Y2. split; [|reflexivity]. rewrite Z.mul_comm. symmetry. apply Z.div_mod. lia.
  Qed.
  Definition same_shift (o o' : shift) : bool := ((fst o =? fst o') && (snd o =? snd o'))%Z%bool.
  Definition chi2 (o o' : shift) : CR := if same_shift o o' then real 1 else real 0.
  Lemma shift_inj o o' : (Z.abs (fst o - fst o') <= 2 * D)%Z -> (Z.abs (snd o - snd o') <= 2 * D)%Z -> at_shift L o = at_shift L o' -> o = o'.
  Proof.
    intros A B E. destruct (shift_xy o) as [X Y], (shift_xy o') as [X' Y']. rewrite E in X, Y. rewrite X' in X. rewrite Y' in Y.
    assert (Q : forall a b, (Z.abs (a - b) <= 2 * D)%Z -> at_offset L a = at_offset L b -> a = b).
    { intros a b Hab q. unfold at_offset in q. pose proof (Z.div_mod a L ltac:(lia)). pose proof (Z.div_mod b L ltac:(lia)). assert (a - b = L * (a / L - b / L))%Z by lia. destruct (Z.eq_dec (a / L - b / L) 0); [nia|]. nia. }
    destruct o, o'. cbn [fst snd] in *. f_equal; apply Q; (assumption || symmetry; assumption).
  Qed.
  Lemma delta_shift o o' : (Z.abs (fst o - fst o') <= 2 * D)%Z -> (Z.abs (snd o - snd o') <= 2 * D)%Z -> delta (K := CR) (at_shift L o) (at_shift L o') = chi2 o o'.
  Proof.
    intros A B. unfold delta, chi2, same_shift. destruct (Z.eqb_spec (at_shift L o) (at_shift L o')) as [e|e].
    - apply shift_inj in e; try assumption. subst o'. rewrite !Z.eqb_refl. reflexivity.
    - destruct (Z.eqb_spec (fst o) (fst o')) as [e1|]; [|reflexivity]. destruct (Z.eqb_spec (snd o) (snd o')) as [e2|]; [|reflexivity]. exfalso. apply e. unfold at_shift. rewrite e1, e2. reflexivity.
  Qed.
  Definition hop2 (o o' : shift) : CR := sum_over (K := CR) (fun x => chi2 x o') [(fst o - 1, snd o); (fst o, snd o - 1); (fst o + 1, snd o); (fst o, snd o + 1)]%Z.
  Lemma adjc_shift o o' : (L * L < two64)%Z -> (hops o <= D)%Z -> (hops o' <= D - 1)%Z -> adjc (K := CR) (square_lattice L L) (at_shift L o) (at_shift L o') = hop2 o o'.
  Proof.
    intros H64. unfold hops. intros H H'. unfold adjc. change (lat_neighbors (square_lattice L L) (at_shift L o)) with (sq_neighbors L L (at_shift L o)). unfold at_shift at 2. rewrite (torus_neighbors L H3 H64) by (apply at_range; lia).
    assert (Q1 : forall a, ((at_offset L a - 1) mod L)%Z = at_offset L (a - 1)) by (intros a; unfold at_offset; apply Zminus_mod_idemp_l). assert (Q2 : forall a, ((at_offset L a + 1) mod L)%Z = at_offset L (a + 1)) by (intros a; unfold at_offset; apply Zplus_mod_idemp_l).
    rewrite !Q1, !Q2. unfold hop2.
    change (sum_over (K := CR) (fun x => delta x (at_shift L o')) (map (at_shift L) [(fst o - 1, snd o); (fst o, snd o - 1); (fst o + 1, snd o); (fst o, snd o + 1)]%Z) = sum_over (K := CR) (fun x => chi2 x o') [(fst o - 1, snd o); (fst o, snd o - 1); (fst o + 1, snd o); (fst o, snd o + 1)]%Z).
    rewrite sum_over_map. apply sum_over_ext. intros x Hx. apply delta_shift; destruct Hx as [<-|[<-|[<-|[<-|[]]]]]; cbn [fst snd]; lia.
  Qed.
End Torus.

(** the basis element with the same displacements on another torus *)
Definition carried2 (L L' i : Z) : Z :=
  if (i <? L * L)%Z then square1 L' (shift_of L i) else square3 L' (shift_of L (site_a (L * L) i)) (shift_of L (site_b (L * L) i)) (shift_of L (site_c (L * L) i)).
Lemma index_13 N a b c : site N a -> site N b -> site N c -> (0 <= N + N * N * a + N * b + c < N + N * N * N /\ N <= N + N * N * a + N * b + c /\ 0 <= a < N + N * N * N)%Z.
Proof. unfold site. intros. nia. Qed.
Section Torus2.
  Context (L D : Z).
  Hypothesis HL : (2 * D + 1 <= L)%Z.
  Hypothesis H3 : (3 <= L)%Z.
  Hypothesis H64 : (L * L < two64)%Z.
  Hypothesis Hf : fits3 (square_lattice L L) (L * L).
  Let N := (L * L)%Z.
  Let Hl : shipped3 (square_lattice L L) N.
  Proof. constructor; assumption. Qed.
  Lemma square3_sites a b c : site_a N (square3 L a b c) = at_shift L a /\ site_b N (square3 L a b c) = at_shift L b /\ site_c N (square3 L a b c) = at_shift L c.
  Proof. unfold square3. apply sites_of; apply shift_range; exact H3. Qed.
  Lemma square3_not1 a b c : (square3 L a b c <? N)%Z = false.
  Proof. apply Z.ltb_ge. unfold square3. apply (index_13 N); apply shift_range; exact H3. Qed.
  Lemma square1_is1 a : (square1 L a <? N)%Z = true.
  Proof. apply Z.ltb_lt. apply (shift_range L H3 a). Qed.
  Lemma square1_range a : (0 <= square1 L a < N + N * N * N)%Z.
  Proof. unfold square1. apply (index_13 N _ _ _ (shift_range L H3 a) (shift_range L H3 a) (shift_range L H3 a)). Qed.
  Lemma square3_range a b c : (0 <= square3 L a b c < N + N * N * N)%Z.
  Proof. unfold square3. apply (index_13 N); apply shift_range; exact H3. Qed.
  Lemma square1_reach a : (hops a <= D)%Z -> reach N (far L) (square1 L a) = hops a.
  Proof. intros H. unfold reach. rewrite square1_is1. apply (shift_dist L D HL H3 a H). Qed.
  Lemma square3_reach a b c : (hops a <= D)%Z -> (hops b <= D)%Z -> (hops c <= D)%Z -> reach N (far L) (square3 L a b c) = Z.max (hops a) (Z.max (hops b) (hops c)).
  Proof. intros A B C. unfold reach. rewrite square3_not1. destruct (square3_sites a b c) as (-> & -> & ->). rewrite !(shift_dist L D HL) by assumption. reflexivity. Qed.
  Lemma carried2_1 L' a : (hops a <= D)%Z -> carried2 L L' (square1 L a) = square1 L' a.
  Proof. intros H. unfold carried2. fold N. rewrite square1_is1. unfold square1 at 2. rewrite (shift_at L D HL H3 a H). reflexivity. Qed.
  Lemma carried2_3 L' a b c : (hops a <= D)%Z -> (hops b <= D)%Z -> (hops c <= D)%Z -> carried2 L L' (square3 L a b c) = square3 L' a b c.
  Proof. intros A B C. unfold carried2. fold N. rewrite square3_not1. destruct (square3_sites a b c) as (-> & -> & ->). rewrite !(shift_at L D HL) by assumption. reflexivity. Qed.
  (** the elements of the window by their displacements *)
  Lemma window2 i : (0 <= i < N + N * N * N)%Z -> (reach N (far L) i <= D)%Z ->
    (exists a, (hops a <= D)%Z /\ i = square1 L a) \/ (exists a b c, (hops a <= D)%Z /\ (hops b <= D)%Z /\ (hops c <= D)%Z /\ i = square3 L a b c).
  Proof.
    intros Hi Q0. destruct (cases _ N Hl Hf i Hi) as [Q|(a & b & c & Ha & Hb & Hc & ->)].
    - left. rewrite reach_1 in Q0 by exact Q. destruct (at_of_shift L D HL H3 i Q Q0) as [A B]. exists (shift_of L i). split; [lia|]. unfold square1. auto.
    - right. rewrite (reach_3 _ N (far L) Hl Hf) in Q0 by assumption. destruct (at_of_shift L D HL H3 a Ha ltac:(lia)) as [A1 A2], (at_of_shift L D HL H3 b Hb ltac:(lia)) as [B1 B2], (at_of_shift L D HL H3 c Hc ltac:(lia)) as [C1 C2].
      exists (shift_of L a), (shift_of L b), (shift_of L c). repeat (split; [lia|]). unfold square3. rewrite A1, B1, C1. apply (idx3 _ N Hl Hf); assumption.
  Qed.
  Lemma square3_op a b c : square3 L a b c = get_3op_index N (at_shift L a) (at_shift L b) (at_shift L c).
  Proof. symmetry. unfold square3. fold N. apply (idx3 _ N Hl Hf); apply shift_range; exact H3. Qed.
  (** the matrix on the window, by displacements: no L in it *)
  Context (sort : list (triplet CR) -> list (triplet CR)) (J U : R) (m : bmat CR).
  Hypothesis Hs : sorts_by_column sort.
  Hypothesis Em : init_matrix sort (real J : CR) (real U) (real (1/2)) (square_lattice L L) = Ok m.
  Let HG := shipped3_graph _ N Hl.
  Let HS := fits3_S3 _ N HG Hf.
  Let E := entry (bm_scale imag_unit m).
  Lemma delta_win2 a b : (hops a <= D)%Z -> (hops b <= D)%Z -> delta (K := CR) (at_shift L a) (at_shift L b) = chi2 a b.
  Proof. unfold hops. intros A B. apply (delta_shift L D HL H3); lia. Qed.
  Lemma adjc_win2 a b : (hops a <= D)%Z -> (hops b <= D - 1)%Z -> adjc (K := CR) (square_lattice L L) (at_shift L a) (at_shift L b) = hop2 a b.
  Proof. intros A B. apply (adjc_shift L D HL); assumption. Qed.
  Lemma win2_11 a b : (hops a <= D)%Z -> (hops b <= D - 1)%Z -> E (square1 L a) (square1 L b) = rmul imag_unit (radd (rmul (ropp (real J)) (hop2 a b)) (rmul (rmul (real U) (real (1/2))) (chi2 a b))).
  Proof. intros A B. unfold E, square1. rewrite (entry_11 sort J U _ N Hs Hl Hf m Em) by (apply shift_range; lia). rewrite adjc_win2, delta_win2 by lia. reflexivity. Qed.
  Lemma win2_13 a x y z : (hops a <= D)%Z -> (hops x <= D)%Z -> (hops y <= D)%Z -> (hops z <= D)%Z ->
    E (square1 L a) (square3 L x y z) = rmul imag_unit (rmul (rmul (real U) (real (1/2))) (rmul (rmul (chi2 a x) (chi2 a y)) (chi2 a z))).
  Proof. intros A X Y Z'. unfold E. rewrite square3_op. unfold square1. rewrite (entry_13 sort J U _ N Hs Hl Hf m Em) by (apply shift_range; lia). rewrite !delta_win2 by lia. reflexivity. Qed.
  Lemma win2_31 a x y z : (hops a <= D)%Z -> (hops x <= D)%Z -> (hops y <= D)%Z -> (hops z <= D)%Z ->
    E (square3 L x y z) (square1 L a) = rmul imag_unit (rmul (rmul (real U) (real (1/2))) (rmul (rmul (chi2 a x) (chi2 a y)) (chi2 a z))).
  Proof. intros A X Y Z'. unfold E. rewrite square3_op. unfold square1. rewrite (entry_31 sort J U _ N Hs Hl Hf m Em) by (apply shift_range; lia). rewrite !delta_win2 by lia. reflexivity. Qed.
  Lemma win2_33 a b c x y z : (hops a <= D)%Z -> (hops b <= D)%Z -> (hops c <= D)%Z -> (hops x <= D - 1)%Z -> (hops y <= D - 1)%Z -> (hops z <= D - 1)%Z ->
    E (square3 L a b c) (square3 L x y z) = rmul imag_unit (radd (radd (radd (rmul (ropp (real J)) (rmul (rmul (hop2 a x) (chi2 b y)) (chi2 c z))) (rmul (ropp (real J)) (rmul (rmul (chi2 a x) (hop2 b y)) (chi2 c z))))
      (rmul (real J) (rmul (rmul (chi2 a x) (chi2 b y)) (hop2 c z)))) (rmul (rmul (real U) (real (1/2))) (rmul (rmul (chi2 a x) (chi2 b y)) (chi2 c z)))).
  Proof.
    intros A B C X Y Z'. unfold E. rewrite !square3_op. rewrite (entry_33 sort J U _ N Hs Hl Hf m Em) by (apply shift_range; lia). rewrite (weight_33 _ _ _ _ N HG HS) by (apply shift_range; lia).
    rewrite !delta_win2, !adjc_win2 by lia. reflexivity.
  Qed.
End Torus2.
Section Carried2.
  Context (D : Z).
  Lemma carried2_back M M' : (2 * D + 1 <= M)%Z -> (2 * D + 1 <= M')%Z -> (3 <= M)%Z -> (3 <= M')%Z -> (M * M < two64)%Z -> fits3 (square_lattice M M) (M * M) ->
    let n := (M * M + M * M * (M * M) * (M * M))%Z in let n' := (M' * M' + M' * M' * (M' * M') * (M' * M'))%Z in
    forall i, (0 <= i < n)%Z -> (reach (M * M) (far M) i <= D)%Z -> (0 <= carried2 M M' i < n')%Z /\ reach (M' * M') (far M') (carried2 M M' i) = reach (M * M) (far M) i /\ carried2 M' M (carried2 M M' i) = i.
  Proof.
    intros P P' Q Q' T Fm n n' i Hi L. destruct (window2 M D P Q T Fm i Hi L) as [(a & Ha & ->)|(a & b & c & Ha & Hb & Hc & ->)].
    - rewrite (carried2_1 M D P Q M' a Ha), (carried2_1 M' D P' Q' M a Ha), !(square1_reach _ D) by assumption. split; [apply square1_range; assumption|auto].
    - rewrite (carried2_3 M D P Q M' a b c Ha Hb Hc), (carried2_3 M' D P' Q' M a b c Ha Hb Hc), !(square3_reach _ D) by assumption. split; [apply square3_range; assumption|auto].
  Qed.
  Lemma carried2_entry sort sort' J U M M' m m' : sorts_by_column sort -> sorts_by_column sort' -> (2 * D + 1 <= M)%Z -> (2 * D + 1 <= M')%Z -> (3 <= M)%Z -> (3 <= M')%Z -> (M * M < two64)%Z -> (M' * M' < two64)%Z ->
    fits3 (square_lattice M M) (M * M) -> fits3 (square_lattice M' M') (M' * M') ->
    init_matrix sort (real J : CR) (real U) (real (1/2)) (square_lattice M M) = Ok m -> init_matrix sort' (real J : CR) (real U) (real (1/2)) (square_lattice M' M') = Ok m' ->
    let n := (M * M + M * M * (M * M) * (M * M))%Z in
    forall i j, (0 <= i < n)%Z -> (0 <= j < n)%Z -> (reach (M * M) (far M) i <= D)%Z -> (reach (M * M) (far M) j <= D - 1)%Z ->
      entry (bm_scale imag_unit m') (carried2 M M' i) (carried2 M M' j) = entry (bm_scale imag_unit m) i j.
  Proof.
    intros Hs Hs' B B' H3 H3' T T' Hf Hf' Em Em' n i j Hi Hj Li Lj. destruct (window2 M D B H3 T Hf i Hi Li) as [(a & Ha & ->)|(a & b & c & Ha & Hb & Hc & ->)], (window2 M (D - 1) ltac:(lia) H3 T Hf j Hj Lj) as [(x & Hx & ->)|(x & y & z & Hx & Hy & Hz & ->)].
    + rewrite !(carried2_1 M D B H3 M') by lia. rewrite (win2_11 M D B H3 T Hf sort J U m), (win2_11 M' D B' H3' T' Hf' sort' J U m') by (assumption || lia). reflexivity.
    + rewrite (carried2_1 M D B H3 M'), (carried2_3 M D B H3 M') by lia. rewrite (win2_13 M D B H3 T Hf sort J U m), (win2_13 M' D B' H3' T' Hf' sort' J U m') by (assumption || lia). reflexivity.
    + rewrite (carried2_1 M D B H3 M'), (carried2_3 M D B H3 M') by lia. rewrite (win2_31 M D B H3 T Hf sort J U m), (win2_31 M' D B' H3' T' Hf' sort' J U m') by (assumption || lia). reflexivity.
    + rewrite !(carried2_3 M D B H3 M') by lia. rewrite (win2_33 M D B H3 T Hf sort J U m), (win2_33 M' D B' H3' T' Hf' sort' J U m') by (assumption || lia). reflexivity.
  Qed.
End Carried2.
Lemma zero_carried2 L L' : (3 <= L)%Z -> carried2 L L' 0 = 0%Z.
Proof. intros H. unfold carried2. destruct (Z.ltb_spec 0 (L * L)); [|nia]. unfold square1, at_shift, shift_of. rewrite Zdiv_0_l, Zmod_0_l. cbn [fst snd]. unfold offset. destruct (Z.ltb_spec (2 * 0) L); [|lia]. unfold at_offset. rewrite Zmod_0_l. reflexivity. Qed.

(** k steps on two tori of L x L and L' x L' sites, L, L' >= 8k + 1: the coefficients of operators within 4k hops of site 0 are the same *)
Theorem C119_steps : forall (sort sort' : list (triplet CR) -> list (triplet CR)) J U L L' dt d d',
  let N := (L * L)%Z in let N' := (L' * L')%Z in
  sorts_by_column sort -> sorts_by_column sort' -> (3 <= L)%Z -> (3 <= L')%Z -> (N < two64)%Z -> (N' < two64)%Z -> fits3 (square_lattice L L) N -> fits3 (square_lattice L' L') N' ->
  exists m m' u u', init_matrix sort (real J : CR) (real U) (real (1/2)) (square_lattice L L) = Ok m /\ init_matrix sort' (real J : CR) (real U) (real (1/2)) (square_lattice L' L') = Ok m' /\
    init_vector (K := CR) (N + N * N * N) = Ok u /\ init_vector (K := CR) (N' + N' * N' * N') = Ok u' /\
    forall sts sts', length sts = length sts' -> let k := Z.of_nat (length sts) in (8 * k + 1 <= L)%Z -> (8 * k + 1 <= L')%Z ->
      let v := program_run d dt m sts u in let v' := program_run d' dt m' sts' u' in forall a b c, (hops a <= 4 * k)%Z -> (hops b <= 4 * k)%Z -> (hops c <= 4 * k)%Z ->
        vget v (square1 L a) = vget v' (square1 L' a) /\ vget v (square3 L a b c) = vget v' (square3 L' a b c).
Proof.
  intros sort sort' J U L L' dt d d' N N' Hs Hs' H3 H3' T T' Hf Hf'. assert (Hl : shipped3 (square_lattice L L) N) by (constructor; assumption). assert (Hl' : shipped3 (square_lattice L' L') N') by (constructor; assumption).
  assert (HN : (0 < N)%Z) by (unfold N; nia). assert (HN' : (0 < N')%Z) by (unfold N'; nia).
  destruct (full_facts sort J U _ N Hs Hl Hf) as (m & Em & A & _). destruct (full_facts sort' J U _ N' Hs' Hl' Hf') as (m' & Em' & A' & _).
  assert (Pn : forall x, (0 < x)%Z -> (0 < x + x * x * x)%Z) by (clear; intros; nia).
  destruct (init_vector_unit (N + N * N * N) (Pn N HN)) as (u & Eu & Lu & Vu). destruct (init_vector_unit (N' + N' * N' * N') (Pn N' HN')) as (u' & Eu' & Lu' & Vu').
  exists m, m', u, u'. repeat (split; [assumption|]). intros sts sts' Ls k HB HB' v v'.
  set (D := (4 * k)%Z). assert (B : (2 * D + 1 <= L)%Z) by lia. assert (B' : (2 * D + 1 <= L')%Z) by lia.
  assert (Z1 : reach N (far L) 0 = 0%Z) by (rewrite reach_1 by (unfold site; lia); unfold torus_distance; rewrite Zdiv_0_l, Zmod_0_l; unfold ring_distance; lia).
  assert (Z2 : reach N' (far L') 0 = 0%Z) by (rewrite reach_1 by (unfold site; lia); unfold torus_distance; rewrite Zdiv_0_l, Zmod_0_l; unfold ring_distance; lia).
  assert (Ag : agree (N + N * N * N) (reach N (far L)) (carried2 L L') D (vec v) (vec v')).
  { apply (agree_run (N + N * N * N) (N' + N' * N' * N') (entry (bm_scale imag_unit m)) (entry (bm_scale imag_unit m')) (reach N (far L)) (reach N' (far L')) (carried2 L L') (carried2 L' L) D
      (carried2_back D L L' B B' H3 H3' T Hf) (carried2_back D L' L B' B H3' H3 T' Hf')) with (d := 0%Z); [| | |exact A|exact A'|symmetry; exact Ls|unfold D, k; lia|exact Lu|exact Lu'| | |].
    - exact (carried2_entry D sort sort' J U L L' m m' Hs Hs' B B' H3 H3' T T' Hf Hf' Em Em').
    - intros i j. apply (full_local sort J U _ N _ Hs Hl (C115_square_distance L H3 T) Hf m Em).
    - intros i j. apply (full_local sort' J U _ N' _ Hs' Hl' (C115_square_distance L' H3' T') Hf' m' Em').
    - intros p Hp W. apply idx_in in Hp. unfold vec, vecf. rewrite (Vu _ Hp). unfold first_unit. destruct (Z.eqb_spec (fst p) 0) as [e|e]; [|destruct (snd p); reflexivity].
      rewrite e, Z1 in W. lia.
    - intros p Hp W. apply idx_in in Hp. unfold vec, vecf. rewrite (Vu' _ Hp). unfold first_unit. destruct (Z.eqb_spec (fst p) 0) as [e|e]; [|destruct (snd p); reflexivity].
      rewrite e, Z2 in W. lia.
    - intros p Hp W. apply idx_in in Hp. destruct (carried2_back D L L' B B' H3 H3' T Hf _ Hp W) as (R & _ & C). unfold vec, vecf, fw. cbn [fst snd]. rewrite (Vu _ Hp), (Vu' _ R). unfold first_unit.
      destruct (Z.eqb_spec (carried2 L L' (fst p)) 0) as [e|e], (Z.eqb_spec (fst p) 0) as [e'|e']; try reflexivity; exfalso; [apply e'; rewrite <- C, e; apply zero_carried2; exact H3'|apply e; rewrite e'; apply zero_carried2; exact H3]. }
  intros a b c Ha Hb Hc. split.
  - symmetry. etransitivity; [|apply (agree_vget _ _ _ _ _ _ Ag)]; [rewrite (carried2_1 L D B H3 L' a Ha); reflexivity|apply square1_range; exact H3|unfold N; rewrite (square1_reach L D B H3 a Ha); exact Ha].
  - symmetry. etransitivity; [|apply (agree_vget _ _ _ _ _ _ Ag)]; [rewrite (carried2_3 L D B H3 L' a b c Ha Hb Hc); reflexivity|apply square3_range; exact H3|unfold N; rewrite (square3_reach L D B H3 a b c Ha Hb Hc); unfold D; lia].
Qed.
Lemma square_full sort J U L : sorts_by_column sort -> (3 <= L)%Z -> (L * L < two64)%Z -> fits3 (square_lattice L L) (L * L) -> let N := (L * L)%Z in exists m, init_matrix sort (real J : CR) (real U) (real (1/2)) (square_lattice L L) = Ok m /\
  anti_hermitian CR (N + N * N * N) (entry (bm_scale imag_unit m)) /\ op_bound (N + N * N * N) (entry (bm_scale imag_unit m)) (12 * Rabs J + Rabs U) /\ 0 <= 12 * Rabs J + Rabs U.
Proof.
  intros Hs H3 T Hf N. assert (Hl : shipped3 (square_lattice L L) N) by (constructor; assumption). destruct (full_facts sort J U _ N Hs Hl Hf) as (m & Em & _ & An & Rb & Bp). exists m. split; [exact Em|]. split; [exact An|].
  assert (X : 3 * neighbours (square_lattice L L) * Rabs J + Rabs U = 12 * Rabs J + Rabs U) by (unfold neighbours; cbn [lat_coordination square_lattice]; lra). rewrite X in *. split; [|exact Bp]. apply row_op; assumption.
Qed.
Lemma within_in D a : In a (within D) <-> (hops a <= D)%Z.
Proof.
  unfold within. rewrite filter_In. rewrite Z.leb_le. split; [tauto|]. intros H. split; [|exact H]. unfold hops in H. destruct a as [p q]. apply in_prod_iff. cbn [fst snd] in H. split; apply zrange_in; lia.
Qed.
Lemma within_nodup D : NoDup (within D).
Proof. apply NoDup_filter, nodup_list_prod; apply zr_nodup2. Qed.

(** two tori of L, L' >= 2 D + 1 sites per side: within D hops of site 0 the exact coefficients differ, all together, by at most 2 (12 |J| + |U|) t (12 |J| t)^D / (D + 1)! *)
Theorem C119_squares : forall (sort sort' : list (triplet CR) -> list (triplet CR)) J U L L' (D : nat) m m' y y',
  let N := (L * L)%Z in let N' := (L' * L')%Z in
  sorts_by_column sort -> sorts_by_column sort' -> (3 <= L)%Z -> (3 <= L')%Z -> (N < two64)%Z -> (N' < two64)%Z -> fits3 (square_lattice L L) N -> fits3 (square_lattice L' L') N' ->
  init_matrix sort (real J : CR) (real U) (real (1/2)) (square_lattice L L) = Ok m -> init_matrix sort' (real J : CR) (real U) (real (1/2)) (square_lattice L' L') = Ok m' ->
  the_solution (N + N * N * N) (entry (bm_scale imag_unit m)) y -> the_solution (N' + N' * N' * N') (entry (bm_scale imag_unit m')) y' ->
  (2 * Z.of_nat D + 1 <= L)%Z -> (2 * Z.of_nat D + 1 <= L')%Z -> forall t, 0 <= t ->
  length2 (square_differences L L' (Z.of_nat D) (y t) (y' t)) <= 2 * (12 * Rabs J + Rabs U) * t * (12 * Rabs J * t) ^ D / INR (fact (D + 1)).
Proof.
  intros sort sort' J U L L' D m m' y y' N N' Hs Hs' H3 H3' T T' Hf Hf' Em Em' Hy Hy' B B' t Ht. set (DZ := Z.of_nat D) in *.
  assert (Hl : shipped3 (square_lattice L L) N) by (constructor; assumption). assert (Hl' : shipped3 (square_lattice L' L') N') by (constructor; assumption).
  destruct (square_full sort J U L Hs H3 T Hf) as (m1 & E1 & An & Op & Bp). rewrite Em in E1. injection E1 as <-. destruct (square_full sort' J U L' Hs' H3' T' Hf') as (m1' & E1' & An' & Op' & _). rewrite Em' in E1'. injection E1' as <-.
  assert (HN : (0 < N)%Z) by (unfold N; nia). assert (HN' : (0 < N')%Z) by (unfold N'; nia).
  pose proof (C115_square_distance L H3 T) as Hd. pose proof (C115_square_distance L' H3' T') as Hd'. fold N in Hd. fold N' in Hd'.
  set (n := (N + N * N * N)%Z) in *. set (n' := (N' + N' * N' * N')%Z) in *.
  assert (Pn : forall x, (0 < x)%Z -> (0 <= x + x * x * x)%Z) by (clear; intros; nia). pose proof (Pn N HN) as Pn1. pose proof (Pn N' HN') as Pn2. fold n in Pn1. fold n' in Pn2.
  pose proof (carried2_back DZ L L' B B' H3 H3' T Hf) as F. pose proof (carried2_back DZ L' L B' B H3' H3 T' Hf') as G. cbv zeta in F, G. fold N N' n n' in F, G.
  assert (Q : nrm (idx n') (fun p => vecf (carry (reach N' (far L')) (carried2 L' L) D y t) p + -1 * vecf (y' t) p) <= 2 * (12 * Rabs J + Rabs U) * t * (12 * Rabs J * t) ^ D / INR (fact (D + 1))).
  { apply (grow n n' (entry (bm_scale imag_unit m)) (entry (bm_scale imag_unit m')) (reach N (far L)) (reach N' (far L')) (carried2 L L') (carried2 L' L) D (12 * Rabs J + Rabs U) (12 * Rabs J)).
    - exact F.
    - exact G.
    - exact (carried2_entry DZ sort sort' J U L L' m m' Hs Hs' B B' H3 H3' T T' Hf Hf' Em Em').
    - intros i j. apply (full_local sort' J U _ N' _ Hs' Hl' Hd' Hf' m' Em').
    - exact An'.
    - exact Op.
    - exact Op'.
    - exact Bp.
    - exact (Logic.proj1 Hy).
    - exact (Logic.proj1 Hy').
    - destruct Hy as (_ & Y0 & _), Hy' as (_ & Y0' & _). intros i Hi. rewrite (Y0' i Hi). fold DZ. destruct (Z.leb_spec (reach N' (far L') i) DZ) as [W|W].
      + destruct (G i Hi W) as (R1 & _ & C). rewrite (Y0 _ R1). unfold first_unit. destruct (Z.eqb_spec (carried2 L' L i) 0) as [e|e], (Z.eqb_spec i 0) as [e'|e']; try reflexivity; exfalso; [apply e'; rewrite <- C, e; apply zero_carried2; lia|apply e; rewrite e'; apply zero_carried2; lia].
      + unfold first_unit. destruct (Z.eqb_spec i 0) as [->|]; [|reflexivity]. rewrite reach_1 in W by (unfold site; lia). unfold torus_distance in W. rewrite Zdiv_0_l, Zmod_0_l in W. unfold ring_distance in W. lia.
    - intros s Hs0. pose proof (C115_exact sort J U _ N _ m y Hs Hl Hf Hd Em Hy D s Hs0) as V. unfold length2 in V. rewrite (vec_n2 n) in V by (unfold beyond; rewrite map_length, zrange_length; fold n; lia).
      assert (X : 3 * neighbours (square_lattice L L) * Rabs J = 12 * Rabs J) by (unfold neighbours; cbn [lat_coordination square_lattice]; lra). rewrite X in V. eapply Rle_trans; [|exact V].
      apply Req_le. unfold nrm. f_equal. unfold n2, dot. apply SR_ext. intros p Hp. apply idx_in in Hp. unfold vec, vecf, out. unfold beyond, vget. rewrite nth_zrange_map by exact Hp. fold DZ. destruct (DZ <=? reach N (far L) (fst p))%Z; [reflexivity|destruct (snd p); reflexivity].
    - exact Ht. }
  eapply Rle_trans; [|exact Q]. unfold length2, nrm. apply sqrt_le_1_alt. unfold norm2, n2, dot. rewrite sum_SR, SR_idx. unfold square_differences.
  set (h := fun j => let z := rsub (carry (reach N' (far L')) (carried2 L' L) D y t j) (y' t j) in fst z * fst z + snd z * snd z).
  set (near := within DZ). assert (Hn : forall a, In a near -> (hops a <= DZ)%Z) by (intros a Ha; apply within_in; exact Ha).
  rewrite SR_app, !SR_map.
  apply (Rle_trans _ (SR h (map (square1 L') near ++ map (fun p => square3 L' (fst p) (fst (snd p)) (snd (snd p))) (list_prod near (list_prod near near))))).
  - apply Req_le. rewrite SR_app, !SR_map. apply (f_equal2 Rplus); apply SR_ext; intros x Hx; unfold h, carry; fold DZ.
    + unfold N'. rewrite (square1_reach L' DZ B' H3') by auto. rewrite (carried2_1 L' DZ B' H3' L) by auto. destruct (Z.leb_spec (hops x) DZ); [reflexivity|pose proof (Hn x Hx); lia].
    + destruct x as [a [b c]]. apply in_prod_iff in Hx. destruct Hx as [Ha Hx]. apply in_prod_iff in Hx. destruct Hx as [Hb Hc]. pose proof (Hn a Ha). pose proof (Hn b Hb). pose proof (Hn c Hc). cbn [fst snd].
      unfold N'. rewrite (square3_reach L' DZ B' H3') by auto. rewrite (carried2_3 L' DZ B' H3' L) by auto. destruct (Z.leb_spec (Z.max (hops a) (Z.max (hops b) (hops c))) DZ); [reflexivity|lia].
  - assert (Hc : forall a, In a near -> shift_of L' (at_shift L' a) = a) by (intros a Ha; apply (shift_at L' DZ B' H3'); auto).
    eapply Rle_trans; [apply (SR_part h _ (zrange 0 n'))|].
    + apply nodup_app.
      * apply nodup_map; [|apply within_nodup]. intros a b Ha Hb E. unfold square1 in E. rewrite <- (Hc a Ha), <- (Hc b Hb), E. reflexivity.
      * apply nodup_map; [|repeat apply nodup_list_prod; apply within_nodup]. intros [a [b c]] [a' [b' c']] H1 H2 E. cbn [fst snd] in E. apply in_prod_iff in H1, H2. destruct H1 as [Ha H1], H2 as [Ha' H2]. apply in_prod_iff in H1, H2. destruct H1 as [Hb Hc1], H2 as [Hb' Hc1'].
        destruct (square3_sites L' H3' a b c) as (X1 & X2 & X3), (square3_sites L' H3' a' b' c') as (Y1 & Y2 & Y3). rewrite E in X1, X2, X3. rewrite <- (Hc a Ha), <- (Hc b Hb), <- (Hc c Hc1), <- X1, <- X2, <- X3, Y1, Y2, Y3, !Hc by assumption. reflexivity.
      * intros x Hx Hx'. apply in_map_iff in Hx, Hx'. destruct Hx as (a & <- & _), Hx' as (p & E & _). pose proof (square1_is1 L' H3' a) as X1. pose proof (square3_not1 L' H3' (fst p) (fst (snd p)) (snd (snd p))) as X2. rewrite E in X2. congruence.
    + intros x Hx. apply zrange_in. apply in_app_iff in Hx. destruct Hx as [Hx|Hx]; apply in_map_iff in Hx; destruct Hx as (a & <- & _); [apply square1_range|apply square3_range]; exact H3'.
    + intros x _. unfold h. cbv zeta. pose proof (Rle_0_sqr (fst (rsub (carry (reach N' (far L')) (carried2 L' L) D y t x) (y' t x)))) as Q1. pose proof (Rle_0_sqr (snd (rsub (carry (reach N' (far L')) (carried2 L' L) D y t x) (y' t x)))) as Q2. unfold Rsqr in *. lra.
    + apply Req_le. apply SR_ext. intros i _. unfold h, vecf. cbn [fst snd part]. destruct (carry (reach N' (far L')) (carried2 L' L) D y t i) as [a1 a2], (y' t i) as [b1 b2]. cbn. ring.
Qed.
(** one step on 9 x 9 and 13 x 13 sites: c+ two to the right and one up, and c+ c+ c of three neighbours *)
Example C119_example_steps : exists m m' u u', init_matrix isort (real 1 : CR) (real 2) (real (1/2)) (square_lattice 9 9) = Ok m /\ init_matrix isort (real 1 : CR) (real 2) (real (1/2)) (square_lattice 13 13) = Ok m' /\
  init_vector (K := CR) (81 + 81 * 81 * 81) = Ok u /\ init_vector (K := CR) (169 + 169 * 169 * 169) = Ok u' /\
  forall d d', vget (program_run 0 (/ 10) m [d] u) 19 = vget (program_run 0 (/ 10) m' [d'] u') 27.
Proof.
  assert (T : (169 < two64)%Z) by reflexivity.
  assert (F1 : fits3 (square_lattice 9 9) (9 * 9)) by (unfold fits3; apply big; reflexivity). assert (F2 : fits3 (square_lattice 13 13) (13 * 13)) by (unfold fits3; apply big; reflexivity).
  destruct (C119_steps isort isort 1 2 9 13 (/ 10) 0%Z 0%Z isort_ok isort_ok ltac:(lia) ltac:(lia) ltac:(lia) T F1 F2) as (m & m' & u & u' & A & B & C & D & H).
  exists m, m', u, u'. repeat (split; [assumption|]). intros d d'.
  exact (Logic.proj1 (H [d] [d'] eq_refl ltac:(cbn; lia) ltac:(cbn; lia) (2, 1)%Z (0, 0)%Z (0, 0)%Z ltac:(cbn; lia) ltac:(cbn; lia) ltac:(cbn; lia))).
Qed.
(** 11 x 11 and 15 x 15 sites at t = 1/20, within 5 hops of site 0 *)
Example C119_example : forall m m' y y', init_matrix isort (real 1 : CR) (real 1) (real (1/2)) (square_lattice 11 11) = Ok m -> init_matrix isort (real 1 : CR) (real 1) (real (1/2)) (square_lattice 15 15) = Ok m' ->
  the_solution (121 + 121 * 121 * 121) (entry (bm_scale imag_unit m)) y -> the_solution (225 + 225 * 225 * 225) (entry (bm_scale imag_unit m')) y' ->
  length2 (square_differences 11 15 5 (y (/ 20)) (y' (/ 20))) <= / 5000.
Proof.
  intros m m' y y' Em Em' Hy Hy'.
  assert (F1 : fits3 (square_lattice 11 11) (11 * 11)) by (unfold fits3; apply big; reflexivity). assert (F2 : fits3 (square_lattice 15 15) (15 * 15)) by (unfold fits3; apply big; reflexivity).
  assert (T : (225 < two64)%Z) by reflexivity.
  pose proof (C119_squares isort isort 1 1 11 15 5 m m' y y' isort_ok isort_ok ltac:(lia) ltac:(lia) ltac:(lia) T F1 F2 Em Em' Hy Hy' ltac:(lia) ltac:(lia) (/ 20) ltac:(lra)) as Q. eapply Rle_trans; [exact Q|]. rewrite Rabs_R1.
  assert (X : INR (fact (5 + 1)) = 720) by (rewrite INR_IZR_INZ; reflexivity). rewrite X. lra.
Qed.
