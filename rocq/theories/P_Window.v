(** PROPERTY C116: the length of the chain does not matter until the ends of the light cone meet. *)
From Coq Require Import Reals Lra Psatz.
From Verif Require Import Base M_Operator M_Lattice Spec_Lattice Pf_Lattice P_Lattice M_LatticeReal Spec_LatticeReal M_Basis Pf_Basis P_Basis M_Matrix M_Ode M_Dispersion M_OpenMP M_TimeLoop Spec_TimeLoop
  Pf_Matrix Spec_Matrix Pf_Matrix2 P_Matrix Spec_Stability Pf_Stability Pf_Stability2 Pf_Stability3 P_Stability Spec_Programs M_Programs Pf_Programs Pf_Programs2 Spec_Ode Pf_Ode P_Ode P_TimeLoop P_Programs M_JumpPrograms P_JumpPrograms Pf_MatrixEntry P_OccupationFree Pf_Symmetry P_Symmetry Ex_Matrix Ex_Programs Spec_LightCone Pf_LightCone P_LightCone Spec_Window Pf_Window.
Local Open Scope R_scope.
Local Open Scope list_scope.
Local Notation len u := (Z.of_nat (length u)).

Definition offset (N s : Z) : Z := if (2 * s <? N)%Z then s else (s - N)%Z.
Section Ring.
  Context (N D : Z).
  Hypothesis HN : (2 * D + 1 <= N)%Z.
  Lemma at_range o : (1 <= N)%Z -> site N (at_offset N o).
  Proof. intros H. apply Z.mod_pos_bound. lia. Qed.
  Lemma at_value o : (Z.abs o <= D)%Z -> at_offset N o = (if (0 <=? o)%Z then o else o + N)%Z.
  Proof.
    intros H. unfold at_offset. destruct (Z.leb_spec 0 o); [apply Z.mod_small; lia|]. replace o with (o + N + (-1) * N)%Z at 1 by ring. rewrite Z.mod_add, Z.mod_small; lia.
  Qed.
  Lemma at_dist o : (Z.abs o <= D)%Z -> ring_distance N 0 (at_offset N o) = Z.abs o.
  Proof. intros H. rewrite at_value by exact H. unfold ring_distance. destruct (Z.leb_spec 0 o); lia. Qed.
  Lemma offset_at o : (Z.abs o <= D)%Z -> offset N (at_offset N o) = o.
  Proof. intros H. rewrite at_value by exact H. unfold offset. destruct (Z.leb_spec 0 o); match goal with |- context[(?a <? ?b)%Z] => destruct (Z.ltb_spec a b) end; lia. Qed.
  Lemma at_of_offset s : site N s -> (ring_distance N 0 s <= D)%Z -> at_offset N (offset N s) = s /\ Z.abs (offset N s) = ring_distance N 0 s.
  Proof.
    intros Hs H. unfold site in Hs. assert (Q : Z.abs (offset N s) = ring_distance N 0 s) by (unfold offset, ring_distance in *; destruct (Z.ltb_spec (2 * s) N); lia). split; [|exact Q].
    rewrite at_value by lia. unfold offset in *. unfold ring_distance in *. destruct (Z.ltb_spec (2 * s) N), (Z.leb_spec 0 s); try lia; destruct (Z.leb_spec 0 (s - N)); lia.
  Qed.
  Lemma delta_at o o' : (Z.abs (o - o') <= 2 * D)%Z -> delta (K := CR) (at_offset N o) (at_offset N o') = if (o =? o')%Z then real 1 else real 0.
  Proof.
    intros H. unfold delta. destruct (Z.eqb_spec o o') as [->|e]; [rewrite Z.eqb_refl; reflexivity|]. destruct (Z.eqb_spec (at_offset N o) (at_offset N o')) as [q|q]; [|reflexivity]. exfalso. unfold at_offset in q.
    pose proof (Z.div_mod o N ltac:(lia)). pose proof (Z.div_mod o' N ltac:(lia)). assert (o - o' = N * (o / N - o' / N))%Z by lia. assert (o / N - o' / N <> 0)%Z by nia. nia.
  Qed.
  Lemma adjc_at o o' : (3 <= N < two64)%Z -> (Z.abs o <= D)%Z -> (Z.abs o' <= D - 1)%Z ->
    adjc (K := CR) (chain_lattice N) (at_offset N o) (at_offset N o') = radd (if (o - 1 =? o')%Z then real 1 else real 0) (if (o + 1 =? o')%Z then real 1 else real 0).
  Proof.
    intros H3 H H'. unfold adjc. change (lat_neighbors (chain_lattice N) (at_offset N o)) with (chain_neighbors N (at_offset N o)). rewrite chain_neighbors_ring by (try apply at_range; lia).
    assert (Q1 : ((at_offset N o - 1) mod N)%Z = at_offset N (o - 1)) by (unfold at_offset; apply Zminus_mod_idemp_l). assert (Q2 : ((at_offset N o + 1) mod N)%Z = at_offset N (o + 1)) by (unfold at_offset; apply Zplus_mod_idemp_l).
    rewrite Q1, Q2. transitivity (radd (delta (K := CR) (at_offset N (o - 1)) (at_offset N o')) (radd (delta (K := CR) (at_offset N (o + 1)) (at_offset N o')) (real 0))); [reflexivity|]. rewrite !delta_at by lia. destruct (o - 1 =? o')%Z, (o + 1 =? o')%Z; unfold real; cbn; apply (f_equal2 (@pair R R)); cbn; ring.
  Qed.
End Ring.

(** the basis element with the same offsets on another ring *)
Definition carried (N N' i : Z) : Z :=
  if (i <? N)%Z then index1 N' (offset N i) else index3 N' (offset N (site_a N i)) (offset N (site_b N i)) (offset N (site_c N i)).
Local Notation far N := (ring_distance N 0).
Section Two.
  Context (N N' D : Z).
  Hypothesis HN : (2 * D + 1 <= N)%Z.
  Hypothesis HN' : (2 * D + 1 <= N')%Z.
  Hypothesis H3 : (3 <= N < two64)%Z.
  Hypothesis H3' : (3 <= N' < two64)%Z.
  Hypothesis Hf : fits3 (chain_lattice N) N.
  Hypothesis Hf' : fits3 (chain_lattice N') N'.
  Let Hl : shipped3 (chain_lattice N) N.
  Proof. constructor. exact H3. Qed.
  Let Hl' : shipped3 (chain_lattice N') N'.
  Proof. constructor. exact H3'. Qed.
  (** the elements of the window by their offsets *)
  Lemma window i : (0 <= i < N + N * N * N)%Z -> (reach N (far N) i <= D)%Z ->
    (exists a, (Z.abs a <= D)%Z /\ i = index1 N a) \/ (exists a b c, (Z.abs a <= D)%Z /\ (Z.abs b <= D)%Z /\ (Z.abs c <= D)%Z /\ i = index3 N a b c).
  Proof.
    intros Hi L. destruct (cases _ N Hl Hf i Hi) as [Q|(a & b & c & Ha & Hb & Hc & ->)].
    - left. rewrite reach_1 in L by exact Q. destruct (at_of_offset N D HN i Q L) as [A B]. exists (offset N i). split; [lia|]. unfold index1. auto.
    - right. rewrite (reach_3 _ N (far N) Hl Hf) in L by assumption. destruct (at_of_offset N D HN a Ha ltac:(lia)) as [A1 A2], (at_of_offset N D HN b Hb ltac:(lia)) as [B1 B2], (at_of_offset N D HN c Hc ltac:(lia)) as [C1 C2].
      exists (offset N a), (offset N b), (offset N c). repeat (split; [lia|]). unfold index3. rewrite A1, B1, C1. apply (idx3 _ N Hl Hf); assumption.
  Qed.
End Two.
Section Ring2.
  Context (N D : Z).
  Hypothesis HN : (2 * D + 1 <= N)%Z.
  Hypothesis H3 : (3 <= N < two64)%Z.
  Hypothesis Hf : fits3 (chain_lattice N) N.
  Lemma index3_sites a b c : site_a N (index3 N a b c) = at_offset N a /\ site_b N (index3 N a b c) = at_offset N b /\ site_c N (index3 N a b c) = at_offset N c.
  Proof. unfold index3. apply sites_of; apply at_range; lia. Qed.
  Lemma index3_not1 a b c : (index3 N a b c <? N)%Z = false.
  Proof. apply Z.ltb_ge. unfold index3. pose proof (at_range N a ltac:(lia)). pose proof (at_range N b ltac:(lia)). pose proof (at_range N c ltac:(lia)). unfold site in *. nia. Qed.
  Lemma index1_is1 a : (index1 N a <? N)%Z = true.
  Proof. apply Z.ltb_lt. unfold index1. pose proof (at_range N a ltac:(lia)). unfold site in *. lia. Qed.
  Lemma index1_range a : (0 <= index1 N a < N + N * N * N)%Z.
  Proof. unfold index1. pose proof (at_range N a ltac:(lia)). unfold site in *. nia. Qed.
  Lemma index3_range a b c : (0 <= index3 N a b c < N + N * N * N)%Z.
  Proof. unfold index3. pose proof (at_range N a ltac:(lia)). pose proof (at_range N b ltac:(lia)). pose proof (at_range N c ltac:(lia)). unfold site in *. nia. Qed.
  Lemma index1_reach a : (Z.abs a <= D)%Z -> reach N (far N) (index1 N a) = Z.abs a.
  Proof. intros H. unfold reach. rewrite index1_is1. apply (at_dist N D HN a H). Qed.
  Lemma index3_reach a b c : (Z.abs a <= D)%Z -> (Z.abs b <= D)%Z -> (Z.abs c <= D)%Z -> reach N (far N) (index3 N a b c) = Z.max (Z.abs a) (Z.max (Z.abs b) (Z.abs c)).
  Proof. intros A B C. unfold reach. rewrite index3_not1. destruct (index3_sites a b c) as (-> & -> & ->). rewrite !(at_dist N D HN) by assumption. reflexivity. Qed.
  Lemma carried_1 N' a : (Z.abs a <= D)%Z -> carried N N' (index1 N a) = index1 N' a.
  Proof. intros H. unfold carried. rewrite index1_is1. unfold index1 at 2. rewrite (offset_at N D HN a H). reflexivity. Qed.
  Lemma carried_3 N' a b c : (Z.abs a <= D)%Z -> (Z.abs b <= D)%Z -> (Z.abs c <= D)%Z -> carried N N' (index3 N a b c) = index3 N' a b c.
  Proof. intros A B C. unfold carried. rewrite index3_not1. destruct (index3_sites a b c) as (-> & -> & ->). rewrite !(offset_at N D HN) by assumption. reflexivity. Qed.
End Ring2.
Definition chi (o o' : Z) : CR := if (o =? o')%Z then real 1 else real 0.
Definition hop (o o' : Z) : CR := radd (if (o - 1 =? o')%Z then real 1 else real 0) (if (o + 1 =? o')%Z then real 1 else real 0).
(** the matrix on the window, by offsets: no N in it *)
Section Ring3.
  Context (sort : list (triplet CR) -> list (triplet CR)) (J U : R) (N D : Z) (m : bmat CR).
  Hypothesis Hs : sorts_by_column sort.
  Hypothesis HN : (2 * D + 1 <= N)%Z.
  Hypothesis H3 : (3 <= N < two64)%Z.
  Hypothesis Hf : fits3 (chain_lattice N) N.
  Hypothesis Em : init_matrix sort (real J : CR) (real U) (real (1/2)) (chain_lattice N) = Ok m.
  Let Hl : shipped3 (chain_lattice N) N.
  Proof. constructor. exact H3. Qed.
  Let HG := shipped3_graph _ N Hl.
  Let HS := fits3_S3 _ N HG Hf.
  Let E := entry (bm_scale imag_unit m).
  Lemma delta_win a b : (Z.abs a <= D)%Z -> (Z.abs b <= D)%Z -> delta (K := CR) (at_offset N a) (at_offset N b) = chi a b.
  Proof. intros A B. apply (delta_at N D HN). lia. Qed.
  Lemma adjc_win a b : (Z.abs a <= D)%Z -> (Z.abs b <= D - 1)%Z -> adjc (K := CR) (chain_lattice N) (at_offset N a) (at_offset N b) = hop a b.
  Proof. intros A B. apply (adjc_at N D HN); assumption. Qed.
  Lemma index3_op a b c : index3 N a b c = get_3op_index N (at_offset N a) (at_offset N b) (at_offset N c).
  Proof. symmetry. unfold index3. apply (idx3 _ N Hl Hf); apply at_range; lia. Qed.
  Lemma win_11 a b : (Z.abs a <= D)%Z -> (Z.abs b <= D - 1)%Z -> E (index1 N a) (index1 N b) = rmul imag_unit (radd (rmul (ropp (real J)) (hop a b)) (rmul (rmul (real U) (real (1/2))) (chi a b))).
  Proof. intros A B. unfold E, index1. rewrite (entry_11 sort J U _ N Hs Hl Hf m Em) by (apply at_range; lia). rewrite adjc_win, delta_win by lia. reflexivity. Qed.
  Lemma win_13 a x y z : (Z.abs a <= D)%Z -> (Z.abs x <= D)%Z -> (Z.abs y <= D)%Z -> (Z.abs z <= D)%Z ->
    E (index1 N a) (index3 N x y z) = rmul imag_unit (rmul (rmul (real U) (real (1/2))) (rmul (rmul (chi a x) (chi a y)) (chi a z))).
  Proof. intros A X Y Z'. unfold E. rewrite index3_op. unfold index1. rewrite (entry_13 sort J U _ N Hs Hl Hf m Em) by (apply at_range; lia). rewrite !delta_win by lia. reflexivity. Qed.
  Lemma win_31 a x y z : (Z.abs a <= D)%Z -> (Z.abs x <= D)%Z -> (Z.abs y <= D)%Z -> (Z.abs z <= D)%Z ->
    E (index3 N x y z) (index1 N a) = rmul imag_unit (rmul (rmul (real U) (real (1/2))) (rmul (rmul (chi a x) (chi a y)) (chi a z))).
  Proof. intros A X Y Z'. unfold E. rewrite index3_op. unfold index1. rewrite (entry_31 sort J U _ N Hs Hl Hf m Em) by (apply at_range; lia). rewrite !delta_win by lia. reflexivity. Qed.
  Lemma win_33 a b c x y z : (Z.abs a <= D)%Z -> (Z.abs b <= D)%Z -> (Z.abs c <= D)%Z -> (Z.abs x <= D - 1)%Z -> (Z.abs y <= D - 1)%Z -> (Z.abs z <= D - 1)%Z ->
    E (index3 N a b c) (index3 N x y z) = rmul imag_unit (radd (radd (radd (rmul (ropp (real J)) (rmul (rmul (hop a x) (chi b y)) (chi c z))) (rmul (ropp (real J)) (rmul (rmul (chi a x) (hop b y)) (chi c z))))
      (rmul (real J) (rmul (rmul (chi a x) (chi b y)) (hop c z)))) (rmul (rmul (real U) (real (1/2))) (rmul (rmul (chi a x) (chi b y)) (chi c z)))).
  Proof.
    intros A B C X Y Z'. unfold E. rewrite !index3_op. rewrite (entry_33 sort J U _ N Hs Hl Hf m Em) by (apply at_range; lia). rewrite (weight_33 _ _ _ _ N HG HS) by (apply at_range; lia).
    rewrite !delta_win, !adjc_win by lia. reflexivity.
  Qed.
End Ring3.

(** k steps on two rings of at least 8k + 1 sites: the coefficients of operators within 4k hops of site 0 are the same *)
Theorem C116_steps : forall (sort sort' : list (triplet CR) -> list (triplet CR)) J U N N' dt d d',
  sorts_by_column sort -> sorts_by_column sort' -> (3 <= N < two64)%Z -> (3 <= N' < two64)%Z -> fits3 (chain_lattice N) N -> fits3 (chain_lattice N') N' ->
  exists m m' u u', init_matrix sort (real J : CR) (real U) (real (1/2)) (chain_lattice N) = Ok m /\ init_matrix sort' (real J : CR) (real U) (real (1/2)) (chain_lattice N') = Ok m' /\
    init_vector (K := CR) (N + N * N * N) = Ok u /\ init_vector (K := CR) (N' + N' * N' * N') = Ok u' /\
    forall sts sts', length sts = length sts' -> let k := Z.of_nat (length sts) in (8 * k + 1 <= N)%Z -> (8 * k + 1 <= N')%Z ->
      let v := program_run d dt m sts u in let v' := program_run d' dt m' sts' u' in forall a b c, (Z.abs a <= 4 * k)%Z -> (Z.abs b <= 4 * k)%Z -> (Z.abs c <= 4 * k)%Z ->
        vget v (index1 N a) = vget v' (index1 N' a) /\ vget v (index3 N a b c) = vget v' (index3 N' a b c).
Proof.
  intros sort sort' J U N N' dt d d' Hs Hs' H3 H3' Hf Hf'. assert (Hl : shipped3 (chain_lattice N) N) by (constructor; exact H3). assert (Hl' : shipped3 (chain_lattice N') N') by (constructor; exact H3').
  destruct (full_facts sort J U _ N Hs Hl Hf) as (m & Em & A & _). destruct (full_facts sort' J U _ N' Hs' Hl' Hf') as (m' & Em' & A' & _).
  destruct (init_vector_unit (N + N * N * N) ltac:(nia)) as (u & Eu & Lu & Vu). destruct (init_vector_unit (N' + N' * N' * N') ltac:(nia)) as (u' & Eu' & Lu' & Vu').
  exists m, m', u, u'. repeat (split; [assumption|]). intros sts sts' Ls k HN HN' v v'.
  set (D := (4 * k)%Z). assert (B : (2 * D + 1 <= N)%Z) by lia. assert (B' : (2 * D + 1 <= N')%Z) by lia.
  assert (Fw : forall M M', (2 * D + 1 <= M)%Z -> (2 * D + 1 <= M')%Z -> (3 <= M < two64)%Z -> (3 <= M' < two64)%Z -> fits3 (chain_lattice M) M -> forall i, (0 <= i < M + M * M * M)%Z -> (reach M (ring_distance M 0) i <= D)%Z ->
    (0 <= carried M M' i < M' + M' * M' * M')%Z /\ reach M' (ring_distance M' 0) (carried M M' i) = reach M (ring_distance M 0) i /\ carried M' M (carried M M' i) = i).
  { intros M M' P P' Q Q' Fm i Hi L. destruct (window M D P Q Fm i Hi L) as [(a & Ha & ->)|(a & b & c & Ha & Hb & Hc & ->)].
    - rewrite (carried_1 M D P Q M' a Ha), (carried_1 M' D P' Q' M a Ha), !(index1_reach _ D) by assumption. split; [apply index1_range; assumption|auto].
    - rewrite (carried_3 M D P Q M' a b c Ha Hb Hc), (carried_3 M' D P' Q' M a b c Ha Hb Hc), !(index3_reach _ D) by assumption. split; [apply index3_range; assumption|auto]. }
  assert (Ag : agree (N + N * N * N) (reach N (ring_distance N 0)) (carried N N') D (vec v) (vec v')).
  { apply (agree_run (N + N * N * N) (N' + N' * N' * N') (entry (bm_scale imag_unit m)) (entry (bm_scale imag_unit m')) (reach N (ring_distance N 0)) (reach N' (ring_distance N' 0)) (carried N N') (carried N' N) D
      (Fw N N' B B' H3 H3' Hf) (Fw N' N B' B H3' H3 Hf')) with (d := 0%Z); [| | |exact A|exact A'|symmetry; exact Ls|unfold D, k; lia|exact Lu|exact Lu'| | |].
    - intros i j Hi Hj Li Lj. destruct (window N D B H3 Hf i Hi Li) as [(a & Ha & ->)|(a & b & c & Ha & Hb & Hc & ->)], (window N (D - 1) ltac:(lia) H3 Hf j Hj Lj) as [(x & Hx & ->)|(x & y & z & Hx & Hy & Hz & ->)].
      + rewrite !(carried_1 N D B H3 N') by lia. rewrite (win_11 sort J U N D m), (win_11 sort' J U N' D m') by (assumption || lia). reflexivity.
      + rewrite (carried_1 N D B H3 N'), (carried_3 N D B H3 N') by lia. rewrite (win_13 sort J U N D m), (win_13 sort' J U N' D m') by (assumption || lia). reflexivity.
      + rewrite (carried_1 N D B H3 N'), (carried_3 N D B H3 N') by lia. rewrite (win_31 sort J U N D m), (win_31 sort' J U N' D m') by (assumption || lia). reflexivity.
      + rewrite !(carried_3 N D B H3 N') by lia. rewrite (win_33 sort J U N D m), (win_33 sort' J U N' D m') by (assumption || lia). reflexivity.
    - intros i j. apply (full_local sort J U _ N _ Hs Hl (C115_chain_distance N ltac:(lia) ltac:(lia)) Hf m Em).
    - intros i j. apply (full_local sort' J U _ N' _ Hs' Hl' (C115_chain_distance N' ltac:(lia) ltac:(lia)) Hf' m' Em').
    - intros p Hp L. apply idx_in in Hp. unfold vec, vecf. rewrite (Vu _ Hp). unfold first_unit. destruct (Z.eqb_spec (fst p) 0) as [e|e]; [|destruct (snd p); reflexivity].
      rewrite e in L. rewrite reach_1 in L by (unfold site; lia). unfold ring_distance in L. lia.
    - intros p Hp L. apply idx_in in Hp. unfold vec, vecf. rewrite (Vu' _ Hp). unfold first_unit. destruct (Z.eqb_spec (fst p) 0) as [e|e]; [|destruct (snd p); reflexivity].
      rewrite e in L. rewrite reach_1 in L by (unfold site; lia). unfold ring_distance in L. lia.
    - intros p Hp L. apply idx_in in Hp. destruct (Fw N N' B B' H3 H3' Hf _ Hp L) as (R & _ & C). unfold vec, vecf, fw. cbn [fst snd]. rewrite (Vu _ Hp), (Vu' _ R). unfold first_unit.
      assert (Z0 : carried N' N 0 = 0%Z /\ carried N N' 0 = 0%Z) by (split; unfold carried, index1, at_offset, offset; match goal with |- context[(0 <? ?x)%Z] => destruct (Z.ltb_spec 0 x); [|lia] end; match goal with |- context[(2 * 0 <? ?x)%Z] => destruct (Z.ltb_spec (2 * 0) x); [|lia] end; apply Zmod_0_l).
      destruct (Z.eqb_spec (carried N N' (fst p)) 0) as [e|e], (Z.eqb_spec (fst p) 0) as [e'|e']; try reflexivity; exfalso; [apply e'; rewrite <- C, e; apply Z0|apply e; rewrite e'; apply Z0]. }
  intros a b c Ha Hb Hc. split.
  - symmetry. etransitivity; [|apply (agree_vget _ _ _ _ _ _ Ag)]; [rewrite (carried_1 N D B H3 N' a Ha); reflexivity|apply index1_range; exact H3|rewrite (index1_reach N D B H3 a Ha); exact Ha].
  - symmetry. etransitivity; [|apply (agree_vget _ _ _ _ _ _ Ag)]; [rewrite (carried_3 N D B H3 N' a b c Ha Hb Hc); reflexivity|apply index3_range; exact H3|rewrite (index3_reach N D B H3 a b c Ha Hb Hc); unfold D; lia].
Qed.

(** hubbard_real_1d_rk4_coefficients on two chains: the same times, and up to step k with 8 k + 1 <= N, N' the same coefficients for the same offsets *)
Theorem C116_coefficients : forall sort sort' rnd u st st' N N' J U dt t_end interval steps,
  sorts_by_column sort -> sorts_by_column sort' -> (3 <= N)%Z -> (3 <= N')%Z -> fits3 (chain_lattice N) N -> fits3 (chain_lattice N') N' -> times_ok rnd u dt t_end interval steps ->
  exists h h', terminates_with (coefficients_full sort rnd st N J U dt t_end interval) (Ok (map (fun k => (time_at rnd dt k, h k)) (written interval steps))) /\
    terminates_with (coefficients_full sort' rnd st' N' J U dt t_end interval) (Ok (map (fun k => (time_at rnd dt k, h' k)) (written interval steps))) /\
    forall k a b c, let reached := (4 * Z.of_nat k)%Z in (2 * reached + 1 <= N)%Z -> (2 * reached + 1 <= N')%Z ->
      (Z.abs a <= reached)%Z -> (Z.abs b <= reached)%Z -> (Z.abs c <= reached)%Z ->
      vget (h k) (index1 N a) = vget (h' k) (index1 N' a) /\ vget (h k) (index3 N a b c) = vget (h' k) (index3 N' a b c).
Proof.
  intros sort sort' rnd u st st' N N' J U dt t_end interval steps Hs Hs' HN HN' Hf Hf' (T1 & T2 & T3 & T4 & T5 & T6 & T7).
  assert (W : (N < two64 /\ N' < two64)%Z) by (unfold fits3 in Hf, Hf'; cbn [lat_coordination chain_lattice] in Hf, Hf'; nia). destruct W as [W W'].
  destruct (C116_steps sort sort' J U N N' dt (N + N * N * N) (N' + N' * N' * N') Hs Hs' ltac:(lia) ltac:(lia) Hf Hf') as (m & m' & h0 & h0' & Em & Em' & E0 & E0' & V).
  assert (Ln : forall M, (3 <= M < two64)%Z -> Z.of_nat (length (basis3 (chain_lattice M))) = (M + M * M * M)%Z).
  { intros M HM. assert (Hs1 : shipped (chain_lattice M) M) by (constructor; lia || nia). pose proof (basis3_len _ M (shipped_regular _ _ Hs1)). nia. }
  exists (fun k => coefficients (times_applied (integrate (N + N * N * N) dt (bm_scale imag_unit m)) k (mkProgress 0 st h0))), (fun k => coefficients (times_applied (integrate (N' + N' * N' * N') dt (bm_scale imag_unit m')) k (mkProgress 0 st' h0'))).
  split; [|split].
  - destruct (C53_schedule progress (list CR) rnd u dt t_end interval steps (integrate (N + N * N * N) dt (bm_scale imag_unit m)) coefficients (mkProgress 0 st h0) T1 T2 T3 T4 T5 T6 T7) as (s & (f0 & T) & _ & _ & Out).
    exists f0. intros fuel Hfu. unfold coefficients_full. rewrite Ln by lia. unfold run_main, compute_full. rewrite Em, E0. cbn [obind]. rewrite (T fuel Hfu), Out. reflexivity.
  - destruct (C53_schedule progress (list CR) rnd u dt t_end interval steps (integrate (N' + N' * N' * N') dt (bm_scale imag_unit m')) coefficients (mkProgress 0 st' h0') T1 T2 T3 T4 T5 T6 T7) as (s & (f0 & T) & _ & _ & Out).
    exists f0. intros fuel Hfu. unfold coefficients_full. rewrite Ln by lia. unfold run_main, compute_full. rewrite Em', E0'. cbn [obind]. rewrite (T fuel Hfu), Out. reflexivity.
  - intros k a b c reached B B' Ha Hb Hc. destruct (integrate_iter (N + N * N * N) dt (bm_scale imag_unit m) st h0 k) as (sts & Ls & _ & ->), (integrate_iter (N' + N' * N' * N') dt (bm_scale imag_unit m') st' h0' k) as (sts' & Ls' & _ & ->).
    specialize (V sts sts' ltac:(lia)). rewrite Ls in V. exact (V ltac:(lia) ltac:(lia) a b c Ha Hb Hc).
Qed.
(** 12 and 20 sites: the first step is the same *)
Example C116_example : forall st st', exists h h', terminates_with (coefficients_full isort (fun x => x) st 12 1 1 (/ 10) 1 5) (Ok (map (fun k => (time_at (fun x => x) (/ 10) k, h k)) (written 5 10))) /\
  terminates_with (coefficients_full isort (fun x => x) st' 20 1 1 (/ 10) 1 5) (Ok (map (fun k => (time_at (fun x => x) (/ 10) k, h' k)) (written 5 10))) /\
  vget (h 1%nat) 9 = vget (h' 1%nat) 17 /\ vget (h 1%nat) (12 + 12 * 12 * 11 + 12 * 0 + 2)%Z = vget (h' 1%nat) (20 + 20 * 20 * 19 + 20 * 0 + 2)%Z.
Proof.
  intros st st'. destruct C86_hypotheses as (Ht & _).
  assert (F1 : fits3 (chain_lattice 12) 12) by (unfold fits3; apply big; reflexivity). assert (F2 : fits3 (chain_lattice 20) 20) by (unfold fits3; apply big; reflexivity).
  destruct (C116_coefficients isort isort (fun x => x) 0 st st' 12 20 1 1 (/ 10) 1 5 10 isort_ok isort_ok ltac:(lia) ltac:(lia) F1 F2 Ht) as (h & h' & T & T' & V).
  exists h, h'. split; [exact T|]. split; [exact T'|]. destruct (V 1%nat (-3)%Z 0%Z 0%Z ltac:(lia) ltac:(lia) ltac:(lia) ltac:(lia) ltac:(lia)) as [A _]. destruct (V 1%nat (-1)%Z 0%Z 2%Z ltac:(lia) ltac:(lia) ltac:(lia) ltac:(lia) ltac:(lia)) as [_ B].
  split; [exact A|exact B].
Qed.
