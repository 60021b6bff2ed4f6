(** Proofs for C110. *)
From Coq Require Import Reals Lra Psatz.
From Verif Require Import Base M_Operator M_Lattice Spec_Lattice Pf_Lattice P_Lattice M_LatticeReal Spec_LatticeReal M_Basis Pf_Basis P_Basis M_Matrix M_Ode M_Dispersion M_OpenMP Spec_OpenMP M_Expectation Spec_Expectation P_Expectation M_SiteOccupation Pf_SiteOccupation P_SiteOccupation M_TimeLoop Spec_TimeLoop Spec_Ode
  Pf_Matrix Spec_Matrix Pf_Matrix2 P_Matrix Spec_Stability Pf_Stability Pf_Stability2 Pf_Stability3 P_Stability Spec_Programs M_Programs Pf_Programs Pf_Programs2
  M_MatrixCheck Spec_Algebra Pf_MatrixEntry P_Ode P_Dynamics M_FermiJump Pf_FermiJump P_FermiJump P_TimeLoop P_Programs Pf_Ode P_OccupationFree Spec_Symmetry.
Local Open Scope R_scope.
Local Open Scope list_scope.
Local Notation len u := (Z.of_nat (length u)).

Lemma map_nodup' {A B} (f : A -> B) l : (forall a b, In a l -> In b l -> f a = f b -> a = b) -> NoDup l -> NoDup (map f l).
Proof.
  intros H. induction l as [|a l IH]; intros N; cbn [map]; [constructor|]. inversion N as [|? ? N1 N2]; subst. constructor.
  - intros I. apply in_map_iff in I as (b & E & Hb). apply N1. rewrite (H a b) by (cbn; auto). exact Hb.
  - apply IH; [|exact N2]. intros x y Hx Hy. apply H; right; assumption.
Qed.
(** ** any permutation of the indices which leaves the matrix unchanged *)
Section Perm.
  Context (n : Z) (f : Z -> Z).
  Hypothesis Fr : forall i, (0 <= i < n)%Z -> (0 <= f i < n)%Z.
  Hypothesis Fi : forall i j, (0 <= i < n)%Z -> (0 <= j < n)%Z -> f i = f j -> i = j.
  Lemma perm_zrange : Permutation (map f (zrange 0 n)) (zrange 0 n).
  Proof.
    apply NoDup_Permutation_bis.
    - apply map_nodup'; [|apply zrange_nodup]. intros x y Hx Hy. apply zrange_in in Hx, Hy. apply Fi; assumption.
    - rewrite map_length. apply Nat.le_refl.
    - intros x Hx. apply in_map_iff in Hx as (i & <- & Hi). apply zrange_in in Hi. apply zrange_in, Fr, Hi.
  Qed.
  Lemma sum_perm (K : StarRing) (g : Z -> K) : sum_over (fun i => g (f i)) (zrange 0 n) = sum_over g (zrange 0 n).
  Proof. rewrite <- (sum_over_map K g f (zrange 0 n)). apply (sum_over_perm K), perm_zrange. Qed.
  Context (E : Z -> Z -> CR).
  Hypothesis FE : forall i j, (0 <= i < n)%Z -> (0 <= j < n)%Z -> E (f i) (f j) = E i j.
  Lemma image_exact y : exact_solution n E y -> exact_solution n E (fun t i => y t (f i)).
  Proof.
    intros H t i Hi. destruct (H t (f i) (Fr i Hi)) as [D1 D2]. cbv zeta in *.
    replace (sum_over (K := CR) (fun j => rmul (E i j) (y t (f j))) (zrange 0 n)) with (sum_over (K := CR) (fun j => rmul (E (f i) j) (y t j)) (zrange 0 n)); [split; assumption|].
    rewrite <- (sum_perm CR (fun j => rmul (E (f i) j) (y t j))). apply sum_over_ext. intros j Hj. apply zrange_in in Hj. rewrite (FE i j Hi Hj). reflexivity.
  Qed.
  Lemma image_solution y : (forall i, (0 <= i < n)%Z -> f i = 0%Z <-> i = 0%Z) -> the_solution n E y -> forall t i, (0 <= i < n)%Z -> y t (f i) = y t i.
  Proof.
    intros F0 (Y1 & Y2 & Y3) t i Hi. apply (Y3 (fun t i => y t (f i)) (image_exact y Y1)); [|exact Hi].
    intros j Hj. rewrite (Y2 (f j) (Fr j Hj)). unfold first_unit. destruct (Z.eqb_spec (f j) 0) as [e|e], (Z.eqb_spec j 0) as [e'|e']; try reflexivity; exfalso; destruct (F0 j Hj) as [Q1 Q2]; [apply e', Q1, e|apply e, Q2, e'].
  Qed.
  Definition mv (p : Z * bool) : Z * bool := (f (fst p), snd p).
  Lemma SR_mv g : SR (fun p => g (mv p)) (idx n) = SR g (idx n).
  Proof.
    rewrite !SR_idx. transitivity (SR (fun i => g (f i, true) + g (f i, false)) (zrange 0 n)); [reflexivity|].
    rewrite <- !sum_SR. exact (sum_perm Rring (fun i => g (i, true) + g (i, false))).
  Qed.
  Lemma SM_mv p q : In p (idx n) -> In q (idx n) -> SM E (mv p) (mv q) = SM E p q.
  Proof. intros Hp Hq. apply idx_in in Hp, Hq. unfold SM, mv. cbn [fst snd]. rewrite FE by assumption. reflexivity. Qed.
  Definition fixed (x : Z * bool -> R) : Prop := forall p, In p (idx n) -> x (mv p) = x p.
  Lemma fixed_ap x : fixed x -> fixed (ap (idx n) (SM E) x).
  Proof.
    intros H p Hp. unfold ap. rewrite <- (SR_mv (fun j => SM E (mv p) j * x j)). apply SR_ext. intros q Hq. rewrite (SM_mv p q Hp Hq), (H q Hq). reflexivity.
  Qed.
  Lemma fixed_apn k x : fixed x -> fixed (apn (idx n) (SM E) k x).
  Proof. intros H. induction k as [|k IH]; [exact H|]. cbn [apn]. apply fixed_ap, IH. Qed.
  Lemma fixed_P h x : fixed x -> fixed (P (idx n) (SM E) h x).
  Proof. intros H p Hp. unfold P. rewrite (H p Hp), (fixed_ap x H p Hp), (fixed_apn 2 x H p Hp), (fixed_apn 3 x H p Hp), (fixed_apn 4 x H p Hp). reflexivity. Qed.
  Lemma idx_mv p : In p (idx n) -> In (mv p) (idx n).
  Proof. intros H. apply idx_in in H. apply idx_in. unfold mv. cbn [fst]. apply Fr, H. Qed.
  Context (mul : list CR -> list CR).
  Hypothesis acts : acts_as CR n E mul.
  Lemma fixed_run d dt sts : forall u, len u = n -> fixed (vec u) -> fixed (vec (run_steps CR (real (1/2)) (real (1/6)) (mkRk4 (K:=CR) d (real dt)) mul sts u)).
  Proof.
    induction sts as [|st sts IH]; intros u L Fu; cbn [run_steps]; [exact Fu|]. destruct (vec_step n E mul acts d dt st u L) as [L' S]. apply IH; [exact L'|].
    intros p Hp. rewrite (S p Hp), (S (mv p) (idx_mv p Hp)). apply fixed_P; assumption.
  Qed.
  Lemma fixed_vget u : fixed (vec u) -> forall i, (0 <= i < n)%Z -> vget u (f i) = vget u i.
  Proof.
    intros H i Hi. pose proof (H (i, true) ltac:(apply idx_in; exact Hi)) as A. pose proof (H (i, false) ltac:(apply idx_in; exact Hi)) as B.
    unfold vec, vecf, mv in A, B. cbn [fst snd part] in A, B. apply (injective_projections (A := R) (B := R)); assumption.
  Qed.
End Perm.

(** ** symmetries of the shipped lattices *)
Section Lattice.
  Context (sort : list (triplet CR) -> list (triplet CR)) (J U : R) (lat : lattice) (N : Z) (s : Z -> Z).
  Hypothesis Hs : sorts_by_column sort.
  Hypothesis Hl : shipped3 lat N.
  Hypothesis Hf : fits3 lat N.
  Hypothesis Sy : lattice_symmetry lat N s.
  Let HG := shipped3_graph lat N Hl.
  Let HS := fits3_S3 lat N HG Hf.
  Let n := (N + N * N * N)%Z.
  Let Sr : forall a, site N a -> site N (s a). Proof. apply Sy. Qed.
  Let Si : forall a b, site N a -> site N b -> s a = s b -> a = b. Proof. apply Sy. Qed.
  Let Sn : forall a, site N a -> Permutation (map s (lat_neighbors lat a)) (lat_neighbors lat (s a)). Proof. apply Sy. Qed.
  Lemma sites_of a b c : site N a -> site N b -> site N c -> let r := (N + N * N * a + N * b + c)%Z in site_a N r = a /\ site_b N r = b /\ site_c N r = c.
  Proof.
    intros Ha Hb Hc r. unfold site in *. unfold site_a, site_b, site_c, r. replace (N + N * N * a + N * b + c - N)%Z with (c + (N * a + b) * N)%Z by ring. split; [|split].
    - rewrite <- Z.div_div by lia. rewrite Z.div_add, (Z.div_small c N) by lia. replace (0 + (N * a + b))%Z with (b + a * N)%Z by ring. rewrite Z.div_add, (Z.div_small b N) by lia. lia.
    - rewrite Z.div_add, (Z.div_small c N) by lia. replace (0 + (N * a + b))%Z with (b + a * N)%Z by ring. rewrite Z.mod_add, Z.mod_small by lia. reflexivity.
    - rewrite Z.mod_add, Z.mod_small by lia. reflexivity.
  Qed.
  Lemma moved_1 i : site N i -> moved N s i = s i.
  Proof. intros H. unfold moved, site in *. destruct (Z.ltb_spec i N); [reflexivity|lia]. Qed.
  Lemma idx3 a b c : site N a -> site N b -> site N c -> get_3op_index N a b c = (N + N * N * a + N * b + c)%Z.
  Proof. intros. apply (get_3op_index_eq lat N (g_reg _ _ HG) HS); assumption. Qed.
  Lemma moved_3 a b c : site N a -> site N b -> site N c -> moved N s (get_3op_index N a b c) = get_3op_index N (s a) (s b) (s c).
  Proof.
    intros Ha Hb Hc. rewrite !idx3 by auto. destruct (sites_of a b c Ha Hb Hc) as (Ea & Eb & Ec). unfold moved. rewrite Ea, Eb, Ec.
    destruct (Z.ltb_spec (N + N * N * a + N * b + c) N); [unfold site in *; nia|reflexivity].
  Qed.
  Lemma cases c : (0 <= c < n)%Z -> site N c \/ exists i j k, site N i /\ site N j /\ site N k /\ c = get_3op_index N i j k.
  Proof.
    intros Hc. destruct (Z.ltb_spec c N); [left; unfold site; lia|]. right.
    destruct (dec_spec lat N HG HS c ltac:(unfold n in Hc; lia)) as (H1 & H2 & H3 & Ec). eauto 10.
  Qed.
  Lemma idx_range a b c : site N a -> site N b -> site N c -> (N <= get_3op_index N a b c < n)%Z.
  Proof. intros Ha Hb Hc. rewrite idx3 by assumption. unfold n, site in *. nia. Qed.
  Lemma moved_range i : (0 <= i < n)%Z -> (0 <= moved N s i < n)%Z.
  Proof.
    intros H. pose proof (HNpos lat N HG). destruct (cases i H) as [Hi|(a & b & c & Ha & Hb & Hc & ->)].
    - rewrite moved_1 by exact Hi. pose proof (Sr i Hi) as Q. unfold site in Q. unfold n. nia.
    - rewrite moved_3 by assumption. pose proof (idx_range _ _ _ (Sr a Ha) (Sr b Hb) (Sr c Hc)). lia.
  Qed.
  Lemma moved_inj i j : (0 <= i < n)%Z -> (0 <= j < n)%Z -> moved N s i = moved N s j -> i = j.
  Proof.
    intros Hi Hj. destruct (cases i Hi) as [Si'|(a & b & c & Ha & Hb & Hc & ->)], (cases j Hj) as [Sj|(a' & b' & c' & Ha' & Hb' & Hc' & ->)].
    - rewrite !moved_1 by assumption. apply Si; assumption.
    - rewrite moved_1, moved_3 by assumption. intros Q. pose proof (Sr i Si') as A. pose proof (idx_range _ _ _ (Sr a' Ha') (Sr b' Hb') (Sr c' Hc')). unfold site in A. lia.
    - rewrite moved_3, moved_1 by assumption. intros Q. pose proof (Sr j Sj) as A. pose proof (idx_range _ _ _ (Sr a Ha) (Sr b Hb) (Sr c Hc)). unfold site in A. lia.
    - rewrite !moved_3, !idx3 by auto. intros Q. destruct (sites_of _ _ _ (Sr a Ha) (Sr b Hb) (Sr c Hc)) as (A1 & A2 & A3). destruct (sites_of _ _ _ (Sr a' Ha') (Sr b' Hb') (Sr c' Hc')) as (B1 & B2 & B3).
      rewrite Q in A1, A2, A3. rewrite B1 in A1. rewrite B2 in A2. rewrite B3 in A3. apply Si in A1; try assumption. apply Si in A2; try assumption. apply Si in A3; try assumption. subst. reflexivity.
  Qed.
  Lemma delta_moved a b : site N a -> site N b -> delta (K := CR) (s a) (s b) = delta a b.
  Proof. intros Ha Hb. unfold delta. destruct (Z.eqb_spec (s a) (s b)) as [e|e], (Z.eqb_spec a b) as [e'|e']; try reflexivity; [apply Si in e; auto; contradiction|subst; contradiction]. Qed.
  Lemma adjc_moved a b : site N a -> site N b -> adjc (K := CR) lat (s a) (s b) = adjc lat a b.
  Proof.
    intros Ha Hb. unfold adjc. rewrite <- (sum_over_perm CR _ _ _ (Sn a Ha)), (sum_over_map CR). apply sum_over_ext. intros x Hx. apply delta_moved; [|exact Hb]. apply (g_range _ _ HG a x Ha Hx).
  Qed.
  Context (m : bmat CR).
  Hypothesis Em : init_matrix sort (real J : CR) (real U) (real (1/2)) lat = Ok m.
  Let E := entry (bm_scale imag_unit m).
  Lemma entry_moved i j : (0 <= i < n)%Z -> (0 <= j < n)%Z -> E (moved N s i) (moved N s j) = E i j.
  Proof.
    intros Hi Hj. unfold E. destruct (cases i Hi) as [Qi|(a & b & c & Ha & Hb & Hc & ->)], (cases j Hj) as [Qj|(a' & b' & c' & Ha' & Hb' & Hc' & ->)].
    - rewrite !moved_1 by assumption. rewrite !(entry_11 sort J U lat N Hs Hl Hf m Em) by auto. rewrite adjc_moved, delta_moved by assumption. reflexivity.
    - rewrite moved_1, moved_3 by assumption. rewrite !(entry_13 sort J U lat N Hs Hl Hf m Em) by auto. rewrite !delta_moved by assumption. reflexivity.
    - rewrite moved_3, moved_1 by assumption. rewrite !(entry_31 sort J U lat N Hs Hl Hf m Em) by auto. rewrite !delta_moved by assumption. reflexivity.
    - rewrite !moved_3 by assumption. rewrite !(entry_33 sort J U lat N Hs Hl Hf m Em) by auto. rewrite !(weight_33 _ _ _ lat N HG HS) by auto. rewrite !adjc_moved, !delta_moved by assumption. reflexivity.
  Qed.
  Hypothesis S0 : s 0%Z = 0%Z.
  Lemma moved_0 i : (0 <= i < n)%Z -> moved N s i = 0%Z <-> i = 0%Z.
  Proof.
    intros Hi. pose proof (HNpos lat N HG) as HN. assert (Z0 : site N 0%Z) by (unfold site; lia). assert (M0 : moved N s 0 = 0%Z) by (rewrite moved_1, S0 by exact Z0; reflexivity).
    split; [|intros ->; exact M0]. intros Q. apply moved_inj; [exact Hi|unfold n; nia|rewrite M0; exact Q].
  Qed.
End Lattice.
