(** THEOREM for C33: square lattices with different sides. *)
From Coq Require Import ZifyBool.
From Verif Require Import Base M_Operator M_Lattice Spec_Lattice Pf_Lattice M_Basis Pf_Basis M_Matrix Spec_Matrix Pf_Matrix Pf_Matrix2 Pf_MatrixEntry Ex_Matrix.
Local Open Scope Z_scope.
Local Open Scope list_scope.

(** a site with a "neighbour" that does not exist *)
Lemma escapes Nx Ny : 1 <= Nx -> 1 <= Ny -> Ny < Nx -> Nx * Ny < two64 -> Nx * Nx < two64 ->
  exists i nb, site (Nx * Ny) i /\ In nb (sq_neighbors Nx Ny i) /\ Nx * Ny <= nb <= Nx * Nx + Nx * Ny.
Proof.
  intros HX HY L Hf Hx. exists 0, ((Nx - 1) * Nx). split; [unfold site; nia|]. split; [|nia].
  unfold sq_neighbors, sq_x, sq_y. cbn zeta. rewrite Z.div_0_l, Z.mod_0_l by lia. left. cbn [Z.eqb].
  assert (u64 (Nx - 1) = Nx - 1) as -> by (apply u64_id; nia). unfold sq_index. rewrite (u64_id ((Nx - 1) * Nx)) by nia. rewrite u64_id; nia.
Qed.
Section Fill.
  Context {K : StarRing}.
  Lemma append_out (m : bmat K) row v j : bm_size m <= j -> bm_append m row j v = UB.
  Proof. intros H. unfold bm_append. replace (j <? bm_size m) with false by lia. rewrite Bool.andb_false_r. reflexivity. Qed.
  Lemma append_size (m m' : bmat K) row v j : bm_append m row j v = Ok m' -> bm_size m' = bm_size m.
  Proof. unfold bm_append. destruct (_ && _ && _ && _ && _)%bool; [|discriminate]. intros E. injection E as <-. reflexivity. Qed.
  Lemma row_size (ts : list (triplet K)) row : forall m m', ofold (fun m t => bm_append m row (t_col t) (t_val t)) ts m = Ok m' -> bm_size m' = bm_size m.
  Proof.
    induction ts as [|t ts IH]; intros m m' H; cbn [ofold] in H; [injection H as <-; reflexivity|]. unfold obind in H. destruct (bm_append m row (t_col t) (t_val t)) as [m1|] eqn:E; [|discriminate].
    rewrite (IH _ _ H). apply (append_size _ _ _ _ _ E).
  Qed.
  Lemma row_out (ts : list (triplet K)) row t : In t ts -> forall m, bm_size m <= t_col t -> write_row m row ts = UB.
  Proof.
    intros Ht m Hm. unfold write_row. replace (ofold _ ts m) with (@UB (bmat K)); [reflexivity|]. symmetry. revert m Hm. induction ts as [|a ts IH]; intros m Hm; [destruct Ht|].
    cbn [ofold]. destruct Ht as [->|Ht]; [rewrite append_out by exact Hm; reflexivity|]. unfold obind. destruct (bm_append m row (t_col a) (t_val a)) as [m1|] eqn:E; [|reflexivity].
    apply (IH Ht). rewrite (append_size _ _ _ _ _ E). exact Hm.
  Qed.
  Lemma write_size (m m' : bmat K) row ts : write_row m row ts = Ok m' -> bm_size m' = bm_size m.
  Proof.
    unfold write_row, obind. destruct (ofold _ ts m) as [m1|] eqn:E; [|discriminate]. unfold bm_finalize. destruct (row =? _); [|discriminate]. intros F. injection F as <-. cbn [bm_size]. apply (row_size _ _ _ _ E).
  Qed.
  (** filling rows, one of which has a column that does not exist *)
  Lemma fill_out (f : bmat K -> Z -> outcome (bmat K)) n bad : (forall m m' r, f m r = Ok m' -> bm_size m' = bm_size m) -> (forall m, bm_size m = n -> f m bad = UB) ->
    forall rows m, In bad rows -> bm_size m = n -> ofold f rows m = UB.
  Proof.
    intros Hs Hb. induction rows as [|r rows IH]; intros m Hin Hm; [destruct Hin|]. cbn [ofold]. destruct Hin as [->|Hin]; [rewrite Hb by exact Hm; reflexivity|].
    unfold obind. destruct (f m r) as [m1|] eqn:E; [|reflexivity]. apply IH; [exact Hin|]. rewrite (Hs _ _ _ E). exact Hm.
  Qed.
  Lemma fill_size (f : bmat K -> Z -> outcome (bmat K)) : (forall m m' r, f m r = Ok m' -> bm_size m' = bm_size m) -> forall rows m m', ofold f rows m = Ok m' -> bm_size m' = bm_size m.
  Proof.
    intros Hs. induction rows as [|r rows IH]; intros m m' H; cbn [ofold] in H; [injection H as <-; reflexivity|]. unfold obind in H. destruct (f m r) as [m1|] eqn:E; [|discriminate]. rewrite (IH _ _ H). apply (Hs _ _ _ E).
  Qed.
End Fill.

(** (defect) On every square lattice with Ny < Nx a row gets a column that does not exist: init_kinetic_matrix and
    init_matrix are undefined behaviour, whatever the parameters. *)
Theorem C33_tall_refuted : forall (K : StarRing) (sort : list (triplet K) -> list (triplet K)) (J U half : K) Nx Ny,
  sorts_by_column sort -> 1 <= Nx -> 1 <= Ny -> Ny < Nx ->
  let N := Nx * Ny in N + N * N * (Nx * Nx + N) < two64 ->
  init_kinetic_matrix sort J (square_lattice Nx Ny) = UB /\ init_matrix sort J U half (square_lattice Nx Ny) = UB.
Proof.
  intros K sort J U half Nx Ny Hs HX HY D N Hf. assert (N1 : 1 <= N) by (unfold N; nia). assert (NN : 1 <= N * N) by nia.
  assert (P1 : N * N * N <= N * N * (Nx * Nx + N)) by (apply Z.mul_le_mono_nonneg_l; nia). assert (P2 : Nx * Nx <= N * N * (Nx * Nx + N)) by nia.
  assert (N64 : N < two64) by nia. assert (X64 : Nx * Nx < two64) by nia.
  assert (HR : regular (square_lattice Nx Ny) N) by (apply square_regular; unfold N in *; lia). pose proof HR as (Ls & _ & _).
  destruct (escapes Nx Ny HX HY D N64 X64) as (i & nb & Hi & Hn & Bn). fold N in Hi, Bn.
  split.
  - unfold init_kinetic_matrix. apply (fill_out _ N i).
    + intros m m' r. apply write_size.
    + intros m Hm. apply (row_out _ _ (mkT i nb (ropp J))); [|cbn [t_col]; lia]. apply (Permutation.Permutation_in _ (Permutation.Permutation_sym (Logic.proj1 (Hs _)))). unfold kinetic_triplets1. apply in_map_iff. exists nb. split; [reflexivity|exact Hn].
    + rewrite Ls. apply zrange_in. exact Hi.
    + cbn [bm_new bm_size]. unfold size1. rewrite (basis1_len _ N HR). lia.
  - unfold init_matrix. set (f1 := fun m row => write_row m row (sort (triplets1 J U half (square_lattice Nx Ny) row))).
    assert (S1 : forall m m' r, f1 m r = Ok m' -> bm_size m' = bm_size m) by (intros m m' r; apply write_size).
    unfold obind at 1. destruct (ofold f1 _ _) as [m1|] eqn:E1; [|reflexivity]. apply (fill_size f1 S1) in E1. cbn [bm_new bm_size] in E1.
    assert (Z3 : size3 (square_lattice Nx Ny) = N + N * N * N) by (unfold size3; rewrite (basis3_len _ N HR); nia). rewrite Z3 in E1.
    assert (S0 : site N 0) by (unfold site; lia). assert (Hfit : N + N * N * N < two64) by lia.
    assert (Nb : N * N * nb <= N * N * (Nx * Nx + N)) by (apply Z.mul_le_mono_nonneg_l; unfold N in *; lia).
    assert (Ei : forall x, N * N * x < two64 - N -> 0 <= x -> get_3op_index N x 0 0 = N + N * N * x).
    { intros x Hx X0. unfold get_3op_index. rewrite Z.mul_0_r. assert (0 <= N * N * x) by nia. rewrite (u64_id (N * N)) by nia. set (p := N * N * x) in *. clearbody p. rewrite (u64_id p) by lia. rewrite (u64_id (N + p)) by lia. rewrite (u64_id 0) by lia. rewrite !Z.add_0_r. rewrite !u64_id by (rewrite ?u64_id; lia). reflexivity. }
    apply (fill_out _ (N + N * N * N) (get_3op_index N i 0 0)).
    + intros m m' r H. unfold obind in H. destruct (basis_indices _ r) as [p|]; [|discriminate]. apply (write_size _ _ _ _ H).
    + intros m Hm. unfold basis_indices. rewrite (basis3_get _ N HR Hfit) by assumption. cbn [obind index1 fst snd].
      apply (row_out _ _ (mkT (get_3op_index N i 0 0) (get_3op_index N nb 0 0) (ropp J))).
      * apply (Permutation.Permutation_in _ (Permutation.Permutation_sym (Logic.proj1 (Hs _)))). unfold triplets3, kinetic_triplets3. rewrite Ls. apply in_or_app. left. apply in_or_app. left. apply in_map_iff. exists nb. split; [reflexivity|exact Hn].
      * cbn [t_col]. rewrite Hm, Ei by lia. assert (N * N * N <= N * N * nb) by (apply Z.mul_le_mono_nonneg_l; lia). lia.
    + rewrite Ls, Z3. unfold site in Hi. assert (N * N * i <= N * N * (N - 1)) by (apply Z.mul_le_mono_nonneg_l; lia). assert (0 <= N * N * i) by nia. rewrite Ei by nia. apply zrange_in. nia.
    + exact E1.
Qed.
Print Assumptions C33_tall_refuted.
Example ex_rectangle : let N := 4 * 3 in N + N * N * (4 * 4 + N) < two64. Proof. vm_compute. reflexivity. Qed.

(** ** Nx < Ny: rows and columns do not match *)
Section Built.
  Context {K : StarRing}.
  Lemma append_keeps (m m' : bmat K) row j v : bm_append m row j v = Ok m' -> bm_done m' = bm_done m /\ bm_cur m' = bm_cur m ++ [(j, v)].
  Proof. unfold bm_append. destruct (_ && _ && _ && _ && _)%bool; [|discriminate]. intros E. injection E as <-. split; reflexivity. Qed.
  Lemma row_keeps row (ts : list (triplet K)) : forall m m', ofold (fun m t => bm_append m row (t_col t) (t_val t)) ts m = Ok m' ->
    bm_done m' = bm_done m /\ bm_cur m' = bm_cur m ++ pairs ts.
  Proof.
    induction ts as [|t ts IH]; intros m m' H; cbn [ofold] in H; [injection H as <-; split; [reflexivity|symmetry; apply app_nil_r]|].
    unfold obind in H. destruct (bm_append m row (t_col t) (t_val t)) as [m1|] eqn:E; [|discriminate]. destruct (IH _ _ H) as (A & B), (append_keeps _ _ _ _ _ E) as (A1 & B1).
    rewrite A, A1, B, B1. split; [reflexivity|]. rewrite <- app_assoc. reflexivity.
  Qed.
  Lemma write_keeps (m m' : bmat K) row ts : write_row m row ts = Ok m' -> bm_cur m = [] -> bm_done m' = bm_done m ++ [pairs ts] /\ bm_cur m' = [].
  Proof.
    unfold write_row, obind. destruct (ofold _ ts m) as [m1|] eqn:E; [|discriminate]. unfold bm_finalize. destruct (row =? _)%Z; [|discriminate]. intros F H. injection F as <-. cbn [bm_done bm_cur].
    destruct (row_keeps _ _ _ _ E) as (A & B). rewrite A, B, H. split; reflexivity.
  Qed.
  Lemma fill_keeps (g : Z -> list (triplet K)) rows : forall m m', ofold (fun m row => write_row m row (g row)) rows m = Ok m' -> bm_cur m = [] ->
    bm_done m' = bm_done m ++ map (fun r => pairs (g r)) rows /\ bm_cur m' = [].
  Proof.
    induction rows as [|r rows IH]; intros m m' H C; cbn [ofold] in H; [injection H as <-; split; [symmetry; apply app_nil_r|exact C]|].
    unfold obind in H. destruct (write_row m r (g r)) as [m1|] eqn:E; [|discriminate]. destruct (write_keeps _ _ _ _ E C) as (A & B). destruct (IH _ _ H B) as (A2 & B2).
    split; [|exact B2]. rewrite A2, A, <- app_assoc. reflexivity.
  Qed.
  (** whatever the loop body does, if it writes whole rows it only adds rows at the end *)
  Lemma fill_prefix (f : bmat K -> Z -> outcome (bmat K)) : (forall m m' r, f m r = Ok m' -> bm_cur m = [] -> (exists x, bm_done m' = bm_done m ++ [x]) /\ bm_cur m' = []) ->
    forall rows m m', ofold f rows m = Ok m' -> bm_cur m = [] -> exists x, bm_done m' = bm_done m ++ x.
  Proof.
    intros Hf. induction rows as [|r rows IH]; intros m m' H C; cbn [ofold] in H; [injection H as <-; exists []; symmetry; apply app_nil_r|].
    unfold obind in H. destruct (f m r) as [m1|] eqn:E; [|discriminate]. destruct (Hf _ _ _ E C) as ((x & A) & B). destruct (IH _ _ H B) as (y & A2).
    exists ([x] ++ y). rewrite A2, A, <- app_assoc. reflexivity.
  Qed.
  Variable sort : list (triplet K) -> list (triplet K).
  Hypothesis Hsort : sorts_by_column sort.
  Lemma fill_dup (g : Z -> list (triplet K)) bad rows : ~ NoDup (map t_col (g bad)) -> In bad rows -> forall m, bm_cur m = [] -> ofold (fun m row => write_row m row (sort (g row))) rows m = UB.
  Proof.
    intros Hd. induction rows as [|r rows IH]; intros Hin m C; [destruct Hin|]. cbn [ofold]. destruct Hin as [->|Hin].
    - rewrite write_row_dup; [reflexivity|exact C|]. intros H'. apply Hd. eapply Permutation.Permutation_NoDup; [|exact H']. apply Permutation.Permutation_map, Hsort.
    - unfold obind. destruct (write_row m r (sort (g r))) as [m1|] eqn:E; [|reflexivity]. apply (IH Hin). destruct (write_keeps _ _ _ _ E C) as (_ & B). exact B.
  Qed.
  Lemma entry_of (g : Z -> list (triplet K)) N m rest r c : bm_done m = map (fun r => pairs (sort (g r))) (zrange 0 N) ++ rest -> site N r ->
    entry m r c = weight (g r) c.
  Proof.
    intros D (R0 & R1). unfold entry, row_of. rewrite D, app_nth1 by (rewrite map_length, zrange_length; lia).
    assert (X : nth_error (map (fun r => pairs (sort (g r))) (zrange 0 N)) (Z.to_nat r) = Some (pairs (sort (g r)))).
    { rewrite nth_error_map. replace r with (r - 0)%Z at 1 by lia. rewrite zrange_nth by lia. reflexivity. }
    rewrite (nth_error_nth _ _ [] X). apply (entry_weight sort Hsort).
  Qed.
End Built.

(** the neighbours on a lattice with Nx < Ny *)
Section Wide.
  Variables Nx Ny : Z.
  Hypotheses (HX : 3 <= Nx) (HY : Nx < Ny) (Hf : Nx * Ny < two64).
  Lemma wide_small i nb : site (Nx * Ny) i -> In nb (sq_neighbors Nx Ny i) -> 0 <= nb < Nx * Ny - 1.
  Proof.
    intros (I0 & I1) H. unfold sq_neighbors in H. cbn zeta in H. assert (A : 0 <= i / Ny < Nx) by (split; [apply Z.div_pos; lia|apply Z.div_lt_upper_bound; lia]).
    assert (B : 0 <= i mod Nx < Nx) by (apply Z.mod_pos_bound; lia). set (a := i / Ny) in *. set (b := i mod Nx) in *. clearbody a b.
    assert (Q : forall x y, 0 <= x < Nx -> 0 <= y < Ny -> (y < Nx + 1 \/ y = Ny - 1) -> 0 <= sq_index Nx x y < Nx * Ny - 1).
    { intros x y X Y _. unfold sq_index. assert (0 <= x * Nx <= (Nx - 1) * Nx) by nia. assert ((Nx - 1) * Nx + Ny < Nx * Ny) by nia. rewrite (u64_id (x * Nx)) by lia. rewrite u64_id by lia. lia. }
    assert (UX : u64 (Nx - 1) = Nx - 1) by (apply u64_id; nia). assert (UY : u64 (Ny - 1) = Ny - 1) by (apply u64_id; nia). rewrite UX, UY in H.
    destruct H as [<-|[<-|[<-|[<-|[]]]]]; apply Q; try lia.
    - destruct (Z.eqb_spec a 0); [lia|rewrite u64_id; lia || nia].
    - destruct (Z.eqb_spec b 0); [lia|rewrite u64_id; lia || nia].
    - destruct (Z.eqb_spec b 0); [lia|rewrite u64_id; lia || nia].
    - destruct (Z.eqb_spec a (Nx - 1)); [lia|rewrite u64_id; lia || nia].
    - destruct (Z.eqb_spec b (Ny - 1)); [lia|rewrite u64_id; lia || nia].
    - destruct (Z.eqb_spec b (Ny - 1)); [lia|rewrite u64_id; lia || nia].
  Qed.
  Lemma wide_last : sq_neighbors Nx Ny (Nx * Ny - 1) = [(Nx - 2) * Nx + (Nx - 1); (Nx - 1) * Nx + (Nx - 2); Nx - 1; Nx * Nx].
  Proof.
    unfold sq_neighbors. cbn zeta. assert (A : (Nx * Ny - 1) / Ny = Nx - 1) by (symmetry; apply (Z.div_unique _ _ _ (Ny - 1)); lia).
    assert (B : (Nx * Ny - 1) mod Nx = Nx - 1) by (symmetry; apply (Z.mod_unique _ _ (Ny - 1)); lia). rewrite A, B.
    assert (UX : u64 (Nx - 1) = Nx - 1) by (apply u64_id; nia). assert (UY : u64 (Ny - 1) = Ny - 1) by (apply u64_id; nia). rewrite UX, UY.
    replace (Nx - 1 =? 0) with false by lia. replace (Nx - 1 =? Nx - 1) with true by lia. replace (Nx - 1 =? Ny - 1) with false by lia.
    assert (Q : forall x y, 0 <= x < Nx -> 0 <= y < Ny -> sq_index Nx x y = x * Nx + y).
    { intros x y X Y. unfold sq_index. assert (0 <= x * Nx <= (Nx - 1) * Nx) by nia. assert ((Nx - 1) * Nx + Ny < Nx * Ny) by nia. rewrite (u64_id (x * Nx)) by lia. rewrite u64_id by lia. lia. }
    rewrite (u64_id (Nx - 1 - 1)) by nia. rewrite (u64_id (Nx - 1 + 1)) by nia. rewrite !Q by lia.
    replace ((Nx - 1) * Nx + (Nx - 1 + 1)) with (Nx * Nx) by ring. replace (Nx - 1 - 1) with (Nx - 2) by ring. rewrite Z.mul_0_l, Z.add_0_l. reflexivity.
  Qed.
End Wide.
(** site Nx is its own neighbour *)
Lemma wide_self Nx Ny : 2 <= Nx -> Nx < Ny -> Nx * Ny < two64 -> sq_neighbors Nx Ny Nx = [(Nx - 1) * Nx; Ny - 1; Nx; 1].
Proof.
  intros HX HY Hf. unfold sq_neighbors. cbn zeta. rewrite Z.div_small, Z.mod_same by lia. change (0 =? 0) with true. cbv iota.
  assert (UX : u64 (Nx - 1) = Nx - 1) by (apply u64_id; nia). assert (UY : u64 (Ny - 1) = Ny - 1) by (apply u64_id; nia). rewrite UX, UY.
  replace (0 =? Nx - 1) with false by lia. replace (0 =? Ny - 1) with false by lia. unfold sq_index. cbn [Z.add]. rewrite Z.mul_0_l. rewrite (u64_id 0) by nia. rewrite (u64_id 1) by nia.
  rewrite (u64_id ((Nx - 1) * Nx)) by nia. change (0 + 1) with 1. rewrite ?(u64_id 1) by nia. rewrite ?Z.mul_1_l, ?(u64_id Nx) by nia. rewrite ?Z.add_0_r, ?Z.add_0_l. rewrite !u64_id by nia. reflexivity.
Qed.


Section Ring.
  Context {K : StarRing}.
  Add Ring Kr2 : (rth K).
  Local Open Scope ring_scope_.
  Lemma K1_ring (J : K) : (1 * - J + (0 * - J + (0 * - J + (0 * - J + 0))) = - J)%K.
  Proof. ring. Qed.
  Lemma K0_ring (J : K) : (0 * - J = 0)%K.
  Proof. ring. Qed.
  Lemma K2_ring (J : K) : (0 * - J + (0 * - J + (1 * - J + (0 * - J + 0))) = - J)%K.
  Proof. ring. Qed.
End Ring.
(** (defect) On every square lattice with 3 <= Nx < Ny the kinetic matrix, where it can be built at all, is not symmetric:
    the last site hops to site (Nx - 2) Nx + Nx - 1, but no site hops to the last one; and site Nx hops to itself. *)
Theorem C33_rectangle_kinetic_refuted : forall (K : StarRing) (sort : list (triplet K) -> list (triplet K)) (J : K) Nx Ny,
  sorts_by_column sort -> 3 <= Nx -> Nx < Ny ->
  let N := Nx * Ny in let last := N - 1 in let other := (Nx - 2) * Nx + (Nx - 1) in N + N * N * N < two64 ->
  site N last /\ site N other /\ site N Nx /\
  (forall m, init_kinetic_matrix sort J (square_lattice Nx Ny) = Ok m ->
     entry m last other = ropp J /\ (forall r, site N r -> entry m r last = r0) /\ entry m Nx Nx = ropp J).
Proof.
  intros K sort J Nx Ny Hs HX HY N last other Hf. assert (N1 : 9 <= N) by (unfold N; nia). assert (N64 : N < two64) by nia.
  assert (HR : regular (square_lattice Nx Ny) N) by (apply square_regular; unfold N in *; lia). pose proof HR as (Ls & _ & _).
  assert (Hl : site N last) by (unfold site, last; lia). assert (Ho : site N other) by (unfold site, other, N; nia). assert (Hn : site N Nx) by (unfold site, N; nia).
  assert (KE : forall r c, weight (kinetic_triplets1 J (square_lattice Nx Ny) r) c = sum_over (fun x => rmul (delta x c) (ropp J)) (sq_neighbors Nx Ny r)).
  { intros r c. unfold weight, kinetic_triplets1. rewrite sum_over_map. reflexivity. }
  assert (K1 : weight (kinetic_triplets1 J (square_lattice Nx Ny) last) other = ropp J).
  { rewrite KE. unfold last, N. rewrite (wide_last Nx Ny HX HY N64). rewrite !sum_over_cons, sum_over_nil. fold other.
    assert (delta (K := K) other other = r1) as -> by (unfold delta; rewrite Z.eqb_refl; reflexivity).
    rewrite !delta_ne by (unfold other; nia). exact (K1_ring J). }
  assert (K0 : forall r, site N r -> weight (kinetic_triplets1 J (square_lattice Nx Ny) r) last = r0).
  { intros r Hr. rewrite KE. apply sum_over_zero. intros x Hx. apply (wide_small Nx Ny HX HY N64 r x Hr) in Hx. rewrite delta_ne by (unfold last, N; lia). apply K0_ring. }
  assert (K2 : Ny - 1 <> Nx -> weight (kinetic_triplets1 J (square_lattice Nx Ny) Nx) Nx = ropp J).
  { intros E. rewrite KE. rewrite (wide_self Nx Ny) by lia. rewrite !sum_over_cons, sum_over_nil.
    assert (delta (K := K) Nx Nx = r1) as -> by (unfold delta; rewrite Z.eqb_refl; reflexivity).
    rewrite !delta_ne by nia. apply K2_ring. }
  split; [exact Hl|]. split; [exact Ho|]. split; [exact Hn|].
  intros m Hm. pose proof Hm as Hm'. unfold init_kinetic_matrix in Hm'. destruct (fill_keeps _ _ _ _ Hm' eq_refl) as (D & _). cbn [bm_new bm_done app] in D. rewrite Ls in D. rewrite <- (app_nil_r (map _ _)) in D.
  split; [rewrite (entry_of sort Hs _ _ _ _ _ _ D Hl); exact K1|]. split; [intros r Hr; rewrite (entry_of sort Hs _ _ _ _ _ _ D Hr); apply K0, Hr|].
  rewrite (entry_of sort Hs _ _ _ _ _ _ D Hn). destruct (Z.eq_dec (Ny - 1) Nx) as [E|E]; [exfalso|exact (K2 E)]. unfold init_kinetic_matrix in Hm.
  rewrite (fill_dup sort Hs _ Nx) in Hm; [discriminate| |rewrite Ls; apply zrange_in; exact Hn|reflexivity].
  rewrite kin1_cols. cbn [square_lattice lat_neighbors]. rewrite (wide_self Nx Ny) by lia. rewrite E. intros Nd. inversion Nd as [|? ? _ Nd1]; subst. inversion Nd1 as [|? ? Q _]; subst. apply Q. left. reflexivity.
Qed.
Print Assumptions C33_rectangle_kinetic_refuted.
(** 3 x 5: the kinetic matrix is built, so the theorem says something *)
Example ex_wide : match init_kinetic_matrix (K := Qcring) isort r1 (square_lattice 3 5) with Ok _ => true | UB => false end = true.
Proof. vm_compute. reflexivity. Qed.

(** (defect) The full matrix cannot be built on any square lattice with different sides. *)
Theorem C33_rectangle_refuted : forall (K : StarRing) (sort : list (triplet K) -> list (triplet K)) (J U half : K) Nx Ny,
  sorts_by_column sort -> 1 <= Nx -> 1 <= Ny -> Nx <> Ny ->
  let N := Nx * Ny in N + N * N * (Nx * Nx + N) < two64 -> init_matrix sort J U half (square_lattice Nx Ny) = UB.
Proof.
  intros K sort J U half Nx Ny Hs HX HY D N Hf. destruct (Z_lt_ge_dec Ny Nx) as [L|L]; [apply (C33_tall_refuted K sort J U half Nx Ny Hs HX HY L Hf)|].
  assert (N1 : 1 <= N) by (unfold N; nia). assert (NN : 1 <= N * N) by nia. assert (P1 : N * N * N <= N * N * (Nx * Nx + N)) by (apply Z.mul_le_mono_nonneg_l; nia). assert (N64 : N < two64) by nia.
  assert (HR : regular (square_lattice Nx Ny) N) by (apply square_regular; unfold N in *; lia). pose proof HR as (Ls & _ & _).
  unfold init_matrix. unfold obind at 1.
  assert (Hn : In (if Nx =? 1 then 0 else Nx) (zrange 0 (lat_size (square_lattice Nx Ny)))) by (rewrite Ls; apply zrange_in; unfold N; destruct (Z.eqb_spec Nx 1); nia).
  rewrite (fill_dup sort Hs (triplets1 J U half (square_lattice Nx Ny)) _ _) with (2 := Hn); [reflexivity| |reflexivity].
  unfold triplets1. rewrite map_app, kin1_cols. cbn [square_lattice lat_neighbors]. intros Nd. destruct (Z.eqb_spec Nx 1) as [E|E].
  - subst Nx. unfold sq_neighbors in Nd. cbn zeta in Nd. rewrite Z.div_0_l in Nd by lia. change (1 - 1) with 0 in Nd. rewrite (u64_id 0) in Nd by nia. change (0 =? 0) with true in Nd. cbv iota in Nd. cbn [app] in Nd. inversion Nd as [|? ? Q _]; subst. apply Q. right. left. reflexivity.
  - rewrite (wide_self Nx Ny) in Nd by lia. cbn [app map t_col] in Nd. inversion Nd as [|? ? _ N1']; subst. inversion N1' as [|? ? _ N2]; subst. inversion N2 as [|? ? Q _]; subst. apply Q. right. left. reflexivity.
Qed.
Print Assumptions C33_rectangle_refuted.
