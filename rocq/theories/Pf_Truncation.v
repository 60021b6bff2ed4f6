(** PROOFS for C118: the operator the program evolves against the true Heisenberg operator. *)
From Coq Require Import Reals Lra Psatz.
From Verif Require Import Base Spec_Fock FockFacts Pf_FockDiag M_Operator M_Lattice Spec_Lattice Pf_Lattice M_Basis Pf_Basis M_Matrix M_MatrixCheck M_Ode M_Dispersion M_OpenMP Spec_Algebra Spec_Dynamics
  Pf_Matrix Spec_Matrix Pf_Matrix2 Pf_Trace Pf_Wick Pf_Liouville Pf_Projection Pf_MatrixEntry P_Matrix Spec_Stability Pf_Stability Pf_Stability2 Pf_Stability3 P_Stability Spec_Ode Pf_Ode P_Ode Pf_Commutator P_Dynamics P_DynamicsKinetic Spec_Programs P_OccupationFree Pf_Symmetry Pf_Theory Pf_Theory2 Pf_LightCone Spec_Truncation Pf_Jump M_Programs Pf_Programs.
Local Open Scope R_scope.
Local Open Scope list_scope.
Local Notation len u := (Z.of_nat (length u)).

(** ** commutators as products of matrices *)
Section Bracket.
  Context {K : StarRing} (mode : hub -> nat) (M : nat).
  Local Open Scope ring_scope_.
  Add Ring KringTr : (rth K).
  Definition on_modes (A : list (term hub K)) : Prop := Forall (fun x => below M (ladders mode (operators x))) A.
  Lemma product_elem A B s t : on_modes B -> In s (fock M) ->
    terms_elem mode (op_mul A B) s t = sum_over (fun u => terms_elem mode B s u * terms_elem mode A u t) (fock M).
  Proof.
    intros HB Hs. unfold terms_elem, op_mul. rewrite sum_over_flat_map.
    transitivity (sum_over (K := K) (fun a => sum_over (fun b => sum_over (fun u => term_elem mode b s u * term_elem mode a u t) (fock M)) B) A).
    - apply sum_over_ext. intros a _. rewrite sum_over_map. apply sum_over_ext. intros b Hb. unfold on_modes in HB. rewrite Forall_forall in HB.
      unfold term_elem. cbn [prefactor operators]. unfold elem, ladders. rewrite map_app. rewrite (insert_states M _ _ s t (HB b Hb) Hs).
      rewrite <- (sum_over_mul_l K (prefactor a * prefactor b)). apply sum_over_ext. intros u _. unfold ladders. ring.
    - rewrite sum_over_swap. rewrite (sum_over_ext K _ (fun b => sum_over (fun u => sum_over (fun a => term_elem mode b s u * term_elem mode a u t) A) (fock M))) by (intros b _; apply sum_over_swap).
      rewrite sum_over_swap. apply sum_over_ext. intros u _. rewrite <- sum_over_mul_r. apply sum_over_ext. intros b _. apply sum_over_mul_l.
  Qed.
  Lemma comm_bracket A B s t : on_modes A -> on_modes B -> In s (fock M) ->
    comm_elem mode A B s t = bracket M (terms_elem mode A) (terms_elem mode B) s t.
  Proof.
    intros HA HB Hs. unfold comm_elem, bracket. rewrite !product_elem by assumption. rewrite <- sum_over_sub. apply sum_over_ext. intros u _. reflexivity.
  Qed.
End Bracket.

(** ** doubly occupied sites *)
Lemma one_change (f g : Z -> R) l : NoDup l -> (forall i, In i l -> 0 <= g i - f i <= 1) ->
  (forall i j, In i l -> In j l -> g i <> f i -> g j <> f j -> i = j) -> 0 <= SR g l - SR f l <= 1.
Proof.
  induction 1 as [|i l Hi Hl IH]; intros D O; [cbn; lra|]. cbn [SR].
  assert (Dl : forall j, In j l -> 0 <= g j - f j <= 1) by (intros; apply D; right; assumption).
  destruct (Req_dec (g i) (f i)) as [e|e].
  - rewrite e. assert (0 <= SR g l - SR f l <= 1); [|lra]. apply IH; [exact Dl|]. intros a b Ha Hb. apply O; right; assumption.
  - rewrite (SR_ext g f l); [pose proof (D i (or_introl eq_refl)); lra|]. intros j Hj. destruct (Req_dec (g j) (f j)) as [|n]; [assumption|].
    exfalso. apply Hi. rewrite (O i j (or_introl eq_refl) (or_intror Hj) e n). exact Hj.
Qed.
Section Doublons.
  Variables (mode : hub -> nat) (N : Z).
  Hypothesis Hm : numbers_orbitals mode N.
  Definition doubled (s : BinNums.N) (i : Z) : R := if (occ s (mode (i, true)) && occ s (mode (i, false)))%bool then 1 else 0.
  Definition doublons (s : BinNums.N) : R := SR (doubled s) (Zseq N).
  Lemma doublons_create k s : occ s k = false -> 0 <= doublons (upd true k s) - doublons s <= 1.
  Proof.
    intros Ho. apply one_change; [apply Zseq_nodup| |].
    - intros i _. unfold doubled. rewrite !occ_upd. destruct (Nat.eqb k (mode (i, true))), (Nat.eqb k (mode (i, false))), (occ s (mode (i, true))), (occ s (mode (i, false))); cbn; lra.
    - intros i j Hi Hj. apply Zseq_in in Hi, Hj. unfold doubled. rewrite !occ_upd. intros A B.
      assert (Q : forall i, (if ((if Nat.eqb k (mode (i, true)) then true else occ s (mode (i, true))) && (if Nat.eqb k (mode (i, false)) then true else occ s (mode (i, false))))%bool then 1 else 0) <>
        (if (occ s (mode (i, true)) && occ s (mode (i, false)))%bool then 1 else 0) -> exists sp, mode (i, sp) = k).
      { intros x Hx. destruct (Nat.eqb_spec k (mode (x, true))) as [e|_]; [exists true; symmetry; exact e|]. destruct (Nat.eqb_spec k (mode (x, false))) as [e|_]; [exists false; symmetry; exact e|]. exfalso; apply Hx; reflexivity. }
      destruct (Q i A) as [sp E1], (Q j B) as [sp' E2]. apply (Hm i sp j sp' Hi Hj). exact (eq_trans E1 (eq_sym E2)).
  Qed.
  Lemma doublons_destroy k s : occ s k = true -> -1 <= doublons (upd false k s) - doublons s <= 0.
  Proof.
    intros Ho. pose proof (doublons_create k (upd false k s)) as C. rewrite occ_upd, Nat.eqb_refl in C. specialize (C eq_refl).
    assert (E : upd true k (upd false k s) = s). { apply state_ext. intros j. rewrite !occ_upd. destruct (Nat.eqb_spec k j) as [<-|]; [symmetry; exact Ho|reflexivity]. }
    rewrite E in C. lra.
  Qed.
  Fixpoint many (c : bool) (ops : list (bool * nat)) : R := match ops with [] => 0 | o :: ops' => (if Bool.eqb (fst o) c then 1 else 0) + many c ops' end.
  Lemma doublons_act ops : forall s sg t, act ops s = Some (sg, t) -> - many false ops <= doublons t - doublons s <= many true ops.
  Proof.
    induction ops as [|[c k] ops IH]; intros s sg t H; cbn [act many fst] in *; [injection H as _ <-; lra|].
    destruct (act ops s) as [[sg1 s1]|] eqn:E; [|discriminate]. specialize (IH s sg1 s1 E). rewrite ladder_upd in H.
    destruct (Bool.eqb (occ s1 k) c) eqn:Q; [discriminate|]. injection H as _ <-. destruct c; cbn [Bool.eqb].
    - assert (O : occ s1 k = false) by (destruct (occ s1 k); [discriminate|reflexivity]). pose proof (doublons_create k s1 O). lra.
    - assert (O : occ s1 k = true) by (destruct (occ s1 k); [reflexivity|discriminate]). pose proof (doublons_destroy k s1 O). lra.
  Qed.
End Doublons.

(** ** the Hamiltonian *)
Section Hamiltonian.
  Variables (mode : hub -> nat) (M : nat) (lat : lattice) (N : Z).
  Hypothesis Hl : shipped3 lat N.
  Hypothesis Hm : numbers_orbitals mode N.
  Hypothesis Hb : orbitals_below mode N M.
  Let HG := shipped3_graph lat N Hl.
  Lemma size_eq : lat_size lat = N.
  Proof. destruct (g_reg _ _ HG) as [E _]; exact E. Qed.
  Lemma on_kin J : on_modes mode M (H_kin (K := CR) lat J).
  Proof.
    unfold on_modes, H_kin. rewrite Forall_forall. intros x Hx. rewrite size_eq in Hx. apply in_flat_map in Hx as (i & Hi & Hx). apply in_flat_map in Hx as (j & Hj & Hx).
    apply Zseq_in in Hi. assert (Sj : site N j) by (apply (g_range _ _ HG i j Hi Hj)).
    apply in_map_iff in Hx as (sp & <- & _). unfold below, ladders. cbn. repeat constructor; cbn; apply Hb; assumption.
  Qed.
  Lemma on_int U : on_modes mode M (H_int (K := CR) lat U).
  Proof.
    unfold on_modes, H_int. rewrite Forall_forall. intros x Hx. rewrite size_eq in Hx. apply in_map_iff in Hx as (i & <- & Hi). apply Zseq_in in Hi.
    unfold below, ladders. cbn. repeat constructor; cbn; apply Hb; assumption.
  Qed.
  Lemma on_app (A B : list (term hub CR)) : on_modes mode M A -> on_modes mode M B -> on_modes mode M (A ++ B).
  Proof. intros. apply Forall_app. split; assumption. Qed.
  Lemma int_diagonal U s t : terms_elem mode (H_int (K := CR) lat (real U)) s t = if N.eqb t s then real (U * doublons mode N s) else real 0.
  Proof.
    unfold terms_elem, H_int, doublons. rewrite size_eq, sum_over_map. rewrite <- SR_mul.
    transitivity (sum_over (K := CR) (fun i => if N.eqb t s then real (U * doubled mode s i) else real 0) (Zseq N)).
    - apply sum_over_ext. intros i _. unfold term_elem, elem, ladders, amp. cbn [map prefactor operators]. unfold doubled.
      change [(true, mode (i, true)); (false, mode (i, true)); (true, mode (i, false)); (false, mode (i, false))]
        with [(true, mode (i, true)); (false, mode (i, true)); (true, mode (i, false)); (false, mode (i, false))].
      match goal with |- context[act ?l s] => change l with [(true, mode (i, true)); (false, mode (i, true)); (true, mode (i, false)); (false, mode (i, false))] end.
      rewrite act_numbers. destruct (_ && _)%bool; [destruct (N.eqb t s)|destruct (N.eqb t s)]; cbn; apply (f_equal2 (@pair R R)); cbn; ring.
    - destruct (N.eqb t s); [|apply sum_over_zero; reflexivity]. apply (injective_projections (A := R) (B := R)); [rewrite fst_sum|rewrite snd_sum]; cbn; [reflexivity|apply SR_zero].
  Qed.
  Lemma bracket_int U X s t : In s (fock M) -> In t (fock M) ->
    bracket M (terms_elem mode (H_int (K := CR) lat (real U))) X s t = rmul (real (U * (doublons mode N t - doublons mode N s))) (X s t).
  Proof.
    intros Hs Ht. unfold bracket. rewrite sum_over_sub.
    rewrite (sum_over_ext CR _ (fun u => if N.eqb u t then rmul (X s u) (real (U * doublons mode N u)) else r0)).
    2:{ intros u _. rewrite int_diagonal. rewrite N.eqb_sym. destruct (N.eqb u t); [reflexivity|]. destruct (X s u). unfold real. cbn. apply (f_equal2 (@pair R R)); cbn; ring. }
    rewrite (sum_over_ext CR (fun u => rmul (terms_elem mode (H_int lat (real U)) s u) (X u t)) (fun u => if N.eqb u s then rmul (real (U * doublons mode N s)) (X u t) else r0)).
    2:{ intros u _. rewrite int_diagonal. destruct (N.eqb u s); [reflexivity|]. destruct (X u t). unfold real. cbn. apply (f_equal2 (@pair R R)); cbn; ring. }
    rewrite (sum_pick N.eqb N.eqb_eq _ t _ (states_nodup M) Ht), (sum_pick N.eqb N.eqb_eq _ s _ (states_nodup M) Hs).
    destruct (X s t) as [a b]. unfold real. cbn. apply (f_equal2 (@pair R R)); cbn; ring.
  Qed.
End Hamiltonian.

(** ** what the projection drops *)
Section Dropped.
  Context {K : StarRing}.
  Local Open Scope ring_scope_.
  Add Ring KringTrD : (rth K).
  Variables (mode : hub -> nat) (M : nat) (basis : list (monomial hub)) (n : Z).
  Hypothesis Ln : len basis = n.
  Definition Bop (j : Z) : list (term hub K) := basis_op (nth (Z.to_nat j) basis []).
  Definition Bm (j : Z) (s t : BinNums.N) : K := terms_elem mode (Bop j) s t.
  Definition Am (h : Z -> K) (s t : BinNums.N) : K := sum_over (fun j => h j * Bm j s t) (zrange 0 n).
  Lemma combination_entry (m : bmat K) j s t : well_formed m n -> (0 <= j < n)%Z ->
    combination mode basis_op basis (row_of m j) s t = Am (entry m j) s t.
  Proof.
    intros Hw Hj. pose (u := map (fun k => Bm k s t) (zrange 0 n)).
    assert (Lu : len u = n) by (unfold u; rewrite map_length, zrange_length; lia).
    assert (Hu : forall k, (0 <= k < n)%Z -> vget u k = Bm k s t) by (intros k Hk; exact (nth_zrange_map (fun k => Bm k s t) n k 0 Hk)).
    transitivity (vget (sp_vec m u) j).
    - unfold combination. unfold vget at 1, sp_vec.
      pose proof (map_nth (fun row => sum_over (fun e => snd e * vget u (fst e)) row) (bm_done m) [] (Z.to_nat j)) as Q.
      rewrite sum_over_nil in Q. rewrite Q. fold (row_of m j). apply sum_over_ext. intros e He.
      assert (He' : (0 <= fst e < n)%Z).
      { destruct Hw as (_ & Lr & _ & Hrows & _). rewrite Forall_forall in Hrows. unfold row_of in He.
        destruct (Hrows (nth (Z.to_nat j) (bm_done m) [])) as [_ R]; [apply nth_In; lia|]. rewrite Forall_forall in R. apply (R e He). }
      rewrite (Hu _ He'). unfold Bm, Bop. rewrite (nth_error_nth' basis []) by lia. reflexivity.
    - destruct (sparse_linear K n m Hw u Lu) as [_ Q]. rewrite Q by exact Hj. apply sum_over_ext. intros k Hk. apply zrange_in in Hk. rewrite Hu by exact Hk. reflexivity.
  Qed.
  Lemma frob_left (g : Z -> K) L : frobenius M (Am g) L = sum_over (fun j => kconj (g j) * frobenius M (Bm j) L) (zrange 0 n).
  Proof.
    unfold frobenius, Am.
    transitivity (sum_over (fun s => sum_over (fun t => sum_over (fun j => kconj (g j) * (kconj (Bm j s t) * L s t)) (zrange 0 n)) (fock M)) (fock M)).
    - apply sum_over_ext. intros s _. apply sum_over_ext. intros t _. rewrite conj_sum_over, <- sum_over_mul_r. apply sum_over_ext. intros j _. rewrite conj_mul. ring.
    - rewrite (sum_over_ext K _ (fun s => sum_over (fun j => sum_over (fun t => kconj (g j) * (kconj (Bm j s t) * L s t)) (fock M)) (zrange 0 n))) by (intros s _; apply sum_over_swap).
      rewrite sum_over_swap. apply sum_over_ext. intros j _. rewrite <- sum_over_mul_l. apply sum_over_ext. intros s _. apply sum_over_mul_l.
  Qed.
  Lemma bracket_Am (H : BinNums.N -> BinNums.N -> K) h s t :
    bracket M H (Am h) s t = sum_over (fun j => h j * bracket M H (Bm j) s t) (zrange 0 n).
  Proof.
    unfold bracket, Am.
    transitivity (sum_over (fun u => sum_over (fun j => h j * (Bm j s u * H u t - H s u * Bm j u t)) (zrange 0 n)) (fock M)).
    - apply sum_over_ext. intros u _. rewrite <- sum_over_mul_r, <- sum_over_mul_l, <- sum_over_sub. apply sum_over_ext. intros j _. ring.
    - rewrite sum_over_swap. apply sum_over_ext. intros j _. apply sum_over_mul_l.
  Qed.
  Lemma bracket_add (H H' X : BinNums.N -> BinNums.N -> K) s t : bracket M (fun a b => H a b + H' a b) X s t = bracket M H X s t + bracket M H' X s t.
  Proof. unfold bracket. rewrite <- sum_over_add. apply sum_over_ext. intros u _. ring. Qed.
  (** row j of the matrix against the commutator with the Hamiltonian *)
  Variables (HA : list (term hub K)) (e : Z -> Z -> K).
  Hypothesis esym : forall i j, (0 <= i < n)%Z -> (0 <= j < n)%Z -> e i j = e j i.
  Definition miss (j : Z) (s t : BinNums.N) : K := Am (e j) s t - comm_elem mode HA (Bop j) s t.
  Definition missed (h : Z -> K) (s t : BinNums.N) : K := sum_over (fun j => h j * miss j s t) (zrange 0 n).
  Lemma missed_eq h s t : on_modes mode M HA -> (forall j, (0 <= j < n)%Z -> on_modes mode M (Bop j)) -> In s (fock M) ->
    Am (fun k => sum_over (fun j => e k j * h j) (zrange 0 n)) s t - bracket M (terms_elem mode HA) (Am h) s t = missed h s t.
  Proof.
    intros OH OB Hs. rewrite bracket_Am. unfold missed, miss.
    rewrite (sum_over_ext K (fun j => h j * (Am (e j) s t - comm_elem mode HA (Bop j) s t)) (fun j => h j * Am (e j) s t - h j * bracket M (terms_elem mode HA) (Bm j) s t)).
    2:{ intros j Hj. apply zrange_in in Hj. rewrite (comm_bracket mode M HA (Bop j) s t OH (OB j Hj) Hs). change (terms_elem mode (Bop j)) with (Bm j). ring. }
    rewrite sum_over_sub. f_equal. unfold Am.
    transitivity (sum_over (fun k => sum_over (fun j => h j * (e j k * Bm k s t)) (zrange 0 n)) (zrange 0 n)).
    - apply sum_over_ext. intros k Hk. apply zrange_in in Hk. rewrite <- sum_over_mul_r. apply sum_over_ext. intros j Hj. apply zrange_in in Hj. rewrite (esym k j) by assumption. ring.
    - rewrite sum_over_swap. apply sum_over_ext. intros j _. apply sum_over_mul_l.
  Qed.
  Variable c2 : K.
  Hypothesis gram_ok : forall i j, (0 <= i < n)%Z -> (0 <= j < n)%Z -> frobenius M (Bm i) (Bm j) = if (i =? j)%Z then c2 else 0.
  Hypothesis proj_ok : forall i j, (0 <= i < n)%Z -> (0 <= j < n)%Z -> frobenius M (Bm j) (comm_elem mode HA (Bop i)) = e i j * c2.
  Lemma sum_at (f : Z -> K) i : (0 <= i < n)%Z -> sum_over (fun j => if (i =? j)%Z then f j else 0) (zrange 0 n) = f i.
  Proof.
    intros Hi. rewrite (sum_over_ext K _ (fun j => if (j =? i)%Z then f j else 0)) by (intros j _; rewrite Z.eqb_sym; reflexivity).
    apply (sum_pick Z.eqb Z.eqb_eq f i (zrange 0 n)); [apply zrange_nodup|apply zrange_in; exact Hi].
  Qed.
  Lemma miss_orthogonal i j : (0 <= i < n)%Z -> (0 <= j < n)%Z -> frobenius M (Bm i) (miss j) = 0.
  Proof.
    intros Hi Hj. unfold miss. rewrite frob_sub. rewrite (proj_ok j i Hj Hi). unfold Am. rewrite (frob_sum M (Bm i) (fun k s t => e j k * Bm k s t)).
    rewrite (sum_over_ext K _ (fun k => if (i =? k)%Z then e j k * c2 else 0)).
    - rewrite sum_at by exact Hi. ring.
    - intros k Hk. apply zrange_in in Hk. rewrite frob_scale, (gram_ok i k Hi Hk). destruct (i =? k)%Z; ring.
  Qed.
  Lemma missed_orthogonal g h : frobenius M (Am g) (missed h) = 0.
  Proof.
    rewrite frob_left. apply sum_over_zero. intros i Hi. apply zrange_in in Hi. unfold missed. rewrite (frob_sum M (Bm i) (fun j s t => h j * miss j s t)).
    rewrite sum_over_zero; [ring|]. intros j Hj. apply zrange_in in Hj. rewrite frob_scale, miss_orthogonal by assumption. ring.
  Qed.
  Lemma norm_Am g : frobenius M (Am g) (Am g) = c2 * sum_over (fun j => kconj (g j) * g j) (zrange 0 n).
  Proof.
    rewrite frob_left. rewrite <- sum_over_mul_l. apply sum_over_ext. intros i Hi. apply zrange_in in Hi. unfold Am. rewrite (frob_sum M (Bm i) (fun j s t => g j * Bm j s t)).
    rewrite (sum_over_ext K _ (fun k => if (i =? k)%Z then g k * c2 else 0)).
    - rewrite sum_at by exact Hi. ring.
    - intros k Hk. apply zrange_in in Hk. rewrite frob_scale, (gram_ok i k Hi Hk). destruct (i =? k)%Z; ring.
  Qed.
End Dropped.

(** ** squared lengths *)
Definition hs2 (M : nat) (X : BinNums.N -> BinNums.N -> CR) : R := SR (fun s => SR (fun t => fst (X s t) ^ 2 + snd (X s t) ^ 2) (fock M)) (fock M).
Lemma hs_eq M X : hilbert_schmidt M X = sqrt (hs2 M X).
Proof. unfold hilbert_schmidt, hs2. rewrite sum_SR. f_equal. apply SR_ext. intros s _. apply sum_SR. Qed.
Lemma hs2_ext M X Y : (forall s t, In s (fock M) -> In t (fock M) -> X s t = Y s t) -> hs2 M X = hs2 M Y.
Proof. intros H. unfold hs2. apply SR_ext. intros s Hs. apply SR_ext. intros t Ht. rewrite (H s t Hs Ht). reflexivity. Qed.
Lemma hs2_le M c X Y : (forall s t, In s (fock M) -> In t (fock M) -> fst (X s t) ^ 2 + snd (X s t) ^ 2 <= c * (fst (Y s t) ^ 2 + snd (Y s t) ^ 2)) -> hs2 M X <= c * hs2 M Y.
Proof.
  intros H. unfold hs2. rewrite <- SR_mul. apply SR_le. intros s Hs. rewrite <- SR_mul. apply SR_le. intros t Ht. apply H; assumption.
Qed.
Lemma hs2_nonneg M X : 0 <= hs2 M X.
Proof. unfold hs2. apply SR_nonneg. intros s _. apply SR_nonneg. intros t _. nra. Qed.
Lemma fst_frob M X Y : fst (frobenius (K := CR) M X Y) = SR (fun s => SR (fun t => fst (X s t) * fst (Y s t) + snd (X s t) * snd (Y s t)) (fock M)) (fock M).
Proof.
  unfold frobenius. rewrite fst_sum. apply SR_ext. intros s _. rewrite fst_sum. apply SR_ext. intros t _. destruct (X s t) as [a b], (Y s t) as [c d]. cbn. ring.
Qed.
Lemma hs2_frob M X : hs2 M X = fst (frobenius (K := CR) M X X).
Proof. rewrite fst_frob. unfold hs2. apply SR_ext. intros s _. apply SR_ext. intros t _. ring. Qed.
Lemma hs2_closest M X Y : frobenius (K := CR) M Y X = r0 -> hs2 M X <= hs2 M (fun s t => rsub (X s t) (Y s t)).
Proof.
  intros H. pose proof (fst_frob M Y X) as F. rewrite H in F. assert (F0 : 0 = SR (fun s => SR (fun t => fst (Y s t) * fst (X s t) + snd (Y s t) * snd (X s t)) (fock M)) (fock M)) by exact F.
  assert (E : hs2 M (fun s t => rsub (X s t) (Y s t)) = hs2 M X + hs2 M Y + -2 * SR (fun s => SR (fun t => fst (Y s t) * fst (X s t) + snd (Y s t) * snd (X s t)) (fock M)) (fock M)).
  { unfold hs2. rewrite <- SR_mul, <- !SR_add. apply SR_ext. intros s _. rewrite <- SR_mul, <- !SR_add. apply SR_ext. intros t _. destruct (X s t) as [a b], (Y s t) as [c d]. cbn. ring. }
  rewrite E, <- F0. pose proof (hs2_nonneg M Y). lra.
Qed.
Section Split.
  Context {K : StarRing}.
  Local Open Scope ring_scope_.
  Add Ring KringTrE : (rth K).
  Variables (mode : hub -> nat) (M : nat) (basis : list (monomial hub)) (n : Z).
  Variables (HA HB : list (term hub K)) (e e0 : Z -> Z -> K) (u : K).
  Lemma comm_add j s t : comm_elem mode (HA ++ HB) (Bop (K := K) basis j) s t = comm_elem mode HA (Bop basis j) s t + comm_elem mode HB (Bop basis j) s t.
  Proof. rewrite !comm_elem_cw. rewrite <- sum_over_add. apply sum_over_ext. intros b _. rewrite sum_over_app. ring. Qed.
  Lemma missed_split h s t (w : K) :
    (forall j, (0 <= j < n)%Z -> comm_elem mode HA (Bop basis j) s t = Am mode basis n (e0 j) s t) ->
    (forall j, (0 <= j < n)%Z -> comm_elem mode HB (Bop basis j) s t = w * Bm mode basis j s t) ->
    missed mode basis n (HA ++ HB) e h s t - Am mode basis n (fun k => sum_over (fun j => h j * (e j k - e0 j k)) (zrange 0 n) - u * h k) s t =
    - ((w - u) * Am mode basis n h s t).
  Proof.
    intros H0 H1. unfold missed, miss.
    rewrite (sum_over_ext K _ (fun j => h j * (Am mode basis n (e j) s t - Am mode basis n (e0 j) s t) - w * (h j * Bm mode basis j s t))).
    2:{ intros j Hj. apply zrange_in in Hj. rewrite comm_add, (H0 j Hj), (H1 j Hj). ring. }
    rewrite sum_over_sub, sum_over_mul_l. fold (Am mode basis n h s t).
    assert (E : Am mode basis n (fun k => sum_over (fun j => h j * (e j k - e0 j k)) (zrange 0 n) - u * h k) s t =
      sum_over (fun j => h j * (Am mode basis n (e j) s t - Am mode basis n (e0 j) s t)) (zrange 0 n) - u * Am mode basis n h s t).
    { unfold Am at 1. rewrite (sum_over_ext K _ (fun k => sum_over (fun j => h j * (e j k - e0 j k) * Bm mode basis k s t) (zrange 0 n) - u * (h k * Bm mode basis k s t))).
      2:{ intros k _. rewrite sum_over_mul_r. ring. }
      rewrite sum_over_sub, sum_over_mul_l. fold (Am mode basis n h s t). f_equal. rewrite sum_over_swap. apply sum_over_ext. intros j _.
      unfold Am. rewrite <- sum_over_sub, <- sum_over_mul_l. apply sum_over_ext. intros k _. ring. }
    rewrite E. ring.
  Qed.
End Split.

(** ** the shipped programs *)
Section Shipped.
  Context (sort : list (triplet CR) -> list (triplet CR)) (J U : R) (lat : lattice) (N : Z) (mode : hub -> nat) (M : nat).
  Hypothesis Hs : sorts_by_column sort.
  Hypothesis Hl : shipped3 lat N.
  Hypothesis Hf : fits3 lat N.
  Hypothesis Hm : numbers_orbitals mode N.
  Hypothesis Hb : orbitals_below mode N M.
  Let HG := shipped3_graph lat N Hl.
  Let HS := fits3_S3 lat N HG Hf.
  Let n := (N + N * N * N)%Z.
  Context (m m0 : bmat CR).
  Hypothesis Em : init_matrix sort (real J : CR) (real U) (real (1/2)) lat = Ok m.
  Hypothesis Em0 : init_matrix sort (real J : CR) (real 0) (real (1/2)) lat = Ok m0.
  Let H := H_kin lat (real J : CR) ++ H_int lat (real U).
  Let B := basis3 lat.
  Lemma size_basis : len B = n.
  Proof. unfold B. rewrite (basis3_len lat N (g_reg _ _ HG)). pose proof (HNpos lat N HG). unfold n. nia. Qed.
  Definition level (r : Z) : Z := if (r <? N)%Z then 0 else if ((site_a N r =? site_b N r) && (site_b N r =? site_c N r))%Z%bool then 1 else 2.
  Lemma level_1 i : site N i -> level i = 0%Z.
  Proof. intros Hi. unfold level. destruct (Z.ltb_spec i N); [reflexivity|unfold site in Hi; lia]. Qed.
  Lemma level_3 a b c : site N a -> site N b -> site N c -> level (get_3op_index N a b c) = if ((a =? b) && (b =? c))%Z%bool then 1%Z else 2%Z.
  Proof.
    intros Ha Hb' Hc. rewrite (get_3op_index_eq lat N (g_reg _ _ HG) HS) by assumption. unfold level. destruct (sites_of N a b c Ha Hb' Hc) as (-> & -> & ->). unfold site in *.
    destruct (Z.ltb_spec (N + N * N * a + N * b + c) N); [nia|reflexivity].
  Qed.
  Lemma Bop_1 i : site N i -> Bop (K := CR) B i = B1 i.
  Proof. intros Hi. unfold Bop. rewrite (nth_error_nth _ _ _ (basis3_nth1 lat N (g_reg _ _ HG) i Hi)). reflexivity. Qed.
  Lemma Bop_3 a b c : site N a -> site N b -> site N c -> Bop (K := CR) B (get_3op_index N a b c) = B3 a b c.
  Proof. intros Ha Hb' Hc. unfold Bop. rewrite (nth_error_nth _ _ _ (basis3_get lat N (g_reg _ _ HG) HS a b c Ha Hb' Hc)). reflexivity. Qed.
  Lemma Bop_some j : (0 <= j < n)%Z -> exists b, nth_error B (Z.to_nat j) = Some b /\ Bop (K := CR) B j = basis_op b.
  Proof.
    intros Hj. pose proof size_basis. exists (nth (Z.to_nat j) B []). split; [apply nth_error_nth'; lia|reflexivity].
  Qed.
  Lemma on_Bop j : (0 <= j < n)%Z -> on_modes mode M (Bop (K := CR) B j).
  Proof.
    intros Hj. destruct (cases lat N Hl Hf j Hj) as [Qj|(a & b & c & Ha & Hb' & Hc & ->)].
    - rewrite Bop_1 by assumption. unfold on_modes, B1, below, ladders. repeat constructor; cbn; apply Hb; assumption.
    - rewrite Bop_3 by assumption. unfold on_modes, B3, below, ladders. repeat constructor; cbn; apply Hb; assumption.
  Qed.
  Lemma on_H : on_modes mode M H.
  Proof. apply on_app; [apply (on_kin mode M lat N Hl Hb)|apply (on_int mode M lat N Hl Hb)]. Qed.
  Lemma e_sym i j : (0 <= i < n)%Z -> (0 <= j < n)%Z -> entry m i j = entry m j i.
  Proof.
    intros Hi Hj. destruct (C34_symmetric CR sort (real J) (real U) (real (1/2)) lat N Hs Hl Hf) as (m' & Em' & Q). rewrite Em in Em'. injection Em' as <-. apply Q; assumption.
  Qed.
  Definition c2 : CR := rmul (real (1/2)) (two_pow M).
  Lemma gram_shipped i j : (0 <= i < n)%Z -> (0 <= j < n)%Z -> frobenius M (Bm mode B i) (Bm mode B j) = if (i =? j)%Z then c2 else r0.
  Proof.
    intros Hi Hj. destruct (Bop_some i Hi) as (a & Ea & Qa), (Bop_some j Hj) as (b & Eb & Qb).
    change (Bm (K := CR) mode B i) with (terms_elem (K := CR) mode (Bop B i)). change (Bm (K := CR) mode B j) with (terms_elem (K := CR) mode (Bop B j)). rewrite Qa, Qb. rewrite (C31_orthogonal CR (real (1/2)) lat N mode M chalf_ok Hl HS Hm Hb _ _ a b Ea Eb). unfold c2.
    destruct (Nat.eqb_spec (Z.to_nat i) (Z.to_nat j)), (Z.eqb_spec i j); try reflexivity; lia.
  Qed.
  Lemma proj_shipped i j : (0 <= i < n)%Z -> (0 <= j < n)%Z -> frobenius M (Bm mode B j) (comm_elem mode H (Bop B i)) = rmul (entry m i j) c2.
  Proof.
    intros Hi Hj. destruct (Bop_some i Hi) as (a & Ea & Qa), (Bop_some j Hj) as (b & Eb & Qb).
    destruct (C31_projection CR sort (real J) (real U) (real (1/2)) lat N mode M chalf_ok Hs Hl Hf Hm Hb) as (m' & Em' & Q). rewrite Em in Em'. injection Em' as <-.
    pose proof (Q i j a b ltac:(lia) ltac:(lia) Ea Eb) as P. pose proof (gram_shipped j j Hj Hj) as G. rewrite Z.eqb_refl in G.
    change (Bm (K := CR) mode B j) with (terms_elem (K := CR) mode (Bop B j)) in *. rewrite Qb in *. rewrite G in P. rewrite Qa. exact P.
  Qed.
  Lemma wf_m : well_formed m n.
  Proof. destruct (C32_full CR sort (real J) (real U) (real (1/2)) lat N Hs Hl Hf) as (m' & Em' & Q). rewrite Em in Em'. injection Em' as <-. exact Q. Qed.
  Lemma wf_m0 : well_formed m0 n.
  Proof. destruct (C32_full CR sort (real J) (real 0) (real (1/2)) lat N Hs Hl Hf) as (m' & Em' & Q). rewrite Em0 in Em'. injection Em' as <-. exact Q. Qed.
  Lemma kin_closed j s t : (0 <= j < n)%Z -> comm_elem mode (H_kin lat (real J : CR)) (Bop B j) s t = Am mode B n (entry m0 j) s t.
  Proof.
    intros Hj. destruct (Bop_some j Hj) as (b & Eb & Qb).
    destruct (C30_three_operator CR sort (real J) (real (1/2)) lat N mode Hs Hl Hf Hm) as (m' & Em' & Q).
    change (init_matrix sort (real J : CR) r0 (real (1/2)) lat) with (init_matrix sort (real J : CR) (real 0) (real (1/2)) lat) in Em'. rewrite Em0 in Em'. injection Em' as <-.
    destruct (Q j s t Hj) as (b' & Eb' & _ & P). pose proof (eq_trans (eq_sym Eb) Eb') as Ebb. injection Ebb as <-. rewrite Qb, P. apply (combination_entry mode B n size_basis m0 j s t wf_m0 Hj).
  Qed.
  Lemma exact_miss j s t : (0 <= j < n)%Z -> (level j < 2)%Z -> miss mode B n H (entry m) j s t = r0.
  Proof.
    intros Hj Lj. destruct (C31_exact_rows CR sort (real J) (real U) (real (1/2)) lat N mode chalf_ok Hs Hl Hf Hm) as (m' & Em' & Q). rewrite Em in Em'. injection Em' as <-.
    assert (Z0 : forall a b : CR, a = b -> rsub a b = r0) by (intros a b ->; destruct b as [x y]; cbn; apply (f_equal2 (@pair R R)); cbn; ring).
    unfold miss. apply Z0. symmetry. rewrite <- (combination_entry mode B n size_basis m j s t wf_m Hj).
    destruct (cases lat N Hl Hf j Hj) as [Qj|(a & b & c & Ha & Hb' & Hc & ->)].
    - rewrite Bop_1 by assumption. apply (Q j s t Qj).
    - rewrite level_3 in Lj by assumption. destruct (Z.eqb_spec a b) as [e1|]; [|cbn in Lj; lia]. destruct (Z.eqb_spec b c) as [e2|]; [|cbn in Lj; lia]. subst b c.
      rewrite Bop_3 by assumption. rewrite (get_3op_index_eq lat N (g_reg _ _ HG) HS) by assumption. apply (Q a s t Ha).
  Qed.
  Lemma elem_far ops s t : many true (ladders mode ops) <= 2 -> many false (ladders mode ops) <= 1 ->
    (doublons mode N t - doublons mode N s < -1 \/ 2 < doublons mode N t - doublons mode N s) -> elem (K := CR) mode ops s t = r0.
  Proof.
    intros H1 H2 D. unfold elem, amp. destruct (act (ladders mode ops) s) as [[sg t']|] eqn:E; [|reflexivity].
    destruct (N.eqb_spec t t') as [<-|]; [|reflexivity]. pose proof (doublons_act mode N Hm _ s sg t E). lra.
  Qed.
  Lemma Bm_far j s t : (0 <= j < n)%Z -> (doublons mode N t - doublons mode N s < -1 \/ 2 < doublons mode N t - doublons mode N s) -> Bm mode B j s t = (r0 : CR).
  Proof.
    intros Hj D. unfold Bm. assert (Z0 : forall a : CR, rmul a r0 = r0) by (intros [x y]; cbn; apply (f_equal2 (@pair R R)); cbn; ring).
    destruct (cases lat N Hl Hf j Hj) as [Qj|(a & b & c & Ha & Hb' & Hc & ->)].
    - rewrite Bop_1 by assumption. unfold terms_elem, B1. apply sum_over_zero. intros x [<-|[]]. unfold term_elem. cbn [operators].
      rewrite elem_far; [apply Z0| | |exact D]; unfold ladders; cbn; lra.
    - rewrite Bop_3 by assumption. unfold terms_elem, B3. apply sum_over_zero. intros x [<-|[<-|[]]]; unfold term_elem; cbn [operators];
      (rewrite elem_far; [apply Z0| | |exact D]; unfold ladders; cbn; lra).
  Qed.
  Lemma Am_far h s t : (doublons mode N t - doublons mode N s < -1 \/ 2 < doublons mode N t - doublons mode N s) -> Am mode B n h s t = (r0 : CR).
  Proof.
    intros D. unfold Am. apply sum_over_zero. intros j Hj. apply zrange_in in Hj. rewrite Bm_far by assumption. destruct (h j) as [x y]. cbn. apply (f_equal2 (@pair R R)); cbn; ring.
  Qed.
  Lemma int_comm j s t : (0 <= j < n)%Z -> In s (fock M) -> In t (fock M) ->
    comm_elem mode (H_int lat (real U)) (Bop B j) s t = rmul (real (U * (doublons mode N t - doublons mode N s))) (Bm mode B j s t).
  Proof.
    intros Hj Ss St. rewrite (comm_bracket mode M (H_int lat (real U)) (Bop B j) s t (on_int mode M lat N Hl Hb (real U)) (on_Bop j Hj) Ss).
    rewrite (bracket_int mode M lat N Hl U _ s t Ss St). reflexivity.
  Qed.
  Definition c2r : R := 1 / 2 * 2 ^ M.
  Lemma c2_real : c2 = real c2r.
  Proof.
    unfold c2, c2r. assert (T : two_pow M = (real (2 ^ M) : CR)).
    { clear. induction M as [|k IH]; [reflexivity|]. cbn [two_pow pow]. rewrite IH. unfold real. cbn. apply (f_equal2 (@pair R R)); cbn; ring. }
    rewrite T. unfold real. cbn. apply (f_equal2 (@pair R R)); cbn; ring.
  Qed.
  Lemma c2r_pos : 0 < c2r.
  Proof. unfold c2r. pose proof (pow_lt 2 M ltac:(lra)). lra. Qed.
  Lemma hs2_Am g : hs2 M (Am mode B n g) = c2r * n2 (idx n) (vecf g).
  Proof.
    rewrite hs2_frob, (norm_Am mode M B n c2 gram_shipped), c2_real.
    assert (E : fst (sum_over (K := CR) (fun j => rmul (kconj (g j)) (g j)) (zrange 0 n)) = n2 (idx n) (vecf g) /\ snd (sum_over (K := CR) (fun j => rmul (kconj (g j)) (g j)) (zrange 0 n)) = 0).
    { rewrite fst_sum, snd_sum. split.
      - unfold n2, dot. rewrite SR_idx. apply SR_ext. intros j _. unfold vecf. cbn [fst snd part]. destruct (g j) as [x y]. cbn. ring.
      - rewrite (SR_ext _ (fun _ => 0)); [apply SR_zero|]. intros j _. destruct (g j) as [x y]. cbn. ring. }
    revert E. generalize (sum_over (K := CR) (fun j => rmul (kconj (g j)) (g j)) (zrange 0 n)). intros [x y] [E1 E2]. cbn in E1, E2. rewrite <- E1. unfold real. cbn. rewrite E2. ring.
  Qed.
  Definition far_part (h : Z -> CR) (j : Z) : CR := if (2 <=? level j)%Z then h j else r0.
  Lemma missed_far h s t : missed mode B n H (entry m) h s t = missed mode B n H (entry m) (far_part h) s t.
  Proof.
    unfold missed. apply sum_over_ext. intros j Hj. apply zrange_in in Hj. unfold far_part. destruct (Z.leb_spec 2 (level j)) as [L|L]; [reflexivity|].
    rewrite (exact_miss j s t Hj L). destruct (h j) as [x y]. cbn. apply (f_equal2 (@pair R R)); cbn; ring.
  Qed.
  Lemma missed_bound h : hs2 M (missed mode B n H (entry m) h) <= (3 / 2 * U) ^ 2 * (c2r * n2 (idx n) (out level 2 (vecf h))).
  Proof.
    set (h2 := far_part h). set (u := real (U / 2)).
    rewrite (hs2_ext M _ (missed mode B n H (entry m) h2)) by (intros s t _ _; apply missed_far).
    set (g := fun k => rsub (sum_over (K := CR) (fun j => rmul (h2 j) (rsub (entry m j k) (entry m0 j k))) (zrange 0 n)) (rmul u (h2 k))).
    eapply Rle_trans; [apply (hs2_closest M _ (Am mode B n g)); apply (missed_orthogonal mode M B n H (entry m) c2 gram_shipped proj_shipped)|].
    assert (E : hs2 M (Am mode B n h2) = c2r * n2 (idx n) (out level 2 (vecf h))).
    { rewrite hs2_Am. f_equal. unfold n2, dot. apply SR_ext. intros [j c] _. unfold vecf, out, h2, far_part. cbn [fst snd]. destruct (2 <=? level j)%Z; [reflexivity|]. destruct c; reflexivity. }
    rewrite <- E. apply hs2_le. intros s t Ss St.
    set (D := doublons mode N t - doublons mode N s).
    pose proof (missed_split mode B n (H_kin lat (real J)) (H_int lat (real U)) (entry m) (entry m0) u h2 s t (real (U * D)) (fun j Hj => kin_closed j s t Hj) (fun j Hj => int_comm j s t Hj Ss St)) as Q.
    fold H in Q. fold g in Q.
    match type of Q with ?x = _ => match goal with |- context[fst ?y ^ 2] => change y with x end end. rewrite Q.
    destruct (Rlt_le_dec D (-1)) as [F|F]; [rewrite (Am_far h2 s t) by (left; exact F); unfold real, u; cbn; lra|].
    destruct (Rlt_le_dec 2 D) as [F'|F']; [rewrite (Am_far h2 s t) by (right; exact F'); unfold real, u; cbn; lra|].
    generalize (Am mode B n h2 s t). intros [x y]. unfold real, u. cbn.
    assert (W : (U * D - U / 2) ^ 2 <= (3 / 2 * U) ^ 2).
    { assert (Q2 : (3 / 2 * U) ^ 2 - (U * D - U / 2) ^ 2 = U ^ 2 * ((2 - D) * (D + 1))) by field.
      assert (0 <= U ^ 2 * ((2 - D) * (D + 1))) by (apply Rmult_le_pos; [apply pow2_ge_0|apply Rmult_le_pos; lra]). lra. }
    assert (P2 : 0 <= x ^ 2 + y ^ 2) by nra.
    apply Rle_trans with ((U * D - U / 2) ^ 2 * (x ^ 2 + y ^ 2)); [apply Req_le; ring|]. apply (Rle_trans _ ((3 / 2 * U) ^ 2 * (x ^ 2 + y ^ 2))); [apply Rmult_le_compat_r; assumption|apply Req_le; ring].
  Qed.
End Shipped.

(** ** how fast the deeper levels fill up *)
Section Step.
  Variables (n : Z) (E E0 : Z -> Z -> CR) (lv : Z -> Z) (b : R) (d : Z).
  Hypothesis anti : anti_hermitian CR n E.
  Hypothesis op0 : op_bound n E0 b.
  Hypothesis bpos : 0 <= b.
  Hypothesis local : forall i j, (0 <= i < n)%Z -> (0 <= j < n)%Z -> (d <= lv i)%Z -> (lv j < d - 1)%Z -> E i j = real 0.
  Hypothesis same : forall i j, (0 <= i < n)%Z -> (0 <= j < n)%Z -> (d <= lv i)%Z -> lv j = (d - 1)%Z -> E i j = E0 i j.
  Let I := idx n.
  Variable y : R -> Z -> CR.
  Hypothesis Hy : exact_solution n E y.
  Hypothesis Y0 : forall i, (0 <= i < n)%Z -> (d <= lv i)%Z -> y 0 i = real 0.
  Lemma split_step x p : In p I -> (if (d <=? lv (fst p))%Z then ap I (SM E) x p else 0) =
    ap I (So E lv d) (out lv d x) p + (if (d <=? lv (fst p))%Z then ap I (SM E0) (at_level lv (d - 1) x) p else 0).
  Proof.
    intros Hp. unfold ap. destruct (Z.leb_spec d (lv (fst p))) as [L|L].
    - rewrite <- SR_add. apply SR_ext. intros q Hq. apply idx_in in Hp, Hq. unfold So, out, at_level. destruct (Z.leb_spec d (lv (fst p))); [|lia]. cbn [andb].
      destruct (Z.leb_spec d (lv (fst q))) as [G|G]; destruct (Z.eqb_spec (lv (fst q)) (d - 1)) as [e|e]; try lia; try ring.
      + unfold SM. rewrite (same (fst p) (fst q) Hp Hq L e). ring.
      + unfold SM. rewrite (local (fst p) (fst q) Hp Hq L) by lia. destruct (snd p), (snd q); cbn; ring.
    - rewrite (SR_ext _ (fun _ => 0)); [rewrite SR_zero; ring|]. intros q _. unfold So. destruct (Z.leb_spec d (lv (fst p))); [lia|]. cbn [andb]. ring.
  Qed.
  Lemma tail_step c k : (forall s, 0 <= s -> nrm I (out lv (d - 1) (vecf (y s))) <= c * s ^ k) ->
    forall t, 0 <= t -> nrm I (out lv d (vecf (y t))) <= b * c / INR (S k) * t ^ S k.
  Proof.
    intros IH t Ht.
    assert (Lift : solution I (SM E) (fun t => vecf (y t))).
    { intros s [i e] Hi. unfold I. rewrite ap_SM. apply idx_in in Hi. cbn [fst snd] in *. destruct (Hy s i Hi) as [D1 D2]. unfold vecf. cbn [fst snd]. destruct e; cbn [part]; [exact D1|exact D2]. }
    set (r := fun s p => if (d <=? lv (fst p))%Z then ap I (SM E0) (at_level lv (d - 1) (vecf (y s))) p else 0).
    apply (duhamel I (So E lv d) (So_anti n E lv anti d) (fun s => out lv d (vecf (y s))) r (fun s => b * c / INR (S k) * s ^ S k) (fun s => b * (c * s ^ k)) t Ht).
    + intros s p Hp. unfold r. rewrite <- (split_step (vecf (y s)) p Hp). unfold out. destruct (d <=? lv (fst p))%Z; [apply Lift, Hp|apply derivable_pt_lim_const].
    + intros p Hp. apply idx_in in Hp. unfold out. destruct (Z.leb_spec d (lv (fst p))); [|reflexivity]. unfold vecf. rewrite (Y0 (fst p) Hp) by assumption. destruct (snd p); reflexivity.
    + rewrite pow_ne_zero by discriminate. ring.
    + intros s. eapply deriv_eq; [exact (derivable_pt_lim_scal _ (b * c / INR (S k)) s _ (derivable_pt_lim_pow s (S k)))|intros x; reflexivity|].
      cbn [pred]. field. apply not_0_INR. discriminate.
    + intros s [Hs _]. apply Rle_trans with (nrm I (ap I (SM E0) (at_level lv (d - 1) (vecf (y s))))).
      * apply nrm_le_part. intros p _. unfold r. destruct (d <=? lv (fst p))%Z; [left|right]; reflexivity.
      * eapply Rle_trans; [apply (op_nrm n E0 b op0 bpos _)|]. apply Rmult_le_compat_l; [exact bpos|]. eapply Rle_trans; [|apply (IH s Hs)].
        apply nrm_le_part. intros p _. unfold at_level, out. destruct (Z.eqb_spec (lv (fst p)) (d - 1)) as [e|e]; [left|right; reflexivity]. destruct (Z.leb_spec (d - 1) (lv (fst p))); [reflexivity|lia].
  Qed.
End Step.

(** ** the Hamiltonian is hermitian *)
Section Hermitian.
  Context {K : StarRing}.
  Local Open Scope ring_scope_.
  Add Ring KringTrI : (rth K).
  Variables (mode : hub -> nat) (lat : lattice) (N : Z).
  Hypothesis HG : graph lat N.
  Lemma amp_real ops s t : kconj (amp (K := K) ops s t) = amp ops s t.
  Proof.
    unfold amp. destruct (act ops s) as [[sg t']|]; [|apply conj_0]. destruct (N.eqb t t'); [|apply conj_0]. destruct sg; cbn [sgn]; [rewrite conj_opp|]; rewrite conj_1; reflexivity.
  Qed.
  Lemma neighbour_sum (f : Z -> K) i : site N i -> sum_over f (lat_neighbors lat i) = sum_over (fun j => adjc lat i j * f j) (zrange 0 N).
  Proof.
    intros Hi. unfold adjc. rewrite (sum_over_ext K (fun j => sum_over (fun x => delta x j) (lat_neighbors lat i) * f j) (fun j => sum_over (fun x => delta x j * f j) (lat_neighbors lat i))) by (intros j _; symmetry; apply sum_over_mul_r).
    rewrite sum_over_swap. apply sum_over_ext. intros x Hx. pose proof (g_range _ _ HG i x Hi Hx) as Sx.
    rewrite (sum_over_ext K _ (fun j => if (j =? x)%Z then f j else 0)).
    - symmetry. apply (sum_pick Z.eqb Z.eqb_eq f x (zrange 0 N)); [apply zrange_nodup|apply zrange_in; exact Sx].
    - intros j _. unfold delta. rewrite Z.eqb_sym. destruct (j =? x)%Z; ring.
  Qed.
  Lemma kin_elem (J : K) s t : terms_elem mode (H_kin lat J) s t =
    sum_over (fun i => sum_over (fun j => adjc lat i j * (- J * (amp [(true, mode (i, true)); (false, mode (j, true))] s t + amp [(true, mode (i, false)); (false, mode (j, false))] s t))) (zrange 0 N)) (zrange 0 N).
  Proof.
    unfold terms_elem, H_kin. rewrite sum_over_flat_map. destruct (g_reg _ _ HG) as (E & _ & _). rewrite E, zrange_Zseq. apply sum_over_ext. intros i Hi. apply Zseq_in in Hi.
    rewrite sum_over_flat_map. rewrite <- zrange_Zseq, <- (neighbour_sum _ i Hi). apply sum_over_ext. intros j _. cbn [map]. rewrite !sum_over_cons, sum_over_nil. unfold term_elem, elem. cbn [prefactor operators].
    change (ladders mode [hop true i true; hop false j true]) with [(true, mode (i, true)); (false, mode (j, true))]. change (ladders mode [hop true i false; hop false j false]) with [(true, mode (i, false)); (false, mode (j, false))]. ring.
  Qed.
  Lemma kin_hermitian (J : K) s t : kconj J = J -> kconj (terms_elem mode (H_kin lat J) s t) = terms_elem mode (H_kin lat J) t s.
  Proof.
    intros HJ. rewrite !kin_elem, conj_sum_over. rewrite sum_over_swap.
    rewrite (sum_over_ext K _ (fun i => sum_over (fun j => adjc lat i j * (- J * (amp [(true, mode (i, true)); (false, mode (j, true))] s t + amp [(true, mode (i, false)); (false, mode (j, false))] s t))) (zrange 0 N))).
    2:{ intros i _. rewrite conj_sum_over. apply sum_over_ext. intros j _. rewrite !conj_mul, conj_opp, HJ, conj_add, !amp_real. unfold adjc. rewrite conj_sum_over.
        rewrite (sum_over_ext K (fun x => kconj (delta x j)) (fun x => delta x j)) by (intros x _; apply conj_delta). reflexivity. }
    apply sum_over_ext. intros i Hi. apply sum_over_ext. intros j Hj. apply zrange_in in Hi, Hj. rewrite (adjc_sym lat N HG i j Hi Hj).
    rewrite <- (amp_adj [(true, mode (i, true)); (false, mode (j, true))] s t), <- (amp_adj [(true, mode (i, false)); (false, mode (j, false))] s t). reflexivity.
  Qed.
End Hermitian.

Lemma plus_0 {K : StarRing} (a : K) : radd a r0 = a.
Proof. pose proof (rth K) as T. rewrite (Radd_comm T). apply (Radd_0_l T). Qed.
(** ** matrices as vectors: entry (s, t) at position s * 2^M + t *)
Section Code.
  Variable M : nat.
  Definition dim : Z := Z.of_nat (2 ^ M).
  Definition code (s t : BinNums.N) : Z := (Z.of_N s * dim + Z.of_N t)%Z.
  Definition prow (p : Z) : BinNums.N := Z.to_N (p / dim).
  Definition pcol (p : Z) : BinNums.N := Z.to_N (p mod dim).
  Lemma dim_pos : (0 < dim)%Z.
  Proof. unfold dim. pose proof (Nat.pow_nonzero 2 M). lia. Qed.
  Lemma fock_in s : In s (fock M) <-> (Z.of_N s < dim)%Z.
  Proof.
    unfold fock. rewrite in_map_iff. unfold dim. split.
    - intros (k & <- & Hk). apply in_seq in Hk. lia.
    - intros L. exists (N.to_nat s). rewrite in_seq. lia.
  Qed.
  Lemma code_range s t : In s (fock M) -> In t (fock M) -> (0 <= code s t < dim * dim)%Z.
  Proof. rewrite !fock_in. unfold code. intros. pose proof dim_pos. nia. Qed.
  Lemma code_parts s t : In t (fock M) -> prow (code s t) = s /\ pcol (code s t) = t.
  Proof.
    rewrite fock_in. intros H. pose proof dim_pos. unfold prow, pcol, code. rewrite Z.div_add_l, Z.div_small by lia. rewrite (Z.add_comm (Z.of_N s * dim)), Z.mod_add, Z.mod_small by lia. lia.
  Qed.
  Lemma parts_code p : (0 <= p < dim * dim)%Z -> In (prow p) (fock M) /\ In (pcol p) (fock M) /\ code (prow p) (pcol p) = p.
  Proof.
    intros H. pose proof dim_pos as D. pose proof (Z.mod_pos_bound p dim D). pose proof (Z.div_pos p dim ltac:(lia) D). pose proof (Z.div_lt_upper_bound p dim dim D ltac:(lia)).
    rewrite !fock_in. unfold prow, pcol, code. rewrite !Z2N.id by lia. split; [lia|]. split; [lia|]. pose proof (Z.div_mod p dim ltac:(lia)). lia.
  Qed.
  Lemma sum_code {K : StarRing} (f : Z -> K) : sum_over f (zrange 0 (dim * dim)) = sum_over (fun s => sum_over (fun t => f (code s t)) (fock M)) (fock M).
  Proof.
    assert (G : forall k, sum_over f (zrange 0 (Z.of_nat k * dim)) = sum_over (fun s => sum_over (fun t => f (code s t)) (fock M)) (map N.of_nat (seq 0 k))).
    { induction k as [|k IH]; [rewrite zrange_nil by lia; reflexivity|]. rewrite seq_S, map_app, sum_over_app, <- IH. cbn [map]. rewrite sum_over_cons, sum_over_nil.
      pose proof dim_pos as D. replace (Z.of_nat (S k) * dim)%Z with (Z.of_nat k * dim + dim)%Z by lia. rewrite (zrange_app 0 (Z.of_nat k * dim)) by nia. rewrite sum_over_app. f_equal.
      rewrite zrange_shift by lia. rewrite sum_over_map. rewrite zrange_Zseq. unfold Zseq. rewrite sum_over_map. unfold fock. rewrite sum_over_map. assert (Dn : Z.to_nat dim = (2 ^ M)%nat) by (unfold dim; apply Nat2Z.id). rewrite Dn.
      etransitivity; [|symmetry; apply plus_0]. apply sum_over_ext. intros b _. f_equal. unfold code. lia. }
    unfold fock at 2. exact (G (2 ^ M)%nat).
  Qed.
End Code.
Section Super.
  Context {K : StarRing}.
  Local Open Scope ring_scope_.
  Add Ring KringTrJ : (rth K).
  Variables (M : nat) (ii : K) (H : BinNums.N -> BinNums.N -> K).
  (** dX/dt = ii [H, X] as a matrix acting on the vector of entries *)
  Definition super (p q : Z) : K :=
    ii * ((if N.eqb (prow M q) (prow M p) then H (pcol M q) (pcol M p) else 0) - (if N.eqb (pcol M q) (pcol M p) then H (prow M p) (prow M q) else 0)).
  Lemma super_bracket (X : BinNums.N -> BinNums.N -> K) s t : In s (fock M) -> In t (fock M) ->
    sum_over (fun q => super (code M s t) q * X (prow M q) (pcol M q)) (zrange 0 (dim M * dim M)) = ii * bracket M H X s t.
  Proof.
    intros Ss St. rewrite sum_code. unfold super. destruct (code_parts M s t St) as [-> ->].
    transitivity (ii * (sum_over (fun s' => if N.eqb s' s then sum_over (fun t' => X s' t' * H t' t) (fock M) else 0) (fock M)
      - sum_over (fun s' => sum_over (fun t' => if N.eqb t' t then H s s' * X s' t' else 0) (fock M)) (fock M))).
    - rewrite <- sum_over_sub, <- sum_over_mul_l. apply sum_over_ext. intros s' _.
      transitivity (ii * sum_over (fun t' => (if N.eqb s' s then X s' t' * H t' t else 0) - (if N.eqb t' t then H s s' * X s' t' else 0)) (fock M)).
      + rewrite <- sum_over_mul_l. apply sum_over_ext. intros t' Ht'. destruct (code_parts M s' t' Ht') as [-> ->]. destruct (N.eqb s' s), (N.eqb t' t); ring.
      + rewrite sum_over_sub. destruct (N.eqb s' s); [reflexivity|]. rewrite (sum_over_zero K (fun _ => 0)) by reflexivity. reflexivity.
    - rewrite (sum_pick N.eqb N.eqb_eq (fun s' => sum_over (fun t' => X s' t' * H t' t) (fock M)) s (fock M) (states_nodup M) Ss).
      rewrite (sum_over_ext K (fun s' => sum_over _ (fock M)) (fun s' => H s s' * X s' t)).
      2:{ intros s' _. apply (sum_pick N.eqb N.eqb_eq (fun t' => H s s' * X s' t') t (fock M) (states_nodup M) St). }
      unfold bracket. rewrite sum_over_sub. reflexivity.
  Qed.
  Hypothesis herm : forall s t, kconj (H s t) = H t s.
  Hypothesis Hii : kconj ii = - ii.
  Lemma super_anti : anti_hermitian K (dim M * dim M) super.
  Proof.
    intros p q _ _. unfold super. rewrite conj_mul, Hii, conj_sub. rewrite (N.eqb_sym (prow M p) (prow M q)), (N.eqb_sym (pcol M p) (pcol M q)).
    destruct (N.eqb (prow M q) (prow M p)), (N.eqb (pcol M q) (pcol M p)); rewrite ?conj_0, ?herm; ring.
  Qed.
End Super.

Lemma deriv_lin (B : Z -> CR) n (y : R -> Z -> CR) (dy : Z -> CR) s :
  (forall j, (0 <= j < n)%Z -> derivable_pt_lim (fun s => fst (y s j)) s (fst (dy j)) /\ derivable_pt_lim (fun s => snd (y s j)) s (snd (dy j))) ->
  derivable_pt_lim (fun s => fst (sum_over (K := CR) (fun j => rmul (y s j) (B j)) (zrange 0 n))) s (fst (sum_over (K := CR) (fun j => rmul (dy j) (B j)) (zrange 0 n))) /\
  derivable_pt_lim (fun s => snd (sum_over (K := CR) (fun j => rmul (y s j) (B j)) (zrange 0 n))) s (snd (sum_over (K := CR) (fun j => rmul (dy j) (B j)) (zrange 0 n))).
Proof.
  intros H. split.
  - eapply deriv_eq; [apply (deriv_SR (fun s j => fst (y s j) * fst (B j) + snd (y s j) * (- snd (B j))) (fun j => fst (dy j) * fst (B j) + snd (dy j) * (- snd (B j)))
      s (zrange 0 n))| |].
    + intros j Hj. apply zrange_in in Hj. destruct (H j Hj) as [D1 D2].
      apply (derivable_pt_lim_plus (fun s => fst (y s j) * fst (B j)) (fun s => snd (y s j) * (- snd (B j)))).
      * eapply deriv_eq; [exact (derivable_pt_lim_scal _ (fst (B j)) s _ D1)|intros x; unfold mult_real_fct; ring|ring].
      * eapply deriv_eq; [exact (derivable_pt_lim_scal _ (- snd (B j)) s _ D2)|intros x; unfold mult_real_fct; ring|ring].
    + intros x. rewrite fst_sum. apply SR_ext. intros j _. cbn. ring.
    + rewrite fst_sum. apply SR_ext. intros j _. cbn. ring.
  - eapply deriv_eq; [apply (deriv_SR (fun s j => fst (y s j) * snd (B j) + snd (y s j) * fst (B j)) (fun j => fst (dy j) * snd (B j) + snd (dy j) * fst (B j))
      s (zrange 0 n))| |].
    + intros j Hj. apply zrange_in in Hj. destruct (H j Hj) as [D1 D2].
      apply (derivable_pt_lim_plus (fun s => fst (y s j) * snd (B j)) (fun s => snd (y s j) * fst (B j))).
      * eapply deriv_eq; [exact (derivable_pt_lim_scal _ (snd (B j)) s _ D1)|intros x; unfold mult_real_fct; ring|ring].
      * eapply deriv_eq; [exact (derivable_pt_lim_scal _ (fst (B j)) s _ D2)|intros x; unfold mult_real_fct; ring|ring].
    + intros x. rewrite snd_sum. apply SR_ext. intros j _. cbn. ring.
    + rewrite snd_sum. apply SR_ext. intros j _. cbn. ring.
Qed.

(** ** levels 0, 1, 2 of the shipped matrix *)
Section Levels.
  Context (sort : list (triplet CR) -> list (triplet CR)) (J U : R) (lat : lattice) (N : Z).
  Hypothesis Hs : sorts_by_column sort.
  Hypothesis Hl : shipped3 lat N.
  Hypothesis Hf : fits3 lat N.
  Let HG := shipped3_graph lat N Hl.
  Let HS := fits3_S3 lat N HG Hf.
  Let n := (N + N * N * N)%Z.
  Context (m m0 mU : bmat CR).
  Hypothesis Em : init_matrix sort (real J : CR) (real U) (real (1/2)) lat = Ok m.
  Hypothesis Em0 : init_matrix sort (real J : CR) (real 0) (real (1/2)) lat = Ok m0.
  Hypothesis EmU : init_matrix sort (real 0 : CR) (real U) (real (1/2)) lat = Ok mU.
  Let E := entry (bm_scale imag_unit m).
  Let lv := level N.
  Lemma level_cases i : (0 <= i < n)%Z -> (site N i /\ lv i = 0%Z) \/
    exists a b c, site N a /\ site N b /\ site N c /\ i = get_3op_index N a b c /\ lv i = if ((a =? b) && (b =? c))%Z%bool then 1%Z else 2%Z.
  Proof.
    intros Hi. destruct (cases lat N Hl Hf i Hi) as [Qi|(a & b & c & Ha & Hb & Hc & ->)].
    - left. split; [exact Qi|]. apply level_1; assumption.
    - right. exists a, b, c. repeat (split; [assumption|]). split; [reflexivity|]. apply (level_3 lat N Hl Hf); assumption.
  Qed.
  Lemma level_nonneg i : (0 <= i < n)%Z -> (0 <= lv i)%Z.
  Proof. intros Hi. destruct (level_cases i Hi) as [[_ ->]|(a & b & c & _ & _ & _ & _ & ->)]; [lia|]. destruct (_ && _)%bool; lia. Qed.
  Lemma local_2 i j : (0 <= i < n)%Z -> (0 <= j < n)%Z -> (2 <= lv i)%Z -> (lv j < 1)%Z -> E i j = real 0.
  Proof.
    intros Hi Hj Li Lj. destruct (level_cases i Hi) as [[_ Q]|(a & b & c & Ha & Hb & Hc & -> & Q)]; [lia|]. rewrite Q in Li.
    destruct (level_cases j Hj) as [[Sj _]|(a' & b' & c' & _ & _ & _ & _ & Q')]; [|rewrite Q' in Lj; destruct (_ && _)%bool in Lj; lia].
    unfold E. rewrite (entry_31 sort J U lat N Hs Hl Hf m Em) by assumption. unfold delta.
    destruct (Z.eqb_spec a b), (Z.eqb_spec b c), (Z.eqb_spec j a), (Z.eqb_spec j b), (Z.eqb_spec j c); cbn [andb] in Li; try lia; unfold real, imag_unit; cbn; apply (f_equal2 (@pair R R)); cbn; ring.
  Qed.
  Lemma same_1 i j : (0 <= i < n)%Z -> (0 <= j < n)%Z -> (1 <= lv i)%Z -> lv j = 0%Z -> E i j = entry (bm_scale imag_unit mU) i j.
  Proof.
    intros Hi Hj Li Lj. destruct (level_cases i Hi) as [[_ Q]|(a & b & c & Ha & Hb & Hc & -> & Q)]; [lia|].
    destruct (level_cases j Hj) as [[Sj _]|(a' & b' & c' & _ & _ & _ & _ & Q')]; [|rewrite Q' in Lj; destruct (_ && _)%bool in Lj; lia].
    unfold E. rewrite (entry_31 sort J U lat N Hs Hl Hf m Em), (entry_31 sort 0 U lat N Hs Hl Hf mU EmU) by assumption. reflexivity.
  Qed.
  Lemma same_2 i j : (0 <= i < n)%Z -> (0 <= j < n)%Z -> (2 <= lv i)%Z -> lv j = 1%Z -> E i j = entry (bm_scale imag_unit m0) i j.
  Proof.
    intros Hi Hj Li Lj. destruct (level_cases i Hi) as [[_ Q]|(a & b & c & Ha & Hb & Hc & -> & Q)]; [lia|].
    destruct (level_cases j Hj) as [[_ Q']|(a' & b' & c' & Ha' & Hb' & Hc' & -> & Q')]; [lia|].
    assert (D : (a <> a' \/ b <> b' \/ c <> c')%Z).
    { rewrite Q in Li. rewrite Q' in Lj. destruct (Z.eqb_spec a b), (Z.eqb_spec b c), (Z.eqb_spec a' b'), (Z.eqb_spec b' c'); cbn [andb] in Li, Lj; lia. }
    unfold E. rewrite (entry_33 sort J U lat N Hs Hl Hf m Em), (entry_33 sort J 0 lat N Hs Hl Hf m0 Em0) by assumption. rewrite !(weight_33 _ _ _ lat N HG HS) by assumption.
    assert (Z0 : rmul (rmul (delta (K := CR) a a') (delta b b')) (delta c c') = real 0).
    { unfold delta. destruct (Z.eqb_spec a a'), (Z.eqb_spec b b'), (Z.eqb_spec c c'); try lia; unfold real; cbn; apply (f_equal2 (@pair R R)); cbn; ring. }
    rewrite Z0. generalize (adjc (K := CR) lat a a') (adjc (K := CR) lat b b') (adjc (K := CR) lat c c') (delta (K := CR) a a') (delta (K := CR) b b') (delta (K := CR) c c').
    intros [x1 x2] [x3 x4] [x5 x6] [y1 y2] [y3 y4] [y5 y6]; unfold real, imag_unit; cbn; apply (f_equal2 (@pair R R)); cbn; ring.
  Qed.
  (** the amplitude of level 2 grows like t^2, and only with both J and U *)
  Variable y : R -> Z -> CR.
  Hypothesis Hy : the_solution n E y.
  Lemma deep_amplitude t : 0 <= t -> nrm (idx n) (out lv 2 (vecf (y t))) <= 3 / 2 * neighbours lat * Rabs J * Rabs U * t ^ 2.
  Proof.
    destruct Hy as (Ht & Y0 & _). intros T. pose proof (HNpos lat N HG) as HN. assert (Hn : (0 < n)%Z) by (unfold n; nia).
    destruct (full_facts sort J U lat N Hs Hl Hf) as (m' & Em' & _ & An & _ & _). rewrite Em in Em'. injection Em' as <-.
    destruct (full_facts sort J 0 lat N Hs Hl Hf) as (m1 & Em1 & _ & An1 & Rb1 & Bp1). rewrite Em0 in Em1. injection Em1 as <-. rewrite Rabs_R0, Rplus_0_r in Rb1, Bp1.
    destruct (full_facts sort 0 U lat N Hs Hl Hf) as (m2 & Em2 & _ & An2 & Rb2 & Bp2). rewrite EmU in Em2. injection Em2 as <-. rewrite Rabs_R0, Rmult_0_r, Rplus_0_l in Rb2, Bp2.
    assert (Yd : forall d i, (0 < d)%Z -> (0 <= i < n)%Z -> (d <= lv i)%Z -> y 0 i = real 0).
    { intros d i Hd Hi G. rewrite (Y0 i Hi). unfold first_unit. destruct (Z.eqb_spec i 0) as [->|]; [|reflexivity]. unfold lv in G. rewrite level_1 in G by (unfold site; lia). lia. }
    assert (L0 : forall s, 0 <= s -> nrm (idx n) (out lv (1 - 1) (vecf (y s))) <= 1 * s ^ 0).
    { intros s _. destruct (init_vector_unit n Hn) as (h0 & _ & L0 & V0). pose proof (unit_norm n h0 Hn L0 V0) as N0. rewrite (vec_n2 n _ L0) in N0.
      rewrite (nrm_ext (idx n) _ (vecf (y s))) by (intros p Hp; apply idx_in in Hp; unfold out; destruct (Z.leb_spec (1 - 1) (lv (fst p))); [reflexivity|pose proof (level_nonneg (fst p) Hp); lia]).
      cbn [pow]. rewrite Rmult_1_r. apply Req_le. unfold nrm. rewrite <- sqrt_1. f_equal.
      assert (Lift : solution (idx n) (SM E) (fun t => vecf (y t))).
      { intros x [i c] Hi. rewrite ap_SM. apply idx_in in Hi. cbn [fst snd] in *. destruct (Ht x i Hi) as [D1 D2]. unfold vecf. cbn [fst snd]. destruct c; cbn [part]; [exact D1|exact D2]. }
      rewrite (norm_conserved (idx n) (SM E) (SM_anti n E An) _ Lift s). rewrite <- N0. unfold n2, dot. apply SR_ext. intros p Hp. apply idx_in in Hp. unfold vec, vecf. rewrite (V0 _ Hp), (Y0 _ Hp). reflexivity. }
    pose proof (tail_step n E (entry (bm_scale imag_unit mU)) lv (Rabs U) 1 An (row_op _ _ _ An2 Rb2 Bp2) Bp2 (fun i j Hi Hj _ L => False_ind _ (Zlt_not_le _ _ L (level_nonneg j Hj))) (fun i j Hi Hj L e => same_1 i j Hi Hj L e) y Ht
      (fun i Hi L => Yd 1%Z i eq_refl Hi L) 1 0 L0) as L1.
    pose proof (tail_step n E (entry (bm_scale imag_unit m0)) lv (3 * neighbours lat * Rabs J) 2 An (row_op _ _ _ An1 Rb1 Bp1) Bp1 (fun i j Hi Hj A L => local_2 i j Hi Hj A L) (fun i j Hi Hj L e => same_2 i j Hi Hj L e) y Ht
      (fun i Hi L => Yd 2%Z i eq_refl Hi L) (Rabs U) 1) as L2.
    eapply Rle_trans; [apply L2; [|exact T]|].
    - intros s Hsp. eapply Rle_trans; [apply (L1 s Hsp)|]. apply Req_le. cbn [INR pow]. field.
    - apply Req_le. cbn [INR pow]. field.
  Qed.
End Levels.
