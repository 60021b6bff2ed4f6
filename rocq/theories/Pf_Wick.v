(** Proofs: infinite-temperature Wick theorem for Hubbard operators, Frobenius
    products of sums of terms. *)
From Verif Require Import Base Spec_Fock FockFacts M_Operator M_Lattice Spec_Lattice Pf_Lattice M_Basis M_Matrix
  Spec_Algebra Pf_Commutator Spec_Matrix Pf_Trace.
Local Open Scope list_scope.

Section Wick.
  Context {K : StarRing}.
  Local Open Scope ring_scope_.
  Add Ring KringW : (rth K).
  Variable half : K.
  Hypothesis Hhalf : half + half = 1.
  Variable N : Z.
  Variable M : nat.
  Variable mode : hub -> nat.
  Hypothesis mode_range : forall i sp, site N i -> (mode (i, sp) < M)%nat.
  Hypothesis mode_inj : forall i sp j sp', site N i -> site N j -> mode (i, sp) = mode (j, sp') -> i = j /\ sp = sp'.

  Definition on_sites (w : list (op hub)) : Prop := Forall (fun o => site N (index1 o)) w.
  Lemma on_sites_app a b : on_sites a -> on_sites b -> on_sites (a ++ b).
  Proof. intros. apply Forall_app. split; assumption. Qed.

  Definition spin_of (o : op hub) : bool := snd (indices o).
  Definition compat (x y : op hub) : bool :=
    (Bool.eqb (creator x) (negb (creator y)) && Bool.eqb (spin_of x) (spin_of y))%bool.
  (** creator's site first *)
  Definition cdelta (x y : op hub) : K :=
    if creator x then delta (index1 x) (index1 y) else delta (index1 y) (index1 x).
  Lemma delta_sym a b : delta (K := K) a b = delta b a.
  Proof. unfold delta. rewrite Z.eqb_sym. reflexivity. Qed.

  Definition lad (o : op hub) : bool * nat := (creator o, mode (indices o)).
  Lemma dL_compat x y : site N (index1 x) -> site N (index1 y) ->
    dL (K := K) (lad x) (lad y) = if compat x y then cdelta x y else 0.
  Proof.
    destruct x as [cx [ix sx]], y as [cy [iy sy]]. unfold index1. cbn [indices fst]. intros Hx Hy.
    unfold dL, compat, cdelta, lad, spin_of, index1. cbn [creator indices fst snd].
    destruct (Bool.eqb cx (negb cy)) eqn:Ec; cbn [andb]; [|reflexivity].
    destruct (Nat.eqb_spec (mode (ix, sx)) (mode (iy, sy))) as [E|E].
    - apply mode_inj in E as [-> ->]; try assumption. rewrite eqb_reflx. unfold delta. rewrite Z.eqb_refl. destruct cx; reflexivity.
    - destruct (Bool.eqb sx sy) eqn:Es; [|reflexivity]. apply eqb_prop in Es. subst sy.
      assert (ix <> iy) by (intros ->; apply E; reflexivity).
      unfold delta. rewrite (Z.eqb_sym iy ix). destruct (Z.eqb_spec ix iy); [contradiction|]. destruct cx; reflexivity.
  Qed.

  Definition T (w : list (op hub)) : K := Tr M (ladders mode w).
  Lemma ladders_below w : on_sites w -> below M (ladders mode w).
  Proof.
    intros H. unfold below, ladders. apply Forall_map. eapply Forall_impl; [|exact H]. intros [c [i sp]] Hi.
    cbn [snd indices]. apply mode_range, Hi.
  Qed.

  Fixpoint wick (n : nat) (w : list (op hub)) {struct n} : K :=
    match w with
    | [] => 1
    | x :: w' =>
        match n with
        | O => 0
        | S n' =>
            half * (fix go (sg : bool) (pre rest : list (op hub)) {struct rest} : K :=
              match rest with
              | [] => 0
              | y :: rest' =>
                  radd (if compat x y then sgn sg * cdelta x y * wick n' (pre ++ rest') else 0)
                       (go (negb sg) (pre ++ [y]) rest')
              end) false [] w'
        end
    end.
  Lemma T_wick n : forall w, (length w <= 2 * n)%nat -> Nat.even (length w) = true -> on_sites w ->
    T w = wick n w * T [].
  Proof.
    induction n as [|n IH]; intros w Hl He Hs.
    - destruct w; [cbn [wick]; ring|cbn in Hl; lia].
    - destruct w as [|x w]; [cbn [wick]; ring|]. inversion Hs as [|? ? Hx Hw]; subst. cbn [length] in Hl, He.
      assert (Ho : Nat.odd (length w) = true) by (rewrite <- Nat.even_succ; exact He).
      unfold T. change (ladders mode (x :: w)) with (lad x :: ladders mode w).
      rewrite (Tr_step M half _ _ Hhalf).
      2:{ apply (ladders_below (x :: w)). exact Hs. }
      2:{ unfold ladders. rewrite map_length. exact Ho. }
      cbn [wick]. rewrite <- (Rmul_assoc (rth K)). f_equal.
      set (go := fix go (sg : bool) (pre rest : list (op hub)) {struct rest} : K := match rest with [] => 0 | y :: rest' => _ end).
      assert (G : forall rest pre sg, w = pre ++ rest -> sg = Nat.odd (length pre) ->
        possum (ladders mode rest) (fun l y p q => sgn sg * par (l - 1) * dL (lad x) y * Tr M (ladders mode pre ++ p ++ q))
        = go sg pre rest * Tr M (ladders mode [])).
      { induction rest as [|y rest IHr]; intros pre sg E Esg.
        - change (ladders mode []) with (@nil (bool * nat)). rewrite possum_nil. unfold go. ring.
        - change (ladders mode (y :: rest)) with (lad y :: ladders mode rest). rewrite possum_cons.
          assert (Eg : go sg pre (y :: rest) = radd (if compat x y then sgn sg * cdelta x y * wick n (pre ++ rest) else 0) (go (negb sg) (pre ++ [y]) rest))
            by reflexivity. rewrite Eg. clear Eg.
          rewrite (Rdistr_l (rth K)). f_equal.
          + replace (1 - 1)%nat with 0%nat by lia. rewrite par_0. rewrite dL_compat.
            2: exact Hx.
            2:{ rewrite E in Hw. apply Forall_app in Hw as [_ Hw]. inversion Hw; assumption. }
            destruct (compat x y); [|ring]. cbn [app]. unfold ladders. rewrite <- map_app. fold (ladders mode (pre ++ rest)).
            fold (T (pre ++ rest)). rewrite IH; [unfold T, ladders; cbn [map]; ring| | |].
            * apply (f_equal (@length _)) in E. rewrite app_length in *. cbn [length] in E. lia.
            * apply (f_equal (@length _)) in E. rewrite app_length in *. cbn [length] in E.
              rewrite E in He. replace (S (length pre + S (length rest))) with (2 + (length pre + length rest))%nat in He by lia. exact He.
            * rewrite E in Hw. apply Forall_app in Hw as [W1 W2]. inversion W2; subst. apply on_sites_app; assumption.
          + rewrite <- (IHr (pre ++ [y]) (negb sg)).
            * apply possum_ext. intros l y0 p q _ ->. replace (S (S (length p)) - 1)%nat with (S (length p)) by lia.
              replace (S (length p) - 1)%nat with (length p) by lia. rewrite par_S, sgn_negb.
              unfold ladders. rewrite map_app, <- app_assoc. cbn [map app]. unfold lad. ring.
            * rewrite <- app_assoc. exact E.
            * rewrite app_length, Nat.add_1_r, Nat.odd_succ, <- Nat.negb_odd, Esg. reflexivity. }
      rewrite <- (G w [] false eq_refl eq_refl). apply possum_ext. intros l y p q _ _. cbn [app sgn ladders map]. ring.
  Qed.

  Lemma T_nil : T [] = two_pow M.
  Proof.
    unfold T, Tr. cbn [ladders map].
    rewrite (sum_over_ext _ _ (fun _ => 1)).
    2:{ intros s _. unfold amp. cbn [act]. rewrite N.eqb_refl. reflexivity. }
    unfold states. rewrite sum_over_map.
    assert (E : forall a n, sum_over (fun _ : nat => 1) (seq a (2 ^ n)) = two_pow (K := K) n).
    { intros a n. revert a. induction n as [|n IH]; intros a.
      - cbn [Nat.pow seq two_pow]. rewrite sum_over_cons, sum_over_nil. ring.
      - replace (2 ^ S n)%nat with (2 ^ n + 2 ^ n)%nat by (cbn; lia). rewrite seq_app, sum_over_app, !IH. cbn [two_pow]. ring. }
    apply E.
  Qed.

  (** ** Frobenius products of sums of terms *)
  Definition ip (n : nat) (A B : list (term hub K)) : K :=
    sum_over (fun a => sum_over (fun b => kconj (prefactor a) * prefactor b *
      wick n (mono_conjugate (operators a) ++ operators b)) B) A.
  Definition terms_on (A : list (term hub K)) : Prop := Forall (fun a => on_sites (operators a)) A.
  Lemma conj_amp w s t : kconj (amp (K := K) w s t) = amp w s t.
  Proof. unfold amp. destruct (act w s) as [[sg t']|]; [destruct (N.eqb t t'); [apply conj_sgn|apply conj_0]|apply conj_0]. Qed.
  Lemma ladders_conj w : ladders mode (mono_conjugate w) = adj (ladders mode w).
  Proof.
    unfold ladders, adj, mono_conjugate. rewrite <- map_rev, !map_map. apply map_ext. intros o. reflexivity.
  Qed.
  Lemma on_sites_conj w : on_sites w -> on_sites (mono_conjugate w).
  Proof.
    unfold on_sites, mono_conjugate. intros H. apply Forall_rev in H. apply Forall_map. eapply Forall_impl; [|exact H].
    intros o Ho. exact Ho.
  Qed.
  Lemma frob_ip n A B : terms_on A -> terms_on B ->
    (forall a b, In a A -> In b B -> let l := (length (operators a) + length (operators b))%nat in
        (l <= 2 * n)%nat /\ Nat.even l = true) ->
    frobenius M (terms_elem mode A) (terms_elem mode B) = ip n A B * two_pow M.
  Proof.
    intros HA HB Hl. unfold frobenius, ip. fold (states M). unfold terms_elem, term_elem, elem.
    transitivity (sum_over (fun a => sum_over (fun b => kconj (prefactor a) * prefactor b *
       sum_over (fun s => sum_over (fun t => amp (ladders mode (operators a)) s t * amp (ladders mode (operators b)) s t) (states M)) (states M)) B) A).
    - rewrite (sum_over_ext _ _ (fun s => sum_over (fun a => sum_over (fun b => kconj (prefactor a) * prefactor b *
         sum_over (fun t => amp (ladders mode (operators a)) s t * amp (ladders mode (operators b)) s t) (states M)) B) A)).
      + rewrite sum_over_swap. apply sum_over_ext. intros a _. rewrite sum_over_swap. apply sum_over_ext. intros b _.
        rewrite sum_over_mul_l. reflexivity.
      + intros s _.
        rewrite (sum_over_ext _ _ (fun t => sum_over (fun a => sum_over (fun b => kconj (prefactor a) * prefactor b *
           (amp (ladders mode (operators a)) s t * amp (ladders mode (operators b)) s t)) B) A)).
        * rewrite sum_over_swap. apply sum_over_ext. intros a _. rewrite sum_over_swap. apply sum_over_ext. intros b _.
          rewrite sum_over_mul_l. reflexivity.
        * intros t _. rewrite conj_sum_over. rewrite <- sum_over_mul_r. apply sum_over_ext. intros a _.
          rewrite <- sum_over_mul_l. apply sum_over_ext. intros b _. rewrite conj_mul, conj_amp. ring.
    - rewrite <- sum_over_mul_r. apply sum_over_ext. intros a Ha. rewrite <- sum_over_mul_r. apply sum_over_ext. intros b Hb.
      assert (Sa : on_sites (operators a)) by (eapply Forall_forall in HA; eauto).
      assert (Sb : on_sites (operators b)) by (eapply Forall_forall in HB; eauto).
      rewrite frob_words by (apply ladders_below; assumption).
      rewrite <- ladders_conj. unfold ladders. rewrite <- map_app. fold (ladders mode (mono_conjugate (operators a) ++ operators b)).
      fold (T (mono_conjugate (operators a) ++ operators b)).
      destruct (Hl a b Ha Hb) as [L1 L2].
      rewrite (T_wick n), T_nil; [ring| | |apply on_sites_app; [apply on_sites_conj|]; assumption];
        rewrite app_length; unfold mono_conjugate; rewrite map_length, rev_length; assumption.
  Qed.
End Wick.

(** ** The polynomial identities behind the interaction entries *)
Section Poly.
  Context {K : StarRing}.
  Local Open Scope ring_scope_.
  Add Ring KringP : (rth K).
  Variable half : K.
  (** (c+_a c_b - 1/2 delta_ab)_up (c+_c c_d - 1/2 delta_cd)_down *)
  Definition Hph (a b c d : Z) : list (term hub K) :=
    [mkTerm 1 [hop true a true; hop false b true; hop true c false; hop false d false];
     mkTerm (- (half * delta c d)) [hop true a true; hop false b true];
     mkTerm (- (half * delta a b)) [hop true c false; hop false d false];
     mkTerm (half * half * delta a b * delta c d) []].
  Hypothesis Hhalf : half + half = 1.
  Variables (a b c d i1 i2 i3 j1 j2 j3 : Z).
  Ltac wick_compute :=
    cbv [ip op_mul Hph B1 B3 sum_over rsum mono_conjugate flat_map map app fold_right prefactor operators rev
         op_conjugate hop creator indices negb wick compat spin_of snd fst Bool.eqb andb cdelta index1 sgn];
    rewrite ?conj_opp, ?conj_add, ?conj_1.
  Lemma conj_delta x y : kconj (delta (K := K) x y) = delta x y.
  Proof. unfold delta. destruct (Z.eqb x y); [apply conj_1|apply conj_0]. Qed.
  Lemma two_half : (1 + 1) * half = 1.
  Proof. rewrite <- Hhalf at 3. ring. Qed.
  Ltac wick_ring := pose proof two_half as Htwo; generalize dependent (1 + 1 : K); intros two Htwo; ring [Htwo].
  Lemma gram_11 : ip half 1 (B1 j1) (B1 i1) = half * delta i1 j1.
  Proof. wick_compute. ring. Qed.
  Lemma gram_13 : ip half 2 (B1 j1) (B3 i1 i2 i3) = 0.
  Proof. wick_compute. wick_ring. Qed.
  Lemma gram_31 : ip half 2 (B3 j1 j2 j3) (B1 i1) = 0.
  Proof. wick_compute. rewrite !conj_delta, (delta_sym j3 j2). wick_ring. Qed.
  Lemma gram_33 : ip half 3 (B3 j1 j2 j3) (B3 i1 i2 i3) = half * delta i1 j1 * delta i2 j2 * delta j3 i3.
  Proof. wick_compute. rewrite !conj_delta, (delta_sym j3 j2). wick_ring. Qed.
  Lemma ph_31 : ip half 4 (B1 j1) (op_mul (Hph a b c d) (B3 i1 i2 i3)) - ip half 4 (B1 j1) (op_mul (B3 i1 i2 i3) (Hph a b c d))
     = half * half * delta a j1 * delta i1 b * delta c i3 * delta i2 d.
  Proof.
    transitivity ((half * half * half + half * half * half) * delta a j1 * delta i1 b * delta c i3 * delta i2 d).
    - wick_compute. wick_ring.
    - replace (half * half * half + half * half * half) with (half * half * (half + half)) by ring. rewrite Hhalf. ring.
  Qed.
  Lemma ph_33 : ip half 5 (B3 j1 j2 j3) (op_mul (Hph a b c d) (B3 i1 i2 i3)) - ip half 5 (B3 j1 j2 j3) (op_mul (B3 i1 i2 i3) (Hph a b c d)) = 0.
  Proof. Time wick_compute. rewrite !conj_delta, (delta_sym j3 j2). Time wick_ring. Qed.
End Poly.
