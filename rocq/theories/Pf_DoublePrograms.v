(** PROOFS for C94: the lines of the programs, quadratic forms, tables. *)
From Coq Require Import Reals Lra Psatz.
From Verif Require Import Base M_Operator M_Lattice Spec_Lattice Pf_Lattice Spec_LatticeReal M_Basis M_Matrix M_Ode M_Dispersion M_OpenMP M_Expectation M_SiteOccupation M_TimeLoop Spec_TimeLoop
  P_TimeLoop Spec_Matrix Spec_Stability Pf_Stability Pf_Stability2 Pf_Stability3 P_SiteOccupation P_Expectation Spec_Programs M_Programs Pf_Programs Pf_Programs2
  M_Rounding M_Double P_Rounding M_RoundedMeasurement M_DoublePrograms Pf_DoubleTime Spec_DoublePrograms.
Local Open Scope R_scope.
Local Open Scope list_scope.
Local Notation len u := (Z.of_nat (length u)).

Lemma steps64 n : INR n <= 2 ^ 24 -> (Z.of_nat n < two64)%Z.
Proof.
  intros H. rewrite INR_IZR_INZ in H. replace (2 ^ 24) with (IZR 16777216) in H by lra. apply le_IZR in H.
  replace two64 with 18446744073709551616%Z; [lia|]. symmetry. with_strategy transparent [two64] reflexivity.
Qed.
Lemma applied_r {A} (f : A -> A) k x : times_applied f (S k) x = times_applied f k (f x).
Proof. induction k as [|k IH]; [reflexivity|]. unfold times_applied in *. cbn [Nat.iter nat_rect] in *. rewrite IH. reflexivity. Qed.
Lemma iter_run ar dt M k : forall j h, times_applied (fun s => mkFP (S (f_steps_done s)) (frk_step ar dt M (f_coefficients s))) k (mkFP j h) = mkFP (k + j) (frun ar dt M k h).
Proof.
  induction k as [|k IH]; intros j h; [reflexivity|]. rewrite applied_r. cbn [f_steps_done f_coefficients]. rewrite IH. cbn [frun]. f_equal. lia.
Qed.
Section Lines.
  Context (garbage : R -> R) (dt t_end : R) (interval : Z) (steps : nat) (n : Z) (m : bmat CR) (h0 : list CR).
  Notation ar := (double_arith garbage).
  Hypothesis Ht : double_times garbage dt t_end interval steps.
  Hypothesis E0 : init_vector (K := CR) n = Ok h0.
  Lemma double_times_ok : times_ok rel_double (/ 2 ^ 53) dt t_end interval steps.
  Proof.
    destruct Ht as (Hd & Hn & Hi & Hs). split; [exact (dt_pos dt Hd)|]. split; [exact u_pos|]. split; [exact rel_double_rel|]. split; [exact (steps_small steps Hn)|].
    split; [apply steps64; exact Hn|]. split; [exact Hi|]. exact (steps_double garbage dt steps Hd Hn t_end Hs).
  Qed.
  Lemma f_lines O (obs : f_progress -> O) : terminates_with (f_run_main garbage n dt t_end interval (Ok (fbm_scale ar imag_unit m)) obs)
    (Ok (map (fun k => (time_at (to_double garbage) dt k, obs (mkFP k (fprogram_run ar dt m k h0)))) (written interval steps))).
  Proof.
    destruct Ht as (Hd & Hn & Hi & Hs). destruct double_times_ok as (T1 & T2 & T3 & T4 & T5 & T6 & T7).
    destruct (C53_schedule _ _ rel_double (/ 2 ^ 53) dt t_end interval steps (f_integrate garbage dt (fbm_scale ar imag_unit m)) obs (mkFP 0 h0) T1 T2 T3 T4 T5 T6 T7) as (s & (f0 & T) & _ & _ & Out).
    exists f0. intros fuel Hf. unfold f_run_main. rewrite E0. rewrite (program_double garbage dt steps Hd Hn) by exact Hs. rewrite (T fuel Hf), Out. do 2 f_equal.
    apply map_ext_in. intros k Hk. assert (Hk' : (k <= steps)%nat).
    { unfold Spec_TimeLoop.schedule in Hk. apply in_map_iff in Hk as (q & <- & Hq). apply in_seq in Hq. set (mm := Z.to_nat (Z.max 1 interval)) in *. assert (1 <= mm)%nat by (unfold mm; lia). pose proof (Nat.mul_div_le steps mm ltac:(lia)). nia. }
    rewrite (time_double garbage dt steps Hd Hn k Hk'). f_equal. f_equal. unfold f_integrate. rewrite iter_run, Nat.add_0_r. reflexivity.
  Qed.
End Lines.

(** ** quadratic forms *)
Lemma quad_lip2 n w c (h k : Z -> CR) : 0 <= c -> (forall i j, (0 <= i < n)%Z -> (0 <= j < n)%Z -> Rabs (w i j) <= c) -> (0 <= n)%Z ->
  Rabs (quad n w h - quad n w k) <= c * IZR n * (nrm (idx n) (vecf h) + nrm (idx n) (vecf k)) * nrm (idx n) (fun p => vecf h p + -1 * vecf k p).
Proof.
  intros Hc Hw Hn. rewrite !quad_dot. set (a := vecf h) in *. set (b := vecf k) in *. set (d := fun p => a p + -1 * b p). set (X := W w).
  assert (Q : dot (idx n) a (ap (idx n) X a) - dot (idx n) b (ap (idx n) X b) = dot (idx n) d (ap (idx n) X a) + dot (idx n) b (ap (idx n) X d)).
  { unfold d. rewrite (dot_ext (idx n) b (ap (idx n) X (fun p => a p + -1 * b p)) b (fun p => ap (idx n) X a p + -1 * ap (idx n) X b p)).
    - rewrite dot_add_l, dot_add_r, dot_mul_l, dot_mul_r. ring.
    - reflexivity.
    - intros p _. unfold ap. rewrite <- SR_mul, <- SR_add. apply SR_ext. intros q _. ring. }
  rewrite Q. eapply Rle_trans; [apply Rabs_triang|].
  pose proof (nrm_pos (idx n) b) as B0. pose proof (nrm_pos (idx n) d) as D0.
  pose proof (W_nrm n w c Hc Hw a Hn) as Wa. pose proof (W_nrm n w c Hc Hw d Hn) as Wd.
  pose proof (dot_abs (idx n) d (ap (idx n) X a)) as X1. pose proof (dot_abs (idx n) b (ap (idx n) X d)) as X2.
  assert (Y1 : nrm (idx n) d * nrm (idx n) (ap (idx n) X a) <= nrm (idx n) d * (c * IZR n * nrm (idx n) a)) by (apply Rmult_le_compat_l; [exact D0|exact Wa]).
  assert (Y2 : nrm (idx n) b * nrm (idx n) (ap (idx n) X d) <= nrm (idx n) b * (c * IZR n * nrm (idx n) d)) by (apply Rmult_le_compat_l; [exact B0|exact Wd]).
  lra.
Qed.
Lemma quad_near n w w' c (v : Z -> CR) : 0 <= c -> (forall i j, (0 <= i < n)%Z -> (0 <= j < n)%Z -> Rabs (w i j - w' i j) <= c) -> (0 <= n)%Z ->
  Rabs (quad n w v - quad n w' v) <= c * IZR n * n2 (idx n) (vecf v).
Proof.
  intros Hc Hw Hn. replace (quad n w v - quad n w' v) with (quad n (fun i j => w i j - w' i j) v).
  - rewrite quad_dot. eapply Rle_trans; [apply dot_abs|]. pose proof (W_nrm n (fun i j => w i j - w' i j) c Hc Hw (vecf v) Hn) as Q.
    pose proof (nrm_pos (idx n) (vecf v)) as P0. pose proof (nrm_sq (idx n) (vecf v)) as S1.
    apply Rle_trans with (nrm (idx n) (vecf v) * (c * IZR n * nrm (idx n) (vecf v))); [apply Rmult_le_compat_l; assumption|]. rewrite <- S1. apply Req_le. ring.
  - unfold quad. replace (SR _ _ - SR _ _) with (SR (fun i => SR (fun j => w i j * (fst (v i) * fst (v j) + snd (v i) * snd (v j))) (zrange 0 n) + -1 * SR (fun j => w' i j * (fst (v i) * fst (v j) + snd (v i) * snd (v j))) (zrange 0 n)) (zrange 0 n)).
    + apply SR_ext. intros i _. rewrite <- SR_mul, <- SR_add. apply SR_ext. intros j _. ring.
    + rewrite SR_add, SR_mul. ring.
Qed.

(** ** the table *)
Lemma abs_inv x y : Rabs x <= y -> - y <= x <= y.
Proof. intros H. pose proof (Rle_abs x). pose proof (Rle_abs (- x)). rewrite Rabs_Ropp in *. lra. Qed.
Lemma vread_some (t : list R) i x : vread t i = Ok x -> (Z.to_nat i < length t)%nat /\ x = nth (Z.to_nat i) t 0.
Proof.
  unfold vread. destruct (Z.ltb_spec i 0); [discriminate|]. destruct (nth_error t (Z.to_nat i)) eqn:E; [|discriminate]. injection 1 as <-.
  split; [apply nth_error_Some; congruence|]. symmetry. apply nth_error_nth. exact E.
Qed.
Section Table.
  Context (N : Z) (filling delta : R) (table : list R).
  Hypothesis Hd : 0 <= delta.
  Hypothesis HN : (0 < N)%Z.
  Hypothesis H64 : (N < two64)%Z.
  Hypothesis Ht : table_near delta table (init_ev1 N 1 filling).
  Definition near_value (a b : Z) : R := match ev1 N table a b with Ok x => x | UB => 0 end.
  Lemma near_by_site : f_program_ev N table = by_site (F := Rring) near_value.
  Proof. reflexivity. Qed.
  Lemma near_le1 a b : Rabs (near_value a b) <= 1.
  Proof.
    unfold near_value. destruct (ev1 N table a b) as [x|] eqn:E; [|rewrite Rabs_R0; lra]. apply vread_some in E as (L & ->). destruct Ht as (Le & H). rewrite Le in L. apply (H _ L).
  Qed.
  Lemma near_sym a b : site N a -> site N b -> near_value a b = near_value b a.
  Proof. intros Ha Hb. unfold near_value, ev1. rewrite !chain_distance_eq by assumption. replace (Z.abs (b - a)) with (Z.abs (a - b)) by lia. reflexivity. Qed.
  Lemma near_sea a b : site N a -> site N b -> Rabs (near_value a b - sea N filling a b) <= delta.
  Proof.
    intros Ha Hb. rewrite <- (table_sea N filling H64 a b Ha Hb). unfold table_value, near_value.
    destruct (C41_chain N 1 filling a b H64 Ha Hb ltac:(lra)) as (E & _). rewrite E. unfold ev1 in *. pose proof (vread_some _ _ _ E) as (L & X). rewrite X. destruct Ht as (Le & H).
    unfold vread in *. destruct (Z.ltb_spec (chain_distance N a b) 0); [discriminate|].
    rewrite (nth_error_nth' table 0) by lia. apply (H _ L).
  Qed.
  Hypothesis Hf : 0 <= filling <= 1.
  Lemma mul_near x y x' y' a b dx dy : Rabs x' <= a -> Rabs (y' - y) <= dy -> Rabs y <= b -> Rabs (x' - x) <= dx -> Rabs (x' * y' - x * y) <= a * dy + b * dx.
  Proof.
    intros H1 H2 H3 H4. replace (x' * y' - x * y) with (x' * (y' - y) + y * (x' - x)) by ring. eapply Rle_trans; [apply Rabs_triang|]. rewrite !Rabs_mult.
    apply Rplus_le_compat; apply Rmult_le_compat; assumption || apply Rabs_pos.
  Qed.
  Lemma pair_near a b : site N a -> site N b -> Rabs (pair_average near_value a b - pair_average (sea N filling) a b) <= 2 * delta.
  Proof. intros Ha Hb. unfold pair_average. pose proof (near_sea a b Ha Hb). apply abs_inv in H. apply Rabs_le. lra. Qed.
  Lemma pair_le3 a b : Rabs (pair_average near_value a b) <= 3.
  Proof. unfold pair_average, kron. pose proof (near_le1 a b). apply abs_inv in H. apply Rabs_le. destruct (Z.eqb a b); lra. Qed.
  Lemma overlap_near r s : (0 <= r < N + N * N * N)%Z -> (0 <= s < N + N * N * N)%Z ->
    Rabs (overlap N near_value r s - overlap N (sea N filling) r s) <= 21 * delta.
  Proof.
    intros Hr Hs. unfold overlap. destruct (Z.ltb_spec r N) as [Lr|Lr], (Z.ltb_spec s N) as [Ls|Ls].
    - pose proof (near_sea r s ltac:(unfold site; lia) ltac:(unfold site; lia)). lra.
    - destruct (decode N s HN ltac:(lia)) as (A & B & C). assert (Sr : site N r) by (unfold site; lia).
      pose proof (mul_near _ _ _ _ _ _ _ _ (pair_le3 (site_c N s) (site_b N s)) (near_sea r (site_a N s) Sr A) (sea_le N filling Hf r _ Sr A) (pair_near _ _ C B)). lra.
    - destruct (decode N r HN ltac:(lia)) as (A & B & C). assert (Ss : site N s) by (unfold site; lia).
      pose proof (mul_near _ _ _ _ _ _ _ _ (pair_le3 (site_b N r) (site_c N r)) (near_sea (site_a N r) s A Ss) (sea_le N filling Hf _ s A Ss) (pair_near _ _ B C)). lra.
    - destruct (decode N r HN ltac:(lia)) as (A & B & C). destruct (decode N s HN ltac:(lia)) as (A' & B' & C').
      pose proof (mul_near _ _ _ _ _ _ _ _ (pair_le3 (site_b N r) (site_c N r)) (pair_near _ _ C' B') (pair_le N filling Hf _ _ C' B') (pair_near _ _ B C)) as P1.
      assert (Hh : Rabs (kron (site_c N r) (site_c N s) - near_value (site_c N s) (site_c N r) - (kron (site_c N r) (site_c N s) - sea N filling (site_c N s) (site_c N r))) <= delta).
      { pose proof (near_sea _ _ C' C) as Q. apply abs_inv in Q. apply Rabs_le. lra. }
      pose proof (mul_near _ _ _ _ _ _ _ _ (near_le1 (site_b N r) (site_b N s)) Hh (hole_le N filling Hf _ _ C C') (near_sea _ _ B B')) as P2.
      match type of P1 with Rabs (?p' - ?p) <= _ => match type of P2 with Rabs (?q' - ?q) <= _ =>
        assert (P3 : Rabs ((p' + 4 * q') - (p + 4 * q)) <= 16 * delta) by (apply abs_inv in P1, P2; apply Rabs_le; lra);
        assert (P4 : Rabs (p + 4 * q) <= 5) end end.
      { pose proof (mul_le1 _ _ (pair_le N filling Hf _ _ B C) (pair_le N filling Hf _ _ C' B')) as Q1.
        pose proof (mul_le1 _ _ (sea_le N filling Hf _ _ B B') (hole_le N filling Hf _ _ C C')) as Q2. apply abs_inv in Q1, Q2. apply Rabs_le. lra. }
      pose proof (mul_near _ _ _ _ _ _ _ _ (near_le1 (site_a N r) (site_a N s)) P3 P4 (near_sea _ _ A A')) as P5.
      rewrite !(Rmult_assoc 4). lra.
  Qed.
End Table.
