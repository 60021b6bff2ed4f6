(** THEOREMS: C90 (the program hubbard_dispersion_1d). *)
From Coq Require Import Reals Ascii String Lra.
From Verif Require Import Base M_Lattice Spec_Lattice P_Lattice M_LatticeReal M_Matrix M_Dispersion P_Dispersion M_Text M_Io P_Checkpoint M_DispersionProgram.
Local Open Scope R_scope.
Local Open Scope list_scope.

(** SPECIFICATION: the wave vectors of a chain of N sites, and the line of the table that belongs to one *)
Definition wave (N i : Z) : R := - PI + 2 * PI * IZR i / IZR N.
Definition table_line (show : R -> text) (k : R) : text := show k ++ [tab] ++ show (- 2 * cos k) ++ [newline].
Definition table_text (show : R -> text) (N : Z) : text := flat_map (fun i => table_line show (wave N i)) (Zseq N).

Lemma wave_pos N i : (0 < N)%Z -> ch_pos (momentum_chain N) i = wave N i.
Proof. intros HN. unfold ch_pos, wave. cbn [momentum_chain ch_x_min ch_dx]. field. apply not_0_IZR. lia. Qed.
Lemma lines_ok show N : (0 < N)%Z -> forall sites, (forall i, In i sites -> (0 <= i < N)%Z) ->
  dispersion_lines show (momentum_chain N) (chain_dispersion (momentum_chain N) (real_chain N 1) 1) sites =
  Ok (flat_map (fun i => table_line show (wave N i)) sites).
Proof.
  intros HN. induction sites as [|i sites IH]; intros Hs; [reflexivity|]. cbn [dispersion_lines flat_map].
  unfold dispersion_line. rewrite (Logic.proj1 (C54_chain N 1 1 i HN (Hs i (or_introl eq_refl)))).
  rewrite IH by (intros j Hj; apply Hs; right; exact Hj). unfold table_line. rewrite wave_pos by exact HN. fold (wave N i).
  do 2 f_equal. do 3 f_equal. rewrite !Rmult_1_r. reflexivity.
Qed.
Lemma range_mono fuel : forall n b e l, (fuel <= n)%nat -> range_for fuel b e = Some l -> range_for n b e = Some l.
Proof.
  induction fuel as [|fuel IH]; intros n b e l Hn H; cbn [range_for] in H; destruct (it_ne b e) eqn:E; try discriminate.
  - destruct n; cbn [range_for]; rewrite E; exact H.
  - destruct n as [|n]; [lia|]. cbn [range_for]. rewrite E. destruct (range_for fuel (it_incr b) e) as [l'|] eqn:L; [|discriminate].
    rewrite (IH n _ _ l'); [exact H|lia|exact L].
  - destruct n; cbn [range_for]; rewrite E; exact H.
Qed.

(** the program ends without undefined behaviour, returns 0, and the file dispersion.txt contains the table,
    whatever was there before; no other file is touched; if the file cannot be opened nothing is written
    and the exit code is 0 all the same *)
Theorem C90_file : forall show N f, (0 < N < two64)%Z -> exists fuel0, forall fuel, (fuel0 <= fuel)%nat ->
  (exists f', dispersion_main fuel show N true f = Some (Ok (f', 0%Z)) /\
     f' (str "dispersion.txt") = Some (table_text show N) /\ forall p, p <> str "dispersion.txt" -> f' p = f p) /\
  dispersion_main fuel show N false f = Some (Ok (f, 0%Z)).
Proof.
  intros show N f HN. destruct (C19_chain_iteration N HN) as (fuel0 & R). exists fuel0. intros fuel Hf.
  apply (range_mono fuel0 fuel _ _ _ Hf) in R. unfold dispersion_main. cbn [momentum_chain ch_size]. rewrite R.
  rewrite lines_ok; [|lia|intros i Hi; apply (Logic.proj1 (C19_each_site_once N)); exact Hi].
  split; [|reflexivity]. eexists. split; [reflexivity|]. unfold set_file. split.
  - destruct (path_eqb (str "dispersion.txt") (str "dispersion.txt")) eqn:E; [reflexivity|]. vm_compute in E. discriminate.
  - intros p Hp. destruct (path_eqb p (str "dispersion.txt")) eqn:E; [|reflexivity]. apply path_eqb_ok in E. contradiction.
Qed.
Print Assumptions C90_file.

(** what the table says: the wave vectors increase from - pi on and stay below pi, the energies are within
    [-2, 2], -2 is taken only in line N/2 (k = 0, for even N) and 2 only in the first line (k = - pi), and the
    energies of k and - k agree *)
Lemma wave_frac N i : (0 < N)%Z -> (0 <= i < N)%Z -> 0 <= IZR i / IZR N < 1.
Proof.
  intros HN Hi. assert (0 < IZR N) by (apply (IZR_lt 0); lia). assert (0 <= IZR i) by (apply (IZR_le 0); lia).
  assert (IZR i < IZR N) by (apply IZR_lt; lia). split.
  - apply Rmult_le_pos; [lra|]. left. apply Rinv_0_lt_compat. lra.
  - apply Rmult_lt_reg_r with (IZR N); [lra|]. unfold Rdiv. rewrite Rmult_assoc, Rinv_l by lra. lra.
Qed.
Lemma wave_form N i : wave N i = - PI + 2 * PI * (IZR i / IZR N).
Proof. unfold wave, Rdiv. ring. Qed.
Theorem C90_table : forall N i j, (0 < N)%Z -> (0 <= i < j)%Z -> (j < N)%Z ->
  wave N 0 = - PI /\ - PI <= wave N i < wave N j /\ wave N j < PI /\ - 2 <= - 2 * cos (wave N j) < 2 /\
  - 2 * cos (wave N 0) = 2 /\ (- 2 * cos (wave N j) = - 2 <-> (2 * j = N)%Z) /\ cos (wave N (N - j)) = cos (wave N j).
Proof.
  intros N i j HN Hi Hj. assert (PN : 0 < IZR N) by (apply (IZR_lt 0); lia). pose proof PI_RGT_0 as Pp.
  pose proof (wave_frac N i HN ltac:(lia)) as Fi. pose proof (wave_frac N j HN ltac:(lia)) as Fj.
  assert (Fl : IZR i / IZR N < IZR j / IZR N) by (apply Rmult_lt_compat_r; [apply Rinv_0_lt_compat; lra|apply IZR_lt; lia]).
  assert (W0 : wave N 0 = - PI) by (rewrite wave_form; unfold Rdiv; ring).
  assert (Wi : - PI <= wave N i) by (rewrite wave_form; nra). assert (Wj : - PI < wave N j < PI) by (rewrite wave_form; nra).
  assert (Wl : wave N i < wave N j) by (rewrite !wave_form; nra).
  assert (C1 : - 1 < cos (wave N j)).
  { destruct (Rle_lt_dec 0 (wave N j)) as [H|H].
    - rewrite <- cos_PI. apply cos_decreasing_1; lra.
    - rewrite <- (cos_neg (wave N j)), <- cos_PI. apply cos_decreasing_1; lra. }
  pose proof (COS_bound (wave N j)) as Cb.
  split; [exact W0|]. split; [lra|]. split; [lra|]. split; [lra|]. split; [rewrite W0, cos_neg, cos_PI; ring|]. split; [split; intros H|].
  - assert (C0 : cos (wave N j) = 1) by lra. assert (Z0 : wave N j = 0).
    { destruct (Rtotal_order (wave N j) 0) as [L|[E|G]]; [exfalso|exact E|exfalso].
      - rewrite <- cos_neg, <- cos_0 in C0. pose proof (cos_decreasing_1 0 (- wave N j)) as D. rewrite cos_0 in D.
        assert (cos (- wave N j) < 1) by (apply D; lra). rewrite C0, cos_0 in H0. lra.
      - pose proof (cos_decreasing_1 0 (wave N j)) as D. rewrite cos_0 in D. assert (cos (wave N j) < 1) by (apply D; lra). lra. }
    rewrite wave_form in Z0. assert (2 * (IZR j / IZR N) = 1) by nra. apply eq_IZR. rewrite mult_IZR.
    apply (Rmult_eq_reg_r (/ IZR N)); [|apply Rinv_neq_0_compat; lra]. rewrite Rinv_r by lra. unfold Rdiv in *. lra.
  - assert (E : wave N j = 0); [|rewrite E, cos_0; ring]. rewrite wave_form, <- H, mult_IZR. field. apply not_0_IZR. lia.
  - rewrite <- (cos_neg (wave N j)). f_equal. unfold wave. rewrite minus_IZR. field. lra.
Qed.
Print Assumptions C90_table.

(** the program as shipped: 1024 lines; line 513 is k = 0 *)
Theorem C90_shipped : forall show f, exists fuel0, forall fuel, (fuel0 <= fuel)%nat -> exists f' before after,
  dispersion_main fuel show dispersion_size true f = Some (Ok (f', 0%Z)) /\
  f' (str "dispersion.txt") = Some (table_text show 1024) /\ length (Zseq 1024) = 1024%nat /\
  table_text show 1024 = before ++ table_line show 0 ++ after /\
  before = flat_map (fun i => table_line show (wave 1024 i)) (Zseq 512).
Proof.
  intros show f. assert (B : (0 < 1024 < two64)%Z) by (with_strategy transparent [two64] (split; vm_compute; reflexivity)).
  destruct (C90_file show 1024 f B) as (fuel0 & H). exists fuel0. intros fuel Hf.
  destruct (H fuel Hf) as ((f' & E & T & _) & _). exists f', (flat_map (fun i => table_line show (wave 1024 i)) (Zseq 512)),
    (flat_map (fun i => table_line show (wave 1024 i)) (skipn 513 (Zseq 1024))).
  split; [exact E|]. split; [exact T|]. split; [vm_compute; reflexivity|]. split; [|reflexivity].
  unfold table_text. assert (S : Zseq 1024 = Zseq 512 ++ [512%Z] ++ skipn 513 (Zseq 1024)) by (vm_compute; reflexivity).
  rewrite S at 1. rewrite flat_map_app. cbn [app flat_map]. do 2 f_equal. f_equal. unfold wave. field.
Qed.
Print Assumptions C90_shipped.
