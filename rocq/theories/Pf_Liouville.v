(** Proofs: the matrices represent the commutator with the Hubbard Hamiltonian. *)
From Coq Require Import ZifyBool.
From Verif Require Import Base Spec_Fock FockFacts M_Operator M_Lattice Spec_Lattice Pf_Lattice M_Basis Pf_Basis M_Matrix
  Spec_Algebra Pf_Algebra Pf_Commutator Spec_Matrix Pf_Matrix Pf_Matrix2 Pf_Trace Pf_Wick.
Local Open Scope list_scope.

(** ** sums over the neighbours of a graph *)
Section GraphSum.
  Context {K : StarRing}.
  Local Open Scope ring_scope_.
  Add Ring KringGS : (rth K).
  Lemma sum_delta (f : Z -> K) k l : NoDup l ->
    sum_over (fun j => delta j k * f j) l = if existsb (Z.eqb k) l then f k else 0.
  Proof.
    intros Hn. destruct (existsb (Z.eqb k) l) eqn:E.
    - apply existsb_exists in E as (x & Hx & Ex). apply Z.eqb_eq in Ex. subst x.
      rewrite <- (sum_pick Z.eqb Z.eqb_eq f k l Hn Hx). apply sum_over_ext. intros j _. unfold delta.
      destruct (Z.eqb j k); ring.
    - apply sum_over_zero. intros j Hj. unfold delta. destruct (Z.eqb_spec j k) as [->|Hne]; [|ring].
      assert (existsb (Z.eqb k) l = true) by (apply existsb_exists; exists k; split; [exact Hj|apply Z.eqb_refl]). congruence.
  Qed.
  Lemma sum_subset (f : Z -> K) sub l : NoDup l -> NoDup sub -> (forall x, In x sub -> In x l) ->
    sum_over (fun i => if existsb (Z.eqb i) sub then f i else 0) l = sum_over f sub.
  Proof.
    intros Hl Hs Hsub. rewrite <- (sum_over_filter _ (fun i => existsb (Z.eqb i) sub) f l).
    apply sum_over_perm, NoDup_Permutation; [apply NoDup_filter, Hl|exact Hs|].
    intros x. rewrite filter_In, existsb_exists. split.
    - intros (_ & y & Hy & E). apply Z.eqb_eq in E. subst. exact Hy.
    - intros Hx. split; [apply Hsub, Hx|]. exists x. split; [exact Hx|apply Z.eqb_refl].
  Qed.
  Variable lat : lattice.
  Variable N : Z.
  Hypothesis HG : graph lat N.
  Lemma graph_sum_out (f : Z -> K) k : site N k ->
    sum_over (fun i => sum_over (fun j => delta i k * f j) (lat_neighbors lat i)) (Zseq N) = sum_over f (lat_neighbors lat k).
  Proof.
    intros Hk. rewrite (sum_over_ext _ _ (fun i => delta i k * sum_over f (lat_neighbors lat i))) by (intros; apply sum_over_mul_l).
    rewrite sum_delta by apply Zseq_nodup.
    replace (existsb (Z.eqb k) (Zseq N)) with true; [reflexivity|]. symmetry. apply existsb_exists. exists k.
    split; [apply Zseq_in; exact Hk|apply Z.eqb_refl].
  Qed.
  Lemma graph_sum_in (f : Z -> K) k : site N k ->
    sum_over (fun i => sum_over (fun j => delta j k * f i) (lat_neighbors lat i)) (Zseq N) = sum_over f (lat_neighbors lat k).
  Proof.
    intros Hk. rewrite <- (sum_subset f (lat_neighbors lat k) (Zseq N)).
    - apply sum_over_ext. intros i Hi. apply Zseq_in in Hi. change (site N i) in Hi.
      rewrite (sum_delta (fun _ => f i)) by (apply (g_nodup _ _ HG); exact Hi).
      destruct (existsb (Z.eqb k) (lat_neighbors lat i)) eqn:E1, (existsb (Z.eqb i) (lat_neighbors lat k)) eqn:E2; try reflexivity; exfalso.
      + apply existsb_exists in E1 as (x & Hx & Ex). apply Z.eqb_eq in Ex. subst x. apply (g_sym _ _ HG i k Hi) in Hx.
        assert (existsb (Z.eqb i) (lat_neighbors lat k) = true) by (apply existsb_exists; exists i; split; [exact Hx|apply Z.eqb_refl]). congruence.
      + apply existsb_exists in E2 as (x & Hx & Ex). apply Z.eqb_eq in Ex. subst x. apply (g_sym _ _ HG k i Hk) in Hx.
        assert (existsb (Z.eqb k) (lat_neighbors lat i) = true) by (apply existsb_exists; exists k; split; [exact Hx|apply Z.eqb_refl]). congruence.
    - apply Zseq_nodup.
    - apply (g_nodup _ _ HG), Hk.
    - intros x Hx. apply Zseq_in. apply (g_range _ _ HG k x Hk Hx).
  Qed.
End GraphSum.

Section Comm.
  Context {K : StarRing}.
  Local Open Scope ring_scope_.
  Add Ring KringL : (rth K).
  Variable N : Z.
  Variable mode : hub -> nat.
  Hypothesis mode_inj : numbers_orbitals mode N.
  Variables s t : BinNums.N.
  Local Notation F := (fun w => elem (K := K) mode w s t).
  Local Notation d := (dF hub mode K).

  Lemma d_compat x y : site N (index1 x) -> site N (index1 y) -> d x y = if compat x y then cdelta x y else 0.
  Proof. intros Hx Hy. rewrite <- (dL_compat N mode mode_inj) by assumption. reflexivity. Qed.
  Lemma bil_pass a b x L R :
    F (L ++ a :: b :: x :: R) - F (L ++ x :: a :: b :: R) = d b x * F (L ++ a :: R) - d a x * F (L ++ b :: R).
  Proof.
    pose proof (elem_car hub mode K s t (L ++ [a]) R b x) as H1. pose proof (elem_car hub mode K s t L (b :: R) a x) as H2.
    rewrite <- !app_assoc in H1. cbn [app] in H1. cbv beta. rewrite <- H1, <- H2. ring.
  Qed.
  (** commutator of the operator word [h] with the word [W], inside L .. R *)
  Definition cw1 (h L W R : list (op hub)) : K := F (L ++ h ++ W ++ R) - F (L ++ W ++ h ++ R).
  Lemma cw1_cons h L x W R : cw1 h L (x :: W) R = cw1 h L [x] (W ++ R) + cw1 h (L ++ [x]) W R.
  Proof. unfold cw1. rewrite <- !app_assoc. cbn [app]. ring. Qed.
  Lemma cw1_nil h L R : cw1 h L [] R = 0.
  Proof. unfold cw1. cbn [app]. ring. Qed.
  Lemma cw1_bil a b L x R : cw1 [a; b] L [x] R = d b x * F (L ++ a :: R) - d a x * F (L ++ b :: R).
  Proof. unfold cw1. cbn [app]. apply bil_pass. Qed.
  Lemma comm_elem_cw A B : comm_elem mode A B s t =
    sum_over (fun b => prefactor b * sum_over (fun a => prefactor a * cw1 (operators a) [] (operators b) []) A) B.
  Proof.
    unfold comm_elem, op_mul, terms_elem. rewrite !sum_over_flat_map.
    rewrite (sum_over_ext _ (fun x => sum_over _ (map _ B)) (fun a => sum_over (fun b => prefactor a * prefactor b * F (operators a ++ operators b)) B)).
    2:{ intros a _. rewrite sum_over_map. apply sum_over_ext. intros b _. reflexivity. }
    rewrite sum_over_swap. rewrite <- sum_over_sub. apply sum_over_ext. intros b _.
    rewrite sum_over_map. rewrite <- sum_over_sub, <- sum_over_mul_l. apply sum_over_ext. intros a _.
    unfold term_elem, cw1. cbn [prefactor operators app]. rewrite !app_nil_r. ring.
  Qed.

  (** ** hopping *)
  Variable lat : lattice.
  Hypothesis HG : graph lat N.
  Variable J : K.
  Definition move (x : op hub) (j : Z) : op hub := hop (creator x) j (spin_of x).
  Lemma kin_cw L x R : site N (index1 x) ->
    sum_over (fun h => prefactor h * cw1 (operators h) L [x] R) (H_kin lat J) =
    (if creator x then - J else J) * sum_over (fun nb => F (L ++ move x nb :: R)) (lat_neighbors lat (index1 x)).
  Proof.
    intros Hx. unfold H_kin. rewrite (lat_size_N lat N HG). rewrite sum_over_flat_map.
    destruct x as [c [k sp]]. unfold index1 in *. cbn [indices fst creator] in *.
    destruct c.
    - rewrite <- (graph_sum_in lat N HG (fun i => F (L ++ move (@mkOp hub true (k, sp)) i :: R)) k Hx).
      rewrite <- sum_over_mul_l. apply sum_over_ext. intros i Hi. apply Zseq_in in Hi. change (site N i) in Hi.
      rewrite sum_over_flat_map, <- sum_over_mul_l. apply sum_over_ext. intros j Hj.
      assert (Hsj : site N j) by (apply (g_range _ _ HG i j Hi Hj)).
      rewrite sum_over_map, !sum_over_cons, sum_over_nil. cbn [prefactor operators]. rewrite !cw1_bil.
      rewrite !d_compat by assumption. unfold compat, cdelta, spin_of, move, index1. cbn [hop creator indices fst snd negb Bool.eqb andb].
      rewrite (delta_sym k j). destruct sp; cbn [Bool.eqb andb]; unfold hop, spin_of; cbn [indices snd]; cbv beta; ring.
    - rewrite <- (graph_sum_out lat N (fun i => F (L ++ move (@mkOp hub false (k, sp)) i :: R)) k Hx).
      rewrite <- sum_over_mul_l. apply sum_over_ext. intros i Hi. apply Zseq_in in Hi. change (site N i) in Hi.
      rewrite sum_over_flat_map, <- sum_over_mul_l. apply sum_over_ext. intros j Hj.
      assert (Hsj : site N j) by (apply (g_range _ _ HG i j Hi Hj)).
      rewrite sum_over_map, !sum_over_cons, sum_over_nil. cbn [prefactor operators]. rewrite !cw1_bil.
      rewrite !d_compat by assumption. unfold compat, cdelta, spin_of, move, index1. cbn [hop creator indices fst snd negb Bool.eqb andb].
      destruct sp; cbn [Bool.eqb andb]; unfold hop, spin_of; cbn [indices snd]; cbv beta; ring.
  Qed.
  (** splitting over a word for any Hamiltonian *)
  Lemma cw_cons (H : list (term hub K)) L x W R :
    sum_over (fun h => prefactor h * cw1 (operators h) L (x :: W) R) H =
    sum_over (fun h => prefactor h * cw1 (operators h) L [x] (W ++ R)) H +
    sum_over (fun h => prefactor h * cw1 (operators h) (L ++ [x]) W R) H.
  Proof. rewrite <- sum_over_add. apply sum_over_ext. intros h _. rewrite cw1_cons. ring. Qed.

  Local Notation nb := (lat_neighbors lat).
  Lemma kin_1 i : site N i -> sum_over (fun h => prefactor h * cw1 (operators h) [] [hop true i true] []) (H_kin lat J) =
    - J * sum_over (fun j => F [hop true j true]) (nb i).
  Proof. intros Hi. rewrite kin_cw by exact Hi. reflexivity. Qed.
  Lemma kin_3 i0 i1 i2 : site N i0 -> site N i1 -> site N i2 ->
    sum_over (fun h => prefactor h * cw1 (operators h) [] [hop true i0 true; hop true i1 false; hop false i2 false] []) (H_kin lat J) =
    - J * sum_over (fun j => F [hop true j true; hop true i1 false; hop false i2 false]) (nb i0)
    + - J * sum_over (fun j => F [hop true i0 true; hop true j false; hop false i2 false]) (nb i1)
    + J * sum_over (fun j => F [hop true i0 true; hop true i1 false; hop false j false]) (nb i2).
  Proof.
    intros H0 H1 H2. rewrite cw_cons, (cw_cons _ _ (hop true i1 false)). cbn [app]. rewrite !kin_cw by assumption.
    cbn [creator hop]. unfold index1. cbn [indices fst]. unfold move, spin_of, hop. cbn [creator indices fst snd app]. ring.
  Qed.
  Local Notation E1 i := (terms_elem (K := K) mode (B1 i) s t).
  Local Notation E3 i j k := (terms_elem (K := K) mode (B3 i j k) s t).
  Lemma E1_eq i : E1 i = F [hop true i true].
  Proof. unfold terms_elem, B1, term_elem. rewrite sum_over_cons, sum_over_nil. cbn [prefactor operators]. ring. Qed.
  Lemma E3_eq i j k : E3 i j k = (1 + 1) * F [hop true i true; hop true j false; hop false k false] - delta j k * F [hop true i true].
  Proof. unfold terms_elem, B3, term_elem. rewrite !sum_over_cons, sum_over_nil. cbn [prefactor operators]. ring. Qed.
  Lemma kin_B1 i : site N i -> comm_elem mode (H_kin lat J) (B1 i) s t = sum_over (fun j => - J * E1 j) (nb i).
  Proof.
    intros Hi. rewrite comm_elem_cw. unfold B1 at 1. rewrite sum_over_cons, sum_over_nil. cbn [prefactor operators].
    rewrite kin_1 by exact Hi. rewrite sum_over_mul_l.
    rewrite (sum_over_ext _ (fun j => E1 j) (fun j => F [hop true j true])) by (intros; apply E1_eq). ring.
  Qed.
  Lemma sum_delta_nb (c : K) j k : site N j -> site N k ->
    sum_over (fun x => delta x k * c) (nb j) = sum_over (fun x => delta j x * c) (nb k).
  Proof.
    intros Hj Hk. rewrite (sum_over_ext _ (fun x => delta j x * c) (fun x => delta x j * c)) by (intros; rewrite delta_sym; reflexivity).
    rewrite !(sum_delta (fun _ => c)) by (apply (g_nodup _ _ HG); assumption).
    destruct (existsb (Z.eqb k) (nb j)) eqn:A, (existsb (Z.eqb j) (nb k)) eqn:B; try reflexivity; exfalso.
    - apply existsb_exists in A as (x & Hx & Ex). apply Z.eqb_eq in Ex. subst x. apply (g_sym _ _ HG j k Hj) in Hx.
      assert (existsb (Z.eqb j) (nb k) = true) by (apply existsb_exists; exists j; split; [exact Hx|apply Z.eqb_refl]). congruence.
    - apply existsb_exists in B as (x & Hx & Ex). apply Z.eqb_eq in Ex. subst x. apply (g_sym _ _ HG k j Hk) in Hx.
      assert (existsb (Z.eqb k) (nb j) = true) by (apply existsb_exists; exists k; split; [exact Hx|apply Z.eqb_refl]). congruence.
  Qed.
  Lemma kin_B3 i0 i1 i2 : site N i0 -> site N i1 -> site N i2 ->
    comm_elem mode (H_kin lat J) (B3 i0 i1 i2) s t =
    sum_over (fun j => - J * E3 j i1 i2) (nb i0) + sum_over (fun j => - J * E3 i0 j i2) (nb i1)
    + sum_over (fun j => J * E3 i0 i1 j) (nb i2).
  Proof.
    intros H0 H1 H2. rewrite comm_elem_cw. unfold B3 at 1. rewrite !sum_over_cons, sum_over_nil. cbn [prefactor operators].
    rewrite kin_3, kin_1 by assumption. rewrite !sum_over_mul_l.
    rewrite (sum_over_ext _ (fun j => E3 j i1 i2) (fun j => (1 + 1) * F [hop true j true; hop true i1 false; hop false i2 false] - delta i1 i2 * F [hop true j true])) by (intros; apply E3_eq).
    rewrite (sum_over_ext _ (fun j => E3 i0 j i2) (fun j => (1 + 1) * F [hop true i0 true; hop true j false; hop false i2 false] - delta j i2 * F [hop true i0 true])) by (intros; apply E3_eq).
    rewrite (sum_over_ext _ (fun j => E3 i0 i1 j) (fun j => (1 + 1) * F [hop true i0 true; hop true i1 false; hop false j false] - delta i1 j * F [hop true i0 true])) by (intros; apply E3_eq).
    rewrite !sum_over_sub, !sum_over_mul_l. rewrite (sum_delta_nb _ i1 i2) by assumption. ring.
  Qed.

  (** ** interaction *)
  Variable half : K.
  Hypothesis Hhalf : half + half = 1.
  Definition num (k : Z) (sp : bool) : list (op hub) := [hop true k sp; hop false k sp].
  Lemma num_cw k sp L x R : site N k -> site N (index1 x) ->
    cw1 (num k sp) L [x] R =
    (if Bool.eqb sp (spin_of x) then (if creator x then delta k (index1 x) else - delta k (index1 x)) else 0) * F (L ++ x :: R).
  Proof.
    intros Hk Hx. unfold num. rewrite cw1_bil, !d_compat by assumption.
    destruct x as [c [i sx]]. unfold compat, cdelta, index1, spin_of. cbn [hop creator indices fst snd negb].
    destruct c; cbn [Bool.eqb andb negb]; destruct (Bool.eqb sp sx) eqn:E; try ring.
    - apply eqb_prop in E. subst sx. rewrite (delta_sym i k). unfold delta. destruct (Z.eqb_spec k i) as [->|]; [change (@mkOp hub true (i, sp)) with (hop true i sp); ring|ring].
    - apply eqb_prop in E. subst sx. unfold delta. destruct (Z.eqb_spec k i) as [->|]; [change (@mkOp hub false (i, sp)) with (hop false i sp); ring|ring].
  Qed.
  Lemma sum_delta_site (c : K) i : site N i -> sum_over (fun k => delta k i * c) (Zseq N) = c.
  Proof.
    intros Hi. rewrite (sum_delta (fun _ => c)) by apply Zseq_nodup.
    replace (existsb (Z.eqb i) (Zseq N)) with true; [reflexivity|]. symmetry. apply existsb_exists. exists i.
    split; [apply Zseq_in; exact Hi|apply Z.eqb_refl].
  Qed.
  (** the particle number of a word *)
  Definition charge (w : list (op hub)) : K := sum_over (fun x => if creator x then 1 else - (1)) w.
  Lemma number_cw L W R : on_sites N W ->
    sum_over (fun k => cw1 (num k true) L W R + cw1 (num k false) L W R) (Zseq N) = charge W * F (L ++ W ++ R).
  Proof.
    revert L. induction W as [|x W IH]; intros L HW.
    - rewrite sum_over_zero by (intros; rewrite !cw1_nil; ring). unfold charge. rewrite sum_over_nil. ring.
    - inversion HW; subst.
      rewrite (sum_over_ext _ _ (fun k => (cw1 (num k true) L [x] (W ++ R) + cw1 (num k false) L [x] (W ++ R))
                 + (cw1 (num k true) (L ++ [x]) W R + cw1 (num k false) (L ++ [x]) W R))).
      2:{ intros k _. rewrite !(cw1_cons _ L x W R). ring. }
      rewrite sum_over_add, IH by assumption. unfold charge. rewrite sum_over_cons.
      rewrite (sum_over_ext _ _ (fun k => delta k (index1 x) * ((if creator x then 1 else - (1)) * F (L ++ x :: W ++ R)))).
      + rewrite sum_delta_site by assumption. rewrite <- !app_assoc. cbn [app]. ring.
      + intros k Hk. apply Zseq_in in Hk. rewrite !num_cw by assumption. destruct (spin_of x), (creator x); cbn [Bool.eqb]; ring.
  Qed.
  Definition dbl (k : Z) : list (op hub) := [hop true k true; hop false k true; hop true k false; hop false k false].
  (** H_int = U sum_k (particle-hole symmetric part + numbers/2 + constant) *)
  Lemma int_split (U : K) B : Forall (fun b => on_sites N (operators b)) B ->
    (forall b, In b B -> charge (operators b) = 1) ->
    comm_elem mode (H_int lat U) B s t =
    U * half * terms_elem mode B s t + sum_over (fun k => U * comm_elem mode (Hph half k k k k) B s t) (Zseq N).
  Proof.
    intros HB Hc. rewrite comm_elem_cw. unfold terms_elem. rewrite <- sum_over_mul_l.
    rewrite (sum_over_ext _ (fun k => U * _) (fun k => sum_over (fun b => U * (prefactor b *
       sum_over (fun a => prefactor a * cw1 (operators a) [] (operators b) []) (Hph half k k k k))) B)).
    2:{ intros k _. rewrite comm_elem_cw, <- sum_over_mul_l. reflexivity. }
    rewrite sum_over_swap, <- sum_over_add. apply sum_over_ext. intros b Hb.
    assert (Sb : on_sites N (operators b)) by (eapply Forall_forall in HB; eauto).
    unfold H_int. rewrite (lat_size_N lat N HG), sum_over_map. cbn [prefactor operators].
    rewrite (sum_over_ext _ (fun k => U * (prefactor b * _)) (fun k => U * prefactor b * cw1 (dbl k) [] (operators b) []
       - U * prefactor b * half * (cw1 (num k true) [] (operators b) [] + cw1 (num k false) [] (operators b) []))).
    - rewrite sum_over_sub, !sum_over_mul_l, (number_cw [] (operators b) [] Sb), (Hc b Hb).
      unfold term_elem. cbn [app]. rewrite app_nil_r. fold dbl. unfold dbl. ring.
    - intros k _. unfold Hph. rewrite !sum_over_cons, sum_over_nil. cbn [prefactor operators]. fold (dbl k). fold (num k true). fold (num k false).
      unfold delta. rewrite Z.eqb_refl.
      assert (Z0 : cw1 [] [] (operators b) [] = 0) by (unfold cw1; cbn [app]; ring). rewrite Z0. ring.
  Qed.
  (** exact row of c+_i *)
  Lemma dbl_up k i L R : site N k -> site N i ->
    cw1 (dbl k) L [hop true i true] R = delta k i * F (L ++ hop true i true :: num i false ++ R).
  Proof.
    intros Hk Hi. unfold cw1, dbl. cbn [app].
    pose proof (bil_pass (hop true k false) (hop false k false) (hop true i true) (L ++ [hop true k true; hop false k true]) R) as P1.
    pose proof (bil_pass (hop true k true) (hop false k true) (hop true i true) L (hop true k false :: hop false k false :: R)) as P2.
    rewrite !d_compat in P1, P2 by assumption.
    unfold compat, cdelta, spin_of, index1 in P1, P2. cbn [hop creator indices fst snd negb Bool.eqb andb] in P1, P2.
    rewrite <- !app_assoc in P1. cbn [app] in P1. cbv beta in P1, P2.
    match goal with |- ?x - ?y = _ => match type of P1 with _ - ?m = _ => transitivity ((x - m) + (m - y)); [ring|] end end.
    rewrite P1, P2. rewrite (delta_sym i k). unfold delta. destruct (Z.eqb_spec k i) as [->|]; [|ring]. unfold num. cbn [app]. ring.
  Qed.
  Lemma int_B1 (U : K) i : site N i -> comm_elem mode (H_int lat U) (B1 i) s t = U * half * E1 i + U * half * E3 i i i.
  Proof.
    intros Hi. rewrite comm_elem_cw. unfold B1 at 1. rewrite sum_over_cons, sum_over_nil. cbn [prefactor operators].
    unfold H_int. rewrite (lat_size_N lat N HG), sum_over_map. cbn [prefactor operators].
    rewrite (sum_over_ext _ _ (fun k => delta k i * (U * F [hop true i true; hop true i false; hop false i false]))).
    - rewrite sum_delta_site by exact Hi. rewrite E1_eq, E3_eq. unfold delta. rewrite Z.eqb_refl.
      transitivity ((half + half) * U * F [hop true i true; hop true i false; hop false i false]); [rewrite Hhalf; ring|ring].
    - intros k Hk. apply Zseq_in in Hk. fold (dbl k). rewrite (dbl_up k i [] []) by assumption. unfold num. cbn [app]. ring.
  Qed.
  Lemma F_square L x R : F (L ++ x :: x :: R) = 0.
  Proof.
    pose proof (elem_car hub mode K s t L R x x) as H.
    assert (Hd : d x x = 0) by (unfold dF; destruct (creator x); reflexivity). rewrite Hd in H.
    transitivity ((half + half) * F (L ++ x :: x :: R)); [rewrite Hhalf; ring|].
    transitivity (half * (F (L ++ x :: x :: R) + F (L ++ x :: x :: R))); [ring|]. cbv beta. rewrite H. ring.
  Qed.
  Lemma num_idem L i R : site N i -> F (L ++ num i false ++ num i false ++ R) = F (L ++ num i false ++ R).
  Proof.
    intros Hi. unfold num. cbn [app].
    pose proof (elem_car hub mode K s t (L ++ [hop true i false]) (hop false i false :: R) (hop false i false) (hop true i false)) as H.
    rewrite d_compat in H by exact Hi. unfold compat, cdelta, spin_of, index1 in H. cbn [hop creator indices fst snd negb Bool.eqb andb] in H.
    rewrite <- !app_assoc in H. cbn [app] in H. unfold delta in H. rewrite Z.eqb_refl in H. fold (hop true i false) (hop false i false) in H.
    pose proof (F_square L (hop true i false) (hop false i false :: hop false i false :: R)) as S0. cbv beta in S0.
    rewrite S0 in H. transitivity (1 * F (L ++ hop true i false :: hop false i false :: R)); [|ring]. rewrite <- H. ring.
  Qed.
  Lemma dbl_down k i L x R : site N k -> site N i ->
    cw1 (dbl k) L [hop x i false] R = (if x then delta k i else - delta k i) * F (L ++ num i true ++ hop x i false :: R).
  Proof.
    intros Hk Hi. unfold cw1, dbl. cbn [app].
    pose proof (bil_pass (hop true k false) (hop false k false) (hop x i false) (L ++ [hop true k true; hop false k true]) R) as P1.
    pose proof (bil_pass (hop true k true) (hop false k true) (hop x i false) L (hop true k false :: hop false k false :: R)) as P2.
    rewrite !d_compat in P1, P2 by assumption.
    unfold compat, cdelta, spin_of, index1 in P1, P2. cbn [hop creator indices fst snd negb] in P1, P2.
    rewrite <- !app_assoc in P1. cbn [app] in P1. cbv beta in P1, P2.
    match goal with |- ?x - ?y = _ => match type of P1 with _ - ?m = _ => transitivity ((x - m) + (m - y)); [ring|] end end.
    rewrite P1, P2. destruct x; cbn [negb Bool.eqb andb]; rewrite ?(delta_sym i k); unfold delta; (destruct (Z.eqb_spec k i) as [->|]; [|ring]); unfold num; cbn [app]; ring.
  Qed.
  Lemma int_Biii (U : K) i : site N i -> comm_elem mode (H_int lat U) (B3 i i i) s t = U * half * E3 i i i + U * half * E1 i.
  Proof.
    intros Hi. rewrite comm_elem_cw. unfold B3 at 1. rewrite !sum_over_cons, sum_over_nil. cbn [prefactor operators].
    unfold H_int. rewrite (lat_size_N lat N HG), !sum_over_map. cbn [prefactor operators].
    rewrite (sum_over_ext _ (fun x => U * cw1 _ [] [hop true i true; _; _] []) (fun k => delta k i * (U * F [hop true i true; hop true i false; hop false i false]))).
    2:{ intros k Hk. apply Zseq_in in Hk. fold (dbl k). rewrite cw1_cons, (cw1_cons _ _ (hop true i false)). cbn [app].
        rewrite dbl_up, !dbl_down by assumption. unfold num. cbn [app].
        pose proof (num_idem [hop true i true] i [] Hi) as Id. unfold num in Id. cbn [app] in Id. rewrite Id.
        pose proof (F_square [] (hop true i true) [hop false i true; hop true i false; hop false i false]) as S0. cbn [app] in S0. rewrite S0.
        assert (S1 : F [hop true i true; hop true i false; hop true i true; hop false i true; hop false i false] = 0).
        { pose proof (elem_car hub mode K s t [hop true i true] [hop false i true; hop false i false] (hop true i false) (hop true i true)) as H.
          rewrite d_compat in H by exact Hi. cbn in H. pose proof (F_square [] (hop true i true) [hop true i false; hop false i true; hop false i false]) as S2.
          cbn [app] in S2. unfold hop in *. rewrite S2 in H.
          transitivity (0 * elem (K := K) mode [@mkOp hub true (i, true); @mkOp hub false (i, true); @mkOp hub false (i, false)] s t); [|ring].
          rewrite <- H. ring. }
        rewrite S1. ring. }
    rewrite (sum_over_ext _ (fun x => U * cw1 _ [] [hop true i true] []) (fun k => delta k i * (U * F [hop true i true; hop true i false; hop false i false]))).
    2:{ intros k Hk. apply Zseq_in in Hk. fold (dbl k). rewrite (dbl_up k i [] []) by assumption. unfold num. cbn [app]. ring. }
    rewrite !sum_delta_site by exact Hi. rewrite E1_eq, E3_eq. unfold delta. rewrite Z.eqb_refl.
    transitivity ((half + half) * U * F [hop true i true; hop true i false; hop false i false]); [rewrite Hhalf; ring|ring].
  Qed.
End Comm.
