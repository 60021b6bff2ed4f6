(** PROOFS for C36: the equation of motion in the normal-ordered basis. *)
From Coq Require Import Sorting.Sorted ZifyBool.
From Verif Require Import Base Spec_Fock FockFacts M_Operator M_Lattice Spec_Lattice Pf_Lattice M_Basis Pf_Basis M_Matrix
  Spec_Algebra Pf_Algebra Pf_Commutator Spec_Matrix Pf_Matrix Pf_Matrix2 Pf_Trace Pf_Wick Pf_Liouville Pf_Projection Spec_NormalOrder.
Local Open Scope list_scope.
Section NormalPf.
  Context {K : StarRing} (ev : Z -> Z -> K).
  Local Open Scope ring_scope_.
  Add Ring KringNO : (rth K).
  Variable N : Z.
  Variable mode : hub -> nat.
  Hypothesis Hm : numbers_orbitals mode N.
  Variables s t : BinNums.N.
  Local Notation F := (fun w => elem (K := K) mode w s t).
  Local Notation TE l := (terms_elem (K := K) mode l s t).
  Lemma TE_app a b : TE (a ++ b) = TE a + TE b.
  Proof. unfold terms_elem. apply sum_over_app. Qed.
  Lemma TE_nil : TE [] = 0. Proof. reflexivity. Qed.
  Lemma TE_cons x l : TE (x :: l) = prefactor x * F (operators x) + TE l.
  Proof. unfold terms_elem. rewrite sum_over_cons. reflexivity. Qed.
  Lemma TE_scale c l : TE (scale_terms c l) = c * TE l.
  Proof.
    unfold scale_terms, terms_elem. rewrite sum_over_map, <- sum_over_mul_l. apply sum_over_ext. intros x _. unfold term_elem. cbn [prefactor operators]. ring.
  Qed.
  (** exchanging neighbours *)
  Lemma ex_free L R x y : site N (index1 x) -> site N (index1 y) -> compat x y = false -> F (L ++ x :: y :: R) = - F (L ++ y :: x :: R).
  Proof.
    intros Hx Hy Hc. pose proof (elem_car hub mode K s t L R x y) as H. rewrite (d_compat N mode Hm x y Hx Hy), Hc in H.
    transitivity ((F (L ++ x :: y :: R) + F (L ++ y :: x :: R)) - F (L ++ y :: x :: R)); [ring|]. cbv beta. rewrite H. ring.
  Qed.
  Lemma ex_hole L R sp i j : site N i -> site N j -> F (L ++ hop false i sp :: hop true j sp :: R) = delta i j * F (L ++ R) - F (L ++ hop true j sp :: hop false i sp :: R).
  Proof.
    intros Hi Hj. pose proof (elem_car hub mode K s t L R (hop false i sp) (hop true j sp)) as H.
    rewrite (d_compat N mode Hm) in H by assumption. unfold compat, cdelta, spin_of, index1 in H. cbn [hop creator indices fst snd negb Bool.eqb] in H.
    rewrite eqb_reflx in H. cbn [andb] in H. rewrite (delta_sym j i) in H. cbv beta. fold (hop false i sp) (hop true j sp) in H. rewrite <- H. ring.
  Qed.
  Ltac fold_hops := repeat match goal with
    | |- context [@mkOp hub true (?i, true)] => change (@mkOp hub true (i, true)) with (cu i)
    | |- context [@mkOp hub false (?i, true)] => change (@mkOp hub false (i, true)) with (au i)
    | |- context [@mkOp hub true (?i, false)] => change (@mkOp hub true (i, false)) with (cd i)
    | |- context [@mkOp hub false (?i, false)] => change (@mkOp hub false (i, false)) with (ad i)
    end.
  Ltac expand := cbn [outside normal map flat_map contract app scale_terms operators prefactor contraction index1 cu au cd ad hop creator indices fst snd Bool.eqb];
    fold_hops; rewrite ?TE_cons, ?TE_nil; cbn [operators prefactor]; cbv beta.
  Lemma E3_normal i j k : TE (normal ev [cu i; cd j; ad k]) = F [cu i; cd j; ad k] - ev j k * F [cu i].
  Proof. expand. cbv beta. ring. Qed.
  Lemma E1_normal i : TE (normal ev [cu i]) = F [cu i].
  Proof. expand. cbv beta. ring. Qed.
  Section Three.
  Variables i j k : Z.
  Hypotheses (Hi : site N i) (Hj : site N j) (Hk : site N k).
  (** the three parts of the commutator *)
  Lemma part1 : F [cu i; cd j; ad k; cd i; ad i] = TE (normal ev [cu i; cd j; ad k; cd i; ad i])
    + ev j k * TE (normal ev [cu i; cd i; ad i]) + ev i i * TE (normal ev [cu i; cd j; ad k])
    - ev j i * TE (normal ev [cu i; cd i; ad k]) + hole ev k i * TE (normal ev [cu i; cd j; ad i])
    + (ev j k * ev i i + ev j i * hole ev k i) * F [cu i].
  Proof.
    rewrite !E3_normal. expand.
    pose proof (ex_hole [cu i] [] false k i Hk Hi) as X. cbn [app] in X. unfold cu, ad, cd in *. cbv beta in X. rewrite X. unfold hole. ring.
  Qed.
  Lemma part2 m : site N m -> F [cu m; au m; cu i; cd j; ad k] = TE (normal ev [cu m; au m; cu i; cd j; ad k])
    + ev j k * TE (normal ev [cu m; au m; cu i]) + ev m m * TE (normal ev [cu i; cd j; ad k])
    + hole ev m i * TE (normal ev [cu m; cd j; ad k])
    + ev j k * (ev m m * F [cu i] + hole ev m i * F [cu m]).
  Proof. intros Hmm. rewrite !E3_normal. expand. ring. Qed.
  (** the commutator with one doubly-occupied-site operator *)
  Lemma reorder1 : F [cu i; cd i; ad i; cd j; ad k] = F [cu i; cd j; ad k; cd i; ad i] + (delta i j - delta i k) * F [cu i; cd j; ad k].
  Proof.
    pose proof (cw1_cons (K:=K) mode s t (num i false) [cu i] (cd j) [ad k] []) as X.
    rewrite !(num_cw N mode Hm) in X by assumption. unfold cw1, num, spin_of, index1 in X. cbn [app cd ad cu hop creator indices fst snd Bool.eqb] in X. 
    unfold cu, cd, ad, hop in *. cbv beta in *.
    match type of X with ?a - ?b = _ => transitivity ((a - b) + b); [ring|] end. rewrite X. ring.
  Qed.
  Lemma reorder2 m : site N m -> F [cu i; cu m; au m; cd j; ad k] = F [cu m; au m; cu i; cd j; ad k] - delta m i * F [cu i; cd j; ad k].
  Proof.
    intros Hmm. pose proof (num_cw (K:=K) N mode Hm s t m true [] (cu i) [cd j; ad k] Hmm Hi) as X.
    unfold cw1, num, spin_of, index1 in X. cbn [app cd ad cu hop creator indices fst snd Bool.eqb] in X. unfold cu, cd, ad, au, hop in *. cbv beta in *.
    match type of X with ?a - ?b = _ => transitivity (a - (a - b)); [ring|] end. rewrite X. ring.
  Qed.
  Lemma reorder3 : F [cu i; cd j; cu k; au k; ad k] = F [cu k; au k; cu i; cd j; ad k] - delta k i * F [cu i; cd j; ad k].
  Proof.
    pose proof (reorder2 k Hk) as Y. cbv beta in *. rewrite <- Y. clear Y. pose proof (num_cw (K:=K) N mode Hm s t k true [cu i] (cd j) [ad k] Hk Hj) as X.
    unfold cw1, num, spin_of, index1 in X. cbn [app cd ad cu hop creator indices fst snd Bool.eqb] in X. unfold cu, cd, ad, au, hop in *. cbv beta in *.
    match type of X with ?a - ?b = _ => transitivity (a - (a - b)); [ring|] end. rewrite X. ring.
  Qed.
  Variable lat : lattice.
  Hypothesis HG : graph lat N.
  Variables U J : K.
  Lemma int_1 x : site N x -> sum_over (fun h => prefactor h * cw1 mode s t (operators h) [] [cu x] []) (H_int lat U) = U * F [cu x; cd x; ad x].
  Proof.
    intros Hx. unfold H_int. rewrite (lat_size_N lat N HG), sum_over_map. cbn [prefactor operators].
    rewrite (sum_over_ext _ _ (fun m => delta m x * (U * F [cu x; cd x; ad x]))).
    - apply (sum_delta_site N). exact Hx.
    - intros m Hmm. apply Zseq_in in Hmm. fold (dbl m). unfold cu at 1. rewrite (dbl_up N mode Hm) by assumption. unfold num. cbn [app]. unfold cu, cd, ad. ring.
  Qed.
  Lemma int_3 : sum_over (fun h => prefactor h * cw1 mode s t (operators h) [] [cu i; cd j; ad k] []) (H_int lat U) =
    U * (F [cu i; cd j; ad k; cd i; ad i] + F [cu j; au j; cu i; cd j; ad k] - F [cu k; au k; cu i; cd j; ad k]).
  Proof.
    unfold H_int. rewrite (lat_size_N lat N HG), sum_over_map. cbn [prefactor operators].
    rewrite (sum_over_ext _ _ (fun m => delta m i * (U * F [cu i; cd i; ad i; cd j; ad k]) + delta m j * (U * F [cu i; cu j; au j; cd j; ad k])
       + delta m k * (- (U * F [cu i; cd j; cu k; au k; ad k])))).
    - rewrite !sum_over_add, !(sum_delta_site N) by assumption. rewrite reorder1, (reorder2 j Hj), reorder3.
      rewrite (delta_sym i j), (delta_sym i k). cbv beta. ring.
    - intros m Hmm. apply Zseq_in in Hmm. fold (dbl m). rewrite cw1_cons, (cw1_cons _ _ _ _ _ (cd j)). cbn [app].
      unfold cu at 1, cd at 2, ad at 3. rewrite (dbl_up N mode Hm), !(dbl_down N mode Hm) by assumption. unfold num. cbn [app]. unfold cu, cd, ad, au. ring.
  Qed.
  Lemma equation_of_motion : stationary ev lat N ->
    comm_elem mode (H_kin lat J ++ H_int lat U) (normal ev [cu i; cd j; ad k]) s t =
    sum_over (fun x => - J * TE (normal ev [cu x; cd j; ad k])) (lat_neighbors lat i)
    + sum_over (fun x => - J * TE (normal ev [cu i; cd x; ad k])) (lat_neighbors lat j)
    + sum_over (fun x => J * TE (normal ev [cu i; cd j; ad x])) (lat_neighbors lat k)
    + U * ((ev j i * hole ev k i + ev j k * (ev j j - ev k k)) * F [cu i] + hole ev j i * ev j k * F [cu j] - hole ev k i * ev j k * F [cu k]
         + (ev i i + ev j j - ev k k) * TE (normal ev [cu i; cd j; ad k])
         - ev j i * TE (normal ev [cu i; cd i; ad k]) + hole ev k i * TE (normal ev [cu i; cd j; ad i])
         + hole ev j i * TE (normal ev [cu j; cd j; ad k]) - hole ev k i * TE (normal ev [cu k; cd j; ad k]))
    + U * TE (outside ev i j k).
  Proof.
    intros Hst.
    assert (C : forall A, comm_elem mode A (normal ev [cu i; cd j; ad k]) s t =
      sum_over (fun h => prefactor h * cw1 mode s t (operators h) [] [cu i; cd j; ad k] []) A
      - ev j k * sum_over (fun h => prefactor h * cw1 mode s t (operators h) [] [cu i] []) A).
    { intros A. rewrite comm_elem_cw. cbn [normal map flat_map contract app scale_terms operators prefactor contraction index1 cu au cd ad hop creator indices fst snd Bool.eqb].
      rewrite !sum_over_cons, sum_over_nil. cbn [prefactor operators]. fold_hops. cbv beta. ring. }
    rewrite comm_app, !C. rewrite int_3, (int_1 i Hi). unfold cu at 1 2, cd at 1, ad at 1.
    rewrite (kin_3 N mode Hm s t lat HG J), (kin_1 N mode Hm s t lat HG J) by assumption.
    rewrite part1, !part2 by assumption. unfold outside. rewrite !TE_app, !TE_scale.
    pose proof (Hst j k Hj Hk) as Q. 
    rewrite !sum_over_mul_l.
    rewrite (sum_over_ext _ (fun x => TE (normal ev [cu x; cd j; ad k])) (fun x => F [cu x; cd j; ad k] - ev j k * F [cu x])) by (intros; apply E3_normal).
    rewrite (sum_over_ext _ (fun x => TE (normal ev [cu i; cd x; ad k])) (fun x => F [cu i; cd x; ad k] - ev x k * F [cu i])) by (intros; apply E3_normal).
    rewrite (sum_over_ext _ (fun x => TE (normal ev [cu i; cd j; ad x])) (fun x => F [cu i; cd j; ad x] - ev j x * F [cu i])) by (intros; apply E3_normal).
    rewrite !sum_over_sub, !sum_over_mul_l.
    rewrite !sum_over_mul_r, Q. change (fun b' => ev j b') with (ev j).
    rewrite (E3_normal i i i). unfold cu, cd, ad. cbv beta. ring.
  Qed.
  End Three.
End NormalPf.
