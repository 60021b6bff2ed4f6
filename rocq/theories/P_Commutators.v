(** THEOREMS: C81 (the commutator programs). *)
From Coq Require Import Ascii String.
From Verif Require Import Base Spec_Fock M_Operator M_Commutator Spec_Algebra Pf_Algebra Pf_Algebra2 P_Algebra2 M_Text M_Io M_Print M_Basis M_Lattice Spec_Matrix M_Commutators Spec_Commutators.
Local Open Scope list_scope.

(** ** The loop over the Hamiltonian *)
Section Block.
  Context {K : StarRing} (order : spre K -> spre K).
  Hypothesis Hord : forall p, order_kroneckers_result p (order p).
  Local Open Scope ring_scope_.
  Add Ring KringCo : (rth K).
  Lemma commutate_app symne (a b : sterm K) c : commutate_sym symne a b c = c ++ commutate_sym symne a b [].
  Proof. reflexivity. Qed.
  Lemma fold_comm symne t : forall hs c, fold_left (fun comm h => commutate_sym symne h t comm) hs c = c ++ flat_map (fun h : sterm K => commutate_sym symne h t []) hs.
  Proof.
    induction hs as [|h hs IH]; intros c; cbn [fold_left flat_map]; [rewrite app_nil_r; reflexivity|].
    rewrite IH, commutate_app, <- app_assoc. reflexivity.
  Qed.
  Lemma sum_flat {A B} (f : B -> K) (g : A -> list B) : forall l, sum_over f (flat_map g l) = sum_over (fun x => sum_over f (g x)) l.
  Proof. induction l as [|x l IH]; cbn [flat_map]; [reflexivity|]. rewrite sum_over_app, IH. reflexivity. Qed.
  Lemma order_elem mode v l s t : sym_terms_elem mode v (map (fun x : sterm K => mkTerm (order (prefactor x)) (operators x)) l) s t = sym_terms_elem mode v l s t.
  Proof.
    unfold sym_terms_elem. rewrite sum_over_map. apply sum_over_ext. intros x _. cbn [prefactor operators].
    rewrite (order_kroneckers_val K v (prefactor x) (order (prefactor x)) (Hord _)). reflexivity.
  Qed.
End Block.
(** symbols occurring in operators *)
Definition symbols (ops : list sop) : list symbol :=
  flat_map (fun o : sop => flat_map (fun i => match i with Sym s => [s] | Con _ => [] end) (indices o)) ops.
Section Ext.
  Context {K : StarRing}.
  Variables (f g : symbol -> symbol -> bool).
  Lemma helper_ext : forall a b (p : spre K), (forall x y, In (Sym x) a -> In (Sym y) b -> f x y = g x y) ->
    anticommutator_helper f a b p = anticommutator_helper g a b p.
  Proof.
    induction a as [|i a IH]; intros b p H; cbn; [reflexivity|].
    destruct b as [|j b]; [destruct i; reflexivity|].
    assert (H' : forall x y, In (Sym x) a -> In (Sym y) b -> f x y = g x y) by (intros; apply H; right; assumption).
    destruct i as [x|x], j as [y|y]; rewrite IH by exact H'; try reflexivity.
    rewrite (H x y) by (left; reflexivity). reflexivity.
  Qed.
  Lemma in_symbols (o : sop) ops x : In o ops -> In (Sym x) (indices o) -> In x (symbols ops).
  Proof. intros Ho Hx. apply in_flat_map. exists o. split; [exact Ho|]. apply in_flat_map. exists (Sym x). split; [exact Hx|left; reflexivity]. Qed.
  Lemma commutate_ext (a b : sterm K) c : (forall x y, In x (symbols (operators a)) -> In y (symbols (operators b)) -> f x y = g x y) ->
    commutate_sym f a b c = commutate_sym g a b c.
  Proof.
    intros H. unfold commutate_sym, commutate_release. f_equal. apply flat_map_ext. intros k. apply flat_map_ext. intros l.
    unfold comm_body. destruct (nth_error (operators a) (k - 1)) as [x|] eqn:E1; [|reflexivity]. destruct (nth_error (operators b) (l - 1)) as [y|] eqn:E2; [|reflexivity].
    destruct (anticommutates_sym x y); [reflexivity|]. unfold anticommutator_sym. rewrite helper_ext; [reflexivity|].
    intros u w Hu Hw. apply H; [apply (in_symbols x)|apply (in_symbols y)]; auto; eapply nth_error_In; eassumption.
  Qed.
End Ext.
Definition sound_addresses {K} (a b : sterm K) : Prop :=
  forall x y, In x (symbols (operators a)) -> In y (symbols (operators b)) -> sym_addr x = sym_addr y -> sym_name x = sym_name y.
Theorem C81_block : forall (K : StarRing) (order : spre K -> spre K), (forall p, order_kroneckers_result p (order p)) ->
  forall kinds (hs : list (list sop)) (ops : list sop),
  Forall (ops_typed kinds) hs -> ops_typed kinds ops ->
  Forall (fun h => Nat.even (length h * length ops) = true) hs ->
  (forall h, In h hs -> sound_addresses (K := K) (unit_term h) (unit_term ops)) ->
  forall (v : string -> Z) (mode : list Z -> nat), injective mode -> forall s t,
  sym_terms_elem mode v (block order (map unit_term hs) (unit_term ops)) s t = sym_comm_elem mode v hs ops s t.
Proof.
  intros K order Ho kinds hs ops Th Tt Ev Sa v mode inj s t. unfold block. rewrite order_elem, fold_comm by exact Ho. cbn [app].
  unfold sym_terms_elem. rewrite sum_flat, sum_over_map. unfold sym_comm_elem. apply sum_over_ext. intros h Hh.
  rewrite Forall_forall in Th, Ev.
  set (g := fun x y => (pointers_differ x y || negb (String.eqb (sym_name x) (sym_name y)))%bool).
  rewrite (commutate_ext pointers_differ g).
  2: { intros x y Hx Hy. unfold g. destruct (pointers_differ x y) eqn:E; [reflexivity|]. cbn [orb]. unfold pointers_differ in E.
       apply negb_false_iff, Z.eqb_eq in E. rewrite (Sa h Hh x y Hx Hy E), String.eqb_refl. reflexivity. }
  destruct (C10_symbolic_commutator K v mode inj g) with (kinds := kinds) (a := unit_term (K := K) h) (b := unit_term (K := K) ops) (c := @nil (sterm K)) as (new & En & H).
  - intros x y Hg. unfold g in Hg. apply orb_false_iff in Hg as [_ Hg]. apply negb_false_iff, String.eqb_eq in Hg. exact Hg.
  - apply Th, Hh.
  - exact Tt.
  - apply Ev, Hh.
  - cbn [app] in En. subst new. specialize (H s t). unfold sym_terms_elem in H. etransitivity; [exact H|]. unfold unit_term, sp_val. cbn [prefactor operators sp_value sp_kr krs_val fold_right].
    rewrite !(Rmul_1_l (rth K)). reflexivity.
Qed.
Print Assumptions C81_block.

(** ** The printed terms of the two programs are the commutators *)
Section Lits.
  Variables (literals : list string) (addr : nat -> Z).
  Hypothesis Hs : sane literals addr.
  Definition legal (x : symbol) : Prop := exists n, (n < length literals)%nat /\ x = symbol_at addr literals n.
  Lemma legal_sound {K} (a b : sterm K) : Forall legal (symbols (operators a)) -> Forall legal (symbols (operators b)) -> sound_addresses a b.
  Proof.
    intros La Lb x y Hx Hy E. rewrite Forall_forall in La, Lb. destruct (La x Hx) as (i & Li & ->). destruct (Lb y Hy) as (j & Lj & ->).
    unfold symbol_at in *. cbn [sym_addr sym_name] in *. apply Hs; assumption.
  Qed.
End Lits.
Ltac legal_ops := cbv [symbols operators unit_term flat_map indices cr an app];
  repeat (apply Forall_cons; [match goal with |- legal _ _ (symbol_at _ _ ?n) => exists n; split; [apply Nat.ltb_lt; reflexivity|reflexivity] end|]); apply Forall_nil.
Ltac one_block :=
  match goal with Ho : (forall p, order_kroneckers_result p _) |- sym_terms_elem _ _ _ _ _ = sym_comm_elem _ _ ?hs ?ops _ _ =>
    apply (C81_block _ _ Ho [true; false] hs ops);
    [repeat constructor|repeat constructor|repeat constructor| |assumption]
  end;
  let h := fresh in let Hh := fresh in
  intros h Hh; cbn [In] in Hh;
  repeat (destruct Hh as [<-|Hh]; [match goal with Hs : sane ?l ?a |- _ => apply (legal_sound l a Hs); legal_ops end|]); contradiction.
Theorem C81_programs : forall (K : StarRing) (order : spre K -> spre K), (forall p, order_kroneckers_result p (order p)) ->
  forall addr (v : string -> Z) (mode : list Z -> nat), injective mode -> forall s t,
  (sane rs_literals addr ->
   let L := rs_literals in let c n u := cr addr L n u in let a n u := an addr L n u in
   let hop := [[c 0 true; a 1 true]; [c 2 true; a 3 true]; [c 4 false; a 5 false]; [c 6 false; a 7 false]]%nat in
   let int := [[c 8 true; a 9 true; c 10 false; a 11 false]]%nat in
   let t1 := [c 12 true]%nat in let t2 := [c 13 true; c 14 false; a 15 false]%nat in
   sym_terms_elem mode v (rs_kin1 order addr L) s t = sym_comm_elem mode v hop t1 s t /\
   sym_terms_elem mode v (rs_int1 order addr L) s t = sym_comm_elem mode v int t1 s t /\
   sym_terms_elem mode v (rs_kin3 order addr L) s t = sym_comm_elem mode v hop t2 s t /\
   sym_terms_elem mode v (rs_int3 order addr L) s t = sym_comm_elem mode v int t2 s t) /\
  (sane ms_literals addr ->
   let L := ms_literals in let c n u := cr addr L n u in let a n u := an addr L n u in
   let hop := [[c 0 true; a 1 true]; [c 2 false; a 3 false]]%nat in
   let int := [[c 4 true; a 5 true; c 6 false; a 7 false]]%nat in
   let t1 := [c 8 true]%nat in let t2 := [c 9 true; c 10 false; a 11 false]%nat in
   sym_terms_elem mode v (ms_kin1 order addr L) s t = sym_comm_elem mode v hop t1 s t /\
   sym_terms_elem mode v (ms_int1 order addr L) s t = sym_comm_elem mode v int t1 s t /\
   sym_terms_elem mode v (ms_kin3 order addr L) s t = sym_comm_elem mode v hop t2 s t /\
   sym_terms_elem mode v (ms_int3 order addr L) s t = sym_comm_elem mode v int t2 s t).
Proof.
  intros K order Ho addr v mode inj s t. split; intros Sa; cbv zeta; repeat split; one_block.
Qed.
Print Assumptions C81_programs.

(** ** Summed over the lattice they are the commutators with the Hubbard terms *)
Section Lattice.
  Context {K : StarRing}.
  Local Open Scope ring_scope_.
  Add Ring KringCo2 : (rth K).
  Lemma op_mul_app (A A' B : list (term hub K)) : op_mul (A ++ A') B = op_mul A B ++ op_mul A' B.
  Proof. unfold op_mul. apply flat_map_app. Qed.
  Lemma comm_elem_app mode (A A' : list (term hub K)) x s t :
    comm_elem mode (A ++ A') [x] s t = comm_elem mode A [x] s t + comm_elem mode A' [x] s t.
  Proof.
    unfold comm_elem, terms_elem. rewrite op_mul_app, sum_over_app.
    assert (R : forall l, op_mul [x] l = map (fun b : term hub K => mkTerm (prefactor x * prefactor b) (operators x ++ operators b)) l)
      by (intros l; unfold op_mul; cbn [flat_map]; apply app_nil_r).
    rewrite !R, map_app, sum_over_app. ring.
  Qed.
  Lemma comm_elem_flat {A} mode (g : A -> list (term hub K)) x s t : forall l,
    comm_elem mode (flat_map g l) [x] s t = sum_over (fun b => comm_elem mode (g b) [x] s t) l.
  Proof.
    induction l as [|b l IH]; cbn [flat_map sum_over fold_right]; [unfold comm_elem, terms_elem; cbn; ring|].
    rewrite comm_elem_app, IH. reflexivity.
  Qed.
End Lattice.
Section Finish.
  Context {K : StarRing}.
  Add Ring KringCo3 : (rth K).
  Local Open Scope ring_scope_.
  Lemma fin1 (a b a1 : K) : b = a1 -> a - b + 0 = 1 * 1 * a + 0 - (1 * 1 * a1 + 0).
  Proof. intros ->. ring. Qed.
  Lemma fin2 (a b c d : K) : a - b + (c - d + 0) = 1 * 1 * a + (1 * 1 * c + 0) - (1 * 1 * b + (1 * 1 * d + 0)).
  Proof. ring. Qed.
  Lemma fin4 (a b c d e f g h : K) : a - b + (c - d + (e - f + (g - h + 0))) =
    1 * 1 * a + (1 * 1 * c + (1 * 1 * e + (1 * 1 * g + 0))) - (1 * 1 * b + (1 * 1 * d + (1 * 1 * f + (1 * 1 * h + 0)))).
  Proof. ring. Qed.
End Finish.
Ltac by_comm := unfold sym_comm_elem, comm_elem, terms_elem, term_elem, op_mul, sym_elem, elem, sym_ladders, ladders, orbital_of, hop, site_terms;
  cbn -[amp]; first [apply fin1; reflexivity|apply fin2|apply fin4].
Theorem C81_real_space : forall (K : StarRing) (order : spre K -> spre K), (forall p, order_kroneckers_result p (order p)) ->
  forall addr, sane rs_literals addr -> forall (mode : list Z -> nat), injective mode -> forall (w : string -> Z) s t,
  let one := [mkTerm (r1 : K) [hop true (w "ρ"%string) true]] in
  let three := [mkTerm (r1 : K) [hop true (w "ρ_1"%string) true; hop true (w "ρ_2"%string) false; hop false (w "ρ_3"%string) false]] in
  (forall bonds : list (Z * Z),
     sum_over (fun b => sym_terms_elem mode (at_bond w b) (rs_kin1 order addr rs_literals) s t) bonds
       = comm_elem (orbital_of mode) (bond_terms bonds) one s t /\
     sum_over (fun b => sym_terms_elem mode (at_bond w b) (rs_kin3 order addr rs_literals) s t) bonds
       = comm_elem (orbital_of mode) (bond_terms bonds) three s t) /\
  (forall sites : list Z,
     sum_over (fun i => sym_terms_elem mode (at_bond w (i, i)) (rs_int1 order addr rs_literals) s t) sites
       = comm_elem (orbital_of mode) (site_terms sites) one s t /\
     sum_over (fun i => sym_terms_elem mode (at_bond w (i, i)) (rs_int3 order addr rs_literals) s t) sites
       = comm_elem (orbital_of mode) (site_terms sites) three s t).
Proof.
  intros K order Ho addr Sa mode inj w s t one three.
  pose proof (fun v => Logic.proj1 (C81_programs K order Ho addr v mode inj s t) Sa) as P. cbv zeta in P.
  assert (St : forall sites, site_terms (K := K) sites = flat_map (fun i => site_terms [i]) sites)
    by (unfold site_terms; induction sites as [|i l IH]; cbn [map flat_map app]; [reflexivity|]; rewrite IH; reflexivity).
  split; [intros bonds; unfold bond_terms|intros sites; rewrite St]; unfold one, three; rewrite !comm_elem_flat; split; apply sum_over_ext; intros b _.
  - destruct (P (at_bond w b)) as (-> & _ & _ & _). by_comm.
  - destruct (P (at_bond w b)) as (_ & _ & -> & _). by_comm.
  - destruct (P (at_bond w (b, b))) as (_ & -> & _ & _). by_comm.
  - destruct (P (at_bond w (b, b))) as (_ & _ & _ & ->). by_comm.
Qed.
Print Assumptions C81_real_space.
Theorem C81_momentum_space : forall (K : StarRing) (order : spre K -> spre K), (forall p, order_kroneckers_result p (order p)) ->
  forall addr, sane ms_literals addr -> forall (mode : list Z -> nat), injective mode -> forall (w : string -> Z) s t,
  let one := [mkTerm (r1 : K) [hop true (w "q"%string) true]] in
  let three := [mkTerm (r1 : K) [hop true (w "q_1"%string) true; hop true (w "q_2"%string) false; hop false (w "q_3"%string) false]] in
  (forall ks : list Z,
     sum_over (fun k => sym_terms_elem mode (at_momentum w k) (ms_kin1 order addr ms_literals) s t) ks
       = comm_elem (orbital_of mode) (number_terms ks) one s t /\
     sum_over (fun k => sym_terms_elem mode (at_momentum w k) (ms_kin3 order addr ms_literals) s t) ks
       = comm_elem (orbital_of mode) (number_terms ks) three s t) /\
  (forall qs : list (Z * Z * Z * Z),
     sum_over (fun q => sym_terms_elem mode (at_momenta w q) (ms_int1 order addr ms_literals) s t) qs
       = comm_elem (orbital_of mode) (scattering_terms qs) one s t /\
     sum_over (fun q => sym_terms_elem mode (at_momenta w q) (ms_int3 order addr ms_literals) s t) qs
       = comm_elem (orbital_of mode) (scattering_terms qs) three s t).
Proof.
  intros K order Ho addr Sa mode inj w s t one three.
  pose proof (fun v => Logic.proj2 (C81_programs K order Ho addr v mode inj s t) Sa) as P. cbv zeta in P.
  assert (St : forall qs, scattering_terms (K := K) qs = flat_map (fun i => scattering_terms [i]) qs)
    by (unfold scattering_terms; induction qs as [|i l IH]; cbn [map flat_map app]; [reflexivity|]; rewrite IH; reflexivity).
  split; [intros ks; unfold number_terms|intros qs; rewrite St]; unfold one, three; rewrite !comm_elem_flat; split; apply sum_over_ext; intros b _.
  - destruct (P (at_momentum w b)) as (-> & _ & _ & _). by_comm.
  - destruct (P (at_momentum w b)) as (_ & _ & -> & _). by_comm.
  - destruct (P (at_momenta w b)) as (_ & -> & _ & _). destruct b as [[[b1 b2] b3] b4]. by_comm.
  - destruct (P (at_momenta w b)) as (_ & _ & _ & ->). destruct b as [[[b1 b2] b3] b4]. by_comm.
Qed.
Print Assumptions C81_momentum_space.

(** ** What is printed *)
Section Output.
  Context {K : StarRing} (eqK : K -> K -> bool) (show : K -> text) (order : spre K -> spre K).
  Hypothesis Hc : conforming eqK show.
  Hypothesis Ho : forall p, order_kroneckers_result p (order p).
  Local Open Scope ring_scope_.
  Add Ring KringCo4 : (rth K).
  Lemma order_one v k : order (mkSP v [k]) = mkSP v [kr_order k].
  Proof.
    destruct (Ho (mkSP v [k])) as [E [P _]]. cbn [sp_value sp_kr map] in *. apply Permutation_length_1_inv in P.
    destruct (order (mkSP v [k])) as [a b]. cbn in *. congruence.
  Qed.
  Lemma plus_one : ((1 : K) * 1 * sgn false) = 1. Proof. cbn. ring. Qed.
  Lemma minus_one : ((1 : K) * 1 * sgn true) = - (1). Proof. cbn. ring. Qed.
  Lemma block_names addr literals hs t : sane literals addr ->
    Forall (fun h : sterm K => Forall (fun x => Forall (fun y => exists i j, x = symbol_at addr literals i /\ y = symbol_at addr literals j /\
       (i < length literals)%nat /\ (j < length literals)%nat /\ String.eqb (nth i literals ""%string) (nth j literals ""%string) = false)
       (symbols (operators t))) (symbols (operators h))) hs ->
    block order hs t = map (fun x : sterm K => mkTerm (order (prefactor x)) (operators x)) (flat_map (fun h => commutate_sym (fun _ _ => true) h t []) hs).
  Proof.
    intros Sa H. unfold block. rewrite fold_comm. cbn [app]. f_equal. induction H as [|h hs Hh _ IH]; cbn [flat_map]; [reflexivity|]. rewrite IH. f_equal.
    apply commutate_ext. intros x y Hx Hy. rewrite Forall_forall in Hh. specialize (Hh x Hx). rewrite Forall_forall in Hh.
    destruct (Hh y Hy) as (i & j & -> & -> & Li & Lj & N). unfold pointers_differ, symbol_at. cbn [sym_addr].
    destruct (Z.eqb_spec (addr i) (addr j)) as [E|E]; [|reflexivity]. rewrite (Sa i j Li Lj E), String.eqb_refl in N. discriminate.
  Qed.
  Lemma show_plus arrows k ops : show_term eqK show true arrows (mkTerm (mkSP 1 [k]) ops : sterm K)
    = print_term arrows (print_kronecker k) (map sop_print ops).
  Proof.
    destruct Hc as (E & N & _). unfold show_term, print_symbolic_term, print_prefactor. cbn [prefactor operators sp_kr sp_value andb map print_list obind_text removelast last flat_map app].
    replace (eqK 1 (- (1))) with false by (symmetry; apply not_true_is_false; rewrite E; intros Q; apply N; symmetry; exact Q).
    replace (eqK 1 1) with true by (symmetry; apply E; reflexivity). reflexivity.
  Qed.
  Lemma show_minus arrows k ops : show_term eqK show true arrows (mkTerm (mkSP (- (1)) [k]) ops : sterm K)
    = print_term arrows (str "-" ++ print_kronecker k) (map sop_print ops).
  Proof.
    destruct Hc as (E & N & _). unfold show_term, print_symbolic_term, print_prefactor. cbn [prefactor operators sp_kr sp_value andb map print_list obind_text removelast last flat_map app].
    replace (eqK (- (1)) (- (1))) with true by (symmetry; apply E; reflexivity). reflexivity.
  Qed.
  Lemma show_unit arrows ops : show_term eqK show true arrows (unit_term ops : sterm K) = print_term arrows (str "1") (map sop_print ops).
  Proof. destruct Hc as (_ & _ & E). unfold show_term, unit_term, print_symbolic_term, print_prefactor. cbn [prefactor operators sp_kr sp_value]. rewrite E. reflexivity. Qed.
End Output.

Ltac names := cbv [symbols operators unit_term flat_map indices cr an app rs_hop1 rs_hop2 rs_hop3 rs_hop4 rs_int rs_t1 rs_t2 ms_hop1 ms_hop2 ms_int ms_t1 ms_t2];
  repeat (apply Forall_cons || apply Forall_nil);
  match goal with |- exists i j, symbol_at _ _ ?a = _ /\ symbol_at _ _ ?b = _ /\ _ => exists a, b; repeat split; (apply Nat.ltb_lt; reflexivity) || reflexivity end.
Ltac finish_output order Ho eqK show Hc :=
  repeat match goal with |- context [map (fun x : sterm _ => mkTerm (order (prefactor x)) (operators x)) ?l] =>
    let r := eval lazy -[rmul r1 sgn radd ropp car kr_order] in (map (fun x : sterm _ => mkTerm (order (prefactor x)) (operators x)) l) in
    change (map (fun x : sterm _ => mkTerm (order (prefactor x)) (operators x)) l) with r end;
  rewrite ?(order_one order Ho), ?plus_one, ?minus_one;
  unfold head1, head2, print_block, rs_hop1, rs_hop2, rs_hop3, rs_hop4, rs_int, rs_t1, rs_t2, ms_hop1, ms_hop2, ms_int, ms_t1, ms_t2;
  cbn [map app]; unfold line;
  rewrite ?(show_unit eqK show Hc), ?(show_plus eqK show Hc), ?(show_minus eqK show Hc); vm_compute; reflexivity.
Theorem C81_output : forall (K : StarRing) eqK show (order : spre K -> spre K) addr,
  conforming eqK show -> (forall p, order_kroneckers_result p (order p)) ->
  (sane rs_literals addr -> real_space_program eqK show true true order addr rs_literals = Ok (str real_space_output)) /\
  (sane ms_literals addr -> momentum_space_program eqK show true true order addr ms_literals = Ok (str momentum_space_output)).
Proof.
  intros K eqK show order addr Hc Ho. split; intros Sa.
  - unfold real_space_program, rs_kin1, rs_int1, rs_kin3, rs_int3. rewrite !(block_names order addr rs_literals _ _ Sa) by names. finish_output order Ho eqK show Hc.
  - unfold momentum_space_program, ms_kin1, ms_int1, ms_kin3, ms_int3. rewrite !(block_names order addr ms_literals _ _ Sa) by names. finish_output order Ho eqK show Hc.
Qed.
Print Assumptions C81_output.
