(** NON-VACUITY for C30-C37: the hypotheses of the matrix theorems are met by a chain of
    three sites and a 3x3 square, rational numbers, insertion sort and the usual orbital
    numbering. *)
From Coq Require Import Sorting.Sorted QArith Qcanon Reals Lia.
From Verif Require Import Base Spec_Fock M_Operator M_Lattice Spec_Lattice Pf_Lattice M_LatticeReal Spec_LatticeReal M_Basis M_Matrix
  Spec_Algebra Spec_Matrix Spec_Momentum Pf_Basis P_Matrix Pf_Triplet P_Triplet P_Momentum.
Local Open Scope Z_scope.
Local Open Scope list_scope.

Definition Qcring : StarRing.
Proof.
  refine (mkStarRing Qc 0%Qc 1%Qc Qcplus Qcmult Qcminus Qcopp (fun x => x) Qcrt _ _ _); reflexivity.
Defined.
Definition qhalf : Qcring := Q2Qc (1 # 2).
Lemma qhalf_ok : radd qhalf qhalf = @r1 Qcring.
Proof. apply Qc_is_canon. reflexivity. Qed.

Section Isort.
  Context {K : StarRing}.
  Fixpoint ins (t : triplet K) (l : list (triplet K)) : list (triplet K) :=
    match l with
    | [] => [t]
    | u :: l' => if t_col t <=? t_col u then t :: l else u :: ins t l'
    end.
  Definition isort (l : list (triplet K)) : list (triplet K) := fold_right ins [] l.
  Lemma ins_perm t l : Permutation (ins t l) (t :: l).
  Proof.
    induction l as [|u l IH]; cbn [ins]; [reflexivity|]. destruct (t_col t <=? t_col u); [reflexivity|].
    rewrite IH. apply perm_swap.
  Qed.
  Lemma ins_sorted t l : StronglySorted (fun a b => t_col a <= t_col b) l -> StronglySorted (fun a b => t_col a <= t_col b) (ins t l).
  Proof.
    induction l as [|u l IH]; intros H; cbn [ins]; [repeat constructor|]. destruct (Z.leb_spec (t_col t) (t_col u)).
    - constructor; [exact H|]. inversion H; subst. constructor; [assumption|]. eapply Forall_impl; [|eassumption]. cbn. lia.
    - inversion H; subst. constructor; [apply IH; assumption|]. rewrite Forall_forall in *. intros x Hx.
      apply (Permutation_in _ (ins_perm t l)) in Hx as [<-|Hx]; [lia|]. auto.
  Qed.
  Lemma isort_ok : sorts_by_column isort.
  Proof.
    intros l. induction l as [|t l [P S]]; cbn [isort fold_right]; [split; [reflexivity|constructor]|].
    split; [rewrite ins_perm; constructor; exact P|apply ins_sorted, S].
  Qed.
End Isort.

Definition orbital (i : hub) : nat := 2 * Z.to_nat (fst i) + (if snd i then 0 else 1).
Lemma orbital_numbers N : numbers_orbitals orbital N.
Proof.
  intros i sp j sp' [Hi _] [Hj _] H. unfold orbital in H. cbn [fst snd] in H.
  destruct sp, sp'; (assert (Z.to_nat i = Z.to_nat j) by lia || lia); split; try reflexivity; try lia.
Qed.
Lemma orbital_below N : orbitals_below orbital N (2 * Z.to_nat N).
Proof. intros i sp [H1 H2]. unfold orbital. cbn [fst snd]. destruct sp; lia. Qed.

Lemma big x : x < 18446744073709551616 -> x < two64.
Proof. intros H. replace two64 with 18446744073709551616; [exact H|]. symmetry. with_strategy transparent [two64] reflexivity. Qed.

(** Every hypothesis of C30-C34 holds for the chain of three sites and the 3x3 square. *)
Example matrix_hypotheses_chain :
  radd qhalf qhalf = @r1 Qcring /\ sorts_by_column (@isort Qcring) /\ shipped3 (chain_lattice 3) 3 /\
  3 * lat_coordination (chain_lattice 3) < two64 /\ fits3 (chain_lattice 3) 3 /\ fits_no (chain_lattice 3) 3 /\
  numbers_orbitals orbital 3 /\ orbitals_below orbital 3 6.
Proof.
  split; [exact qhalf_ok|]. split; [exact isort_ok|]. split; [constructor; split; [lia|apply big; lia]|].
  split; [apply big; reflexivity|]. split; [unfold fits3; apply big; reflexivity|]. split; [unfold fits_no; apply big; reflexivity|].
  split; [apply orbital_numbers|apply (orbital_below 3)].
Qed.
Example matrix_hypotheses_square :
  sorts_by_column (@isort Qcring) /\ shipped3 (square_lattice 3 3) 9 /\
  9 * lat_coordination (square_lattice 3 3) < two64 /\ fits3 (square_lattice 3 3) 9 /\ fits_no (square_lattice 3 3) 9 /\
  numbers_orbitals orbital 9 /\ orbitals_below orbital 9 18.
Proof.
  split; [exact isort_ok|]. split; [apply (shipped3_square 3); [lia|apply big; lia]|].
  split; [apply big; reflexivity|]. split; [unfold fits3; apply big; reflexivity|]. split; [unfold fits_no; apply big; reflexivity|].
  split; [apply orbital_numbers|apply (orbital_below 9)].
Qed.
Example small_lattices : too_small (chain_lattice 2) /\ too_small (chain_lattice 1).
Proof. split; constructor; lia. Qed.
(** ... and those of C35, with U = 6 spread over N = 3 sites. *)
Example momentum_hypotheses :
  0 < 3 /\ 3 * (1 + 3 * 3) < two64 /\ site 3 1 /\ (exists b, is_momentum_basis 3 1 b) /\
  per_site (K := Qcring) 3 (Q2Qc (2 # 1)) (Q2Qc (6 # 1)) /\ numbers_orbitals orbital 3 /\ orbitals_below orbital 3 6.
Proof.
  split; [lia|]. split; [apply big; reflexivity|]. split; [split; lia|].
  split; [exists (mom_closed 3 1); destruct (mom_basis_value 3 1 ltac:(pose proof (big 4 ltac:(lia)); lia) ltac:(split; lia)) as (n & Hn); exists n; exact Hn|].
  split; [apply Qc_is_canon; reflexivity|]. split; [apply orbital_numbers|apply (orbital_below 3)].
Qed.
