(** EXAMPLES for C47-C50: two momenta, the first below the Fermi energy. *)
From Coq Require Import Reals QArith Qcanon.
From Verif Require Import Base Spec_Fock M_Operator M_Lattice Spec_Lattice M_LatticeReal Spec_LatticeReal M_Basis Pf_Basis Spec_Algebra Spec_Matrix Spec_FermiSea
  M_FermiSea P_FermiSea M_NonVanishing P_NonVanishing P_Momentum Ex_Matrix.
Local Open Scope list_scope.
Local Open Scope Z_scope.

Definition ex_eps (k : Z) : Z := 2 * k - 1.
Definition id_sort (l : list (Z * bool)) := l.
Lemma id_sort_ok l : Permutation (id_sort l) l. Proof. reflexivity. Qed.
(** both spins of momentum 0 *)
Definition ex_s0 : N := N.setbit (N.setbit 0 (N.of_nat (orbital (0, true)))) (N.of_nat (orbital (0, false))).
Lemma ex_sea : is_fermi_sea Z.ltb ex_eps 0 orbital 2 ex_s0.
Proof.
  intros i spin Hi. unfold site in Hi. assert (i = 0 \/ i = 1) as [-> | ->] by lia; destruct spin; vm_compute; reflexivity.
Qed.
Definition ex_b : list (monomial hub) := mom_closed 2 0.
Lemma ex_basis : is_momentum_basis 2 0 ex_b.
Proof. apply mom_basis_value; [split; [lia|]; pose proof (big 3); lia|unfold site; lia]. Qed.
Example C47_example :
  on_sites 2 [CallMonomial [hop true 1 true; hop false 0 false]; CallCreate (0, false)] /\
  run Z.ltb id_sort ex_eps 0 [CallMonomial [hop true 1 true; hop false 0 false]; CallCreate (0, false)] = mkSea false [(1, true)] [] /\
  vanishes (run Z.ltb id_sort ex_eps 0 [CallMonomial [hop true 1 true; hop false 0 false]; CallCreate (1, true)]) = true.
Proof. split; [repeat (apply Forall_cons; [cbn; unfold site; lia|]); apply Forall_nil|]. split; reflexivity. Qed.
Example C49_example :
  Permutation (seq 0 5) (seq 0 (length ex_b)) /\
  non_vanishing (K := Zring) Z.ltb id_sort ex_eps 0 ex_b (basis_get_conjugate (seq 0 5) ex_b) =
    Ok [(0, 0, 1); (1, 0, 3); (2, 0, 1); (0, 1, 3); (0, 2, 1); (1, 1, 9); (1, 2, 3); (2, 1, 3); (2, 2, 1)] /\
  expectation_in (K := Zring) orbital ex_s0 (basis_op (nth 1 ex_b [])) (basis_op (nth 2 ex_b [])) = -1.
Proof. split; [reflexivity|]. split; vm_compute; reflexivity. Qed.
