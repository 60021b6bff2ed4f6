(** EXAMPLES for C80: the hypotheses hold for concrete terms, and what is printed. *)
From Coq Require Import Ascii String.
From Verif Require Import Base M_Operator M_Commutator M_Basis M_Text Spec_Text Pf_Text M_Io Pf_Io M_Print Spec_Print P_Print.
Local Open Scope list_scope.

Example hop_printed : print_term false (sdec (-3)) (map hubbard_op [hop true 12 true; hop false 0 false]) =
  Ok (str "-3" ++ cdot ++ str "c^" ++ dagger ++ str "_{12,1} c_{0,0}").
Proof. vm_compute. reflexivity. Qed.
Definition cr_j := mkPop true [VText (str "j"); VBool true].
Definition an_k := mkPop false [VText (str "k"); VBool false].
Definition m_sym := [cr_j; an_k].
Definition p_sym : spre Zring := mkSP (K := Zring) (-1)%Z [mkKr "i" "j"; mkKr "k" "l"].
Example sym_printed : print_symbolic_term (K := Zring) Z.eqb sdec true false p_sym m_sym =
  Ok (str "-" ++ delta_sign ++ str "_{i,j} " ++ delta_sign ++ str "_{k,l}" ++ cdot ++ str "c^" ++ dagger ++ str "_{j,1} c_{k,0}").
Proof. vm_compute. reflexivity. Qed.
(** the hypotheses of C80_symbolic_term are met *)
Example sym_meets :
  exists t, print_symbolic_term (K := Zring) Z.eqb sdec true true p_sym m_sym = Ok t /\
  forall p' m', Forall (clean [KText; KBool]) m' -> m' <> [] -> Forall (kronecker_avoids [comma; brace]) (sp_kr p') ->
  print_symbolic_term (K := Zring) Z.eqb sdec true true p' m' = Ok t -> p_sym = p' /\ m_sym = m'.
Proof.
  assert (Cm : Forall (clean [KText; KBool]) m_sym).
  { repeat constructor; intros t [H|[H|[]]]; inversion H; subst; intros c [<-|[<-|[]]]; cbn; intros [Q|[]]; discriminate. }
  assert (Ck : Forall (kronecker_avoids [comma; brace]) (sp_kr p_sym)).
  { repeat constructor; destruct H as [<-|[<-|[]]]; cbn; intros [Q|[]]; discriminate. }
  assert (B : forall x : Zring, ~ In dot_byte (sdec x) /\ ~ In delta_byte (sdec x)).
  { intros x. split; intros H; apply sdec_in in H as [H|H]; try discriminate; unfold digit in H; cbn in H; lia. }
  destruct (C80_symbolic_term Zring Z.eqb sdec true true [KText; KBool] p_sym p_sym m_sym m_sym) as (t & T & _); auto; try discriminate.
  { intros x y. apply Z.eqb_eq. } { intros x y. apply sdec_inj. }
  exists t. split; [exact T|]. intros p' m' Hm' N' Hk' H.
  destruct (C80_symbolic_term Zring Z.eqb sdec true true [KText; KBool] p_sym p' m_sym m') as (t' & T' & I); auto; try discriminate.
  { intros x y. apply Z.eqb_eq. } { intros x y. apply sdec_inj. }
  apply I. rewrite H. congruence.
Qed.
