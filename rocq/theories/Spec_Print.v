(** SPECIFICATION for C80: operators of one C++ type, and harmless names. *)
From Coq Require Import Ascii.
From Verif Require Import Base M_Operator M_Text M_Commutator M_Basis M_SiteOccupation M_Print.
Local Open Scope list_scope.
Inductive kind := KBool | KInt | KText.
Definition kind_of (v : ivalue) : kind := match v with VBool _ => KBool | VInt _ => KInt | VText _ => KText end.
(** o is of the type with the index types [ks] *)
Definition typed (ks : list kind) (o : pop) : Prop := map kind_of (p_indices o) = ks.
(** no text index contains one of the characters *)
Definition names_avoid (cs : list ascii) (o : pop) : Prop :=
  forall t, In (VText t) (p_indices o) -> forall c, In c cs -> ~ In c t.
(** of the type, and no text index contains a comma or a closing brace *)
Definition clean (ks : list kind) (o : pop) : Prop := typed ks o /\ names_avoid [comma; brace] o.
Definition kronecker_avoids (cs : list ascii) (k : kronecker) : Prop :=
  forall c, In c cs -> ~ In c (str (kr_a k)) /\ ~ In c (str (kr_b k)).
(** a Hubbard operator Operator<uint64_t, bool> as it is handed to operator<< *)
Definition hubbard_op (o : op hub) : pop := mkPop (creator o) [VInt (index1 o); VBool (index2 o)].
