(** MODEL: hubbard_commutators_real_space.cpp and hubbard_commutators_momentum_space.cpp.
    The standard output of a program is the text it has written when main returns. *)
From Coq Require Import Ascii String.
From Verif Require Import Base M_Operator M_Commutator M_Text M_Io M_Print.
Local Open Scope list_scope.

Definition sterm (K : StarRing) := term sym_tuple (spre K).
(** concatenation of output pieces; printing a term can be undefined *)
Fixpoint cat (l : list (outcome text)) : outcome text :=
  match l with
  | [] => Ok []
  | x :: l' => match x, cat l' with Ok a, Ok b => Ok (a ++ b) | _, _ => UB end
  end.
(** an operator with a name and a spin as operator<< gets it (operator/io.hpp 69-82): const char*
    by its text, bool by BoolSpinPrinter *)
Definition print_index_of (i : ival) : ivalue :=
  match i with Sym s => VText (str (sym_name s)) | Con z => VBool (negb (Z.eqb z 0)) end.
Definition sop_print (o : sop) : pop := mkPop (creator o) (map print_index_of (indices o)).

Section Program.
  Context {K : StarRing}.
  Variable eqK : K -> K -> bool.          (* operator== of the value type *)
  Variable show : K -> text.              (* operator<< of the value type *)
  Variable signed : bool.                 (* std::is_signed of the value type *)
  Variable arrows : bool.                 (* IEOMPP_DISABLE_ARROWS not defined *)
  Variable order : spre K -> spre K.      (* order_kroneckers(), prefactor.hpp 62-77 *)
  (** address of the n-th string literal of the program; the compiler may pool equal literals *)
  Variable addr : nat -> Z.
  Variable literals : list string.
  Definition symbol_at (n : nat) : symbol := mkSym (addr n) (nth n literals ""%string).
  (** operator!= of const char* *)
  Definition pointers_differ (x y : symbol) : bool := negb (Z.eqb (sym_addr x) (sym_addr y)).
  (** make_creator / make_annihilator(literal, spin), operator/make.hpp 19-25, 41-47 *)
  Definition cr (n : nat) (up : bool) : sop := mkOp (T := sym_tuple) true [Sym (symbol_at n); Con (if up then 1 else 0)].
  Definition an (n : nat) (up : bool) : sop := mkOp (T := sym_tuple) false [Sym (symbol_at n); Con (if up then 1 else 0)].
  (** make_term(symbolic::make_prefactor(1.), {...}), term.hpp 68-75, prefactor.hpp 80-85 *)
  Definition unit_term (ops : list sop) : sterm K := mkTerm (mkSP r1 []) ops.

  (** the loops "commutate(h, t, comm); ..." and t.prefactor.order_kroneckers(), e.g.
      real_space.cpp 46-56: the terms in [comm] after the loop *)
  Definition block (hs : list (sterm K)) (t : sterm K) : list (sterm K) :=
    map (fun x : sterm K => mkTerm (order (prefactor x)) (operators x))
        (fold_left (fun comm h => commutate_sym pointers_differ h t comm) hs []).
  Definition show_term (x : sterm K) : outcome text :=
    print_symbolic_term eqK show signed arrows (prefactor x) (map sop_print (operators x)).
  (** cout << prefix << term << '\n' *)
  Definition line (prefix : text) (x : sterm K) : outcome text := cat [Ok prefix; show_term x; Ok [ascii_of_nat 10]].
  Definition tab : text := [ascii_of_nat 9].
  Definition nl : text := [ascii_of_nat 10].
  Definition print_block (l : list (sterm K)) : outcome text := cat (map (line (tab ++ tab)) l).

  (** hubbard_commutators_real_space.cpp 14-29; literals are numbered in the order of the program text *)
  Definition rs_hop1 := unit_term [cr 0 true; an 1 true].
  Definition rs_hop2 := unit_term [cr 2 true; an 3 true].
  Definition rs_hop3 := unit_term [cr 4 false; an 5 false].
  Definition rs_hop4 := unit_term [cr 6 false; an 7 false].
  Definition rs_int := unit_term [cr 8 true; an 9 true; cr 10 false; an 11 false].
  Definition rs_t1 := unit_term [cr 12 true].
  Definition rs_t2 := unit_term [cr 13 true; cr 14 false; an 15 false].
  (** real_space.cpp 44-92: the four lists *)
  Definition rs_kin1 := block [rs_hop1; rs_hop2; rs_hop3; rs_hop4] rs_t1.
  Definition rs_int1 := block [rs_int] rs_t1.
  Definition rs_kin3 := block [rs_hop1; rs_hop2; rs_hop3; rs_hop4] rs_t2.
  Definition rs_int3 := block [rs_int] rs_t2.
  (** real_space.cpp 33-93 *)
  Definition real_space_program : outcome text :=
    cat ([Ok (str "Kinetic terms in Hamiltonian" ++ nl)]
      ++ map (line tab) [rs_hop1; rs_hop2; rs_hop3; rs_hop4] ++ [Ok nl]
      ++ [Ok (str "Interaction terms in Hamiltonian" ++ nl)] ++ [line tab rs_int] ++ [Ok nl]
      ++ [Ok (str "One operator:" ++ nl); Ok (tab ++ str "Kinetic terms:" ++ nl); print_block rs_kin1; Ok nl]
      ++ [Ok (tab ++ str "Interaction terms:" ++ nl); print_block rs_int1; Ok (nl ++ nl)]
      ++ [Ok (str "Three operators:" ++ nl); Ok (tab ++ str "Kinetic terms:" ++ nl); print_block rs_kin3; Ok nl]
      ++ [Ok (tab ++ str "Interaction terms:" ++ nl); print_block rs_int3]).

  (** hubbard_commutators_momentum_space.cpp 14-25 *)
  Definition ms_hop1 := unit_term [cr 0 true; an 1 true].
  Definition ms_hop2 := unit_term [cr 2 false; an 3 false].
  Definition ms_int := unit_term [cr 4 true; an 5 true; cr 6 false; an 7 false].
  Definition ms_t1 := unit_term [cr 8 true].
  Definition ms_t2 := unit_term [cr 9 true; cr 10 false; an 11 false].
  (** momentum_space.cpp 31-73 *)
  Definition ms_kin1 := block [ms_hop1; ms_hop2] ms_t1.
  Definition ms_int1 := block [ms_int] ms_t1.
  Definition ms_kin3 := block [ms_hop1; ms_hop2] ms_t2.
  Definition ms_int3 := block [ms_int] ms_t2.
  (** the line "\t[ " << a << " + " << b << "  ,  " << t << " ]=\n" *)
  Definition head2 (a b t : sterm K) : outcome text :=
    cat [Ok (tab ++ str "[ "); show_term a; Ok (str " + "); show_term b; Ok (str "  ,  "); show_term t; Ok (str " ]=" ++ nl)].
  Definition head1 (a t : sterm K) : outcome text :=
    cat [Ok (tab ++ str "[ "); show_term a; Ok (str "  ,  "); show_term t; Ok (str " ]=" ++ nl)].
  (** momentum_space.cpp 29-74 *)
  Definition momentum_space_program : outcome text :=
    cat ([Ok (str "One operator:" ++ nl); head2 ms_hop1 ms_hop2 ms_t1; print_block ms_kin1; Ok nl]
      ++ [head1 ms_int ms_t1; print_block ms_int1; Ok (nl ++ nl)]
      ++ [Ok (str "Three operators:" ++ nl); head2 ms_hop1 ms_hop2 ms_t2; print_block ms_kin3; Ok nl]
      ++ [head1 ms_int ms_t2; print_block ms_int3]).
End Program.
(** the string literals in the order of the program text *)
Definition rs_literals : list string :=
  ["r_i"; "r_i+δ_j"; "r_i+δ_j"; "r_i"; "r_i"; "r_i+δ_j"; "r_i+δ_j"; "r_i"; "r_i"; "r_i"; "r_i"; "r_i"; "ρ"; "ρ_1"; "ρ_2"; "ρ_3"]%string.
Definition ms_literals : list string :=
  ["k"; "k"; "k"; "k"; "k_1"; "k_2"; "k_3"; "k_4"; "q"; "q_1"; "q_2"; "q_3"]%string.
(** different literals have different addresses *)
Definition sane (literals : list string) (addr : nat -> Z) : Prop :=
  forall i j, (i < length literals)%nat -> (j < length literals)%nat -> addr i = addr j ->
  nth i literals ""%string = nth j literals ""%string.
