(** MODEL: operator<< of operators, monomials, terms, Kronecker deltas and symbolic prefactors
    (algebra/operator/io.hpp, monomial/io.hpp, term/io.hpp, kronecker.hpp, symbolic/prefactor.hpp).
    A stream in its default state: what is printed is the text appended to it. *)
From Coq Require Import Ascii String.
From Verif Require Import Base M_Operator M_Commutator M_Text M_Io.
Local Open Scope list_scope.

(** UTF-8 bytes of the characters in the string literals *)
Definition bytes (l : list nat) : text := map ascii_of_nat l.
Definition dagger : text := bytes [226; 128; 160]%nat.
Definition up_arrow : text := bytes [226; 134; 145]%nat.
Definition down_arrow : text := bytes [226; 134; 147]%nat.
Definition cdot : text := bytes [32; 226; 139; 133; 32]%nat.      (* " . " with U+22C5 *)
Definition delta_sign : text := bytes [206; 180]%nat.
Definition space : ascii := ascii_of_nat 32.
Definition comma : ascii := ascii_of_nat 44.
Definition brace : ascii := ascii_of_nat 125.

(** operator<< of a signed integer *)
Definition sdec (z : Z) : text := if (z <? 0)%Z then ascii_of_nat 45 :: dec (- z) else dec z.
(** an index of type bool, integer or text (const char*, std::string, symbolic::Index) *)
Inductive ivalue := VBool (b : bool) | VInt (z : Z) | VText (t : text).
(** GetPrinterType, operator/io.hpp 36-54: BoolSpinPrinter (15-28) for bool, DefaultPrinter (30-33)
    otherwise; [arrows] is false if IEOMPP_DISABLE_ARROWS is defined *)
Definition print_index (arrows : bool) (v : ivalue) : text :=
  match v with
  | VBool b => if arrows then (if b then up_arrow else down_arrow) else (if b then str "1" else str "0")
  | VInt z => sdec z
  | VText t => t
  end.
Record pop := mkPop { p_creator : bool; p_indices : list ivalue }.
(** the characters before the indices, operator/io.hpp 59-63, 73-77, 112-116 *)
Definition print_head (creator : bool) : text :=
  str "c" ++ (if creator then str "^" ++ dagger else []) ++ str "_{".
(** PrintHelper, operator/io.hpp 86-107 *)
Fixpoint print_helper (arrows : bool) (v : ivalue) (vs : list ivalue) : text :=
  match vs with
  | [] => print_index arrows v
  | w :: vs' => print_index arrows v ++ str "," ++ print_helper arrows w vs'
  end.
(** the three operator<<: one index (56-67), two indices (69-82), any number (109-121).  An
    operator without indices does not compile (number_of_indices - 1). *)
Definition print_op (arrows : bool) (o : pop) : text :=
  match p_indices o with
  | [] => []
  | [i] => print_head (p_creator o) ++ print_index arrows i ++ str "}"
  | [i; j] => print_head (p_creator o) ++ print_index arrows i ++ str "," ++ print_index arrows j ++ str "}"
  | i :: vs => print_head (p_creator o) ++ print_helper arrows i vs ++ str "}"
  end.
(** std::copy(begin, --end, ostream_iterator(strm, " ")); strm << back(): undefined for an empty
    container; monomial/io.hpp 14-20, term/io.hpp 17-19, prefactor.hpp 100-102 *)
Definition print_list (l : list text) : outcome text :=
  match l with
  | [] => UB
  | _ => Ok (flat_map (fun t => t ++ [space]) (removelast l) ++ last l [])
  end.
(** monomial/io.hpp 13-21 *)
Definition print_monomial (arrows : bool) (m : list pop) : outcome text := print_list (map (print_op arrows) m).
Definition obind_text (p : text) (x : outcome text) : outcome text :=
  match x with Ok t => Ok (p ++ t) | UB => UB end.
(** term/io.hpp 13-21; [prefactor] is the printed prefactor *)
Definition print_term (arrows : bool) (prefactor : text) (ops : list pop) : outcome text :=
  obind_text (prefactor ++ cdot) (print_monomial arrows ops).
(** kronecker.hpp 34-38 *)
Definition print_kronecker (k : kronecker) : text := delta_sign ++ str "_{" ++ str (kr_a k) ++ str "," ++ str (kr_b k) ++ str "}".
(** symbolic/prefactor.hpp 87-104: [show] is operator<< of Value, [signed] std::is_signed<Value> *)
Definition print_prefactor {K : StarRing} (eqK : K -> K -> bool) (show : K -> text) (signed : bool) (p : spre K) : outcome text :=
  match sp_kr p with
  | [] => Ok (show (sp_value p))
  | ks =>
      let sign := if (signed && eqK (sp_value p) (ropp r1))%bool then str "-"
                  else if negb (eqK (sp_value p) r1) then show (sp_value p) ++ cdot else [] in
      obind_text sign (print_list (map print_kronecker ks))
  end.
(** a term with symbolic prefactor *)
Definition print_symbolic_term {K : StarRing} (eqK : K -> K -> bool) (show : K -> text) (signed arrows : bool)
  (p : spre K) (ops : list pop) : outcome text :=
  match print_prefactor eqK show signed p with Ok t => print_term arrows t ops | UB => UB end.
