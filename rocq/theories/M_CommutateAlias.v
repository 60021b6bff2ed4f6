(** MODEL: commutate (algebra/commutator.hpp 18-71) when an argument is an element of the container the
    new terms go to, a std::vector.  a, b and the references a_ops, b_ops to their operators stay valid as
    long as the vector has not moved its elements; vectors are those of M_Alias.  Assertions are disabled
    (the assertion in line 35 reads only n and m). *)
From Verif Require Import Base M_Operator M_Commutator M_Alias.
Local Open Scope list_scope.

(** what a reference to a term refers to: an object outside of the container, or position [i] in the
    block the container had when it had moved its elements [m] times *)
Inductive ref (A : Type) := Outside (t : A) | Element (i m : nat).
Arguments Outside {A}. Arguments Element {A}.
(** reading through the reference *)
Definition read {A} (c : vec A) (r : ref A) : outcome A :=
  match r with
  | Outside t => Ok t
  | Element i m =>
      if Nat.eqb (moves c) m then match nth_error (items c) i with Some t => Ok t | None => UB end else UB
  end.
(** the reference to element [i], taken now *)
Definition element {A} (c : vec A) (i : nat) : ref A := Element i (moves c).

Section Commutate.
  Context {T : IndexTuple} {P : Type} (pmul : P -> P -> P) (psign : P -> bool -> P).
  Context (anticommutates : op T -> op T -> bool) (anticommutator : op T -> op T -> P -> P).
  Context (growth : nat -> nat).
  (** the body of the loops, 43-68; [n], [m] and [pre] are the copies made in 32-33 and 40.
      The loops read a_ops and b_ops also when the pair is skipped (44). *)
  Definition alias_body (n m : nat) (pre : P) (a b : ref (term T P)) (c : vec (term T P)) (k l : nat) : outcome (vec (term T P)) :=
    match read c a, read c b with
    | Ok ta, Ok tb =>
        match nth_error (M_Operator.operators ta) (k - 1), nth_error (M_Operator.operators tb) (l - 1) with
        | Some x, Some y =>
            if anticommutates x y then Ok c
            else
              let sign := sign_is_minus (Z.of_nat m) (Z.of_nat n) (Z.of_nat k) (Z.of_nat l) in
              let p := anticommutator x y (psign pre sign) in
              let ops := (if Nat.ltb 1 k then firstn (k - 1) (M_Operator.operators ta) else [])
                           ++ (if Nat.ltb 1 l then firstn (l - 1) (M_Operator.operators tb) else [])
                           ++ skipn l (M_Operator.operators tb) ++ skipn k (M_Operator.operators ta) in
              Ok (push_back growth c (mkTerm p ops))
        | _, _ => UB
        end
    | _, _ => UB
    end.
  (** one of the two loops *)
  Fixpoint each (f : vec (term T P) -> nat -> outcome (vec (term T P))) (is : list nat) (c : vec (term T P)) : outcome (vec (term T P)) :=
    match is with
    | [] => Ok c
    | i :: is' => match f c i with UB => UB | Ok c' => each f is' c' end
    end.
  (** 18-71 *)
  Definition commutate_into (a b : ref (term T P)) (c : vec (term T P)) : outcome (vec (term T P)) :=
    match read c a, read c b with
    | Ok ta, Ok tb =>
        let n := length (M_Operator.operators ta) in
        let m := length (M_Operator.operators tb) in
        let pre := pmul (M_Operator.prefactor ta) (M_Operator.prefactor tb) in
        each (fun c k => each (fun c l => alias_body n m pre a b c k l) (seq 1 m) c) (seq 1 n) c
    | _, _ => UB
    end.
End Commutate.
