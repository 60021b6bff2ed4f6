(** MODEL: io/line.hpp, and the parts of std::regex, std::istream and std::getline it uses.
    A std::string is a list of characters (bytes). *)
From Coq Require Import Ascii String.
From Verif Require Import Base.
Local Open Scope list_scope.

Definition text := list ascii.
Definition str (s : string) : text := list_ascii_of_string s.
Definition code (c : ascii) : nat := nat_of_ascii c.
Definition newline : ascii := ascii_of_nat 10.
Definition is_newline (c : ascii) : bool := Nat.eqb (code c) 10.

(** ** std::regex (ECMAScript).  std::regex_match asks whether the whole string belongs to the
    language, so ^ and $ match the empty word here; [in_language] is decided by derivatives. *)
Inductive regex :=
| REmpty                                  (* no word *)
| REps
| RClass (p : ascii -> bool)
| RSeq (a b : regex)
| RAlt (a b : regex)
| RStar (a : regex).
Fixpoint nullable (r : regex) : bool :=
  match r with
  | REmpty => false
  | REps => true
  | RClass _ => false
  | RSeq a b => (nullable a && nullable b)%bool
  | RAlt a b => (nullable a || nullable b)%bool
  | RStar _ => true
  end.
Fixpoint deriv (c : ascii) (r : regex) : regex :=
  match r with
  | REmpty | REps => REmpty
  | RClass p => if p c then REps else REmpty
  | RSeq a b => if nullable a then RAlt (RSeq (deriv c a) b) (deriv c b) else RSeq (deriv c a) b
  | RAlt a b => RAlt (deriv c a) (deriv c b)
  | RStar a => RSeq (deriv c a) (RStar a)
  end.
Fixpoint regex_match (s : text) (r : regex) : bool :=
  match s with
  | [] => nullable r
  | c :: s' => regex_match s' (deriv c r)
  end.
(** \s: std::isspace of the "C" locale: space, \t, \n, \v, \f, \r *)
Definition class_s (c : ascii) : bool := (Nat.eqb (code c) 32 || (Nat.leb 9 (code c) && Nat.leb (code c) 13))%bool.
(** . : every character except the line terminators \n and \r *)
Definition class_dot (c : ascii) : bool := negb (Nat.eqb (code c) 10 || Nat.eqb (code c) 13).
Definition class_hash (c : ascii) : bool := Nat.eqb (code c) 35.

(** is_skippable_line, line.hpp 11-15: ^\s*(?:#.* )?$ *)
Definition skip_regex : regex :=
  RSeq (RStar (RClass class_s)) (RAlt (RSeq (RClass class_hash) (RStar (RClass class_dot))) REps).
Definition is_skippable_line (s : text) : bool := regex_match s skip_regex.

(** ** std::istream: the characters not read yet and the two state bits (no bad bit) *)
Record istream := mkI { rest : text; eofbit : bool; failbit : bool }.
Definition open_text (t : text) : istream := mkI t false false.
(** the characters up to the first newline; None if there is no newline *)
Fixpoint split_line (t : text) : option (text * text) :=
  match t with
  | [] => None
  | c :: t' => if is_newline c then Some ([], t')
               else match split_line t' with Some (l, r) => Some (c :: l, r) | None => None end
  end.
(** std::getline(strm, buf): unless the stream is good only the fail bit is set and buf keeps its
    value; otherwise buf is cleared and gets the characters up to the newline, which is removed;
    reaching the end sets the eof bit, and the fail bit too if nothing was extracted *)
Definition getline (strm : istream) (buf : text) : istream * text :=
  if (eofbit strm || failbit strm)%bool then (mkI (rest strm) (eofbit strm) true, buf)
  else match split_line (rest strm) with
       | Some (l, r) => (mkI r false false, l)
       | None => (mkI [] true (match rest strm with [] => true | _ => false end), rest strm)
       end.

(** next_line, line.hpp 17-26: the loop with the content of [buf]; None if the fuel does not
    suffice *)
Fixpoint next_line_loop (fuel : nat) (strm : istream) (buf : text) : option (text * istream) :=
  match fuel with
  | O => None
  | S fuel' =>
      let (strm', buf') := getline strm buf in
      if is_skippable_line buf' then next_line_loop fuel' strm' buf' else Some (buf', strm')
  end.
Definition next_line (fuel : nat) (strm : istream) : option (text * istream) := next_line_loop fuel strm [].
