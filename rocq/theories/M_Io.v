(** MODEL: io/triplet_list.hpp, types/eigen/triplet_list.hpp, io/file_header.hpp, tuple.hpp,
    string.hpp and src/hubbard/include/checkpoint.hpp.
    A function writing to a std::ostream is modelled by the characters it appends. *)
From Coq Require Import Ascii String DecimalString DecimalN.
From Verif Require Import Base M_Text.
Local Open Scope list_scope.

(** operator<<(std::ostream&, uint64_t) and std::to_string: decimal digits *)
Definition dec (n : Z) : text := str (NilZero.string_of_uint (N.to_uint (Z.to_N n))).
Definition tab : ascii := ascii_of_nat 9.
Definition blank : ascii := ascii_of_nat 32.

(** ** TripletList<Scalar, uint64_t>, types/eigen/triplet_list.hpp 14-58.  It includes
    ieompp/description.hpp, a file that is not in the repository: as it stands the header cannot be
    compiled; the class is modelled as written. *)
Record tentry {Scalar} := mkE { e_row : Z; e_col : Z; e_val : Scalar }.
Arguments tentry : clear implicits.
Record tlist {Scalar} := mkL { l_rows : Z; l_cols : Z; elements : list (tentry Scalar) }.
Arguments tlist : clear implicits.
Section TripletList.
  Context {Scalar : Type}.
  (** constructor, line 39 *)
  Definition new_tlist (rows cols : Z) : tlist Scalar := mkL _ rows cols [].
  (** rows(), cols(), lines 41-42 *)
  Definition tl_rows (l : tlist Scalar) : Z := l_rows l.
  Definition tl_cols (l : tlist Scalar) : Z := l_rows l.
  (** matrix_insert, lines 60-65 *)
  Definition matrix_insert (l : tlist Scalar) (row col : Z) (v : Scalar) : tlist Scalar :=
    mkL _ (l_rows l) (l_cols l) (elements l ++ [mkE _ row col v]).
  (** the comparators of sort_column_major, sort_row_major, lines 44-57; std::sort is
      [sort_by less], see P_Io *)
  Definition less_column_major (a b : tentry Scalar) : bool := Z.ltb (e_row a) (e_row b).
  Definition less_row_major (a b : tentry Scalar) : bool := Z.ltb (e_col a) (e_col b).

  (** write_triplet_list, io/triplet_list.hpp 14-25; [fmt] is operator<< of Scalar *)
  Definition write_element (fmt : Scalar -> text) (e : tentry Scalar) : text :=
    dec (e_row e) ++ [tab] ++ dec (e_col e) ++ [tab] ++ fmt (e_val e) ++ [newline].
  Definition write_triplet_list (fmt : Scalar -> text) (l : tlist Scalar) (binary : bool) : text :=
    if binary then [] else dec (Z.of_nat (length (elements l))) ++ [newline] ++ flat_map (write_element fmt) (elements l).

  (** read_triplet_list, io/triplet_list.hpp 27-41: both branches of the [if] go to the loop
      condition; the list is not touched.  None: the fuel does not suffice *)
  Fixpoint read_loop (fuel : nat) (strm : istream) (buf : text) (l : tlist Scalar) : option (istream * tlist Scalar) :=
    match fuel with
    | O => None
    | S fuel' => let (strm', buf') := getline strm buf in
                 if eofbit strm' then Some (strm', l) else read_loop fuel' strm' buf' l
    end.
  Definition read_triplet_list (fuel : nat) (strm : istream) (l : tlist Scalar) (binary : bool) : option (istream * tlist Scalar) :=
    if binary then Some (strm, l) else read_loop fuel strm [] l.
End TripletList.

(** ** write_header, io/file_header.hpp 16-60.  Description is not defined in the repository
    (ieompp/description.hpp is missing); it is used as a sequence of (key, value) pairs and is
    modelled as such.  [time] is the text std::put_time writes for the current time, without the
    newline of the format string. *)
Definition description := list (text * text).
Definition is_empty {A} (l : list A) : bool := match l with [] => true | _ => false end.
(** lines 20-28 *)
Definition max_key_len (ds : list description) : nat :=
  fold_left (fun m d => fold_left (fun m e => if is_empty (snd e) then m else Nat.max m (length (fst e))) d m) ds 0%nat.
(** for (i = from; i <= to; ++i) strm << ' ' (lines 33-35, 53-55) *)
Definition spaces (from to : nat) : text := repeat blank (to + 1 - from).
(** lines 43-57 *)
Definition write_entry (prefix : text) (mk : nat) (e : text * text) : text :=
  prefix ++
  if is_empty (fst e) then [newline]
  else [blank] ++ fst e ++
       if is_empty (snd e) then [newline]
       else str ":" ++ spaces (length (fst e)) mk ++ snd e ++ [newline].
(** lines 38-58 *)
Fixpoint write_descriptions (prefix : text) (mk : nat) (ds : list description) : text :=
  match ds with
  | [] => []
  | d :: ds' => if is_empty d then []                     (* return, line 40 *)
                else str "#" ++ [newline] ++ flat_map (write_entry prefix mk) d ++ write_descriptions prefix mk ds'
  end.
Definition write_header (time : text) (ds : list description) (binary : bool) (prefix : text) : text :=
  if binary then []
  else let mk := max_key_len ds in
       prefix ++ str " Created:" ++ spaces 7 mk ++ time ++ [newline] ++ write_descriptions prefix mk ds.

(** ** print_tuple, tuple.hpp 13-41.  [comps] are the components as operator<< prints them.
    TuplePrinter<Tuple, I, N> is [print_from], with k = N - I the number of remaining steps. *)
Fixpoint print_from (comps : list text) (N k : nat) (delimiter : text) : text :=
  match k with
  | O => nth N comps []
  | S k' => nth N comps [] ++ delimiter ++ print_from comps N k' delimiter
  end.
(** sizeof...(Ts) - 1 wraps around for the empty tuple (infinite template recursion, does not
    compile), so [comps] is a head and a tail *)
Definition print_tuple (head : text) (tail : list text) (delimiter left right : text) : text :=
  left ++ print_from (head :: tail) (length tail) (length tail) delimiter ++ right.
(** compose, string.hpp 8-15: the arguments as operator<< prints them *)
Definition compose (ts : list text) : text := fold_left (fun strm t => strm ++ t) ts [].

(** ** clean_output_file, checkpoint.hpp 53-85 *)
(** the file system: the contents of the existing files *)
Definition fs := text -> option text.
Definition path_eqb (p q : text) : bool := if list_eq_dec ascii_dec p q then true else false.
Definition set_file (f : fs) (p : text) (c : option text) : fs := fun q => if path_eqb q p then c else f q.
(** boost::filesystem::rename: replaces an existing target *)
Definition rename (f : fs) (p q : text) : fs := set_file (set_file f p None) q (f p).
Definition bak (p : text) : text := p ++ str ".bak".
(** the variables of the loop: the input stream, buffer, counter and all characters written to
    out_file.  The counter is a uint64_t that only counts up to [entries], so it does not wrap. *)
Record copying := mkC { c_in : istream; c_buf : text; c_counter : nat; c_out : text }.
(** loop body, lines 72-78 *)
Definition copy_body (c : copying) : copying :=
  let (strm, buf) := getline (c_in c) (c_buf c) in
  mkC strm buf (if is_skippable_line buf then c_counter c else S (c_counter c)) (c_out c ++ buf).
(** the loop, lines 69-78; None: the fuel does not suffice *)
Fixpoint copy_loop (fuel entries : nat) (c : copying) : option copying :=
  if Nat.ltb (c_counter c) entries then
    match fuel with O => None | S fuel' => copy_loop fuel' entries (copy_body c) end
  else Some c.
Definition start_copy (contents : text) : copying := mkC (open_text contents) [] 0 [].
(** the characters clean_output_file writes to the new file, given the contents of the old one *)
Definition cleaned (fuel entries : nat) (contents : text) : option text :=
  match copy_loop fuel entries (start_copy contents) with Some c => Some (c_out c) | None => None end.

(** The function as a sequence of steps on the file system (a crash may occur after each): rename,
    opening the new file (truncating), loop iterations, the final flush.  Written characters are
    buffered: [to_disk] writes the buffered characters up to some point. *)
Inductive clean_pc :=
| AtRename
| AtOpen
| AtLoop (c : copying)
| AtEnd.
Inductive clean_step (path : text) (entries : nat) : fs * clean_pc -> fs * clean_pc -> Prop :=
| do_rename f c : f path = Some c ->                      (* line 57; throws if there is no such file *)
    clean_step path entries (f, AtRename) (rename f path (bak path), AtOpen)
| do_open f c : f (bak path) = Some c ->                  (* lines 60-64 *)
    clean_step path entries (f, AtOpen) (set_file f path (Some []), AtLoop (start_copy c))
| do_body f c : (c_counter c < entries)%nat ->
    clean_step path entries (f, AtLoop c) (f, AtLoop (copy_body c))
| to_disk f c n : (* part of the stream buffer is written, at any time *)
    clean_step path entries (f, AtLoop c) (set_file f path (Some (firstn n (c_out c))), AtLoop c)
| do_flush f c : (entries <= c_counter c)%nat ->          (* lines 79-84 *)
    clean_step path entries (f, AtLoop c) (set_file f path (Some (c_out c)), AtEnd).
Inductive clean_steps (path : text) (entries : nat) : fs * clean_pc -> fs * clean_pc -> Prop :=
| clean_refl s : clean_steps path entries s s
| clean_more s t u : clean_steps path entries s t -> clean_step path entries t u -> clean_steps path entries s u.

(** ** write_checkpoint_file, checkpoint.hpp 17-39, as the sequence of files it creates; the
    contents of the archive is what Blaze writes for the vector ([archive]) and operator<< of the
    time ([time]).  check_point_number is a function-local static: one counter per instantiation,
    starting at 0 in every run of the program. *)
Definition checkpoint_path (prefix : text) (k : Z) : text := prefix ++ dec k ++ str ".blaze".
Definition info_path (prefix : text) (k : Z) : text := prefix ++ dec k ++ str ".info".
Definition write_checkpoint_file (prefix archive time : text) (st : fs * Z) : fs * Z :=
  let (f, k) := st in
  let f1 := set_file f (checkpoint_path prefix k) (Some archive) in
  let f2 := set_file f1 (info_path prefix k) (Some (time ++ [newline])) in
  (f2, u64 (k + 1)).
