(** MODEL: src/hubbard/include/cli.hpp and application.hpp, with the parts of
    boost::program_options and boost::filesystem they use. *)
From Coq Require Import Ascii String.
From Verif Require Import Base M_Text M_Io.
Local Open Scope list_scope.

(** ** boost::program_options *)
(** options_description: the long names in order, each with its default value as text.  None: no
    default value (response_file), or an option without a value (help, version). *)
Definition options := list (text * option text).
(** a parsed option; an empty key is a positional argument, which store() ignores *)
Definition parsed := list (text * text).
(** variables_map: the stored values, whether they are defaults, and the set of final keys, whose
    values later calls of store() do not change *)
Record variables := mkV { value : text -> option text; defaulted : text -> bool; final : text -> bool }.
Definition no_variables : variables := mkV (fun _ => None) (fun _ => false) (fun _ => false).
Definition upd_text {A} (m : text -> A) (k : text) (v : A) : text -> A := fun q => if path_eqb q k then v else m q.
(** store(), first part: the given options; an option given twice in one call throws
    multiple_occurrences (None) *)
Fixpoint store_given (ps : parsed) (vm : variables) (new_final : text -> bool) : option (variables * (text -> bool)) :=
  match ps with
  | [] => Some (vm, new_final)
  | (k, v) :: ps' =>
      if is_empty k then store_given ps' vm new_final
      else if final vm k then store_given ps' vm new_final
      else match value vm k, defaulted vm k with
           | Some _, false => None
           | _, _ => store_given ps' (mkV (upd_text (value vm) k (Some v)) (upd_text (defaulted vm) k false) (final vm))
                                 (upd_text new_final k true)
           end
  end.
(** store(), second part: defaults of the options that have no value yet *)
Fixpoint store_defaults (os : options) (vm : variables) : variables :=
  match os with
  | [] => vm
  | (k, None) :: os' => store_defaults os' vm
  | (k, Some d) :: os' =>
      match value vm k with
      | Some _ => store_defaults os' vm
      | None => store_defaults os' (mkV (upd_text (value vm) k (Some d)) (upd_text (defaulted vm) k true) (final vm))
      end
  end.
Definition store (os : options) (ps : parsed) (vm : variables) : option variables :=
  match store_given ps vm (fun _ => false) with
  | None => None
  | Some (vm', nf) => Some (store_defaults os (mkV (value vm') (defaulted vm') (fun k => (final vm' k || nf k)%bool)))
  end.
(** command_line_parser(...).run() on one argument.  Arguments not beginning with - are positional;
    --key=value gives an option; it throws if the value is empty or the key is unknown.
    Simplifications: every other argument beginning with - (short options, --key value, abbreviated
    keys) is treated as an error; the conversion of a number to double is M_OptionValue.v. *)
Fixpoint split_at (x : ascii) (t : text) : option (text * text) :=
  match t with
  | [] => None
  | c :: t' => if Ascii.eqb c x then Some ([], t')
               else match split_at x t' with Some (a, b) => Some (c :: a, b) | None => None end
  end.
Definition known (os : options) (k : text) : bool := existsb (fun o => path_eqb (fst o) k) os.
Definition parse_argument (os : options) (arg : text) : option (text * text) :=
  match arg with
  | c :: rest1 =>
      if Ascii.eqb c "-"%char then
        match rest1 with
        | c2 :: rest2 =>
            if Ascii.eqb c2 "-"%char then
              match split_at "="%char rest2 with
              | Some (k, v) => if (known os k && negb (is_empty v))%bool then Some (k, v) else None
              | None => None
              end
            else None
        | [] => None
        end
      else Some ([], arg)
  | [] => Some ([], [])
  end.
Fixpoint parse_arguments (os : options) (args : list text) : option parsed :=
  match args with
  | [] => Some []
  | a :: args' => match parse_argument os a, parse_arguments os args' with
                  | Some p, Some ps => Some (p :: ps)
                  | _, _ => None
                  end
  end.

(** ** read_response_file, cli.hpp 28-43: one line is added to [args] in each iteration, and all of
    them are parsed and stored again.  None: the fuel does not suffice; Some None: an exception *)
Fixpoint response_loop (fuel : nat) (os : options) (file : istream) (buf : text) (args : list text) (vm : variables)
  : option (option variables) :=
  match fuel with
  | O => None
  | S fuel' =>
      let (file', buf') := getline file buf in
      let args' := args ++ [buf'] in
      match parse_arguments os args' with
      | None => Some None
      | Some ps =>
          match store os ps vm with
          | None => Some None
          | Some vm' => if eofbit file' then Some (Some vm') else response_loop fuel' os file' buf' args' vm'
          end
      end
  end.
(** opening a file that does not exist sets the fail bit *)
Definition open_file (f : fs) (path : text) : istream :=
  match f path with Some c => open_text c | None => mkI [] false true end.
Definition read_response_file (fuel : nat) (f : fs) (path : text) (os : options) (vm : variables) : option (option variables) :=
  response_loop fuel os (open_file f path) [] [] vm.

(** ** parse_command_line_options, cli.hpp 45-82, from the parsed options on: the list of given
    options and then of defaults.  The regex on the option's name, arg (=default), matches iff there
    is a non-empty default text without line terminators. *)
Definition in_parsed (ps : parsed) (k : text) : bool := existsb (fun p => path_eqb (fst p) k) ps.
Definition plain (d : text) : bool := forallb class_dot d.
Definition all_options (os : options) (ps : parsed) : list (text * text) :=
  ps ++ flat_map (fun o => match o with
                           | (k, Some d) => if in_parsed ps k then [] else if (negb (is_empty d) && plain d)%bool then [(k, d)] else []
                           | (_, None) => []
                           end) os.

(** ** boost::filesystem::change_extension = path::replace_extension.  [split_ext]: the path without
    the extension, and the extension including the dot: the last dot of the filename (the part
    after the last slash) starts it, unless the filename is . or .. *)
Fixpoint ext_rev (r : text) (acc : text) : option (text * text) :=  (* r: the reversed path *)
  match r with
  | [] => None
  | c :: r' => if Ascii.eqb c "/"%char then None
               else if Ascii.eqb c "."%char then Some (rev r', c :: acc)
               else ext_rev r' (c :: acc)
  end.
Fixpoint filename_rev (r acc : text) : text :=
  match r with
  | [] => acc
  | c :: r' => if Ascii.eqb c "/"%char then acc else filename_rev r' (c :: acc)
  end.
Definition split_ext (p : text) : text * text :=
  let name := filename_rev (rev p) [] in
  if (path_eqb name (str ".") || path_eqb name (str ".."))%bool then (p, [])
  else match ext_rev (rev p) [] with Some x => x | None => (p, []) end.
Definition change_extension (p ext : text) : text := fst (split_ext p) ++ ext.

(** ** Application, application.hpp 13-94 *)
(** lines 43-49 *)
Record app_paths := mkP { output_path : text; response_path : text; log_path : text; matrix_path : text; checkpoint_prefix : text }.
Definition paths_of (out : text) : app_paths :=
  mkP out (change_extension out (str ".rsp")) (change_extension out (str ".log"))
      (change_extension out [] ++ str "_matrix.blaze") (change_extension out [] ++ str "_checkpoint_").
(** lines 62-71: the response file is written only if none is read *)
Definition response_text (all : list (text * text)) : text :=
  flat_map (fun o => str "--" ++ fst o ++ str "=" ++ snd o ++ [newline]) all.
(** lines 77-93: [infos] are the values written in lines 77-88 *)
Definition info_labels : list text :=
  map str ["# program     "; "# ieompp:     "; "# boost:      "; "# blaze:      "; "# arch:       "; "# os:         ";
           "# compiler:   "; "# std lib:    "; "# compiled by:"; "# endianess   "; "# max threads:"]%string.
Definition app_header (infos : list text) (all : list (text * text)) : text :=
  flat_map (fun li => fst li ++ [tab] ++ snd li ++ [newline]) (combine info_labels infos)
  ++ str "#" ++ [newline] ++ str "# CLI options:" ++ [newline]
  ++ flat_map (fun o => str "#" ++ [tab] ++ fst o ++ str " = " ++ snd o ++ [newline]) all.
(** The constructor, lines 28-94, from the parsed command line [cli] on (help and version, which
    exit, not modelled; the log file is not modelled): the variables, the paths, and the files.
    output_file is opened (truncated) and the header goes to its buffer. *)
Definition run_application (fuel : nat) (os : options) (cli : parsed) (f : fs) (infos : list text)
  : option (option (variables * app_paths * fs * text)) :=
  match store os cli no_variables with
  | None => Some None
  | Some vm =>
      match value vm (str "out") with
      | None => Some None                               (* variables["out"].as<> throws *)
      | Some out =>
          let all := all_options os cli in
          let P := paths_of out in
          match value vm (str "response_file") with
          | Some rp =>
              match read_response_file fuel f rp os vm with
              | None => None
              | Some None => Some None
              | Some (Some vm') => Some (Some (vm', P, set_file f (output_path P) (Some []), app_header infos all))
              end
          | None =>
              let f1 := set_file f (response_path P) (Some (response_text all)) in
              Some (Some (vm, P, set_file f1 (output_path P) (Some []), app_header infos all))
          end
      end
  end.
