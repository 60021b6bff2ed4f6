(** MODEL: platform.hpp, types/blaze.hpp (blaze_version), exception.hpp, src/hubbard/include/logging.hpp
    (init) and the constructor of Application (src/hubbard/include/application.hpp 28-94) with help,
    version and the log file, which M_Cli leaves out. *)
From Coq Require Import Ascii String.
From Verif Require Import Base M_Matrix M_Text M_Io M_Cli.
Local Open Scope list_scope.
Local Open Scope Z_scope.

(** the macros the build sets: BOOST_VERSION, the blaze version, BOOST_ARCH_X86_32 and _64,
    BOOST_OS_LINUX, BOOST_COMP_CLANG and BOOST_COMP_GNUC with major, minor and patch numbers,
    __INTEL_COMPILER, BOOST_LIB_STD_GNU, BOOST_LIB_STD_CXX (printed: _LIBCPP_VERSION) *)
Inductive endian := Big | Little | BigWord | LittleWord.
Record build := mkBuild {
  ieompp_version : text; boost_version : Z; blaze_major : Z; blaze_minor : Z;
  arch_x86_32 : bool; arch_x86_64 : bool; os_linux : bool;
  comp_clang : option (Z * Z * Z); comp_gnuc : option (Z * Z * Z); intel_compiler : option Z;
  lib_std_gnu : option Z; lib_std_cxx : option Z; byte_order : endian }.
(** what the process finds when it runs: the environment variable LOGNAME, the name gethostname
    reports, omp_get_max_threads() *)
Record environment := mkEnv { logname : option text; hostname : text; threads : Z }.

Definition dot : text := str ".".
(** Platform::boost, platform.hpp 22-28 *)
Definition platform_boost (b : build) : text :=
  compose [dec (boost_version b / 100000); dot; dec (boost_version b / 100 mod 1000); dot; dec (boost_version b mod 100)].
(** blaze_version, types/blaze.hpp 14-18 *)
Definition blaze_version (b : build) : text := compose [dec (blaze_major b); dot; dec (blaze_minor b)].
(** Platform::architecture, 30-40 *)
Definition platform_architecture (b : build) : text :=
  if arch_x86_32 b then compose [str "x86_32"] else if arch_x86_64 b then compose [str "x86_64"] else compose [str "UntestedArch"].
(** Platform::operating_system, 42-50 *)
Definition platform_operating_system (b : build) : text := if os_linux b then compose [str "Linux"] else compose [str "UntestedOS"].
(** Platform::compiler, 52-69; static_cast<uint16_t> wraps *)
Definition platform_compiler (b : build) : text :=
  match comp_clang b with
  | Some (ma, mi, pa) => compose [str "clang "; dec ma; dot; dec mi; dot; dec pa]
  | None =>
      match comp_gnuc b with
      | Some (ma, mi, pa) => compose [str "gcc "; dec ma; dot; dec mi; dot; dec pa]
      | None =>
          match intel_compiler b with
          | Some v => if v =? 0 then compose [str "UntestedCompiler"]
                      else compose [str "intel "; dec ((v / 100) mod 65536); dot; dec (v mod 100); dot; dec (v mod 10)]
          | None => compose [str "UntestedCompiler"]
          end
      end
  end.
(** Platform::cpp_library, 71-81; a macro that is 0 does not count *)
Definition given (m : option Z) : bool := match m with Some v => negb (v =? 0) | None => false end.
Definition platform_cpp_library (b : build) : text :=
  if given (lib_std_gnu b) then compose [str "libstdc++"; match lib_std_gnu b with Some v => dec v | None => [] end]
  else if given (lib_std_cxx b) then compose [str "libc++"; match lib_std_cxx b with Some v => dec v | None => [] end]
  else str "UnknownC++Library".
(** Platform::host, 83-91, not on Windows.  gethostname writes the name and a terminator if they fit into the
    128 bytes, else (glibc) the first 128 bytes without terminator: reading the string then runs past the
    buffer.  Host names contain no NUL. *)
Definition platform_host (e : environment) : outcome text :=
  if Z.of_nat (length (hostname e)) <? 128 then Ok (hostname e) else UB.
(** Platform::user, 93-99: std::string of a null pointer is undefined *)
Definition platform_user (e : environment) : outcome text := match logname e with Some u => Ok u | None => UB end.
(** operator<< of Endian, 120-141; Platform::endianess, 102-115.  A build for an unknown byte order does not
    compile (Endian::Unkown). *)
Definition show_endian (x : endian) : text :=
  match x with
  | Big => str "BigEndian" | Little => str "LittleEndian"
  | BigWord => str "BigWordSwappedEndian" | LittleWord => str "LittleWordSwappedEndian"
  end.
(** Platform::max_threads, 117 *)
Definition platform_max_threads (e : environment) : text := compose [dec (threads e)].

(** the eleven values application.hpp 77-88 and 134-145 print *)
Definition platform_infos (b : build) (e : environment) (name : text) : outcome (list text) :=
  obind (platform_user e) (fun user => obind (platform_host e) (fun host =>
  Ok [name; ieompp_version b; platform_boost b; blaze_version b; platform_architecture b; platform_operating_system b;
      platform_compiler b; platform_cpp_library b; user ++ str "@" ++ host; show_endian (byte_order b); platform_max_threads e])).
(** print_version, application.hpp 132-146 *)
Definition version_labels : list text :=
  map str ["program:    "; "ieompp:     "; "boost:      "; "blaze:      "; "arch:       "; "os:         ";
           "compiler:   "; "std lib:    "; "compiled by:"; "endianess   "; "max threads:"]%string.
Definition version_text (infos : list text) : text :=
  flat_map (fun li => fst li ++ [tab] ++ snd li ++ [newline]) (combine version_labels infos).

Inductive started := Undefined | Threw | Exited (code : Z) (printed : text) | Running (r : variables * app_paths * fs * text).
(** The constructor, 28-94.  [help_text] is what print_help prints (boost formats the options) and [logged] what
    the loggers have written to the log file (truncated by Loggers::init) when the response file is read. *)
Definition application (fuel : nat) (b : build) (e : environment) (name help_text logged : text)
    (os : options) (cli : parsed) (f : fs) : option started :=
  match store os cli no_variables with
  | None => Some Threw
  | Some vm =>
      match value vm (str "help") with
      | Some _ => Some (Exited 1 help_text)
      | None =>
          match value vm (str "version") with
          | Some _ => match platform_infos b e name with UB => Some Undefined | Ok infos => Some (Exited 1 (version_text infos)) end
          | None =>
              match value vm (str "out") with
              | None => Some Threw
              | Some out =>
                  match platform_infos b e name with      (* Loggers::init, logging.hpp 17-37 *)
                  | UB => Some Undefined
                  | Ok infos =>
                      match run_application fuel os cli (set_file f (log_path (paths_of out)) (Some logged)) infos with
                      | None => None
                      | Some None => Some Threw
                      | Some (Some r) => Some (Running r)
                      end
                  end
              end
          end
      end
  end.

(** create_exception, exception.hpp 28-34, and what(), 18: a C string ends at the first NUL *)
Definition exception_message (file : text) (line : Z) (msg : text) : text := file ++ str ":" ++ dec line ++ str ": " ++ msg.
Fixpoint c_str (t : text) : text :=
  match t with
  | [] => []
  | c :: t' => if Ascii.eqb c zero then [] else c :: c_str t'
  end.
Definition what (message : text) : text := c_str message.
