(** MODEL: io/eigen/sparse.hpp and the parts of std::regex, strtoul, operator>> and
    Eigen::SparseMatrix it uses. *)
From Coq Require Import Ascii String.
From Verif Require Import Base M_Text M_Io M_Matrix.
Local Open Scope Z_scope.
Local Open Scope list_scope.

(** \d *)
Definition class_d (c : ascii) : bool := (Nat.leb 48 (code c) && Nat.leb (code c) 57)%bool.
Definition class_x (c : ascii) : bool := Ascii.eqb c "x"%char.
Definition r_plus (r : regex) : regex := RSeq r (RStar r).
(** dimension_reg, line 36: ^\s*(\d+)\s*x\s*(\d+)\s*$ *)
Definition dimension_regex : regex :=
  RSeq (RStar (RClass class_s)) (RSeq (r_plus (RClass class_d)) (RSeq (RStar (RClass class_s)) (RSeq (RClass class_x)
    (RSeq (RStar (RClass class_s)) (RSeq (r_plus (RClass class_d)) (RStar (RClass class_s))))))).
Fixpoint skip_space (t : text) : text :=
  match t with c :: t' => if class_s c then skip_space t' else t | [] => [] end.
Fixpoint take_digits (t : text) : text * text :=
  match t with
  | c :: t' => if class_d c then let (d, r) := take_digits t' in (c :: d, r) else ([], t)
  | [] => ([], [])
  end.
(** match[1].str() and match[2].str() of a line that matches: \d+ is followed by white space, x or
    the end, so a submatch is a maximal run of digits *)
Definition sub1 (l : text) : text := fst (take_digits (skip_space l)).
Definition sub2 (l : text) : text :=
  match skip_space (snd (take_digits (skip_space l))) with
  | _ :: t => fst (take_digits (skip_space t))
  | [] => []
  end.
(** the value of a run of digits *)
Definition horner (d : text) : Z := fold_left (fun a c => 10 * a + (Z.of_nat (code c) - 48)) d 0.
(** std::strtoul(s, nullptr, 10), 64 bits: 0 without digits; ULONG_MAX on overflow *)
Definition strtoul (t : text) : Z :=
  let clamp d k := if two64 <=? horner d then two64 - 1 else k in
  match skip_space t with
  | c :: t' =>
      if Ascii.eqb c "-"%char then let d := fst (take_digits t') in clamp d ((- horner d) mod two64)
      else if Ascii.eqb c "+"%char then let d := fst (take_digits t') in clamp d (horner d)
      else let d := fst (take_digits (c :: t')) in clamp d (horner d)
  | [] => 0
  end.
(** unsigned long to Index (std::ptrdiff_t, 64 bits) *)
Definition to_index (n : Z) : Z := if n <? two64 / 2 then n else n - two64.

(** operator>>(std::istream&, Index&) on the characters left: the value stored, and the characters
    left or None if the fail bit was set; no digits: 0; overflow: the nearest limit *)
Definition scan_int (t : text) : Z * option text :=
  let finish (neg : bool) (t : text) :=
    let (d, r) := take_digits t in
    let v := if neg then - horner d else horner d in
    if is_empty d then (0, None)
    else if v <? - (two64 / 2) then (- (two64 / 2), None)
    else if two64 / 2 <=? v then (two64 / 2 - 1, None)
    else (v, Some r) in
  match skip_space t with
  | c :: t' =>
      if Ascii.eqb c "-"%char then finish true t'
      else if Ascii.eqb c "+"%char then finish false t'
      else finish false (c :: t')
  | [] => (0, None)
  end.

(** ** Eigen::SparseMatrix<S, Options, StorageIndex>: the stored elements *)
Record ematrix {S} := mkEM { em_rows : Z; em_cols : Z; em_at : Z -> Z -> option S }.
Arguments ematrix : clear implicits.
Inductive status := Returned | ThrewIOException.
Section Read.
  Context {S : Type}.
  (** operator>> of Scalar after skipping white space: the value and the characters left, or None
      (fail bit); [on_fail]: what a failed extraction makes of the old value *)
  Variable rd : text -> option (S * text).
  Variable on_fail : option S -> option S.
  (** std::numeric_limits<StorageIndex>::max() *)
  Variable storage_max : Z.
  (** Matrix is row-major (Options & RowMajor) *)
  Variable row_major : bool.

  (** Matrix(rows, cols): no element stored; sizes that StorageIndex cannot hold are treated as undefined *)
  Definition em_new (rows cols : Z) : outcome (ematrix S) :=
    if ((0 <=? rows) && (rows <=? storage_max) && (0 <=? cols) && (cols <=? storage_max))%bool
    then Ok (mkEM _ rows cols (fun _ _ => None)) else UB.
  (** m.reserve(VectorXi::Constant(cols, nnz)), line 48: Eigen reads one size for every inner vector,
      and the vector has cols elements.  The amount reserved has no further effect. *)
  Definition em_reserve (m : ematrix S) (sizes : Z) : outcome (ematrix S) :=
    let outer := if row_major then em_rows m else em_cols m in
    if outer <=? sizes then Ok m else UB.
  (** m.insert(i, j) = val: the position must be inside and not stored yet *)
  Definition em_insert (m : ematrix S) (i j : Z) (v : S) : outcome (ematrix S) :=
    if ((0 <=? i) && (i <? em_rows m) && (0 <=? j) && (j <? em_cols m))%bool
    then match em_at m i j with
         | Some _ => UB
         | None => Ok (mkEM _ (em_rows m) (em_cols m) (fun a b => if ((a =? i) && (b =? j))%bool then Some v else em_at m a b))
         end
    else UB.
  (** ss >> i >> j >> val, line 59: [old] is the j and val of the previous line, None if there is
      none (they are not initialised); after a failure the later variables keep their values *)
  Definition parse_entry (old : option (Z * S)) (l : text) : outcome (Z * Z * S) :=
    match scan_int l with
    | (i, None) => match old with Some (j, v) => Ok (i, j, v) | None => UB end
    | (i, Some t) =>
        match scan_int t with
        | (j, None) => match old with Some (_, v) => Ok (i, j, v) | None => UB end
        | (j, Some t) =>
            match rd (skip_space t) with
            | Some (v, _) => Ok (i, j, v)
            | None => match on_fail (option_map snd old) with Some v => Ok (i, j, v) | None => UB end
            end
        end
    end.
  (** the loop, 57-61 *)
  Fixpoint read_entries (fuel n : nat) (strm : istream) (old : option (Z * S)) (m : ematrix S) : option (outcome (istream * ematrix S * status)) :=
    match n with
    | O => Some (Ok (strm, m, Returned))
    | Datatypes.S n' =>
        match next_line fuel strm with
        | None => None
        | Some (l, strm') =>
            match parse_entry old l with
            | UB => Some UB
            | Ok (i, j, v) => match em_insert m i j v with
                              | UB => Some UB
                              | Ok m' => read_entries fuel n' strm' (Some (j, v)) m'
                              end
            end
        end
    end.
  (** read_matrix, 32-62.  None: the fuel does not suffice *)
  Definition read_matrix (fuel : nat) (strm : istream) (m : ematrix S) (nnz_per_inner_vec : Z) : option (outcome (istream * ematrix S * status)) :=
    match next_line fuel strm with
    | None => None
    | Some (l, strm') =>
        if regex_match l dimension_regex then
          let rows := strtoul (sub1 l) in
          let cols := strtoul (sub2 l) in
          match obind (em_new (to_index rows) (to_index cols)) (fun m => em_reserve m (to_index cols)) with
          | UB => Some UB
          | Ok m' =>
              match next_line fuel strm' with
              | None => None
              | Some (l2, strm'') => read_entries fuel (Z.to_nat (to_index (strtoul l2))) strm'' None m'
              end
          end
        else Some (Ok (strm', m, ThrewIOException))
    end.

  (** write_matrix, 18-29: [outer]: the inner vectors, each the list of (inner index, value) the
      InnerIterator visits *)
  Fixpoint write_from (fmt : S -> text) (k : Z) (outer : list (list (Z * S))) : text :=
    match outer with
    | [] => []
    | inner :: outer' =>
        flat_map (fun e => let row := if row_major then k else fst e in
                           let col := if row_major then fst e else k in
                           dec row ++ [tab] ++ dec col ++ [tab] ++ fmt (snd e) ++ [newline]) inner
        ++ write_from fmt (k + 1) outer'
    end.
  Definition write_matrix (fmt : S -> text) (outer : list (list (Z * S))) : text := write_from fmt 0 outer.
End Read.
