(** SPECIFICATION for C36: normal ordering with respect to a state without spin mixing and
    pairing whose one-particle expectation values are <c+_{a,spin} c_{b,spin}> = ev a b.
    Nothing here refers to how the library builds its matrix. *)
From Verif Require Import Base M_Operator M_Lattice Spec_Lattice M_Basis Spec_Matrix.
Local Open Scope list_scope.

(** c+_{i,up}, c_{i,up}, c+_{i,down}, c_{i,down} *)
Definition cu (i : Z) : op hub := hop true i true.
Definition au (i : Z) : op hub := hop false i true.
Definition cd (i : Z) : op hub := hop true i false.
Definition ad (i : Z) : op hub := hop false i false.

Section Normal.
  Context {K : StarRing} (ev : Z -> Z -> K).
  Local Open Scope ring_scope_.
  (** <c_{a,spin} c+_{b,spin}> *)
  Definition hole (a b : Z) : K := delta a b - ev b a.
  (** <x y> *)
  Definition contraction (x y : op hub) : K :=
    if Bool.eqb (snd (indices x)) (snd (indices y)) then
      match creator x, creator y with
      | true, false => ev (index1 x) (index1 y)
      | false, true => hole (index1 x) (index1 y)
      | _, _ => 0
      end
    else 0.
  (** sum_k (-1)^k <x y_k> y_1 ... (without y_k) ... y_n; [done] are the factors before k *)
  Fixpoint contract (x : op hub) (sign : K) (done rest : list (op hub)) : list (term hub K) :=
    match rest with
    | [] => []
    | y :: rest' => mkTerm (sign * contraction x y) (done ++ rest') :: contract x (- sign) (done ++ [y]) rest'
    end.
  Definition scale_terms (c : K) (l : list (term hub K)) : list (term hub K) :=
    map (fun t => mkTerm (c * prefactor t) (operators t)) l.
  (** the normal-ordered product:  :x w: = x :w: - (contractions of x with :w:) *)
  Fixpoint normal (w : list (op hub)) : list (term hub K) :=
    match w with
    | [] => [mkTerm 1 []]
    | x :: w' => map (fun t => mkTerm (prefactor t) (x :: operators t)) (normal w')
                 ++ flat_map (fun t => scale_terms (- prefactor t) (contract x 1 [] (operators t))) (normal w')
    end.
  (** the hopping leaves the expectation values unchanged *)
  Definition stationary (lat : lattice) (N : Z) : Prop := forall a b, site N a -> site N b ->
    sum_over (fun a' => ev a' b) (lat_neighbors lat a) = sum_over (fun b' => ev a b') (lat_neighbors lat b).
  (** The part of [H_int, :c+_{i1,up} c+_{i2,down} c_{i3,down}:] / U that consists of
      normal-ordered products outside the basis:
      :c+_1 c+_2 c_3 n_{1,down}: + :n_{2,up} c+_1 c+_2 c_3: - :n_{3,up} c+_1 c+_2 c_3:
      + <c+_2 c_3> (:n_{2,up} c+_1: - :n_{3,up} c+_1:) *)
  Definition outside (i1 i2 i3 : Z) : list (term hub K) :=
    normal [cu i1; cd i2; ad i3; cd i1; ad i1] ++ normal [cu i2; au i2; cu i1; cd i2; ad i3]
    ++ scale_terms (- (1)) (normal [cu i3; au i3; cu i1; cd i2; ad i3])
    ++ scale_terms (ev i2 i3) (normal [cu i2; au i2; cu i1])
    ++ scale_terms (- ev i2 i3) (normal [cu i3; au i3; cu i1]).
End Normal.
