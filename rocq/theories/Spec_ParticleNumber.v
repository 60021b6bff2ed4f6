(** SPECIFICATION for C50 (closed form): the particle number computed by the momentum-space
    programs, in terms of the momenta. *)
From Verif Require Import Base M_Matrix.
Local Open Scope list_scope.
Section S.
  Context {K : StarRing}.
  Local Open Scope ring_scope_.
  (** one if the state is occupied *)
  Definition occupied (o : bool) : K := if o then 1 else 0.
  (** |z|^2 *)
  Definition abs2 (z : K * K) : K := fst z * fst z + snd z * snd z.
  (** n k tells whether momentum k lies below the Fermi energy; h i is the coefficient of basis
      element i (0: c+_q; 1 + k1 L + k2: c+_k1 c+_k2 c_(k1+k2-q)).
      n_q |h_0 + sum_k2 (1 + 2 n_k2) h_(q,k2)|^2 + 4 sum_(k1<>q) sum_k2 n_k1 n_k2 (1 - n_(k1+k2-q)) |h_(k1,k2)|^2 *)
  Definition scattering (L q : Z) (n : Z -> bool) (h : Z -> K * K) : K * K :=
    let f k := 1 + (occupied (n k) + occupied (n k)) in
    (fst (h 0%Z) + sum_over (fun k => f k * fst (h (1 + q * L + k)%Z)) (zrange 0 L),
     snd (h 0%Z) + sum_over (fun k => f k * snd (h (1 + q * L + k)%Z)) (zrange 0 L)).
  Definition particle_number_form (L q : Z) (n : Z -> bool) (h : Z -> K * K) : K :=
    occupied (n q) * abs2 (scattering L q n h) +
    sum_over (fun k1 => sum_over (fun k2 =>
      if (k1 =? q)%Z then 0
      else (1 + 1 + 1 + 1) * (occupied (n k1) * occupied (n k2) * occupied (negb (n ((k1 + k2 - q) mod L)%Z)) * abs2 (h (1 + k1 * L + k2)%Z)))
      (zrange 0 L)) (zrange 0 L).
End S.
