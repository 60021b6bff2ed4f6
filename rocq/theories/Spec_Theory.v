(** SPECIFICATION for C79: how far the infinite chain and the ring of N sites may be apart. *)
From Coq Require Import Reals ZArith.
Local Open Scope R_scope.
(** M = N/2 (rounded down): t^M / M! for even N,
    sqrt 2 (t^(M+1)/(M+1)! + t^(M+2)/(M+2)!) for odd N *)
Definition ring_bound (N : Z) (t : R) : R :=
  let M := Z.to_nat (N / 2) in
  if Z.even N then t ^ M / INR (fact M)
  else sqrt 2 * (t ^ (S M) / INR (fact (S M)) + t ^ (S (S M)) / INR (fact (S (S M)))).
