(** SPECIFICATION for C116: the same basis element on rings of different length. *)
From Coq Require Import ZArith.
Local Open Scope Z_scope.
(** the site o steps to the right (o > 0) or left (o < 0) of site 0 *)
Definition at_offset (N o : Z) : Z := o mod N.
(** index of c+_a, and of c+_a c+_b c_c, in the basis of the ring of N sites *)
Definition index1 (N a : Z) : Z := at_offset N a.
Definition index3 (N a b c : Z) : Z := N + N * N * at_offset N a + N * at_offset N b + at_offset N c.
