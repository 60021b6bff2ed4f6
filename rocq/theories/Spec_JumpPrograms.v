(** SPECIFICATION for C88: the Fermi jump of a vector of coefficients. *)
From Coq Require Import Reals.
From Verif Require Import Base M_Dispersion M_Matrix Spec_Stability Spec_Expectation Spec_Programs.
Local Open Scope R_scope.

Section Jump.
  (** N sites, rho a b = <c+_a c_b>, phi a = k_F r_a *)
  Context (N : Z) (rho : Z -> Z -> R) (phi : Z -> R).
  (** sum_a e^{i phi_a} (v_a + sum_bc <2 c+_b c_c - delta_bc> v_abc) *)
  Definition jump_amplitude (v : Z -> CR) : CR :=
    sum_over (K := CR) (fun a => rmul ((cos (phi a), sin (phi a)) : CR)
      (radd (v a) (sum_over (K := CR) (fun b => sum_over (K := CR) (fun c =>
         rmul (real (pair_average rho b c)) (v (N + N * N * a + N * b + c)%Z)) (zrange 0 N)) (zrange 0 N)))) (zrange 0 N).
  (** its absolute square *)
  Definition jump (v : Z -> CR) : R := let z := jump_amplitude v in fst z * fst z + snd z * snd z.
End Jump.
(** <c+_a c_b> for a square lattice with N x N sites at half filling, lattice spacing 1; the
    site with the coordinates (x, y) has the number x N + y *)
Definition sea_square (N a b : Z) : R :=
  fermi_sea_2d (IZR (ring_distance N (a / N) (b / N))) (IZR (ring_distance N (a mod N) (b mod N))).
(** k_F r_a *)
Definition phase_square (N : Z) (kx ky : R) (a : Z) : R := kx * IZR (a / N) + ky * IZR (a mod N).
