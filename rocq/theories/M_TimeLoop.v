(** MODEL: src/hubbard/include/common.hpp (has_time_interval_passed) and the main loop shared by
    the RK4 programs under src/hubbard (hubbard_real_1d_rk4.cpp lines 52-90; the loops of
    hubbard_real_1d_rk4_jump.cpp, hubbard_real_2d_rk4_jump.cpp, hubbard_real_1d_kinetic_rk4.cpp and
    the two _coefficients programs differ only in what is measured).
    Floating-point numbers are real numbers; every arithmetic operation is followed by an arbitrary
    rounding function [rnd] (so [rnd] = identity is exact arithmetic).  Logging is left out. *)
From Coq Require Import Reals.
From Verif Require Import Base M_Matrix M_LatticeReal M_Number.
Local Open Scope R_scope.
Local Open Scope list_scope.

(** one line written to the output file: time and observable *)
Record loop_state (H O : Type) := mkLoop { ls_t : R; ls_last : R; ls_h : H; ls_out : list (R * O) }.
Arguments mkLoop {H O}. Arguments ls_t {H O}. Arguments ls_last {H O}. Arguments ls_h {H O}. Arguments ls_out {H O}.

Section Loop.
  Context {H O : Type} (rnd : R -> R).
  (** common.hpp 57-62: has_time_interval_passed; the cast of a negative or too large rounded
      value to uint64_t is undefined *)
  Definition has_time_interval_passed (t last dt : R) (interval : Z) : outcome bool :=
    if negb (Rltb last t) then Ok false
    else obind (to_u64 (round_away (rnd (rnd (t - last) / dt)))) (fun n => Ok (interval <=? n)%Z).

  (** the program: [step] is integrator.step(M, h), [obs] the observable, [dt] also the step size *)
  Variables (step : H -> H) (obs : H -> O) (dt t_end : R) (interval : Z).
  (** hubbard_real_1d_rk4.cpp 69-78 (in the loop) and 84-90 (after it) *)
  Definition maybe_measure (s : loop_state H O) : outcome (loop_state H O) :=
    obind (has_time_interval_passed (ls_t s) (ls_last s) dt interval) (fun b =>
      if b then Ok (mkLoop (ls_t s) (ls_t s) (ls_h s) (ls_out s ++ [(ls_t s, obs (ls_h s))])) else Ok s).
  (** 68-84: for(t = 0.; t < t_end;) {..}; [None]: more than [fuel] iterations *)
  Fixpoint time_loop (fuel : nat) (s : loop_state H O) : option (outcome (loop_state H O)) :=
    match fuel with
    | 0%nat => None
    | S fuel =>
      if Rltb (ls_t s) t_end then
        match maybe_measure s with
        | UB => Some UB
        | Ok s' => time_loop fuel (mkLoop (rnd (ls_t s' + dt)) (ls_last s') (step (ls_h s')) (ls_out s'))
        end
      else Some (Ok s)
    end.
  (** 54-91: measurement at t=0, the loop, the final measurement *)
  Definition program (h0 : H) (fuel : nat) : option (outcome (loop_state H O)) :=
    match time_loop fuel (mkLoop 0 0 h0 [(0, obs h0)]) with
    | None => None
    | Some UB => Some UB
    | Some (Ok s) => Some (maybe_measure s)
    end.
End Loop.
