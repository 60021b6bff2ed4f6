(** MODEL of "#pragma omp parallel for": several threads share an array and run their loop
    iterations concurrently.  [x += y] on a shared element is two steps (read it into a private
    register, write register + y back), and the steps of different threads interleave in any
    way.  Sequential consistency of the individual reads and writes is assumed (in the modelled
    loops no two threads touch the same element, see P_OpenMP). *)
From Verif Require Import Base M_Matrix M_Ode.
Local Open Scope list_scope.

(** loops whose body may be undefined *)
Fixpoint oconcat {A B} (f : A -> outcome (list B)) (l : list A) : outcome (list B) :=
  match l with
  | [] => Ok []
  | x :: l' => obind (f x) (fun y => obind (oconcat f l') (fun ys => Ok (y ++ ys)))
  end.
Fixpoint omap {A B} (f : A -> outcome B) (l : list A) : outcome (list B) :=
  match l with
  | [] => Ok []
  | x :: l' => obind (f x) (fun y => obind (omap f l') (fun ys => Ok (y :: ys)))
  end.

Section Par.
  Context {K : StarRing}.
  Local Open Scope ring_scope_.
  (** elementary shared-memory steps: read element c into the register; element c = register + x;
      element c = x *)
  Inductive mop := Load (c : nat) | AddStore (c : nat) (x : K) | Put (c : nat) (x : K).
  Definition cell (o : mop) : nat := match o with Load c => c | AddStore c _ => c | Put c _ => c end.
  (** v[c] += x *)
  Definition plus_assign (c : nat) (x : K) : list mop := [Load c; AddStore c x].

  Definition exec1 (o : mop) (reg : K) (mem : list K) : K * list K :=
    match o with
    | Load c => (nth c mem 0, mem)
    | AddStore c x => (reg, list_set mem c (reg + x))
    | Put c x => (reg, list_set mem c x)
    end.
  (** a thread: its register and what it still has to do *)
  Definition thread : Type := K * list mop.
  (** thread number [t] takes a step (nothing happens if it has finished) *)
  Definition step (c : list thread * list K) (t : nat) : list thread * list K :=
    match nth_error (fst c) t with
    | Some (reg, o :: p) => let (reg', mem') := exec1 o reg (snd c) in (list_set (fst c) t (reg', p), mem')
    | _ => c
    end.
  (** registers hold nothing yet *)
  Definition start (progs : list (list mop)) : list thread := map (fun p => (0, p)) progs.
  Definition finished (ths : list thread) : bool :=
    forallb (fun th => match snd th with [] => true | _ => false end) ths.
  (** [trace] says which thread takes the next step.  None: the trace ends before the threads
      do.  An access outside of the array is undefined. *)
  Definition run_par (progs : list (list mop)) (trace : list nat) (mem : list K) : option (outcome (list K)) :=
    if forallb (fun p => forallb (fun o => Nat.ltb (cell o) (length mem)) p) progs then
      let (ths, mem') := fold_left step trace (start progs, mem) in
      if finished ths then Some (Ok mem') else None
    else Some UB.

  (** the iterations each thread executes, and the interleaving *)
  Record schedule := mkSch { who : list (list Z); trace : list nat }.
  (** #pragma omp parallel for: [body t i] is what iteration [i] does when executed by thread [t] *)
  Definition par_for (s : schedule) (body : nat -> Z -> outcome (list mop)) (mem : list K)
    : option (outcome (list K)) :=
    match omap (fun p => oconcat (body (fst p)) (snd p)) (combine (seq 0 (length (who s))) (who s)) with
    | Ok progs => run_par progs (trace s) mem
    | UB => Some UB
    end.
  (** a loop whose iterations do [results[omp_get_thread_num()] += x] for a list of x *)
  Definition par_reduce (s : schedule) (adds : Z -> outcome (list K)) (results : list K)
    : option (outcome (list K)) :=
    par_for s (fun t i => obind (adds i) (fun xs => Ok (flat_map (plus_assign t) xs))) results.
  (** std::accumulate(results.begin(), results.end(), 0) *)
  Definition accumulate (results : list K) : K := fold_left radd results 0.
  (** statements after one another *)
  Definition pbind {A B} (x : option (outcome A)) (f : A -> option (outcome B)) : option (outcome B) :=
    match x with Some (Ok a) => f a | Some UB => Some UB | None => None end.
End Par.
Arguments mop K : clear implicits.
Arguments thread K : clear implicits.
