(** PROPERTY C85: products of objects that may be the same object. *)
From Verif Require Import Base M_Alias.
Local Open Scope list_scope.

(** the store [s'] differs from [s] at most in object [x], which now holds [l] *)
Definition updated {A} (s s' : store A) (x : nat) (l : list A) : Prop :=
  items (s' x) = l /\ forall q, q <> x -> s' q = s q.

Section C85.
  Context {A : Type} (growth : nat -> nat).
  Lemma put_same (s : store A) o v : put s o v o = v. Proof. unfold put. rewrite Nat.eqb_refl. reflexivity. Qed.
  Lemma put_other (s : store A) o v q : q <> o -> put s o v q = s q. Proof. intros H. unfold put. destruct (Nat.eqb_spec q o); [contradiction|reflexivity]. Qed.
  Lemma push_items (v : vec A) x : items (push_back growth v x) = items v ++ [x].
  Proof. unfold push_back. destruct (Nat.ltb _ _); reflexivity. Qed.
  Lemma copy_distinct n : forall (s : store A) x y i, x <> y -> i + n = length (items (s y)) ->
    exists s', copy_back growth s x y (moves (s y)) i n = Ok s' /\ updated s s' x (items (s x) ++ skipn i (items (s y))).
  Proof.
    induction n as [|n IH]; intros s x y i Hxy Hn; cbn [copy_back].
    - exists s. split; [reflexivity|]. split; [|reflexivity]. rewrite skipn_all2 by lia. rewrite app_nil_r. reflexivity.
    - rewrite Nat.eqb_refl. destruct (nth_error (items (s y)) i) as [a|] eqn:E; [|apply nth_error_None in E; lia].
      destruct (IH (put s x (push_back growth (s x) a)) x y (S i) Hxy) as (s' & R & U1 & U2).
      + rewrite put_other by auto. lia.
      + rewrite put_other in R by auto. exists s'. split; [exact R|]. split.
        * rewrite U1, put_same, put_other, push_items, <- app_assoc by auto. f_equal. cbn [app].
          clear -E. revert i E. generalize (items (s y)). intros l. induction l as [|b l IH]; intros i E; destruct i; cbn in *; try discriminate; [congruence|apply IH, E].
        * intros q Hq. rewrite U2, put_other by exact Hq. reflexivity.
  Qed.
  Lemma append_distinct (s : store A) x y : x <> y -> exists s', append growth s x y = Ok s' /\ updated s s' x (items (s x) ++ items (s y)).
  Proof. intros H. unfold append. destruct (copy_distinct (length (items (s y))) s x y 0 H eq_refl) as (s' & R & U). exists s'. split; [exact R|exact U]. Qed.

  (** the loop on one object, [k] elements appended so far without a move *)
  Definition room (v : vec A) : nat := capacity v - length (items v).
  Lemma copy_self n : forall (s : store A) x i, i + n <= length (items (s x)) ->
    (n <= room (s x) + 1 -> exists s', copy_back growth s x x (moves (s x)) i n = Ok s' /\ updated s s' x (items (s x) ++ firstn n (skipn i (items (s x))))) /\
    (room (s x) + 1 < n -> copy_back growth s x x (moves (s x)) i n = UB).
  Proof.
    induction n as [|n IH]; intros s x i Hn; cbn [copy_back].
    - split; [|lia]. intros _. exists s. split; [reflexivity|]. split; [cbn; rewrite app_nil_r; reflexivity|reflexivity].
    - rewrite Nat.eqb_refl. destruct (nth_error (items (s x)) i) as [a|] eqn:E; [|apply nth_error_None in E; lia].
      assert (Sk : skipn i (items (s x)) = a :: skipn (S i) (items (s x))).
      { clear -E. revert i E. generalize (items (s x)). intros l. induction l as [|b l IH]; intros i E; destruct i; cbn in *; try discriminate; [congruence|apply IH, E]. }
      unfold push_back. destruct (Nat.ltb_spec (length (items (s x))) (capacity (s x))) as [C|C].
      + set (v := mkV _ (items (s x) ++ [a]) (capacity (s x)) (moves (s x))).
        destruct (IH (put s x v) x (S i)) as [I1 I2].
        { rewrite put_same. cbn [items v]. rewrite app_length. cbn. lia. }
        rewrite put_same in I1, I2. cbn [moves v] in I1, I2. assert (Rv : room v + 1 = room (s x)) by (unfold room; cbn [items capacity v]; rewrite app_length; cbn; lia).
        split.
        * intros H. destruct I1 as (s' & R & U1 & U2); [lia|]. exists s'. split; [exact R|]. split.
          -- rewrite U1. cbn [items v]. rewrite <- app_assoc, Sk. cbn [firstn app]. do 2 f_equal. rewrite skipn_app, firstn_app, skipn_length.
             replace (n - (length (items (s x)) - S i)) with 0 by lia. cbn. rewrite app_nil_r. reflexivity.
          -- intros q Hq. rewrite U2, put_other by exact Hq. reflexivity.
        * intros H. apply I2. lia.
      + set (v := mkV _ (items (s x) ++ [a]) (growth (length (items (s x)))) (S (moves (s x)))). assert (R0 : room (s x) = 0) by (unfold room; lia).
        destruct n as [|n]; cbn [copy_back].
        * split; [|lia]. intros _. exists (put s x v). split; [reflexivity|]. split; [|intros q Hq; apply put_other; exact Hq]. rewrite put_same. cbn [items v]. rewrite Sk. reflexivity.
        * rewrite put_same. cbn [moves v]. destruct (Nat.eqb_spec (S (moves (s x))) (moves (s x))); [lia|]. split; [lia|reflexivity].
  Qed.
  Lemma append_self (s : store A) x :
    (2 * length (items (s x)) <= capacity (s x) + 1 -> exists s', append growth s x x = Ok s' /\ updated s s' x (items (s x) ++ items (s x))) /\
    (length (items (s x)) <= capacity (s x) -> capacity (s x) + 1 < 2 * length (items (s x)) -> append growth s x x = UB).
  Proof.
    unfold append. destruct (copy_self (length (items (s x))) s x 0 ltac:(lia)) as [H1 H2]. unfold room in *. split.
    - intros H. destruct H1 as (s' & R & U); [lia|]. exists s'. split; [exact R|]. cbn [skipn] in U. rewrite firstn_all in U. exact U.
    - intros Hc H. apply H2. lia.
  Qed.
End C85.

(** x *= y for two different objects: x gets the operators of y behind its own; nothing else changes. *)
Theorem C85_distinct : forall {A} growth (s : store A) x y, x <> y ->
  exists s', mono_mul_assign growth s x y = Ok s' /\ updated s s' x (items (s x) ++ items (s y)).
Proof. intros A growth s x y H. exact (append_distinct growth s x y H). Qed.
(** x * y is the concatenation for any two objects, the same or not; they keep their values. *)
Theorem C85_binary : forall {A} growth (s : store A) x y p, p <> x -> p <> y ->
  exists s', mono_mul_new growth s x y p = Ok s' /\ updated s s' p (items (s x) ++ items (s y)).
Proof.
  intros A growth s x y p Hx Hy. unfold mono_mul_new. destruct (append_distinct growth (put s p (copy_of (s x))) p y Hy) as (s' & R & U1 & U2).
  exists s'. split; [exact R|]. rewrite put_same in U1. rewrite put_other in U1 by auto. split; [exact U1|]. intros q Hq. rewrite U2, put_other by exact Hq. reflexivity.
Qed.
(** (defect) x *= x: right iff the vector has room for all but one of the new elements, undefined
    otherwise. *)
Theorem C85_self : forall {A} growth (s : store A) x, length (items (s x)) <= capacity (s x) ->
  (2 * length (items (s x)) <= capacity (s x) + 1 -> exists s', mono_mul_assign growth s x x = Ok s' /\ updated s s' x (items (s x) ++ items (s x))) /\
  (capacity (s x) + 1 < 2 * length (items (s x)) -> mono_mul_assign growth s x x = UB).
Proof. intros A growth s x Hc. destruct (append_self growth s x) as [H1 H2]. split; [exact H1|exact (H2 Hc)]. Qed.
(** (defect) in particular after the construction from a list of at least two operators, when the
    capacity is the size *)
Theorem C85_self_refuted : forall {A} growth (s : store A) x, capacity (s x) = length (items (s x)) ->
  2 <= length (items (s x)) -> mono_mul_assign growth s x x = UB.
Proof. intros A growth s x Hc Hl. apply (proj2 (C85_self growth s x ltac:(lia))). lia. Qed.

(** Terms with symbolic prefactor. *)
Definition term_updated {V Kr Op} (s s' : terms V Kr Op) (x : nat) (v : V) (d : list Kr) (o : list Op) : Prop :=
  values s' x = v /\ (forall q, q <> x -> values s' q = values s q) /\
  updated (deltas s) (deltas s') x d /\ updated (operators s) (operators s') x o.
Theorem C85_term_distinct : forall {V Kr Op} (mulV : V -> V -> V) growth (s : terms V Kr Op) x y, x <> y ->
  exists s', term_mul_assign mulV growth s x y = Ok s' /\
    term_updated s s' x (mulV (values s x) (values s y)) (items (deltas s x) ++ items (deltas s y)) (items (operators s x) ++ items (operators s y)).
Proof.
  intros V Kr Op mulV growth s x y H. unfold term_mul_assign, prefactor_mul_assign.
  destruct (append_distinct growth (deltas s) x y H) as (d & -> & U). cbn [operators].
  destruct (append_distinct growth (operators s) x y H) as (o & -> & W). eexists. split; [reflexivity|]. split; [cbn [values]; rewrite Nat.eqb_refl; reflexivity|].
  split; [|split; [exact U|exact W]]. intros q Hq. cbn [values]. destruct (Nat.eqb_spec q x); [contradiction|reflexivity].
Qed.
Theorem C85_term_binary : forall {V Kr Op} (mulV : V -> V -> V) growth (s : terms V Kr Op) x y p, p <> x -> p <> y ->
  exists s', term_mul_new mulV growth s x y p = Ok s' /\
    term_updated s s' p (mulV (values s x) (values s y)) (items (deltas s x) ++ items (deltas s y)) (items (operators s x) ++ items (operators s y)).
Proof.
  intros V Kr Op mulV growth s x y p Hx Hy. unfold term_mul_new, prefactor_mul_assign. cbn [operators values deltas].
  destruct (append_distinct growth (put (operators s) p (copy_of (operators s x))) p y Hy) as (o & -> & W1 & W2). cbn [deltas values].
  destruct (append_distinct growth (put (deltas s) p (copy_of (deltas s x))) p y Hy) as (d & -> & U1 & U2).
  rewrite put_same, put_other in W1 by auto. rewrite put_same, put_other in U1 by auto. eexists. split; [reflexivity|]. cbn [values deltas operators]. split; [|split; [|split; split]].
  - cbn [values]. rewrite !Nat.eqb_refl. destruct (Nat.eqb_spec y p); [congruence|reflexivity].
  - intros q Hq. cbn [values]. destruct (Nat.eqb_spec q p); [contradiction|reflexivity].
  - exact U1.
  - intros q Hq. cbn [deltas]. rewrite U2, put_other by exact Hq. reflexivity.
  - exact W1.
  - intros q Hq. cbn [operators]. rewrite W2, put_other by exact Hq. reflexivity.
Qed.
(** (defect) t *= t is right iff both vectors have enough room. *)
Theorem C85_term_self : forall {V Kr Op} (mulV : V -> V -> V) growth (s : terms V Kr Op) x,
  length (items (deltas s x)) <= capacity (deltas s x) -> length (items (operators s x)) <= capacity (operators s x) ->
  (2 * length (items (deltas s x)) <= capacity (deltas s x) + 1 -> 2 * length (items (operators s x)) <= capacity (operators s x) + 1 ->
   exists s', term_mul_assign mulV growth s x x = Ok s' /\
     term_updated s s' x (mulV (values s x) (values s x)) (items (deltas s x) ++ items (deltas s x)) (items (operators s x) ++ items (operators s x))) /\
  (capacity (deltas s x) + 1 < 2 * length (items (deltas s x)) \/ capacity (operators s x) + 1 < 2 * length (items (operators s x)) ->
   term_mul_assign mulV growth s x x = UB).
Proof.
  intros V Kr Op mulV growth s x Hd Ho. destruct (append_self growth (deltas s) x) as [D1 D2]. destruct (append_self growth (operators s) x) as [O1 O2].
  unfold term_mul_assign, prefactor_mul_assign. split.
  - intros Q1 Q2. destruct (D1 Q1) as (d & -> & U). cbn [operators]. destruct (O1 Q2) as (o & -> & W). eexists. split; [reflexivity|].
    split; [cbn [values]; rewrite Nat.eqb_refl; reflexivity|]. split; [|split; [exact U|exact W]]. intros q Hq. cbn [values]. destruct (Nat.eqb_spec q x); [contradiction|reflexivity].
  - intros Q. destruct (append growth (deltas s) x x) as [d|] eqn:E; [|reflexivity]. cbn [operators]. destruct Q as [Q|Q]; [pose proof (D2 Hd Q); congruence|]. rewrite (O2 Ho Q). reflexivity.
Qed.

(** ** the hypotheses are met *)
(** two operators, capacity two (as constructed) and capacity three; a growth policy that doubles *)
Definition ex_store (c : nat) : store nat := fun o => if Nat.eqb o 1 then mkV _ [7; 8] c 0 else mkV _ [9] 1 0.
Example C85_ex_self : mono_mul_assign (fun n => 2 * n + 1) (ex_store 2) 1 1 = UB /\
  match mono_mul_assign (fun n => 2 * n + 1) (ex_store 3) 1 1 with Ok s => items (s 1) = [7; 8; 7; 8] | UB => False end /\
  match mono_mul_assign (fun n => 2 * n + 1) (ex_store 2) 1 0 with Ok s => items (s 1) = [7; 8; 9] | UB => False end /\
  match mono_mul_new (fun n => 2 * n + 1) (ex_store 2) 1 1 5 with Ok s => items (s 5) = [7; 8; 7; 8] /\ items (s 1) = [7; 8] | UB => False end.
Proof. vm_compute. auto. Qed.
