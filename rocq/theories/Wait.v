(** Wait.v -- who gets its turn on the reader/writer lock of /repo/src/utils/lock.rs: the steps of Lock.v
    with the client that takes each of them, and executions as functions of time. *)
From Coq Require Import NArith.
From Verif Require Import Base Lock.
Set Implicit Arguments.
Local Open Scope N_scope.

(** Client number [i] executes one atomic operation of the method it is in (lock.rs:101-121, 151-171,
    201-219, 242-260, 285-310: the steps of [astep]); no weak exchange fails spuriously, nobody panics.
    What happens between two attempts (lock.rs:210-215, 251-256) is [after_failure] below: it is not a
    step, since it does not touch the lock. *)
Inductive cstep (i : nat) : lsys -> lsys -> Prop :=
| C_step : forall w w' l1 p p' l2, length l1 = i -> astep false w p w' p' ->
    cstep i (mkSys w (l1 ++ p :: l2)) (mkSys w' (l1 ++ p' :: l2)).

(** The first [b] steps of an execution of [n] clients on a fresh lock: [x k] is the state after [k]
    steps and [who k] the client that takes the next one. *)
Definition executes (n : nat) (x : nat -> lsys) (who : nat -> nat) (b : nat) : Prop :=
  x 0%nat = linit n /\ forall k, (k < b)%nat -> cstep (who k) (x k) (x (S k)).

(** How often client [i] gets its turn from [a] to [b]. *)
Definition turns (who : nat -> nat) (i a b : nat) : nat :=
  length (filter (fun k => Nat.eqb (who k) i) (seq a (b - a))).

(** Client [i] in state [s]. *)
Definition at_ (s : lsys) (i : nat) : option pc := nth_error (clients s) i.
(** It is inside [lock()] (m = Sh) or [lock_mut()] (m = Ex) and has not got the lock yet. *)
Definition waits (m : mode) (s : lsys) (i : nat) : Prop :=
  at_ s i = Some (Load m true) \/ exists c, at_ s i = Some (Cas m true c).
(** It holds the lock in mode [m]. *)
Definition has (m : mode) (s : lsys) (i : nat) : Prop := exists p, at_ s i = Some p /\ holds m p.
(** Whom the step from [s] to [s'] gives the lock to, or takes it from. *)
Definition acquires (m : mode) (s s' : lsys) (i : nat) : Prop := ~ has m s i /\ has m s' i.
Definition gives_back (m : mode) (s s' : lsys) (i : nat) : Prop := has m s i /\ ~ has m s' i.
(** The lock can be had in mode [m]: shared if nobody has it exclusively, exclusively if nobody has it. *)
Definition available (m : mode) (s : lsys) : Prop :=
  forall j, ~ has Ex s j /\ (m = Ex -> ~ has Sh s j).

(** A schedule is fair when every client that is inside a method of the lock, or holds it, gets another
    turn. *)
Definition fair (x : nat -> lsys) (who : nat -> nat) : Prop :=
  forall k i p, at_ (x k) i = Some p -> p <> Idle -> exists k', (k <= k')%nat /\ who k' = i.

(** ** Between two attempts of [lock()] or [lock_mut()] *)
Inductive pause := NoPause | Yield | Sleep (ns : N).
(** lock.rs:209-216 and 250-257: what a failed attempt is followed by, and the new value of [nanos]. *)
Definition after_failure (nanos : N) : pause * N :=
  if 8192 <? nanos then (Yield, nanos)
  else if 32 <? nanos then (Sleep (nanos * 2), nanos * 2)
  else (NoPause, nanos).
(** lock.rs:202-203 and 243-244: the first [k] failed attempts, from [nanos]. *)
Fixpoint pauses (k : nat) (nanos : N) : list pause :=
  match k with
  | O => []
  | S k => let (p, nanos') := after_failure nanos in p :: pauses k nanos'
  end.
(** [let mut nanos: u64 = 1], lock.rs:202 and 243. *)
Definition first_nanos : N := 1.
