(** Spur.v -- executions of the reader/writer lock of /repo/src/utils/lock.rs in which the weak exchanges
    may fail spuriously, with the client that takes each step: the steps of Lock.v, nothing left out but
    panics. *)
From Coq Require Import NArith.
From Verif Require Import Base Lock Wait.
Set Implicit Arguments.
Local Open Scope N_scope.

(** Client number [i] executes one atomic operation of the method it is in (lock.rs:101-121, 151-171,
    201-219, 242-260, 285-310: the steps of [astep]); [spur] tells whether it is a compare_exchange_weak
    that fails although the state is the expected one. *)
Inductive wstep (i : nat) (spur : bool) : lsys -> lsys -> Prop :=
| W_step : forall w w' l1 p p' l2, length l1 = i -> astep spur w p w' p' ->
    wstep i spur (mkSys w (l1 ++ p :: l2)) (mkSys w' (l1 ++ p' :: l2)).

(** The first [b] steps of an execution of [n] clients on a fresh lock: [x k] is the state after [k]
    steps, [who k] the client that takes the next one, [sp k] whether it fails spuriously. *)
Definition weak_executes (n : nat) (x : nat -> lsys) (who : nat -> nat) (sp : nat -> bool) (b : nat) : Prop :=
  x 0%nat = linit n /\ forall k, (k < b)%nat -> wstep (who k) (sp k) (x k) (x (S k)).

(** Client [i] is in [unlock()], holds the lock exclusively and is about to execute the first exchange of
    unlock, lock.rs:286-294. *)
Definition releasing (s : lsys) (i : nat) : Prop := at_ s i = Some (Unl1 Ex).

(** How many of the steps from [a] to [b] fail spuriously: of client [i], and of anybody. *)
Definition failures (who : nat -> nat) (sp : nat -> bool) (i a b : nat) : nat :=
  length (filter (fun k => Nat.eqb (who k) i && sp k) (seq a (b - a))).
Definition all_failures (sp : nat -> bool) (a b : nat) : nat := length (filter sp (seq a (b - a))).
