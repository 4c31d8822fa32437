(** Lock.v -- the reader/writer lock of /repo/src/utils/lock.rs, as a transition system whose steps are
    the atomic operations of its methods, run by any number of clients in any interleaving. *)
From Coq Require Import NArith.
From Verif Require Import Base.
Set Implicit Arguments.
Local Open Scope N_scope.

(** lock.rs:9-10 and 12-13. *)
Definition EXCLUSIVE : N := 2 ^ 62.
Definition POISONED : N := 2 ^ 63.

(** Shared ([lock]/[try_lock]) or exclusive ([lock_mut]/[try_lock_mut]). *)
Inductive mode := Sh | Ex.

(** Where a client is.  A client is one user of a clone of the lock that acquires, then releases, then
    may start again ("well-bracketed"); a thread that holds several shared locks is several clients.
    [blk] tells [lock]/[lock_mut] (which try again, lock.rs:201-219, 242-260) from [try_lock]/
    [try_lock_mut] (which return an error).
    Simplifications: the pauses between attempts are left out (Wait.v shows that there are none); sequential consistency (every operation
    that matters in the code is SeqCst; the value read by a failed Relaxed compare_exchange_weak in
    try_lock/try_lock_mut is not used; the one of unlock is used as the next comparand only, and a stale
    value is covered by letting the operation fail again). *)
Inductive pc :=
| Idle                             (* not using the lock *)
| Load (m : mode) (blk : bool)     (* about to execute self.state.load, lock.rs:107 / 157 *)
| Cas (m : mode) (blk : bool) (c : N)  (* about to compare_exchange_weak, lock.rs:113 / 163; c = count *)
| Hold (m : mode)                  (* Ok(()) was returned *)
| Unl1 (m : mode)                  (* in unlock, about to execute the first compare_exchange_weak, 286 *)
| Unl2 (m : mode) (c : N).         (* in unlock's loop, about to execute the second one, 300; c = count *)

(** The test at the head of unlock's loop, lock.rs:297-299: [break], or go on with [count]. *)
Definition unlock_test (m : mode) (count : N) : pc :=
  if (count =? 0) || (count =? EXCLUSIVE) then Idle else Unl2 m count.

(** Comparand and new value of the acquiring compare_exchange_weak: lock.rs:113-118 and 163-168. *)
Definition cas_expect (m : mode) (c : N) : N := match m with Sh => c | Ex => 0 end.
Definition cas_new (m : mode) (c : N) : N := match m with Sh => c + 1 | Ex => EXCLUSIVE end.

(** What [Err(WouldBlock)] leads to: try_lock returns it, lock loops (lock.rs:209-217, 250-258). *)
Definition would_block (m : mode) (blk : bool) : pc := if blk then Load m blk else Idle.

(** One atomic step of one client: [astep spur w p w' p'].  [spur] is true when a compare_exchange_weak
    fails although the comparand matches, which its documentation allows. *)
Inductive astep : bool -> N -> pc -> N -> pc -> Prop :=
| A_call : forall w m blk, astep false w Idle w (Load m blk)
(* lock.rs:107-111 / 157-161: poisoned -> error, exclusive -> would block, else go on *)
| A_load_poisoned : forall w m blk, N.land w POISONED <> 0 -> astep false w (Load m blk) w Idle
| A_load_block : forall w m blk, N.land w POISONED = 0 -> N.land w EXCLUSIVE <> 0 ->
    astep false w (Load m blk) w (would_block m blk)
| A_load_go : forall w m blk, N.land w POISONED = 0 -> N.land w EXCLUSIVE = 0 ->
    astep false w (Load m blk) w (Cas m blk w)
(* lock.rs:113-121 / 163-171 *)
| A_cas_ok : forall w m blk c, w = cas_expect m c -> astep false w (Cas m blk c) (cas_new m c) (Hold m)
| A_cas_fail : forall w m blk c, w <> cas_expect m c -> astep false w (Cas m blk c) w (would_block m blk)
| A_cas_spurious : forall w m blk c, w = cas_expect m c -> astep true w (Cas m blk c) w (would_block m blk)
(* the holder calls unlock, lock.rs:285 *)
| A_unlock : forall w m, astep false w (Hold m) w (Unl1 m)
(* lock.rs:286-294, followed by the loop test *)
| A_unl1_ok : forall w m, w = EXCLUSIVE -> astep false w (Unl1 m) 0 (unlock_test m EXCLUSIVE)
| A_unl1_fail : forall w m, w <> EXCLUSIVE -> astep false w (Unl1 m) w (unlock_test m w)
| A_unl1_spurious : forall w m, w = EXCLUSIVE -> astep true w (Unl1 m) w (unlock_test m w)
(* lock.rs:300-308 *)
| A_unl2_ok : forall w m c, w = c -> astep false w (Unl2 m c) (c - 1) Idle
| A_unl2_fail : forall w m c x, w <> c -> x = w -> astep false w (Unl2 m c) w (unlock_test m x)
| A_unl2_spurious : forall w m c, w = c -> astep true w (Unl2 m c) w (unlock_test m w).

(** A state of the whole system: the word [state: Arc<AtomicU64>] shared by the clones (lock.rs:63, Clone
    at 81-87), and the clients. *)
Record lsys := mkSys { word : N; clients : list pc }.

(** What happened in a step. *)
Inductive event := Normal | Spurious | Poison.

(** One step of the system: a client executes one atomic step, or some thread that owns a clone panics
    and its Drop sets the poison bit (lock.rs:73-79). *)
Inductive lstep : event -> lsys -> lsys -> Prop :=
| L_client : forall spur w w' l1 p p' l2, astep spur w p w' p' ->
    lstep (if spur then Spurious else Normal) (mkSys w (l1 ++ p :: l2)) (mkSys w' (l1 ++ p' :: l2))
| L_poison : forall w l, lstep Poison (mkSys w l) (mkSys (N.lor w POISONED) l).

(** [RWLock::new()] (lock.rs:90-94) with [n] clients. *)
Definition linit (n : nat) : lsys := mkSys 0 (repeat Idle n).

(** Executions in which the events that happen are among [ok]. *)
Inductive lsteps (ok : event -> Prop) : lsys -> lsys -> Prop :=
| ls_refl : forall s, lsteps ok s s
| ls_step : forall e s s' s'', lsteps ok s s' -> ok e -> lstep e s' s'' -> lsteps ok s s''.

(** ** Properties, in terms of who holds the lock *)
(** A client holds the lock in mode [m] from the return of its acquisition to the atomic step by which
    its unlock gives it back. *)
Definition holds (m : mode) (p : pc) : Prop := p = Hold m \/ p = Unl1 m \/ exists c, p = Unl2 m c.
Definition holdsb (m : mode) (p : pc) : bool :=
  match p, m with
  | Hold Sh, Sh | Unl1 Sh, Sh | Unl2 Sh _, Sh => true
  | Hold Ex, Ex | Unl1 Ex, Ex | Unl2 Ex _, Ex => true
  | _, _ => false
  end.
(** Number of holders in mode [m]. *)
Definition holders (m : mode) (s : lsys) : nat := length (filter (holdsb m) (clients s)).
Definition poisoned (s : lsys) : Prop := N.land (word s) POISONED <> 0.
