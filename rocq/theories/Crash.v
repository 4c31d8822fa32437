(** Crash.v -- panics among threads sharing a [Sequential], and the poisoning of its lock:
    /repo/src/utils/lock.rs:73-79 (Drop of RWLock), /repo/src/sequential/building_block.rs, over Linear.v.

    In Linear.v a panic inside the wrapped container, or because the container is borrowed already, stops the thread
    where it is; a borrow it held is never given back, which stands for the poisoned std [RwLock] (every later as_ref or
    as_mut panics).  Here the thread then unwinds: it drops its clone of the Sequential, hence the RWLock in it, whose
    Drop sets the poison bit since the thread is panicking; or it catches the panic and goes on with its clone.
    Lock and unlock are single steps, as proved of them in PLock.v (a poisoned lock stays so, and is not acquired).
    get and get_mut, which answer None on a poisoned lock (/repo/src/sequential/get.rs:78, 100): GuardCrash.v. *)
From Verif Require Import Base Block Sim Lock SeqConc Linear.
Set Implicit Arguments.

Section Crash.
Context {K V : Type}.
Variable B : Block K V.

(** A push that returned an empty vector because the lock is poisoned: [Err(_) => Vec::new()],
    /repo/src/sequential/building_block.rs:60.  Thread, elements, time of the call and of the return. *)
Record dropped : Type := mkDropped { d_who : nat; d_pairs : list (K * V); d_start : nat; d_end : nat }.

(** [p_gone]: the threads whose panic has unwound. *)
Record psys : Type := mkPs { p_sys : lsys B; p_poison : bool; p_gone : list nat; p_dropped : list dropped }.

(** [Catch]: a thread catches its panic.  [Elsewhere]: the owner of a clone panics outside any call of the Sequential. *)
Inductive event := Plain | Catch | Elsewhere.
Inductive pstep : event -> psys -> psys -> Prop :=
(* a step of Linear.v; no acquisition succeeds on a poisoned lock, lock.rs:107, 157 *)
| P_run : forall s s' poison gone ds, lstep s s' ->
    (poison = true -> l_sh s' <= l_sh s /\ l_ex s' <= l_ex s) ->
    pstep Plain (mkPs s poison gone ds) (mkPs s' poison gone ds)
(* lock_mut() says Poisoned: push returns no element, building_block.rs:60 *)
| P_push_refused : forall sh ex rd wr st l1 vs m p t v r l2 now es rs gone ds,
    pstep Plain (mkPs (mkL sh ex rd wr st (l1 ++ Busy (AskPush vs) (Acq m :: p) false t v r :: l2) now es rs) true gone ds)
                (mkPs (mkL sh ex rd wr st (l1 ++ Idle :: l2) (S now) es rs) true gone (ds ++ [mkDropped (length l1) vs t now]))
(* the other methods unwrap the error: panic, building_block.rs:9, 15, 23, 29, 35, 41, 47 *)
| P_refused : forall sh ex rd wr st l1 a m p t v r l2 now es rs gone ds, (forall vs, a <> AskPush vs) ->
    pstep Plain (mkPs (mkL sh ex rd wr st (l1 ++ Busy a (Acq m :: p) false t v r :: l2) now es rs) true gone ds)
                (mkPs (mkL sh ex rd wr st (l1 ++ Busy a (Acq m :: p) true t v r :: l2) (S now) es rs) true gone ds)
(* a thread that panicked drops its clone, lock.rs:73-79 *)
| P_unwind : forall s poison gone ds i a p t v r, nth_error (l_threads s) i = Some (Busy a p true t v r) -> ~ List.In i gone ->
    pstep Plain (mkPs s poison gone ds) (mkPs s true (gone ++ [i]) ds)
(* any thread that owns a clone, panicking for any other reason, between its calls or without ever making one, drops it,
   lock.rs:73-79: the Drop asks thread::panicking(), not whether the lock is held *)
| P_elsewhere : forall s poison gone ds, pstep Elsewhere (mkPs s poison gone ds) (mkPs s true gone ds)
(* ... or catches the panic (std::panic::catch_unwind, or the clone belongs to another thread) and uses it again *)
| P_catch : forall sh ex rd wr st l1 a p t v r l2 now es rs poison gone ds, ~ List.In (length l1) gone ->
    pstep Catch (mkPs (mkL sh ex rd wr st (l1 ++ Busy a p true t v r :: l2) now es rs) poison gone ds)
                (mkPs (mkL sh ex rd wr st (l1 ++ Idle :: l2) (S now) es rs) poison gone ds).
(** Executions whose steps are all allowed by [ok]. *)
Inductive psteps (ok : event -> Prop) : psys -> psys -> Prop :=
| ps_refl : forall s, psteps ok s s
| ps_step : forall s s' s'' e, psteps ok s s' -> ok e -> pstep e s' s'' -> psteps ok s s''.
Definition pinit (st : St B) (n : nat) : psys := mkPs (linit B st n) false [] [].
(** No thread catches its panics. *)
Definition uncaught (e : event) : Prop := e <> Catch.
(** ... and none panics outside its calls. *)
Definition calls_only (e : event) : Prop := e = Plain.

(** ** What the property speaks about *)
Definition live_busy (t : thread B) : Prop := match t with Busy _ _ false _ _ _ => True | _ => False end.
Definition has_panicked (t : thread B) : Prop := match t with Busy _ _ true _ _ _ => True | _ => False end.
(** A thread makes a new call in this step. *)
Definition new_call (s s' : psys) : Prop := exists i, nth_error (l_threads (p_sys s)) i = Some Idle /\ nth_error (l_threads (p_sys s')) i <> Some Idle.
(** What remains to be done by the calls under way: their steps, and unwinding. *)
Fixpoint work_from (gone : list nat) (i : nat) (ts : list (thread B)) : nat :=
  match ts with
  | [] => 0
  | t :: ts' => match t with Idle => 0 | Busy _ p false _ _ _ => length p + 2 | Busy _ _ true _ _ _ => if existsb (Nat.eqb i) gone then 0 else 1 end + work_from gone (S i) ts'
  end.
Definition work (s : psys) : nat := work_from (p_gone s) 0 (l_threads (p_sys s)).
(** [n] steps without a new call (the panics of owners of clones elsewhere come on top). *)
Inductive goes_on : nat -> psys -> psys -> Prop :=
| go_0 : forall s, goes_on 0 s s
| go_S : forall n s s' s'', goes_on n s s' -> pstep Plain s' s'' -> ~ new_call s' s'' -> goes_on (S n) s s''
| go_elsewhere : forall n s s' s'', goes_on n s s' -> pstep Elsewhere s' s'' -> goes_on n s s''.
End Crash.
Arguments mkDropped {K V}.
