(** Stack.v -- threads calling one container through clones of a [Sequential], down to the atomic operations of its
    lock: the calls of Linear.v and the panics of Crash.v over the transitions of Lock.v.

    SeqConc.v, Linear.v and Crash.v take [lock], [lock_mut] and [unlock] as single steps.  Here they are the loads and
    weak compare-and-exchanges of /repo/src/utils/lock.rs on the word of the lock, interleaved in any way with the steps
    of the other threads; the exchanges may fail spuriously.  What a thread sees of the lock is this word only.
    Left out: get and get_mut (as in Linear.v); a thread that catches its panic (Crash.v, [P_catch]). *)
From Coq Require Import NArith.
From Verif Require Import Base Block Sim Lock SeqConc Linear Crash.
Set Implicit Arguments.

Section Stack.
Context {K V : Type}.
Variable B : Block K V.

(** A thread (Linear.v) and where it is in the methods of the lock (Lock.v); [a_word] is [RWLock.state], lock.rs:63;
    [a_rd], [a_wr]: the std [RwLock] of /repo/src/utils/shared_ptr.rs. *)
Notation client := (thread B * pc)%type.
Record asys : Type := mkA {
  a_word : N; a_rd : nat; a_wr : nat; a_st : St B; a_threads : list client; a_now : nat;
  a_effects : list (took_effect (K := K) (V := V)); a_returns : list (returned (K := K) (V := V));
  a_gone : list nat; a_dropped : list (dropped (K := K) (V := V))
}.

(** In the loop of [lock]/[lock_mut], lock.rs:201-219, 242-260. *)
Definition trying (p : pc) : Prop := match p with Load _ true | Cas _ true _ => True | _ => False end.
(** In [unlock], lock.rs:285-310. *)
Definition leaving (p : pc) : Prop := match p with Unl1 _ | Unl2 _ _ => True | _ => False end.

(** What is not a call of the lock: a borrow or its end. *)
Definition borrow (x : action) : Prop := match x with In _ | Out _ => True | _ => False end.

Definition kind (spur : bool) : Lock.event := if spur then Spurious else Normal.

(** One step of one thread, one unit of time (unwinding: none, as in Crash.v). *)
Inductive sstep : Lock.event -> asys -> asys -> Prop :=
(* the thread makes a call *)
| S_call : forall w rd wr st l1 l2 a now es rs g ds,
    sstep Normal (mkA w rd wr st (l1 ++ (Linear.Idle, Lock.Idle) :: l2) now es rs g ds)
                (mkA w rd wr st (l1 ++ (Busy a (script (method a)) false now None None, Lock.Idle) :: l2) (S now) es rs g ds)
(* it calls lock() or lock_mut() *)
| S_enter : forall w rd wr st l1 l2 a m p t v r now es rs g ds,
    sstep Normal (mkA w rd wr st (l1 ++ (Busy a (Acq m :: p) false t v r, Lock.Idle) :: l2) now es rs g ds)
                (mkA w rd wr st (l1 ++ (Busy a (Acq m :: p) false t v r, Load m true) :: l2) (S now) es rs g ds)
(* a load or an exchange that does not settle the matter: it goes on, or tries again *)
| S_try : forall spur w w' rd wr st l1 l2 a m p t v r c c' now es rs g ds,
    astep spur w c w' c' -> trying c -> trying c' ->
    sstep (kind spur) (mkA w rd wr st (l1 ++ (Busy a (Acq m :: p) false t v r, c) :: l2) now es rs g ds)
                     (mkA w' rd wr st (l1 ++ (Busy a (Acq m :: p) false t v r, c') :: l2) (S now) es rs g ds)
(* lock() or lock_mut() returns Ok *)
| S_got : forall spur w w' rd wr st l1 l2 a m p t v r c now es rs g ds,
    astep spur w c w' (Hold m) -> trying c ->
    sstep (kind spur) (mkA w rd wr st (l1 ++ (Busy a (Acq m :: p) false t v r, c) :: l2) now es rs g ds)
                     (mkA w' rd wr st (l1 ++ (Busy a p false t v r, Hold m) :: l2) (S now) es rs g ds)
(* it returns Err(Poisoned): push returns no element, /repo/src/sequential/building_block.rs:60 *)
| S_push_refused : forall spur w w' rd wr st l1 l2 vs m p t v r c now es rs g ds,
    astep spur w c w' Lock.Idle -> trying c ->
    sstep (kind spur) (mkA w rd wr st (l1 ++ (Busy (AskPush vs) (Acq m :: p) false t v r, c) :: l2) now es rs g ds)
                     (mkA w' rd wr st (l1 ++ (Linear.Idle, Lock.Idle) :: l2) (S now) es rs g (ds ++ [mkDropped (length l1) vs t now]))
(* ... the other methods panic *)
| S_refused : forall spur w w' rd wr st l1 l2 a m p t v r c now es rs g ds, (forall vs, a <> AskPush vs) ->
    astep spur w c w' Lock.Idle -> trying c ->
    sstep (kind spur) (mkA w rd wr st (l1 ++ (Busy a (Acq m :: p) false t v r, c) :: l2) now es rs g ds)
                     (mkA w' rd wr st (l1 ++ (Busy a (Acq m :: p) true t v r, Lock.Idle) :: l2) (S now) es rs g ds)
(* it calls unlock() *)
| S_leave : forall w rd wr st l1 l2 a m p t v r now es rs g ds,
    sstep Normal (mkA w rd wr st (l1 ++ (Busy a (Rel m :: p) false t v r, Hold m) :: l2) now es rs g ds)
                (mkA w rd wr st (l1 ++ (Busy a (Rel m :: p) false t v r, Unl1 m) :: l2) (S now) es rs g ds)
| S_leaving : forall spur w w' rd wr st l1 l2 a m p t v r c c' now es rs g ds,
    astep spur w c w' c' -> leaving c -> leaving c' ->
    sstep (kind spur) (mkA w rd wr st (l1 ++ (Busy a (Rel m :: p) false t v r, c) :: l2) now es rs g ds)
                     (mkA w' rd wr st (l1 ++ (Busy a (Rel m :: p) false t v r, c') :: l2) (S now) es rs g ds)
(* unlock() returns *)
| S_left : forall spur w w' rd wr st l1 l2 a m p t v r c now es rs g ds,
    astep spur w c w' Lock.Idle -> leaving c ->
    sstep (kind spur) (mkA w rd wr st (l1 ++ (Busy a (Rel m :: p) false t v r, c) :: l2) now es rs g ds)
                     (mkA w' rd wr st (l1 ++ (Busy a p false t v r, Lock.Idle) :: l2) (S now) es rs g ds)
(* borrows, the calls on the wrapped container, panics and returns: as in Linear.v *)
| S_borrow : forall w rd wr rd' wr' st l1 l2 a x p t v r c now es rs g ds,
    borrow x -> act x 0 0 rd wr = Some (0, 0, rd', wr') ->
    sstep Normal (mkA w rd wr st (l1 ++ (Busy a (x :: p) false t v r, c) :: l2) now es rs g ds)
                (mkA w rd' wr' st (l1 ++ (Busy a p false t v r, c) :: l2) (S now) es rs g ds)
| S_panic : forall w rd wr st l1 l2 a x p t v r c now es rs g ds,
    is_in x = true -> act x 0 0 rd wr = None ->
    sstep Normal (mkA w rd wr st (l1 ++ (Busy a (x :: p) false t v r, c) :: l2) now es rs g ds)
                (mkA w rd wr st (l1 ++ (Busy a (x :: p) true t v r, c) :: l2) (S now) es rs g ds)
| S_begin : forall w rd wr st l1 l2 a p t v r c now es rs g ds,
    sstep Normal (mkA w rd wr st (l1 ++ (Busy a (CallBegin :: p) false t v r, c) :: l2) now es rs g ds)
                (mkA w rd wr st (l1 ++ (Busy a p false t (Some st) r, c) :: l2) (S now) es rs g ds)
| S_end : forall w rd wr st l1 l2 a p t v r c now es rs g ds st' q,
    answer B v a = Ok (st', q) ->
    sstep Normal (mkA w rd wr st (l1 ++ (Busy a (CallEnd :: p) false t (Some v) r, c) :: l2) now es rs g ds)
                (mkA w rd wr (if modifies (method a) then st' else st) (l1 ++ (Busy a p false t (Some v) (Some q), c) :: l2) (S now)
                     (es ++ [mkEff (length l1) a q now]) rs g ds)
| S_end_panic : forall w rd wr st l1 l2 a p t v r c now es rs g ds,
    answer B v a = Panic ->
    sstep Normal (mkA w rd wr st (l1 ++ (Busy a (CallEnd :: p) false t (Some v) r, c) :: l2) now es rs g ds)
                (if modifies (method a)
                 then mkA w rd wr st (l1 ++ (Busy a (CallEnd :: p) true t (Some v) r, c) :: l2) (S now) es rs g ds
                 else mkA w (rd - 1) wr st (l1 ++ (Busy a [] true t (Some v) r, c) :: l2) (S now) es rs g ds)
| S_return : forall w rd wr st l1 l2 a t v q c now es rs g ds,
    sstep Normal (mkA w rd wr st (l1 ++ (Busy a [] false t v (Some q), c) :: l2) now es rs g ds)
                (mkA w rd wr st (l1 ++ (Linear.Idle, c) :: l2) (S now) es (rs ++ [mkRet (length l1) a q t now]) g ds)
(* a thread that panicked drops its clone, hence the RWLock in it: fetch_or(POISONED), lock.rs:73-79 *)
| S_unwind : forall w rd wr st ts now es rs g ds i a p t v r c, nth_error ts i = Some (Busy a p true t v r, c) -> ~ List.In i g ->
    sstep Poison (mkA w rd wr st ts now es rs g ds) (mkA (N.lor w POISONED) rd wr st ts now es rs (g ++ [i]) ds)
(* so does any owner of a clone that panics outside the calls, Crash.v: P_elsewhere *)
| S_elsewhere : forall w rd wr st ts now es rs g ds,
    sstep Poison (mkA w rd wr st ts now es rs g ds) (mkA (N.lor w POISONED) rd wr st ts now es rs g ds).

(** Executions whose events are allowed by [ok]. *)
Inductive ssteps (ok : Lock.event -> Prop) : asys -> asys -> Prop :=
| st_refl : forall s, ssteps ok s s
| st_step : forall s s' s'' e, ssteps ok s s' -> ok e -> sstep e s' s'' -> ssteps ok s s''.
(** [Sequential::new] on a container in state [st], and a clone for each of [n] threads. *)
Definition ainit (st : St B) (n : nat) : asys := mkA 0 0 0 st (repeat (Linear.Idle, Lock.Idle) n) 0 [] [] [] [].

(** ** What the properties speak about *)
(** The thread is inside a method of the wrapped container. *)
Definition inside (t : thread B) (a : ask K V) : Prop := exists p t0 v r, t = Busy a (CallEnd :: p) false t0 v r.
(** A thread makes a new call in this step. *)
Definition calls_anew (s s' : asys) : Prop := exists i c c',
  nth_error (a_threads s) i = Some (Linear.Idle, c) /\ nth_error (a_threads s') i = Some c' /\ fst c' <> Linear.Idle.
(** Executions without spurious failures and without new calls. *)
Inductive finishes : asys -> asys -> Prop :=
| fi_refl : forall s, finishes s s
| fi_step : forall s s' s'' e, finishes s s' -> e <> Spurious -> sstep e s' s'' -> ~ calls_anew s' s'' -> finishes s s''.
End Stack.
