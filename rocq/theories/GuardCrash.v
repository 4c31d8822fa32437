(** GuardCrash.v -- panics among threads that hold guards of a shared [Sequential]: GuardConc.v with the poisoning of Crash.v.

    A thread that panics while it has a guard drops it as it unwinds: SequentialCell::drop unlocks
    (/repo/src/sequential/get.rs:34-38), the guard of the wrapped container inside it is dropped, then its clone of the lock
    (get.rs:21-23), whose Drop sets the poison bit since the thread is panicking (/repo/src/utils/lock.rs:73-79).
    A poisoned lock refuses everybody: get and get_mut answer None (get.rs:78, 100), push returns no element, the other calls
    panic (/repo/src/sequential/building_block.rs, as in Crash.v).
    A thread that panicked using a guard is idle afterwards: it makes no more calls, or has caught the panic.  Panics inside
    the calls are not caught (see C66_caught_panic_blocks_refuted for those). *)
From Verif Require Import Base Block Sim Lock SeqConc Linear GuardConc.
Set Implicit Arguments.

Section GuardCrash.
Context {K V : Type}.
Variable B : Block K V.
Variable G : Cells B.

(** A call that returned with nothing because the lock is poisoned. *)
Record grefused : Type := mkRefused { rf_who : nat; rf_ask : gask K V; rf_start : nat; rf_end : nat }.
(** [h_gone]: the threads whose panic in a call has unwound.  [h_doomed]: those that panicked using a guard, and are
    unwinding. *)
Record hsys : Type := mkH { h_sys : gsys G; h_poison : bool; h_gone : list nat; h_doomed : list nat; h_refused : list grefused }.

(** The calls that return with nothing: push, get, get_mut. *)
Definition gives_up (a : gask K V) : bool := match a with GAsk (AskPush _) => true | GAsk _ => false | GGet _ _ => true end.

Inductive hstep (allowed : gask K V -> Prop) : hsys -> hsys -> Prop :=
(* a step of GuardConc.v, but for the end of a doomed thread; no acquisition succeeds on a poisoned lock, lock.rs:107, 157 *)
| H_run : forall s s' poison gone doomed rf, gstep allowed s s' ->
    (poison = true -> g_sh s' <= g_sh s /\ g_ex s' <= g_ex s) ->
    (forall i, List.In i doomed -> nth_error (g_threads s') i <> Some (GIdle G)) ->
    hstep allowed (mkH s poison gone doomed rf) (mkH s' poison gone doomed rf)
(* the lock is poisoned: get.rs:78, 100; building_block.rs:60 *)
| H_gives_up : forall sh ex rd wr st l1 a m p t v g log r l2 now es rs gone doomed rf, gives_up a = true ->
    hstep allowed (mkH (mkG sh ex rd wr st (l1 ++ GBusy G a (Acq m :: p) false t v g log r :: l2) now es rs) true gone doomed rf)
      (mkH (mkG sh ex rd wr st (l1 ++ GIdle G :: l2) (S now) es rs) true gone doomed (rf ++ [mkRefused (length l1) a t now]))
(* the other methods unwrap the error: panic *)
| H_refused : forall sh ex rd wr st l1 a m p t v g log r l2 now es rs gone doomed rf, gives_up a = false ->
    hstep allowed (mkH (mkG sh ex rd wr st (l1 ++ GBusy G a (Acq m :: p) false t v g log r :: l2) now es rs) true gone doomed rf)
      (mkH (mkG sh ex rd wr st (l1 ++ GBusy G a (Acq m :: p) true t v g log r :: l2) (S now) es rs) true gone doomed rf)
(* a thread that panicked in a call drops its clone, lock.rs:73-79 *)
| H_unwind : forall s poison gone doomed rf i a p t v g log r, nth_error (g_threads s) i = Some (GBusy G a p true t v g log r) -> ~ List.In i gone ->
    hstep allowed (mkH s poison gone doomed rf) (mkH s true (gone ++ [i]) doomed rf)
(* a thread panics while it has a guard: the unwinding drops it, sequential/get.rs:34-38 *)
| H_panics : forall sh ex rd wr st l1 a p t v c log r l2 now es rs poison gone doomed rf,
    hstep allowed (mkH (mkG sh ex rd wr st (l1 ++ GBusy G a (GuardUse :: p) false t v (Some c) log r :: l2) now es rs) poison gone doomed rf)
      (mkH (mkG sh ex rd wr st (l1 ++ GBusy G a p false t v (Some c) log r :: l2) (S now) es rs) poison gone (length l1 :: doomed) rf)
(* ... and at last the clone of the lock that is in the guard, lock.rs:73-79 *)
| H_leaves : forall sh ex rd wr st l1 a t v g log q l2 now es rs poison gone doomed rf, List.In (length l1) doomed ->
    hstep allowed (mkH (mkG sh ex rd wr st (l1 ++ GBusy G a [] false t v g log (Some q) :: l2) now es rs) poison gone doomed rf)
      (mkH (mkG sh ex rd wr st (l1 ++ GIdle G :: l2) (S now) es (rs ++ [mkGR (length l1) a q t now])) true gone (remove Nat.eq_dec (length l1) doomed) rf)
(* the owner of a clone panics elsewhere: Crash.v *)
| H_elsewhere : forall s poison gone doomed rf, hstep allowed (mkH s poison gone doomed rf) (mkH s true gone doomed rf).
Inductive hsteps (allowed : gask K V -> Prop) : hsys -> hsys -> Prop :=
| hs_refl : forall s, hsteps allowed s s
| hs_step : forall s s' s'', hsteps allowed s s' -> hstep allowed s' s'' -> hsteps allowed s s''.
Definition hinit (st : St B) (n : nat) : hsys := mkH (ginit G st n) false [] [] [].

(** ** What the property speaks about *)
Definition g_live (t : gthread G) : Prop := match t with GBusy _ _ _ false _ _ _ _ _ => True | _ => False end.
(** A thread makes a new call in this step. *)
Definition g_new_call (s s' : hsys) : Prop := exists i, nth_error (g_threads (h_sys s)) i = Some (GIdle G) /\ nth_error (g_threads (h_sys s')) i <> Some (GIdle G).
(** A thread reads or writes through its guard, and keeps it. *)
Definition g_uses (s s' : hsys) : Prop := exists i a p d t v c log r c' e,
  nth_error (g_threads (h_sys s)) i = Some (GBusy G a (GuardUse :: p) d t v (Some c) log r) /\
  nth_error (g_threads (h_sys s')) i = Some (GBusy G a (GuardUse :: p) d t v (Some c') (log ++ [e]) r).
(** Nothing happens but the panic of the owner of a clone elsewhere. *)
Definition g_elsewhere (s s' : hsys) : Prop := h_sys s' = h_sys s /\ h_gone s' = h_gone s.
(** What remains to be done by the calls under way and their guards: their steps, and unwinding; a lookup may go on with
    the steps of a guard. *)
Definition g_ends (x : action) : bool := match x with CallEnd => true | _ => false end.
Definition g_left (gone : list nat) (i : nat) (t : gthread G) : nat :=
  match t with
  | GIdle _ => 0
  | GBusy _ a p false _ _ _ _ _ => length p + 2 + (match a with GGet _ _ => if existsb g_ends p then 10 else 0 | _ => 0 end)
  | GBusy _ _ _ true _ _ _ _ _ => if existsb (Nat.eqb i) gone then 0 else 1
  end.
Fixpoint g_work_from (gone : list nat) (i : nat) (ts : list (gthread G)) : nat :=
  match ts with [] => 0 | t :: ts' => g_left gone i t + g_work_from gone (S i) ts' end.
Definition g_work (s : hsys) : nat := g_work_from (h_gone s) 0 (g_threads (h_sys s)).
(** [n] steps without a new call, without a read or write through a guard (those, and the panics of owners of clones
    elsewhere, come on top). *)
Inductive g_goes_on (allowed : gask K V -> Prop) : nat -> hsys -> hsys -> Prop :=
| ggo_0 : forall s, g_goes_on allowed 0 s s
| ggo_S : forall n s s' s'', g_goes_on allowed n s s' -> hstep allowed s' s'' -> ~ g_new_call s' s'' -> ~ g_uses s' s'' -> ~ g_elsewhere s' s'' -> g_goes_on allowed (S n) s s''
| ggo_uses : forall n s s' s'', g_goes_on allowed n s s' -> hstep allowed s' s'' -> g_uses s' s'' -> g_goes_on allowed n s s''
| ggo_elsewhere : forall n s s' s'', g_goes_on allowed n s s' -> hstep allowed s' s'' -> g_elsewhere s' s'' -> g_goes_on allowed n s s''.
End GuardCrash.
