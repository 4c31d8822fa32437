(** Stamps.v -- the counters behind timestamps and Fifo cells, with their width: /repo/src/utils/timestamp.rs and the u64
    counter of /repo/src/decorator/fifo.rs.  The width [w] is a parameter (64 in the code). *)
From Verif Require Import Base Block Wrappers Decorations.
Set Implicit Arguments.

(** AtomicU64::fetch_add(1): the new counter, and the value before. *)
Definition fetch_add (w c : nat) : nat * nat := ((c + 1) mod 2 ^ w, c).
(** Counter::diff before the cast, /repo/src/utils/timestamp.rs:74-76: [self.value - other.value]. *)
Definition counter_diff (self other : nat) : res nat := sub_chk self other.

(** ** Calls to Counter::now by any number of threads, /repo/src/utils/timestamp.rs:60-64 *)
(** A call that has begun: the moment, and the value once [fetch_add] was made.  Moments count the events. *)
Record pending : Type := mkPending { p_begin : nat; p_value : option nat }.
(** A call that returned. *)
Record stamp : Type := mkStamp { s_begin : nat; s_end : nat; s_value : nat }.
(** Some thread calls [now]; the [i]-th of the calls under way makes its [fetch_add]; it returns. *)
Inductive event : Type := EBegin | EAdd (i : nat) | EEnd (i : nat).
Record world : Type := mkWorld { w_counter : nat; w_moment : nat; w_calls : list pending; w_done : list stamp }.
Definition happens (w : nat) (x : world) (e : event) : option world :=
  match e with
  | EBegin => Some (mkWorld (w_counter x) (S (w_moment x)) (w_calls x ++ [mkPending (w_moment x) None]) (w_done x))
  | EAdd i =>
      match nth_error (w_calls x) i with
      | Some (mkPending b None) =>
          let (c, v) := fetch_add w (w_counter x) in
          Some (mkWorld c (S (w_moment x)) (replace_nth i (mkPending b (Some v)) (w_calls x)) (w_done x))
      | _ => None
      end
  | EEnd i =>
      match nth_error (w_calls x) i with
      | Some (mkPending b (Some v)) =>
          Some (mkWorld (w_counter x) (S (w_moment x)) (remove_nth i (w_calls x)) (w_done x ++ [mkStamp b (w_moment x) v]))
      | _ => None
      end
  end.
Fixpoint unfolds (w : nat) (x : world) (es : list event) : option world :=
  match es with [] => Some x | e :: es' => match happens w x e with Some x' => unfolds w x' es' | None => None end end.
Definition adds (es : list event) : nat := length (filter (fun e => match e with EAdd _ => true | _ => false end) es).

(** ** The decorators *)
Section Deco.
Context {V : Type}.
(** DecorationFactory for Fifo, /repo/src/decorator/fifo.rs:69-78, the counter being of [w] bits. *)
Definition FifoW (w : nat) : Factory V (fifo_cell V) := {|
  Fst := nat;
  wrap := fun c v => let (c', n) := fetch_add w c in (c', mkFifo v n);
  unwrap_deco := @fifo_value V;
  tick := fun c => c;
  touched := fun _ d f => mkFifo (f (fifo_value d)) (fifo_counter d);
  unwrap_wrap := fun _ _ => eq_refl;
  unwrap_touched := fun _ _ _ => eq_refl
|}.
(** Lru over Counter: the n-th reading the decorator makes is the [k n]-th of the program, and the counter has [w] bits. *)
Definition LruW (w : nat) (k : nat -> nat) : Factory V (lru_cell V) := Lru (fun n => k n mod 2 ^ w).
End Deco.
