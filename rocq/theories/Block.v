(** Block.v -- the interface every container of the library implements, and histories of calls. *)
From Verif Require Import Base.
Set Implicit Arguments.

(** Models the trait [BuildingBlock<K, V>], /repo/src/traits/building_block.rs:19-121.
    [&mut self] methods return the new state.  [flush] returns its iterator as the list of the elements
    it would yield (simplification: the iterator is consumed at once, as every caller in the library does).
    [take_multiple] also returns the caller's key vector as left by the call. *)
Record Block (K V : Type) : Type := mkBlock {
  St : Type;
  capacity : St -> nat;
  size : St -> nat;
  contains : St -> K -> res bool;
  take : St -> K -> res (St * option (K * V));
  take_multiple : St -> list K -> res (St * list K * list (K * V));
  pop : St -> nat -> res (St * list (K * V));
  push : St -> list (K * V) -> res (St * list (K * V));
  flush : St -> res (St * list (K * V))
}.

(** The provided method [take_multiple], /repo/src/traits/building_block.rs:80-82:
    [keys.iter().filter_map(|k| self.take(k)).collect()]; the key vector is left as it is. *)
Fixpoint take_each {K V S} (tk : S -> K -> res (S * option (K * V))) (s : S) (ks : list K)
  : res (S * list (K * V)) :=
  match ks with
  | [] => Ok (s, [])
  | k :: ks' =>
      let* (s1, o) := tk s k in
      let* (s2, out) := take_each tk s1 ks' in
      Ok (s2, match o with Some kv => kv :: out | None => out end)
  end.
Definition default_take_multiple {K V S} (tk : S -> K -> res (S * option (K * V))) (s : S) (ks : list K)
  : res (S * list K * list (K * V)) :=
  let* (s', out) := take_each tk s ks in Ok (s', ks, out).

(** Calls a user can make on a container, and what is handed over and handed back. *)
Inductive op (K V : Type) : Type :=
| OpPush (vs : list (K * V))
| OpPop (n : nat)
| OpTake (k : K)
| OpTakeMultiple (ks : list K)
| OpFlush.
Arguments OpPush {K V} vs.
Arguments OpPop {K V} n.
Arguments OpTake {K V} k.
Arguments OpTakeMultiple {K V} ks.
Arguments OpFlush {K V}.

Definition opt_list {T} (o : option T) : list T := match o with Some x => [x] | None => [] end.

(** One call: the new state and the pairs handed back to the caller. *)
Definition step {K V} (B : Block K V) (s : St B) (o : op K V) : res (St B * list (K * V)) :=
  match o with
  | OpPush vs => push B s vs
  | OpPop n => pop B s n
  | OpTake k => let* (s', r) := take B s k in Ok (s', opt_list r)
  | OpTakeMultiple ks => let* (s', _, out) := take_multiple B s ks in Ok (s', out)
  | OpFlush => flush B s
  end.

(** Everything the caller gives in a call. *)
Definition given {K V} (o : op K V) : list (K * V) :=
  match o with OpPush vs => vs | _ => [] end.

(** A whole history: final state, and everything handed back, in order. *)
Fixpoint run {K V} (B : Block K V) (s : St B) (h : list (op K V)) : res (St B * list (K * V)) :=
  match h with
  | [] => Ok (s, [])
  | o :: h' =>
      let* (s1, r1) := step B s o in
      let* (s2, r2) := run B s1 h' in
      Ok (s2, r1 ++ r2)
  end.

Definition all_given {K V} (h : list (op K V)) : list (K * V) := flat_map given h.
