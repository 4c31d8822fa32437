(** Batch.v -- model of /repo/src/batch. *)
From Verif Require Import Base Block.
Set Implicit Arguments.

Section Batch.
Context {K V : Type}.
Variable C : Block K V.

(** struct Batch { bb: LinkedList<C> }, /repo/src/batch/batch.rs:36-41. *)
Definition batch : Type := list (St C).

(** capacity / size, /repo/src/batch/building_block.rs:14-16, 22-24. *)
Definition bt_capacity (s : batch) : nat := list_sum (map (capacity C) s).
Definition bt_size (s : batch) : nat := list_sum (map (size C) s).

(** contains, /repo/src/batch/building_block.rs:26-28 ([any] stops at the first match). *)
Fixpoint bt_contains (s : batch) (k : K) : res bool :=
  match s with
  | [] => Ok false
  | c :: s' => let* b := contains C c k in if b then Ok true else bt_contains s' k
  end.

(** take, /repo/src/batch/building_block.rs:35-37 ([find_map] stops at the first match). *)
Fixpoint bt_take (s : batch) (k : K) : res (batch * option (K * V)) :=
  match s with
  | [] => Ok ([], None)
  | c :: s' =>
      let* (c1, o) := take C c k in
      match o with
      | Some kv => Ok (c1 :: s', Some kv)
      | None => let* (s1, o1) := bt_take s' k in Ok (c1 :: s1, o1)
      end
  end.

(** take_multiple, /repo/src/batch/building_block.rs:47-56. *)
Fixpoint bt_take_multiple (s : batch) (ks : list K) : res (batch * list K * list (K * V)) :=
  match s with
  | [] => Ok ([], ks, [])
  | c :: s' =>
      match ks with
      | [] => Ok (c :: s', ks, [])
      | _ =>
        let* (c1, ks1, o1) := take_multiple C c ks in
        let* (s2, ks2, o2) := bt_take_multiple s' ks1 in
        Ok (c1 :: s2, ks2, o1 ++ o2)
      end
  end.

(** The loop of pop over the batches in reverse order, /repo/src/batch/building_block.rs:72-81. *)
Fixpoint bt_pop_loop (rs : list (St C)) (n : nat) : res (list (St C) * list (K * V)) :=
  match rs with
  | [] => Ok ([], [])
  | c :: rs' =>
      let* (c1, o) := pop C c n in
      let* popped := sub_chk (size C c) (size C c1) in
      if n <=? popped then Ok (c1 :: rs', o)
      else
        let* (rs1, o1) := bt_pop_loop rs' (n - popped) in
        Ok (c1 :: rs1, o ++ o1)
  end.
(** pop, /repo/src/batch/building_block.rs:67-83. *)
Definition bt_pop (s : batch) (n : nat) : res (batch * list (K * V)) :=
  let* (rs, o) := bt_pop_loop (rev s) n in Ok (rev rs, o).

(** The loop of push, /repo/src/batch/building_block.rs:100-110: returns the batches visited, those not
    visited, and the values left. *)
Fixpoint bt_push_loop (s : batch) (values : list (K * V)) : res (list (St C) * list (St C) * list (K * V)) :=
  match values with
  | [] => Ok ([], s, [])
  | _ =>
    match s with
    | [] => Ok ([], [], values)
    | c :: s' =>
        let* (c1, values1) := push C c values in
        let* (visited, rest, out) := bt_push_loop s' values1 in
        Ok (c1 :: visited, rest, out)
    end
  end.
(** push, /repo/src/batch/building_block.rs:98-113: visited batches go to the back of the list. *)
Definition bt_push (s : batch) (values : list (K * V)) : res (batch * list (K * V)) :=
  let* (visited, rest, out) := bt_push_loop s values in Ok (rest ++ visited, out).

(** flush, /repo/src/batch/building_block.rs:117-124. *)
Fixpoint bt_flush (s : batch) : res (batch * list (K * V)) :=
  match s with
  | [] => Ok ([], [])
  | c :: s' =>
      let* (c1, o1) := flush C c in
      let* (s2, o2) := bt_flush s' in
      Ok (c1 :: s2, o1 ++ o2)
  end.

(** impl BuildingBlock for Batch, /repo/src/batch/building_block.rs:5-125. *)
Definition BatchB : Block K V := {|
  St := batch;
  capacity := bt_capacity;
  size := bt_size;
  contains := bt_contains;
  take := bt_take;
  take_multiple := bt_take_multiple;
  pop := bt_pop;
  push := bt_push;
  flush := bt_flush
|}.
End Batch.
Arguments bt_capacity {K V} C s.
Arguments bt_size {K V} C s.
Arguments bt_contains {K V} C s k.
Arguments bt_take {K V} C s k.
Arguments bt_take_multiple {K V} C s ks.
Arguments bt_pop_loop {K V} C rs n.
Arguments bt_pop {K V} C s n.
Arguments bt_push_loop {K V} C s values.
Arguments bt_push {K V} C s values.
Arguments bt_flush {K V} C s.
