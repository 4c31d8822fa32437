(** ByteStream.v -- model of /repo/src/stream/stream.rs, building_block.rs and get.rs. *)
From Coq Require Import ZArith NArith Init.Byte.
From Verif Require Import Base Block BTree KMin Hasher Stream IOVec.
Set Implicit Arguments.

Section ByteStream.
Variable S : Stream.
Context {K V : Type} {OK : Ord K} {OV : Ord V}.
Variable bs : BSearch K.
(** bincode::serialize and deserialize_from on pairs; [serialized_size] is the length of the former. *)
Variable ser : K * V -> option (list byte).
Variable de : list byte -> option (K * V).

Notation iovec := (iovec S).

(** struct ByteStream, /repo/src/stream/stream.rs:69-77.  The factory always creates the same empty stream. *)
Record bstream : Type := mkBS { st_slots : list (option iovec); st_cap : nat }.
(** new, /repo/src/stream/stream.rs:88-101. *)
Definition bs_new (capacity : nat) : bstream := mkBS (repeat None 64) capacity.

(** [filter_map(|s| s.as_ref())] with [find_map], [flat_map]..: a traversal of the slots in order. *)
Fixpoint slots_find {A} (p : nat -> nat -> K * V -> option A) (i : nat) (slots : list (option iovec)) : res (option A) :=
  match slots with
  | [] => Ok None
  | None :: r => slots_find p (Datatypes.S i) r
  | Some v :: r =>
      let* o := iv_find de (p i) v in
      match o with Some a => Ok (Some a) | None => slots_find p (Datatypes.S i) r end
  end.

(** size, /repo/src/stream/building_block.rs:26-36. *)
Definition slot_size (o : option iovec) : nat :=
  match o with
  | None => 0
  | Some v => match iv_size v with Some n => n | None => 0 end
  end.
Definition bs_size (s : bstream) : nat := list_sum (map slot_size (st_slots s)).

(** contains, /repo/src/stream/building_block.rs:42-50. *)
Definition bs_contains (s : bstream) (k : K) : res bool :=
  let* o := slots_find (fun _ _ kv => if eqb (fst kv) k then Some tt else None) 0 (st_slots s) in
  Ok (match o with Some _ => true | None => false end).

(** take, /repo/src/stream/building_block.rs:57-89. *)
Definition bs_take (s : bstream) (k : K) : res (bstream * option (K * V)) :=
  let* o := slots_find (fun i j kv => if eqb (fst kv) k then Some (i, j) else None) 0 (st_slots s) in
  match o with
  | None => Ok (s, None)
  | Some (i, j) =>
      let* slot := unwrap (nth_error (st_slots s) i) in
      let* v := unwrap slot in
      let* (v', r) := iv_swap_remove de v j in
      match r with
      | None => Panic
      | Some None => Panic
      | Some (Some kv) => Ok (mkBS (replace_nth i (Some v') (st_slots s)) (st_cap s), Some kv)
      end
  end.

(** The inner loop of take_multiple, /repo/src/stream/building_block.rs:102-110. *)
Fixpoint bs_tm_loop (ks : list K) (l : list (K * V)) : list K * list (K * V) :=
  match l with
  | [] => (ks, [])
  | (k, v) :: l' =>
      match bs ks k with
      | Some i =>
          let ks' := remove_nth i ks in
          match ks' with
          | [] => ([], [(k, v)])
          | _ => let (ks'', out) := bs_tm_loop ks' l' in (ks'', (k, v) :: out)
          end
      | None => bs_tm_loop ks l'
      end
  end.
Fixpoint bs_tm_slots (ks : list K) (slots : list (option iovec)) : res (list K * list (K * V)) :=
  match slots with
  | [] => Ok (ks, [])
  | None :: r => bs_tm_slots ks r
  | Some v :: r =>
      let* l := iv_list de v in
      let (ks1, out1) := bs_tm_loop ks l in
      let* (ks2, out2) := bs_tm_slots ks1 r in
      Ok (ks2, out1 ++ out2)
  end.
(** take_multiple, /repo/src/stream/building_block.rs:98-113: nothing is removed from the streams.  Simplification: the chunks of a
    stream are all decoded, where the code stops at the last key; they differ only if a later chunk does not decode. *)
Definition bs_take_multiple (s : bstream) (ks : list K) : res (bstream * list K * list (K * V)) :=
  let* (ks', out) := bs_tm_slots (sort_keys ks) (st_slots s) in Ok (s, ks', out).

(** The first loop of pop, /repo/src/stream/building_block.rs:131-138; tuples (V, usize, usize). *)
Fixpoint number (i j : nat) (l : list (K * V)) : list (V * nat * nat) :=
  match l with [] => [] | kv :: l' => (snd kv, i, j) :: number i (Datatypes.S j) l' end.
Fixpoint bs_collect (i : nat) (slots : list (option iovec)) (m : kmin (V * nat * nat)) : res (kmin (V * nat * nat)) :=
  match slots with
  | [] => Ok m
  | None :: r => bs_collect (Datatypes.S i) r m
  | Some v :: r =>
      let* l := iv_list de v in
      let* m' := km_push_all m (map (fun x => (x, iv_chunk v)) (number i 0 l)) in
      bs_collect (Datatypes.S i) r m'
  end.
(** The second loop of pop, /repo/src/stream/building_block.rs:149-156. *)
Fixpoint bs_remove (slots : list (option iovec)) (ix : list (nat * nat)) : res (list (option iovec) * list (K * V)) :=
  match ix with
  | [] => Ok (slots, [])
  | (i, j) :: ix' =>
      let* slot := unwrap (nth_error slots i) in
      let* v := unwrap slot in
      let* (v', r) := iv_swap_remove de v j in
      let slots' := replace_nth i (Some v') slots in
      match r with
      | Some (Some kv) => let* (slots'', out) := bs_remove slots' ix' in Ok (slots'', kv :: out)
      | _ => Ok (slots', [])
      end
  end.
(** pop, /repo/src/stream/building_block.rs:127-157. *)
Definition bs_pop (s : bstream) (n : nat) : res (bstream * list (K * V)) :=
  let* m := bs_collect 0 (st_slots s) (km_new n) in
  let ix := stable_sort (fun x : nat * nat => x) (map (fun e => (snd (fst (fst e)), snd (fst e))) (km_set m)) in
  let* (slots, out) := bs_remove (st_slots s) (rev ix) in
  Ok (mkBS slots (st_cap s), out).

(** push, /repo/src/stream/building_block.rs:165-196. *)
Fixpoint bs_push_loop (slots : list (option iovec)) (cap total : nat) (vs : list (K * V))
  : res (list (option iovec) * list (K * V)) :=
  match vs with
  | [] => Ok (slots, [])
  | x :: vs' =>
      match ser x with
      | None => let* (sl, out) := bs_push_loop slots cap total vs' in Ok (sl, x :: out)
      | Some bytes =>
          let* (iN, cN) := chunk_size (N.of_nat (length bytes)) in
          let i := N.to_nat iN in
          let c := N.to_nat cN in
          if cap <? c + total then let* (sl, out) := bs_push_loop slots cap total vs' in Ok (sl, x :: out)
          else
            let* slot := unwrap (nth_error slots i) in
            let v := match slot with Some v => v | None => iv_new S (s_new S) c end in
            let* (v', rest, ok) := iv_append ser v [x] in
            let slots' := replace_nth i (Some v') slots in
            if ok then bs_push_loop slots' cap (total + c) vs'
            else
              (* [value.pop().unwrap()] of the vector append has emptied *)
              match rest with
              | [] => Panic
              | y :: _ => let* (sl, out) := bs_push_loop slots' cap total vs' in Ok (sl, y :: out)
              end
      end
  end.
Definition bs_push (s : bstream) (vs : list (K * V)) : res (bstream * list (K * V)) :=
  let* (slots, out) := bs_push_loop (st_slots s) (st_cap s) (bs_size s) vs in Ok (mkBS slots (st_cap s), out).

(** flush, /repo/src/stream/building_block.rs:211-218. *)
Fixpoint bs_drain (slots : list (option iovec)) : res (list (K * V)) :=
  match slots with
  | [] => Ok []
  | None :: r => bs_drain r
  | Some v :: r =>
      let* l := iv_into_list de v in
      let* l' := bs_drain r in
      Ok (l ++ l')
  end.
Definition bs_flush (s : bstream) : res (bstream * list (K * V)) :=
  let* out := bs_drain (st_slots s) in
  Ok (mkBS (map (fun _ => None) (st_slots s)) (st_cap s), out).

Definition ByteStreamB : Block K V := {|
  St := bstream;
  capacity := st_cap;
  size := bs_size;
  contains := bs_contains;
  take := bs_take;
  take_multiple := bs_take_multiple;
  pop := bs_pop;
  push := bs_push;
  flush := bs_flush
|}.

(** get, /repo/src/stream/get.rs:71-82: a copy of the value, never written back. *)
Definition bs_get (s : bstream) (k : K) : res (option V) :=
  slots_find (fun _ _ kv => if eqb (fst kv) k then Some (snd kv) else None) 0 (st_slots s).
(** get_mut, /repo/src/stream/get.rs:93-110, the user writing [f] through the cell, which is then dropped. *)
Fixpoint bs_slots_mut (k : K) (f : V -> V) (slots : list (option iovec)) : res (list (option iovec) * option V) :=
  match slots with
  | [] => Ok ([], None)
  | None :: r => let* (r', o) := bs_slots_mut k f r in Ok (None :: r', o)
  | Some v :: r =>
      let* o := iv_find_mut ser de (fun kv => eqb (fst kv) k) (fun kv => (fst kv, f (snd kv))) v in
      match o with
      | Some (v', kv) => Ok (Some v' :: r, Some (snd kv))
      | None => let* (r', o') := bs_slots_mut k f r in Ok (Some v :: r', o')
      end
  end.
Definition bs_get_mut (s : bstream) (k : K) (f : V -> V) : res (bstream * option V) :=
  let* (slots, o) := bs_slots_mut k f (st_slots s) in Ok (mkBS slots (st_cap s), o).
End ByteStream.
