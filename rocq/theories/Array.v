(** Array.v -- model of /repo/src/array. *)
From Verif Require Import Base Block Cut.
Set Implicit Arguments.

Section Array.
Context {K V : Type} {OK : Ord K} {OV : Ord V}.
(** [sort_unstable_by] on values; [binary_search] on keys. *)
Variable srt : Sorter (K * V) V snd.
Variable bs : BSearch K.

(** struct Array, /repo/src/array/array.rs:62-67. *)
Record array : Type := mkArray {
  a_cap : nat;
  a_total : nat;
  a_vals : list (K * V);
  a_esz : K * V -> nat
}.

(** Array::new + with_element_size, /repo/src/array/array.rs:79-106 (the constructors compose to this state). *)
Definition array_new (cap : nat) (esz : K * V -> nat) : array := mkArray cap 0 [] esz.

(** capacity / size, /repo/src/array/building_block.rs:20-22, 39-41. *)
Definition a_capacity (s : array) : nat := a_cap s.
Definition a_size (s : array) : nat := a_total s.

(** flush, /repo/src/array/building_block.rs:25-28. *)
Definition a_flush (s : array) : res (array * list (K * V)) :=
  Ok (mkArray (a_cap s) 0 [] (a_esz s), a_vals s).

(** contains, /repo/src/array/building_block.rs:30-32. *)
Definition a_contains (s : array) (k : K) : res bool :=
  Ok (existsb (fun p => eqb (fst p) k) (a_vals s)).

(** pop, /repo/src/array/building_block.rs:55-80. *)
Definition a_pop (s : array) (n : nat) : res (array * list (K * V)) :=
  match a_vals s with
  | [] => Ok (s, [])
  | _ =>
    if a_total s <=? n then Ok (mkArray (a_cap s) 0 [] (a_esz s), a_vals s)
    else
      let vals := srt (a_vals s) in
      match find_cut_at_size vals (a_esz s) n with
      | (cut, cut_size, _) =>
          let* total := sub_chk (a_total s) cut_size in
          Ok (mkArray (a_cap s) total (firstn cut vals) (a_esz s), skipn cut vals)
      end
  end.

(** push, /repo/src/array/building_block.rs:101-136. *)
Definition a_push (s : array) (elements : list (K * V)) : res (array * list (K * V)) :=
  let size := sum_sz (a_esz s) elements in
  let* room := sub_chk (a_cap s) (a_total s) in
  if size <=? room then
    Ok (mkArray (a_cap s) (a_total s + size) (a_vals s ++ elements) (a_esz s), [])
  else if size =? a_cap s then
    Ok (mkArray (a_cap s) size elements (a_esz s), a_vals s)
  else if a_cap s <? size then
    let els := stable_sort snd elements in
    match find_cut_at_size els (a_esz s) (size - a_cap s) with
    | (cut, cut_size, _) =>
        let* total := sub_chk size cut_size in
        Ok (mkArray (a_cap s) total (firstn cut els) (a_esz s), a_vals s ++ skipn cut els)
    end
  else
    let* (s1, out) := a_pop s (size - room) in
    Ok (mkArray (a_cap s1) (a_total s1 + size) (a_vals s1 ++ elements) (a_esz s1), out).

(** take, /repo/src/array/building_block.rs:138-153. *)
Definition a_take (s : array) (k : K) : res (array * option (K * V)) :=
  match find_index (fun p => eqb (fst p) k) (a_vals s) with
  | None => Ok (s, None)
  | Some i =>
      let* e := unwrap (nth_error (a_vals s) i) in
      let* total := sub_chk (a_total s) (a_esz s e) in
      Ok (mkArray (a_cap s) total (swap_remove i (a_vals s)) (a_esz s), Some e)
  end.

(** The loop of take_multiple, /repo/src/array/building_block.rs:165-172; [i] counts down. *)
Fixpoint a_tm_loop (i : nat) (s : array) (ks : list K) (ret : list (K * V))
  : res (array * list K * list (K * V)) :=
  match i with
  | 0 => Ok (s, ks, ret)
  | S j =>
      let* e := unwrap (nth_error (a_vals s) j) in
      match bs ks (fst e) with
      | Some p =>
          let* total := sub_chk (a_total s) (a_esz s e) in
          a_tm_loop j (mkArray (a_cap s) total (swap_remove j (a_vals s)) (a_esz s))
                    (remove_nth p ks) (ret ++ [e])
      | None => a_tm_loop j s ks ret
      end
  end.

(** take_multiple, /repo/src/array/building_block.rs:162-174. *)
Definition a_take_multiple (s : array) (ks : list K) : res (array * list K * list (K * V)) :=
  a_tm_loop (length (a_vals s)) s (sort_keys ks) [].

(** impl BuildingBlock for Array, /repo/src/array/building_block.rs:5-175. *)
Definition ArrayB : Block K V := {|
  St := array;
  capacity := a_capacity;
  size := a_size;
  contains := a_contains;
  take := a_take;
  take_multiple := a_take_multiple;
  pop := a_pop;
  push := a_push;
  flush := a_flush
|}.

(** Get::get on Array, /repo/src/array/get.rs:52-64, the guard being dereferenced once then dropped: the
    first matching value, in place.  [touch] is what the dereference does to the value through interior
    mutability (identity for plain values; the Lru timestamp update for decorated ones). *)
Fixpoint update_first {T} (p : T -> bool) (g : T -> T) (l : list T) : list T :=
  match l with
  | [] => []
  | x :: l' => if p x then g x :: l' else x :: update_first p g l'
  end.
Definition a_get (s : array) (k : K) (touch : V -> V) : res (array * option V) :=
  let hit := fun p : K * V => eqb (fst p) k in
  Ok (mkArray (a_cap s) (a_total s) (update_first hit (fun p => (fst p, touch (snd p))) (a_vals s)) (a_esz s),
      option_map snd (find hit (a_vals s))).

(** GetMut::get_mut on Array, /repo/src/array/get.rs:66-78: the guard writes in place; [f] is what the
    user does through it.  Nothing recomputes total_size. *)
Definition a_get_mut (s : array) (k : K) (f : V -> V) : res (array * option V) := a_get s k f.

End Array.
Arguments array K V : clear implicits.
