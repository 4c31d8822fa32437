(** Overflow.v -- the arithmetic of sizes as the machine does it: Array and BTree again, with every addition and
    subtraction of [usize]s written out, and the sums of sizes and capacities of nested containers.

    Array.v, BTree.v and Arch.v compute sizes with unbounded naturals.  Here the operations are those of an
    arbitrary arithmetic: in a debug build an operation out of range panics, in a release build it wraps. *)
From Verif Require Import Base Block Cut Array BTree Batch Exclusive Wrappers Associative Stream Compressed Arch.
Set Implicit Arguments.

(** [usize] addition and subtraction. *)
Record arith : Type := mkArith { uadd : nat -> nat -> res nat; usub : nat -> nat -> res nat }.
(** Debug builds, the largest [usize] being [M]: "attempt to add with overflow", "attempt to subtract with overflow". *)
Definition debug_arith (M : nat) : arith := {|
  uadd := fun a b => if a + b <=? M then Ok (a + b) else Panic;
  usub := sub_chk
|}.
(** Release builds: modulo [M + 1]. *)
Definition release_arith (M : nat) : arith := {|
  uadd := fun a b => Ok ((a + b) mod S M);
  usub := fun a b => Ok ((a + S M - b) mod S M)
|}.

Section Machine.
Variable A : arith.

(** [iter().map(..).sum()]: a left fold from 0. *)
Fixpoint usum_from (acc : nat) (l : list nat) : res nat :=
  match l with [] => Ok acc | x :: l' => let* a := uadd A acc x in usum_from a l' end.
Definition usum (l : list nat) : res nat := usum_from 0 l.

(** find_cut_at_size, /repo/src/utils/size.rs:11-44, with its addition at line 33. *)
Fixpoint ucut_loop {T} (sz : T -> nat) (n : nat) (acc : nat) (last : option T) (rl : list T)
  : res (nat * nat * option T) :=
  match rl with
  | [] => Ok (0, acc, last)
  | x :: rest =>
      let* total := uadd A acc (sz x) in
      if total <? n then ucut_loop sz n total (Some x) rest
      else Ok (length rest, total, Some x)
  end.
Definition ufind_cut {T} (values : list T) (sz : T -> nat) (n : nat) : res (nat * nat * option T) :=
  ucut_loop sz n 0 None (rev values).

Section Array.
Context {K V : Type} {OK : Ord K} {OV : Ord V}.
Variable srt : Sorter (K * V) V snd.
Variable bs : BSearch K.

(** Array::pop, /repo/src/array/building_block.rs:55-80. *)
Definition ua_pop (s : array K V) (n : nat) : res (array K V * list (K * V)) :=
  match a_vals s with
  | [] => Ok (s, [])
  | _ =>
    if a_total s <=? n then Ok (mkArray (a_cap s) 0 [] (a_esz s), a_vals s)
    else
      let vals := srt (a_vals s) in
      let* (cut, cut_size, _) := ufind_cut vals (a_esz s) n in
      let* total := usub A (a_total s) cut_size in
      Ok (mkArray (a_cap s) total (firstn cut vals) (a_esz s), skipn cut vals)
  end.
(** Array::push, /repo/src/array/building_block.rs:101-136. *)
Definition ua_push (s : array K V) (elements : list (K * V)) : res (array K V * list (K * V)) :=
  let* size := usum (map (a_esz s) elements) in
  let* room := usub A (a_cap s) (a_total s) in
  if size <=? room then
    let* total := uadd A (a_total s) size in
    Ok (mkArray (a_cap s) total (a_vals s ++ elements) (a_esz s), [])
  else if size =? a_cap s then
    Ok (mkArray (a_cap s) size elements (a_esz s), a_vals s)
  else if a_cap s <? size then
    let els := stable_sort snd elements in
    let* excess := usub A size (a_cap s) in
    let* (cut, cut_size, _) := ufind_cut els (a_esz s) excess in
    let* total := usub A size cut_size in
    Ok (mkArray (a_cap s) total (firstn cut els) (a_esz s), a_vals s ++ skipn cut els)
  else
    let* missing := usub A size room in
    let* (s1, out) := ua_pop s missing in
    let* total := uadd A (a_total s1) size in
    Ok (mkArray (a_cap s1) total (a_vals s1 ++ elements) (a_esz s1), out).
(** Array::take, /repo/src/array/building_block.rs:138-153. *)
Definition ua_take (s : array K V) (k : K) : res (array K V * option (K * V)) :=
  match find_index (fun p => eqb (fst p) k) (a_vals s) with
  | None => Ok (s, None)
  | Some i =>
      let* e := unwrap (nth_error (a_vals s) i) in
      let* total := usub A (a_total s) (a_esz s e) in
      Ok (mkArray (a_cap s) total (swap_remove i (a_vals s)) (a_esz s), Some e)
  end.
(** Array::take_multiple, /repo/src/array/building_block.rs:162-174. *)
Fixpoint ua_tm_loop (i : nat) (s : array K V) (ks : list K) (ret : list (K * V))
  : res (array K V * list K * list (K * V)) :=
  match i with
  | 0 => Ok (s, ks, ret)
  | S j =>
      let* e := unwrap (nth_error (a_vals s) j) in
      match bs ks (fst e) with
      | Some p =>
          let* total := usub A (a_total s) (a_esz s e) in
          ua_tm_loop j (mkArray (a_cap s) total (swap_remove j (a_vals s)) (a_esz s))
                     (remove_nth p ks) (ret ++ [e])
      | None => ua_tm_loop j s ks ret
      end
  end.
Definition ua_take_multiple (s : array K V) (ks : list K) : res (array K V * list K * list (K * V)) :=
  ua_tm_loop (length (a_vals s)) s (sort_keys ks) [].

(** impl BuildingBlock for Array, /repo/src/array/building_block.rs:5-175. *)
Definition MArrayB : Block K V := {|
  St := array K V;
  capacity := @a_capacity K V;
  size := @a_size K V;
  contains := a_contains;
  take := ua_take;
  take_multiple := ua_take_multiple;
  pop := ua_pop;
  push := ua_push;
  flush := @a_flush K V
|}.
End Array.

Section BTree.
Context {K V : Type} {OK : Ord K} {OV : Ord V}.
(** BTree::pop, /repo/src/btree/building_block.rs:116-146. *)
Definition ub_pop (s : btree K V) (n : nat) : res (btree K V * list (K * V)) :=
  match b_map s with
  | [] => Ok (s, [])
  | _ =>
    if b_total s <=? n then b_flush s
    else
      let* (_, cut_size, o) := ufind_cut (b_set s) (fun x => b_esz s (snd (fst x), fst (fst x))) n in
      let* e := unwrap o in
      let* total := usub A (b_total s) cut_size in
      let (kept, out_set) := set_split_off (fst e) (b_set s) in
      let* (m, out) := b_pop_loop out_set kept (b_map s) in
      Ok (mkBT (b_cap s) total (b_esz s) kept m (b_next s), out)
  end.
(** BTree::take, /repo/src/btree/building_block.rs:148-157. *)
Definition ub_take (s : btree K V) (k : K) : res (btree K V * option (K * V)) :=
  match map_remove k (b_map s) with
  | None => Ok (s, None)
  | Some (x, m) =>
      let* total := usub A (b_total s) (b_esz s (k, fst x)) in
      let set := set_remove (fst x, k) (b_set s) in
      let* v := as_value x (in_set (snd x) set || BTree.in_map (snd x) m) in
      Ok (mkBT (b_cap s) total (b_esz s) set m (b_next s), Some (k, v))
  end.
(** BTree::push, /repo/src/btree/building_block.rs:71-104. *)
Definition ub_push (s : btree K V) (elements : list (K * V)) : res (btree K V * list (K * V)) :=
  let* size := usum (map (b_esz s) elements) in
  if b_cap s <=? size then
    let* (s1, out) := b_flush s in
    let s2 := with_total (b_insert s1 elements) size in
    if b_cap s <? size then
      let* excess := usub A size (b_cap s) in
      let* (s3, out') := ub_pop s2 excess in
      Ok (s3, out ++ out')
    else Ok (s2, out)
  else
    let* (s1, _, out) := default_take_multiple ub_take s (keys elements) in
    let* room := usub A (b_cap s1) (b_total s1) in
    let* (s2, out') :=
      if room <? size then let* missing := usub A size room in ub_pop s1 missing else Ok (s1, []) in
    let s3 := b_insert s2 elements in
    let* total := uadd A (b_total s3) size in
    Ok (with_total s3 total, out ++ out').
(** impl BuildingBlock for BTree, /repo/src/btree/building_block.rs:7-158. *)
Definition MBTreeB : Block K V := {|
  St := btree K V;
  capacity := @b_cap K V;
  size := @b_total K V;
  contains := b_contains;
  take := ub_take;
  take_multiple := default_take_multiple ub_take;
  pop := ub_pop;
  push := ub_push;
  flush := b_flush
|}.
End BTree.

(** Sizes and capacities of nested containers: Exclusive adds two
    (/repo/src/exclusive/building_block.rs:14-16, 22-24), Batch and Associative sum a list
    (/repo/src/batch/building_block.rs:14-24, /repo/src/associative/building_block.rs:20-22, 53-55), the others
    forward or read a field. *)
Fixpoint rmap {X Y} (f : X -> res Y) (l : list X) : res (list Y) :=
  match l with
  | [] => Ok []
  | x :: l' => let* y := f x in let* ys := rmap f l' in Ok (y :: ys)
  end.
Section Nested.
Context {K : Type} {OK : Ord K}.
Fixpoint machine_size {V : Type} (a : arch K V) : St (block a) -> res nat :=
  match a in arch _ V return St (block a) -> res nat with
  | AArray srt bs _ _ => fun s => Ok (size (ArrayB srt bs) s)
  | ABTree _ _ _ => fun s => Ok (size BTreeB s)
  | ABatch _ f => fun s => let* l := rmap (fun c => machine_size (f (projT1 c)) (projT2 c)) s in usum l
  | AExclusive _ l r => fun s =>
      let* x := machine_size l (fst s) in let* y := machine_size r (snd s) in uadd A x y
  | AFlushStopper a | ASequential a | ADyn a => machine_size a
  | AProfiler a => fun s => machine_size a (snd s)
  | ADecorator _ _ a => fun s => machine_size a (snd s)
  | AAssociative _ _ f => fun s => let* l := rmap (fun c => machine_size (f (projT1 c)) (projT2 c)) s in usum l
  | ACompressed L C srt bs _ => fun s => Ok (size (CompressedB VecStream L C srt bs) s)
  | ARemote a => machine_size a
  end.
Fixpoint machine_capacity {V : Type} (a : arch K V) : St (block a) -> res nat :=
  match a in arch _ V return St (block a) -> res nat with
  | AArray srt bs _ _ => fun s => Ok (capacity (ArrayB srt bs) s)
  | ABTree _ _ _ => fun s => Ok (capacity BTreeB s)
  | ABatch _ f => fun s => let* l := rmap (fun c => machine_capacity (f (projT1 c)) (projT2 c)) s in usum l
  | AExclusive _ l r => fun s =>
      let* x := machine_capacity l (fst s) in let* y := machine_capacity r (snd s) in uadd A x y
  | AFlushStopper a | ASequential a | ADyn a => machine_capacity a
  | AProfiler a => fun s => machine_capacity a (snd s)
  | ADecorator _ _ a => fun s => machine_capacity a (snd s)
  | AAssociative _ _ f => fun s => let* l := rmap (fun c => machine_capacity (f (projT1 c)) (projT2 c)) s in usum l
  | ACompressed L C srt bs _ => fun s => Ok (capacity (CompressedB VecStream L C srt bs) s)
  | ARemote a => machine_capacity a
  end.
End Nested.
End Machine.
