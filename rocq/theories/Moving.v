(** Moving.v -- Array and BTree over values whose comparison depends on the moment it is made.

    LrfuCell::cmp (/repo/src/decorator/lrfu.rs:176-187) reads the clock twice, so it is not an order (C24), and what the
    sorts and ordered sets of the standard library do with it is not specified.  This file models /repo/src/array and
    /repo/src/btree again, with every comparison dated, over any sort and any search that respect a minimal contract:
    a sort permutes its argument, and an ordered set takes two elements for the same only if it compared them equal.
    Times count the readings of the clock; a state carries the number of readings made so far. *)
From Verif Require Import Base Block Cut Array BTree.
Set Implicit Arguments.

Section Moving.
Context {K V : Type} {OK : Ord K}.
(** [Ord::cmp] of two values, made when the clock has been read so many times. *)
Variable cmp : nat -> V -> V -> comparison.

(** [sort_unstable_by] and [sort_by] of the pairs by value: the new time and the pairs permuted.  Neighbours in the
    result were compared, and the answer did not forbid their places.  (Simplification: recent versions of Rust may also
    panic when they notice that the comparison is not an order; not modelled.) *)
Record MSorter : Type := {
  ms_fun : nat -> list (K * V) -> nat * list (K * V);
  ms_perm : forall t l, Permutation (snd (ms_fun t l)) l;
  ms_compared : forall t l a x y b, snd (ms_fun t l) = a ++ x :: y :: b ->
    exists u, t <= u /\ (cmp u (snd x) (snd y) <> Gt \/ cmp u (snd y) (snd x) <> Lt)
}.

Section MArray.
Variables srt : MSorter.
Variable bs : BSearch K.
Definition marray : Type := (nat * array K V)%type.
(** pop, /repo/src/array/building_block.rs:55-80. *)
Definition ma_pop (s : marray) (n : nat) : res (marray * list (K * V)) :=
  let (t, a) := s in
  match a_vals a with
  | [] => Ok (s, [])
  | _ =>
    if a_total a <=? n then Ok ((t, mkArray (a_cap a) 0 [] (a_esz a)), a_vals a)
    else
      let (t', vals) := ms_fun srt t (a_vals a) in
      match find_cut_at_size vals (a_esz a) n with
      | (cut, cut_size, _) =>
          let* total := sub_chk (a_total a) cut_size in
          Ok ((t', mkArray (a_cap a) total (firstn cut vals) (a_esz a)), skipn cut vals)
      end
  end.
(** push, /repo/src/array/building_block.rs:101-136. *)
Definition ma_push (s : marray) (elements : list (K * V)) : res (marray * list (K * V)) :=
  let (t, a) := s in
  let size := sum_sz (a_esz a) elements in
  let* room := sub_chk (a_cap a) (a_total a) in
  if size <=? room then
    Ok ((t, mkArray (a_cap a) (a_total a + size) (a_vals a ++ elements) (a_esz a)), [])
  else if size =? a_cap a then
    Ok ((t, mkArray (a_cap a) size elements (a_esz a)), a_vals a)
  else if a_cap a <? size then
    let (t', els) := ms_fun srt t elements in
    match find_cut_at_size els (a_esz a) (size - a_cap a) with
    | (cut, cut_size, _) =>
        let* total := sub_chk size cut_size in
        Ok ((t', mkArray (a_cap a) total (firstn cut els) (a_esz a)), a_vals a ++ skipn cut els)
    end
  else
    let* (s1, out) := ma_pop s (size - room) in
    let (t1, a1) := s1 in
    Ok ((t1, mkArray (a_cap a1) (a_total a1 + size) (a_vals a1 ++ elements) (a_esz a1)), out).
(** The other methods do not compare values: /repo/src/array/building_block.rs:20-41, 138-174. *)
Definition MArrayB : Block K V := {|
  St := marray;
  capacity := fun s => a_cap (snd s);
  size := fun s => a_total (snd s);
  contains := fun s k => a_contains (snd s) k;
  take := fun s k => let* (a, o) := a_take (snd s) k in Ok ((fst s, a), o);
  take_multiple := fun s ks => let* (a, ks', o) := a_take_multiple bs (snd s) ks in Ok ((fst s, a), ks', o);
  pop := ma_pop;
  push := ma_push;
  flush := fun s => let* (a, o) := a_flush (snd s) in Ok ((fst s, a), o)
|}.
End MArray.

Section MBTree.
(** Ord for the pair (Rc<V>, K): the values, then the keys. *)
Definition key_cmp (a b : K) : comparison := if eqb a b then Eq else if leb a b then Lt else Gt.
Definition entry_cmp (t : nat) (e x : V * K) : comparison :=
  match cmp t (fst e) (fst x) with Eq => key_cmp (snd e) (snd x) | c => c end.
(** The search of a BTreeSet, whatever the shape of its tree, its members being listed in order: the new time, whether a
    member is taken for the one searched, and the index of that member or of the place where it should be. *)
Record MSearch : Type := {
  mf_fun : nat -> V * K -> list ((V * K) * nat) -> nat * (bool * nat);
  mf_found : forall t e l i, snd (mf_fun t e l) = (true, i) -> exists u x, nth_error l i = Some x /\ t <= u /\ entry_cmp u e (fst x) = Eq
}.
Variable srch : MSearch.
Definition mbtree : Type := (nat * btree K V)%type.
(** BTreeSet::insert, remove and split_off. *)
Definition m_set_insert (t : nat) (e : (V * K) * nat) (l : list ((V * K) * nat)) : nat * list ((V * K) * nat) :=
  match mf_fun srch t (fst e) l with
  | (t', (true, _)) => (t', l)
  | (t', (false, i)) => (t', firstn i l ++ e :: skipn i l)
  end.
Definition m_set_remove (t : nat) (p : V * K) (l : list ((V * K) * nat)) : nat * list ((V * K) * nat) :=
  match mf_fun srch t p l with
  | (t', (true, i)) => (t', remove_nth i l)
  | (t', (false, _)) => (t', l)
  end.
Definition m_set_split_off (t : nat) (p : V * K) (l : list ((V * K) * nat)) : nat * (list ((V * K) * nat) * list ((V * K) * nat)) :=
  match mf_fun srch t p l with (t', (_, i)) => (t', (firstn i l, skipn i l)) end.

(** insert_values_unchecked, /repo/src/btree/btree.rs:133-142. *)
Fixpoint m_insert (s : mbtree) (vs : list (K * V)) : mbtree :=
  match vs with
  | [] => s
  | (k, v) :: vs' =>
      let (t, b) := s in
      let (t', set) := m_set_insert t ((v, k), b_next b) (b_set b) in
      m_insert (t', mkBT (b_cap b) (b_total b) (b_esz b) set (map_insert k (v, b_next b) (b_map b)) (S (b_next b))) vs'
  end.
(** flush, /repo/src/btree/building_block.rs:39-46: no comparison of values. *)
Definition m_flush (s : mbtree) : res (mbtree * list (K * V)) :=
  let* (b, out) := b_flush (snd s) in Ok ((fst s, b), out).
(** pop, /repo/src/btree/building_block.rs:116-146. *)
Definition m_pop (s : mbtree) (n : nat) : res (mbtree * list (K * V)) :=
  let (t, b) := s in
  match b_map b with
  | [] => Ok (s, [])
  | _ =>
    if b_total b <=? n then m_flush s
    else
      match find_cut_at_size (b_set b) (fun x => b_esz b (snd (fst x), fst (fst x))) n with
      | (_, cut_size, o) =>
          let* e := unwrap o in
          let* total := sub_chk (b_total b) cut_size in
          let (t', ko) := m_set_split_off t (fst e) (b_set b) in
          let* (m, out) := b_pop_loop (snd ko) (fst ko) (b_map b) in
          Ok ((t', mkBT (b_cap b) total (b_esz b) (fst ko) m (b_next b)), out)
      end
  end.
(** take, /repo/src/btree/building_block.rs:148-157. *)
Definition m_take (s : mbtree) (k : K) : res (mbtree * option (K * V)) :=
  let (t, b) := s in
  match map_remove k (b_map b) with
  | None => Ok (s, None)
  | Some (x, m) =>
      let* total := sub_chk (b_total b) (b_esz b (k, fst x)) in
      let (t', set) := m_set_remove t (fst x, k) (b_set b) in
      let* v := as_value x (in_set (snd x) set || in_map (snd x) m) in
      Ok ((t', mkBT (b_cap b) total (b_esz b) set m (b_next b)), Some (k, v))
  end.
(** push, /repo/src/btree/building_block.rs:71-104. *)
Definition m_push (s : mbtree) (elements : list (K * V)) : res (mbtree * list (K * V)) :=
  let b := snd s in
  let size := sum_sz (b_esz b) elements in
  if b_cap b <=? size then
    let* (s1, out) := m_flush s in
    let s2 := m_insert s1 elements in
    let s3 := (fst s2, with_total (snd s2) size) in
    if b_cap b <? size then
      let* (s4, out') := m_pop s3 (size - b_cap b) in
      Ok (s4, out ++ out')
    else Ok (s3, out)
  else
    let* (s1, _, out) := default_take_multiple m_take s (keys elements) in
    let* room := sub_chk (b_cap (snd s1)) (b_total (snd s1)) in
    let* (s2, out') := if room <? size then m_pop s1 (size - room) else Ok (s1, []) in
    let s3 := m_insert s2 elements in
    Ok ((fst s3, with_total (snd s3) (b_total (snd s3) + size)), out ++ out').
Definition MBTreeB : Block K V := {|
  St := mbtree;
  capacity := fun s => b_cap (snd s);
  size := fun s => b_total (snd s);
  contains := fun s k => b_contains (snd s) k;
  take := m_take;
  take_multiple := default_take_multiple m_take;
  pop := m_pop;
  push := m_push;
  flush := m_flush
|}.
(** get and get_mut, /repo/src/btree/get.rs:30-57. *)
Definition m_get (s : mbtree) (k : K) (f : V -> V) : res (mbtree * option V) :=
  let* (s1, o) := m_take s k in
  match o with
  | None => Ok (s1, None)
  | Some (k', v) =>
      let* (s2, out) := m_push s1 [(k', f v)] in
      match out with [] => Ok (s2, Some v) | _ => Panic end
  end.
End MBTree.

(** One sort and one search among those: insertion, and the scan of a node from its first member on
    (the search of the standard library in a set of one node). *)
Fixpoint msort_ins (t : nat) (x : K * V) (l : list (K * V)) : nat * list (K * V) :=
  match l with
  | [] => (t, [x])
  | y :: l' =>
      match cmp t (snd x) (snd y) with
      | Gt => let (t', r) := msort_ins (S (S t)) x l' in (t', y :: r)
      | _ => (S (S t), x :: l)
      end
  end.
Fixpoint msort (t : nat) (l : list (K * V)) : nat * list (K * V) :=
  match l with [] => (t, []) | x :: l' => let (t1, r) := msort t l' in msort_ins t1 x r end.
Fixpoint mscan (t : nat) (i : nat) (e : V * K) (l : list ((V * K) * nat)) : nat * (bool * nat) :=
  match l with
  | [] => (t, (false, i))
  | x :: l' =>
      match entry_cmp t e (fst x) with
      | Gt => mscan (S (S t)) (S i) e l'
      | Eq => (S (S t), (true, i))
      | Lt => (S (S t), (false, i))
      end
  end.
End Moving.
