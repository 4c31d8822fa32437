(** BTree.v -- model of /repo/src/btree. *)
From Verif Require Import Base Block Cut.
Set Implicit Arguments.

(** Lexicographic order on pairs: derived [Ord] of Rust tuples. *)
Section Lex.
Context {A B : Type} {OA : Ord A} {OB : Ord B}.
Definition lex_leb (x y : A * B) : bool :=
  leb (fst x) (fst y) && (negb (leb (fst y) (fst x)) || leb (snd x) (snd y)).
#[global] Instance Ord_prod : Ord (A * B).
Proof.
  refine {| leb := lex_leb |}; unfold lex_leb.
  - intros [a1 b1] [a2 b2]; cbn.
    destruct (leb a1 a2) eqn:E1, (leb a2 a1) eqn:E2; cbn; auto; [apply leb_total|].
    destruct (leb_total a1 a2); congruence.
  - intros [a1 b1] [a2 b2] [a3 b3]; cbn. intros H1 H2.
    apply andb_prop in H1. apply andb_prop in H2. destruct H1 as [P1 Q1], H2 as [P2 Q2].
    rewrite (leb_trans _ _ _ P1 P2). cbn.
    destruct (leb a3 a1) eqn:E; cbn; auto.
    assert (R1 : leb a2 a1 = true) by (eapply leb_trans; eauto).
    assert (R2 : leb a3 a2 = true) by (eapply leb_trans; eauto).
    rewrite R1 in Q1. rewrite R2 in Q2. cbn in *. eapply leb_trans; eauto.
Defined.
End Lex.

Section BTree.
Context {K V : Type} {OK : Ord K} {OV : Ord V}.

(** Rc<V>: an allocation number beside the value, so that clones of one Rc can be told from equal values.
    Element of [set : BTreeSet<(Rc<V>, K)>]: ((value, key), allocation); of [map : BTreeMap<K, Rc<V>>]:
    (key, (value, allocation)).  Both are kept as sorted lists. *)
Local Notation sentry := ((V * K) * nat)%type.
Local Notation mentry := (K * (V * nat))%type.

(** struct BTree, /repo/src/btree/btree.rs:70-82; [b_next] is the next fresh allocation. *)
Record btree : Type := mkBT {
  b_cap : nat;
  b_total : nat;
  b_esz : K * V -> nat;
  b_set : list sentry;
  b_map : list mentry;
  b_next : nat
}.

(** BTree::new + with_element_size, /repo/src/btree/btree.rs:99-127. *)
Definition btree_new (cap : nat) (esz : K * V -> nat) : btree := mkBT cap 0 esz [] [] 0.

(** BTreeSet::insert: an equal element already present is kept and the new one dropped. *)
Definition set_insert (e : sentry) (l : list sentry) : list sentry :=
  if existsb (fun x => eqb (fst x) (fst e)) l then l else ins fst e l.
(** BTreeSet::remove. *)
Definition set_remove (p : V * K) (l : list sentry) : list sentry :=
  match find_index (fun x => eqb (fst x) p) l with Some i => remove_nth i l | None => l end.
(** BTreeSet::split_off: (kept, returned), the returned ones being those not below the argument. *)
Definition set_split_off (p : V * K) (l : list sentry) : list sentry * list sentry :=
  (filter (fun x => negb (leb p (fst x))) l, filter (fun x => leb p (fst x)) l).

(** BTreeMap::remove. *)
Fixpoint map_remove (k : K) (m : list mentry) : option ((V * nat) * list mentry) :=
  match m with
  | [] => None
  | (k', x) :: m' =>
      if eqb k' k then Some (x, m')
      else match map_remove k m' with
           | Some (y, m'') => Some (y, (k', x) :: m'')
           | None => None
           end
  end.
(** BTreeMap::insert: the value of an equal key is replaced (and dropped). *)
Definition map_insert (k : K) (x : V * nat) (m : list mentry) : list mentry :=
  match map_remove k m with
  | Some (_, m') => ins fst (k, x) m'
  | None => ins fst (k, x) m
  end.

(** Is a clone of allocation [id] still held? *)
Definition in_set (id : nat) (l : list sentry) : bool := existsb (fun x => snd x =? id) l.
Definition in_map (id : nat) (m : list mentry) : bool := existsb (fun x => snd (snd x) =? id) m.

(** [as_value], /repo/src/btree/btree.rs:129-131: panics unless the Rc is the only clone. *)
Definition as_value (x : V * nat) (shared : bool) : res V := if shared then Panic else Ok (fst x).

(** insert_values_unchecked, /repo/src/btree/btree.rs:133-142. *)
Fixpoint b_insert (s : btree) (vs : list (K * V)) : btree :=
  match vs with
  | [] => s
  | (k, v) :: vs' =>
      b_insert (mkBT (b_cap s) (b_total s) (b_esz s)
                     (set_insert ((v, k), b_next s) (b_set s))
                     (map_insert k (v, b_next s) (b_map s)) (S (b_next s))) vs'
  end.

(** The iterator returned by flush, /repo/src/btree/building_block.rs:45. *)
Fixpoint b_drain (m : list mentry) : res (list (K * V)) :=
  match m with
  | [] => Ok []
  | (k, x) :: m' =>
      let* v := as_value x (in_map (snd x) m') in
      let* r := b_drain m' in
      Ok ((k, v) :: r)
  end.
(** flush, /repo/src/btree/building_block.rs:39-46. *)
Definition b_flush (s : btree) : res (btree * list (K * V)) :=
  let* out := b_drain (b_map s) in
  Ok (mkBT (b_cap s) 0 (b_esz s) [] [] (b_next s), out).

(** contains, /repo/src/btree/building_block.rs:48-50. *)
Definition b_contains (s : btree) (k : K) : res bool := Ok (has_key k (b_map s)).

(** The loop of pop, /repo/src/btree/building_block.rs:138-144. *)
Fixpoint b_pop_loop (out_set set : list sentry) (m : list mentry) : res (list mentry * list (K * V)) :=
  match out_set with
  | [] => Ok (m, [])
  | ((_, k), _) :: rest =>
      let* (x, m') := unwrap (map_remove k m) in
      let* v := as_value x (in_set (snd x) rest || in_set (snd x) set || in_map (snd x) m') in
      let* (m'', out) := b_pop_loop rest set m' in
      Ok (m'', (k, v) :: out)
  end.

(** pop, /repo/src/btree/building_block.rs:116-146. *)
Definition b_pop (s : btree) (n : nat) : res (btree * list (K * V)) :=
  match b_map s with
  | [] => Ok (s, [])
  | _ =>
    if b_total s <=? n then b_flush s
    else
      match find_cut_at_size (b_set s) (fun x => b_esz s (snd (fst x), fst (fst x))) n with
      | (_, cut_size, o) =>
          let* e := unwrap o in
          let* total := sub_chk (b_total s) cut_size in
          let (kept, out_set) := set_split_off (fst e) (b_set s) in
          let* (m, out) := b_pop_loop out_set kept (b_map s) in
          Ok (mkBT (b_cap s) total (b_esz s) kept m (b_next s), out)
      end
  end.

(** take, /repo/src/btree/building_block.rs:148-157. *)
Definition b_take (s : btree) (k : K) : res (btree * option (K * V)) :=
  match map_remove k (b_map s) with
  | None => Ok (s, None)
  | Some (x, m) =>
      let* total := sub_chk (b_total s) (b_esz s (k, fst x)) in
      let set := set_remove (fst x, k) (b_set s) in
      let* v := as_value x (in_set (snd x) set || in_map (snd x) m) in
      Ok (mkBT (b_cap s) total (b_esz s) set m (b_next s), Some (k, v))
  end.

(** push, /repo/src/btree/building_block.rs:71-104; [take_multiple] is the provided method. *)
Definition with_total (s : btree) (t : nat) : btree :=
  mkBT (b_cap s) t (b_esz s) (b_set s) (b_map s) (b_next s).
Definition b_push (s : btree) (elements : list (K * V)) : res (btree * list (K * V)) :=
  let size := sum_sz (b_esz s) elements in
  if b_cap s <=? size then
    let* (s1, out) := b_flush s in
    let s2 := with_total (b_insert s1 elements) size in
    if b_cap s <? size then
      let* (s3, out') := b_pop s2 (size - b_cap s) in
      Ok (s3, out ++ out')
    else Ok (s2, out)
  else
    let* (s1, _, out) := default_take_multiple b_take s (keys elements) in
    let* room := sub_chk (b_cap s1) (b_total s1) in
    let* (s2, out') := if room <? size then b_pop s1 (size - room) else Ok (s1, []) in
    let s3 := b_insert s2 elements in
    Ok (with_total s3 (b_total s3 + size), out ++ out').

(** impl BuildingBlock for BTree, /repo/src/btree/building_block.rs:7-158. *)
Definition BTreeB : Block K V := {|
  St := btree;
  capacity := b_cap;
  size := b_total;
  contains := b_contains;
  take := b_take;
  take_multiple := default_take_multiple b_take;
  pop := b_pop;
  push := b_push;
  flush := b_flush
|}.

(** get and get_mut, /repo/src/btree/get.rs:38-57, and the drop of the guard, /repo/src/btree/get.rs:30-36:
    the pair is taken out, [f] is what the user does through the guard, and the drop pushes it back,
    asserting that nothing comes out. *)
Definition b_get (s : btree) (k : K) (f : V -> V) : res (btree * option V) :=
  let* (s1, o) := b_take s k in
  match o with
  | None => Ok (s1, None)
  | Some (k', v) =>
      let* (s2, out) := b_push s1 [(k', f v)] in
      match out with [] => Ok (s2, Some v) | _ => Panic end
  end.
End BTree.
Arguments btree K V : clear implicits.
