(** Inclusive.v -- model of /repo/src/inclusive. *)
From Verif Require Import Base Block Array BTree Get.
Set Implicit Arguments.

(** struct InclusiveCell { value, updated, cloned }, /repo/src/inclusive/inclusive.rs:10-15. *)
Record cell (V : Type) : Type := mkCell { c_value : V; c_updated : bool; c_cloned : bool }.
(** new, /repo/src/inclusive/inclusive.rs:19-25. *)
Definition cell_new {V} (v : V) : cell V := mkCell v false false.
(** clone, /repo/src/inclusive/inclusive.rs:44-51: what it leaves in the original, and the copy. *)
Definition cell_mark {V} (c : cell V) : cell V := mkCell (c_value c) (c_updated c) true.
Definition cell_clone {V} (c : cell V) : cell V := mkCell (c_value c) (c_updated c) true.
(** deref_mut, /repo/src/inclusive/inclusive.rs:62-67, [f] being what the user writes. *)
Definition cell_write {V} (f : V -> V) (c : cell V) : cell V := mkCell (f (c_value c)) (c_cloned c) (c_cloned c).
(** [#[derive(PartialOrd, Ord)]]: the fields in order. *)
Definition cell_key {V} (c : cell V) : V * nat * nat :=
  (c_value c, if c_updated c then 1 else 0, if c_cloned c then 1 else 0).
Global Instance Ord_cell {V} {OV : Ord V} : Ord (cell V).
Proof.
  refine {| leb := fun a b => leb (cell_key a) (cell_key b) |}; intros.
  - apply leb_total.
  - eapply leb_trans; eauto.
Defined.

(** A get whose guard outlives other calls.  LifeTimeGuard has no Drop of its own, so the borrow checker lets a
    guard that is not used any more be dropped after other calls on the container; [downgrade] relies on it.
    [t_open] makes the guard and applies to the value what is done through it; [t_close] drops it. *)
Record TGetter {K V} (B : Block K V) : Type := mkTG {
  tG : Type;
  t_open : St B -> K -> (V -> V) -> res (St B * option (V * tG));
  t_close : St B -> tG -> res (St B)
}.
(** Array, /repo/src/array/get.rs: the guard is a pointer into the vector; dropping it does nothing. *)
Definition array_open {K V} {OK : Ord K} (s : array K V) (k : K) (f : V -> V) : res (array K V * option (V * unit)) :=
  let* (s', o) := a_get s k f in Ok (s', option_map (fun v => (v, tt)) o).
Definition array_tget {K V} {OK : Ord K} {OV : Ord V} (srt : Sorter (K * V) V snd) (bs : BSearch K) : TGetter (ArrayB srt bs) :=
  @mkTG K V (ArrayB srt bs) unit (fun s k f => array_open s k f) (fun s _ => Ok s).
(** BTree, /repo/src/btree/get.rs:27-57: the pair is taken out, and pushed back by the drop. *)
Definition btree_open {K V} {OK : Ord K} {OV : Ord V} (s : btree K V) (k : K) (f : V -> V) : res (btree K V * option (V * (K * V))) :=
  let* (s1, o) := b_take s k in
  Ok (s1, match o with Some (k', v) => Some (v, (k', f v)) | None => None end).
Definition btree_close {K V} {OK : Ord K} {OV : Ord V} (s : btree K V) (kv : K * V) : res (btree K V) :=
  let* (s', out) := b_push s [kv] in match out with [] => Ok s' | _ => Panic end.
Definition btree_tget {K V} {OK : Ord K} {OV : Ord V} : TGetter (@BTreeB K V OK OV) :=
  @mkTG K V BTreeB (K * V) (fun s k f => btree_open s k f) (fun s kv => btree_close s kv).

Section Inclusive.
Context {K V : Type} {OK : Ord K}.
Variables L R : Block K (cell V).

(** struct Inclusive { front, back }, /repo/src/inclusive/inclusive.rs:134-144. *)
Definition inclusive : Type := (St L * St R)%type.
(** new, /repo/src/inclusive/inclusive.rs:159-166. *)
Definition in_new (front : St L) (back : St R) : res inclusive :=
  if capacity L front <=? capacity R back then Ok (front, back) else Panic.

(** capacity, size, contains: /repo/src/inclusive/building_block.rs:17-19, 26-28, 35-37. *)
Definition in_capacity (s : inclusive) : nat := capacity R (snd s).
Definition in_size (s : inclusive) : nat := size R (snd s).
Definition in_contains (s : inclusive) (k : K) : res bool :=
  let* b := contains L (fst s) k in if b then Ok true else contains R (snd s) k.

Definition plain (kc : K * cell V) : K * V := (fst kc, c_value (snd kc)).
Definition is_clone (kc : K * cell V) : bool := c_cloned (snd kc).

(** [self.front.take(&k).map(|(k, c)| (k, c.unwrap())).unwrap()] for a cloned cell, the cell itself otherwise:
    /repo/src/inclusive/building_block.rs:55-64 and 128-135. *)
Definition in_resolve (f : St L) (k : K) (kc : K * cell V) : res (St L * (K * V)) :=
  if is_clone kc then
    let* (f', o) := take L f k in
    let* x := unwrap o in
    Ok (f', plain x)
  else Ok (f, plain kc).
(** take, /repo/src/inclusive/building_block.rs:51-67. *)
Definition in_take (s : inclusive) (k : K) : res (inclusive * option (K * V)) :=
  let* (b, o) := take R (snd s) k in
  match o with
  | None => Ok ((fst s, b), None)
  | Some kc => let* (f, x) := in_resolve (fst s) k kc in Ok ((f, b), Some x)
  end.
(** What take_multiple (lines 86-105) and push (lines 160-189) do with pairs that left the back container. *)
Definition in_leave (f : St L) (l : list (K * cell V)) : res (St L * list (K * V)) :=
  let* (f', _, out) := take_multiple L f (keys (filter is_clone l)) in
  Ok (f', map plain (filter (fun kc => negb (is_clone kc)) l) ++ map plain out).
(** take_multiple, /repo/src/inclusive/building_block.rs:81-106. *)
Definition in_take_multiple (s : inclusive) (ks : list K) : res (inclusive * list K * list (K * V)) :=
  let* (b, ks', l) := take_multiple R (snd s) ks in
  let* (f, out) := in_leave (fst s) l in
  Ok ((f, b), ks', out).
(** pop, /repo/src/inclusive/building_block.rs:116-138. *)
Fixpoint in_resolve_all (f : St L) (l : list (K * cell V)) : res (St L * list (K * V)) :=
  match l with
  | [] => Ok (f, [])
  | kc :: l' =>
      let* (f1, x) := in_resolve f (fst kc) kc in
      let* (f2, xs) := in_resolve_all f1 l' in
      Ok (f2, x :: xs)
  end.
Definition in_pop (s : inclusive) (n : nat) : res (inclusive * list (K * V)) :=
  let* (b, l) := pop R (snd s) n in
  let* (f, out) := in_resolve_all (fst s) l in
  Ok ((f, b), out).
(** push, /repo/src/inclusive/building_block.rs:150-190. *)
Definition in_push (s : inclusive) (vs : list (K * V)) : res (inclusive * list (K * V)) :=
  let* (b, l) := push R (snd s) (map (fun kv => (fst kv, cell_new (snd kv))) vs) in
  let* (f, out) := in_leave (fst s) l in
  Ok ((f, b), out).
(** flush, /repo/src/inclusive/building_block.rs:208-226. *)
Definition in_flush (s : inclusive) : res (inclusive * list (K * V)) :=
  let* (f, all) := flush L (fst s) in
  let front := map (fun kc => (fst kc, cell_new (c_value (snd kc)))) (filter (fun kc => c_updated (snd kc)) all) in
  let* (b1, _, _) := take_multiple R (snd s) (keys front) in
  let* (b2, over) := push R b1 front in
  match over with
  | [] => let* (b3, out) := flush R b2 in Ok ((f, b3), map plain out)
  | _ => Panic
  end.

(** impl BuildingBlock for Inclusive, /repo/src/inclusive/building_block.rs:5-227. *)
Definition InclusiveB : Block K V := {|
  St := inclusive;
  capacity := in_capacity;
  size := in_size;
  contains := in_contains;
  take := in_take;
  take_multiple := in_take_multiple;
  pop := in_pop;
  push := in_push;
  flush := in_flush
|}.

(** downgrade, /repo/src/inclusive/get.rs:13-47; [c] is dropped at the end. *)
Variable tg : TGetter R.
Definition in_downgrade (s : inclusive) (k : K) : res (inclusive * bool) :=
  let* (b, o) := t_open tg (snd s) k cell_mark in
  match o with
  | None => Ok ((fst s, b), false)
  | Some (c, g) =>
      let* (f, out) := push L (fst s) [(k, cell_clone c)] in
      let popped := filter (fun kc => c_updated (snd kc)) out in
      match popped with
      | [] => let* b1 := t_close tg b g in Ok ((f, b1), true)
      | _ =>
          let* (b1, _, _) := take_multiple R b (keys popped) in
          let* (b2, over) := push R b1 popped in
          match over with
          | [] => let* b3 := t_close tg b2 g in Ok ((f, b3), true)
          | _ => Panic
          end
      end
  end.
(** get (/repo/src/inclusive/get.rs:90-101) and get_mut (120-131): [touch] is what dereferencing the guard does
    to the cell of the front container, the identity for a read and [cell_write f] for a write. *)
Variable g : Getter L.
Definition in_access (s : inclusive) (k : K) (touch : cell V -> cell V) : res (inclusive * option V) :=
  let* hit := contains L (fst s) k in
  let* (s1, found) := if hit then Ok (s, true) else in_downgrade s k in
  if found then
    let* (f, o) := g (fst s1) k touch in
    Ok ((f, snd s1), option_map (@c_value V) o)
  else Ok (s1, None).
Definition in_get (s : inclusive) (k : K) : res (inclusive * option V) := in_access s k (fun c => c).
Definition in_get_mut (s : inclusive) (k : K) (f : V -> V) : res (inclusive * option V) := in_access s k (cell_write f).
End Inclusive.
