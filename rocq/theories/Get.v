(** Get.v -- the traits Get and GetMut on every container (/repo/src/traits/get.rs, */get.rs).

    A getter takes the state, the key and what the user does to the value through the guard ([fun v => v]
    for a read), and returns the state once the guard is dropped and the value the guard showed, if any.
    Simplification: the guard is dereferenced exactly once and dropped before the next call on the
    container.  (LifeTimeGuard has no Drop of its own, so the borrow checker lets a guard that is no longer used
    be dropped after other calls: Guards.v studies that case.) *)
From Coq Require Import NArith.
From Verif Require Import Base Block Cut Array BTree Batch Exclusive Wrappers Associative Stream Compressed Arch.
Set Implicit Arguments.

Definition Getter {K V} (B : Block K V) : Type := St B -> K -> (V -> V) -> res (St B * option V).

(** Batch, /repo/src/batch/get.rs:16-18, 33-35: [self.bb.iter_mut().find_map(|c| c.get(key))]. *)
Fixpoint bt_get {K V} (C : Block K V) (g : Getter C) (s : batch C) (k : K) (f : V -> V)
  : res (batch C * option V) :=
  match s with
  | [] => Ok ([], None)
  | c :: s' =>
      let* (c1, o) := g c k f in
      match o with
      | Some v => Ok (c1 :: s', Some v)
      | None => let* (s1, o1) := bt_get g s' k f in Ok (c1 :: s1, o1)
      end
  end.

(** Exclusive, /repo/src/exclusive/get.rs:12-23, 33-44. *)
Definition ex_get {K V} (L R : Block K V) (g : Getter L) (s : exclusive L R) (k : K) (f : V -> V)
  : res (exclusive L R * option V) :=
  let* b := contains L (fst s) k in
  if b then
    let* (l, o) := g (fst s) k f in Ok ((l, snd s), o)
  else
    let* (s1, found) := ex_downgrade s k in
    if found then let* (l, o) := g (fst s1) k f in Ok ((l, snd s1), o)
    else Ok (s1, None).

(** Profiler, /repo/src/profiler/get.rs:23-35, 44-56. *)
Definition pf_get {K V} (m : bool) (C : Block K V) (g : Getter C) (s : stats * St C) (k : K) (f : V -> V)
  : res (stats * St C * option V) :=
  let* (c, o) := g (snd s) k f in
  let t := if m then add_get_mut (fst s) 1 0 else add_get (fst s) 1 0 in
  Ok ((match o with Some _ => add_hit t 1 0 | None => add_miss t 1 0 end, c), o).

(** Decorator, /repo/src/decorator/get.rs:30-43 (DecoratorCell::deref, deref_mut) and 53-60, 70-77: the
    dereference goes through [Decoration::get] or [get_mut], which may read the clock. *)
Definition dc_get {K V D} (F : Factory V D) (C : Block K D) (g : Getter C) (s : Fst F * St C) (k : K) (f : V -> V)
  : res (Fst F * St C * option V) :=
  let* (c, o) := g (snd s) k (fun d => touched F (fst s) d f) in
  Ok ((match o with Some _ => tick F (fst s) | None => fst s end, c), option_map (unwrap_deco F) o).

(** Associative, /repo/src/associative/get.rs:13-16, 27-30. *)
Definition as_get {K V} (hash : K -> N) (C : Block K V) (g : Getter C) (s : assoc C) (k : K) (f : V -> V)
  : res (assoc C * option V) :=
  let* i := as_set hash C s k in
  let* c := unwrap (nth_error s i) in
  let* (c', o) := g c k f in
  Ok (replace_nth i c' s, o).

(** One container among several (see SumB). *)
Definition sum_get {K V I} (C : I -> Block K V) (g : forall i, Getter (C i)) : Getter (SumB C) :=
  fun s k f => let* (s', o) := g (projT1 s) (projT2 s) k f in Ok (existT _ (projT1 s) s', o).

(** Get ([m = false]) and GetMut ([m = true]) of an architecture.  FlushStopper
    (/repo/src/flush_stopper/get.rs:7-9, 14-16) and Sequential seen by one thread
    (/repo/src/sequential/get.rs:65-79, 87-101) forward.  DynBuildingBlock and SocketClient do not implement the
    traits (a panic stands for it here; no theorem speaks of it).  [Get] on a Compressed shows a copy: what happens
    to it through the guard (the timestamp of an Lru cell) is lost with the guard. *)
Fixpoint aget {K} {OK : Ord K} (m : bool) {V} (a : arch K V) : Getter (block a) :=
  match a in arch _ V return Getter (block a) with
  | AArray _ _ _ _ => fun s k f => a_get s k f
  | ABTree _ _ _ => fun s k f => b_get s k f
  | ABatch _ f => @bt_get K _ (SumB (fun i => block (f i))) (@sum_get K _ nat (fun i => block (f i)) (fun i => aget m (f i)))
  | AExclusive _ l r => @ex_get K _ (block l) (block r) (aget m l)
  | AFlushStopper a => aget m a
  | ASequential a => aget m a
  | ADyn a => fun s _ _ => Panic
  | AProfiler a => @pf_get K _ m (block a) (aget m a)
  | @ADecorator _ _ _ _ F _ a => @dc_get K _ _ F (block a) (aget m a)
  | AAssociative hash _ f =>
      @as_get K _ hash (SumB (fun i => block (f i))) (@sum_get K _ nat (fun i => block (f i)) (fun i => aget m (f i)))
  | ACompressed L C _ _ _ => fun s k f => if m then c_get_mut L C s k f else Ok (s, c_get L C s k)
  | ARemote a => fun s _ _ => Panic
  end.
