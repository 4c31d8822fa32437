(** Wrappers.v -- containers that wrap one container: FlushStopper, Sequential (seen by one thread),
    DynBuildingBlock, Decorator, Profiler; and the disjoint union of containers. *)
From Verif Require Import Base Block.
Set Implicit Arguments.

(** ** FlushStopper, /repo/src/flush_stopper/building_block.rs:4-35: forwards everything, flush yields
    nothing and leaves the container as it is. *)
Definition FlushStopperB {K V} (C : Block K V) : Block K V := {|
  St := St C;
  capacity := capacity C;
  size := size C;
  contains := contains C;
  take := take C;
  take_multiple := take_multiple C;
  pop := pop C;
  push := push C;
  flush := fun s => Ok (s, [])
|}.

(** ** Sequential used by one thread, /repo/src/sequential/building_block.rs:4-63: the lock is free at
    each call and free again after it, so every method forwards.  (Concurrent use: SeqConc.v.) *)
Definition SequentialB {K V} (C : Block K V) : Block K V := {|
  St := St C;
  capacity := capacity C;
  size := size C;
  contains := contains C;
  take := take C;
  take_multiple := take_multiple C;
  pop := pop C;
  push := push C;
  flush := flush C
|}.

(** ** DynBuildingBlock, /repo/src/objsafe/building_block.rs:12-40, 123-150: the boxed intermediate
    DynIterBuildingBlock forwards every method but take_multiple, which is therefore the provided
    method of the trait; the outer wrapper forwards to the box. *)
Definition DynB {K V} (C : Block K V) : Block K V := {|
  St := St C;
  capacity := capacity C;
  size := size C;
  contains := contains C;
  take := take C;
  take_multiple := default_take_multiple (take C);
  pop := pop C;
  push := push C;
  flush := flush C
|}.

(** ** SocketClient, /repo/src/socket/building_block.rs:4-85, over a server that keeps running: every method is
    forwarded to the remote container, and take_multiple leaves the caller's vector of keys alone.  (Messages,
    failures and reconnections: Socket.v; the theorem C41 relates the two.) *)
Definition RemoteB {K V} (C : Block K V) : Block K V := {|
  St := St C;
  capacity := capacity C;
  size := size C;
  contains := contains C;
  take := take C;
  take_multiple := fun s ks => let* (s', _, o) := take_multiple C s ks in Ok (s', ks, o);
  pop := pop C;
  push := push C;
  flush := flush C
|}.

(** ** Disjoint union: a value that is one of several containers, dispatching to it.  Not a type of
    the library: it lets a homogeneous collection (Batch, Associative) hold different containers, as a
    Rust collection of boxed containers does. *)
Section Sum.
Context {K V I : Type}.
Variable C : I -> Block K V.
Definition SumB : Block K V := {|
  St := { i : I & St (C i) };
  capacity := fun s => capacity (C (projT1 s)) (projT2 s);
  size := fun s => size (C (projT1 s)) (projT2 s);
  contains := fun s k => contains (C (projT1 s)) (projT2 s) k;
  take := fun s k =>
    let* (s', o) := take (C (projT1 s)) (projT2 s) k in Ok (existT _ (projT1 s) s', o);
  take_multiple := fun s ks =>
    let* (s', ks', o) := take_multiple (C (projT1 s)) (projT2 s) ks in Ok (existT _ (projT1 s) s', ks', o);
  pop := fun s n =>
    let* (s', o) := pop (C (projT1 s)) (projT2 s) n in Ok (existT _ (projT1 s) s', o);
  push := fun s vs =>
    let* (s', o) := push (C (projT1 s)) (projT2 s) vs in Ok (existT _ (projT1 s) s', o);
  flush := fun s =>
    let* (s', o) := flush (C (projT1 s)) (projT2 s) in Ok (existT _ (projT1 s) s', o)
|}.
End Sum.

(** ** Decorator, /repo/src/decorator *)

(** traits DecorationFactory (wrap) and Decoration (unwrap, get, get_mut), /repo/src/decorator/mod.rs:10-27.
    The factory carries the state [wrap] reads and writes (Fifo's counter; the clock for Lru and Lrfu).
    [touched st d f] is the decoration [d] after one dereference through [Decoration::get] or
    [Decoration::get_mut] at the clock of [st], the user doing [f] to the value; [tick] is the clock after
    it.  The laws are those every implementation of the library satisfies (Decorations.v). *)
Record Factory (V D : Type) : Type := {
  Fst : Type;
  wrap : Fst -> V -> Fst * D;
  unwrap_deco : D -> V;
  tick : Fst -> Fst;
  touched : Fst -> D -> (V -> V) -> D;
  unwrap_wrap : forall f v, unwrap_deco (snd (wrap f v)) = v;
  unwrap_touched : forall st d f, unwrap_deco (touched st d f) = f (unwrap_deco d)
}.

Section Decorator.
Context {K V D : Type}.
Variable F : Factory V D.
Variable C : Block K D.

(** [elements.into_iter().map(|(k, v)| (k, factory.wrap(v))).collect()],
    /repo/src/decorator/building_block.rs:85-88. *)
Fixpoint wrap_all (f : Fst F) (vs : list (K * V)) : Fst F * list (K * D) :=
  match vs with
  | [] => (f, [])
  | (k, v) :: vs' =>
      let (f1, d) := wrap F f v in
      let (f2, ds) := wrap_all f1 vs' in
      (f2, (k, d) :: ds)
  end.
(** [.map(|(k, r)| (k, r.unwrap()))], /repo/src/decorator/building_block.rs:43, 56, 70, 91, 105. *)
Definition unwrap_kv (p : K * D) : K * V := (fst p, unwrap_deco F (snd p)).

(** impl BuildingBlock for Decorator, /repo/src/decorator/building_block.rs:5-107. *)
Definition DecoratorB : Block K V := {|
  St := (Fst F * St C)%type;
  capacity := fun s => capacity C (snd s);
  size := fun s => size C (snd s);
  contains := fun s k => contains C (snd s) k;
  take := fun s k =>
    let* (c, o) := take C (snd s) k in Ok ((fst s, c), option_map unwrap_kv o);
  take_multiple := fun s ks =>
    let* (c, ks', o) := take_multiple C (snd s) ks in Ok ((fst s, c), ks', map unwrap_kv o);
  pop := fun s n =>
    let* (c, o) := pop C (snd s) n in Ok ((fst s, c), map unwrap_kv o);
  push := fun s vs =>
    let (f, ds) := wrap_all (fst s) vs in
    let* (c, o) := push C (snd s) ds in Ok ((f, c), map unwrap_kv o);
  flush := fun s =>
    let* (c, o) := flush C (snd s) in Ok ((fst s, c), map unwrap_kv o)
|}.
End Decorator.

(** ** Profiler, /repo/src/profiler *)

(** Counters of one method: (count, size); elapsed times and 64-bit wrapping are in Times.v.
    MethodStats, /repo/src/profiler/stats.rs:4-35. *)
Record mstats : Type := mkM { m_count : nat; m_size : nat }.
Definition m_zero : mstats := mkM 0 0.
Definition m_add (m : mstats) (count size : nat) : mstats := mkM (m_count m + count) (m_size m + size).

(** Stats, /repo/src/profiler/stats.rs:47-58. *)
Record stats : Type := mkStats {
  s_contains : mstats; s_take : mstats; s_pop : mstats; s_push : mstats; s_flush : mstats;
  s_flush_iter : mstats; s_get : mstats; s_get_mut : mstats; s_hit : mstats; s_miss : mstats
}.
(** Stats::new and Stats::reset, /repo/src/profiler/stats.rs:62-89. *)
Definition stats_zero : stats :=
  mkStats m_zero m_zero m_zero m_zero m_zero m_zero m_zero m_zero m_zero m_zero.

Definition add_contains t n sz := mkStats (m_add (s_contains t) n sz) (s_take t) (s_pop t) (s_push t) (s_flush t) (s_flush_iter t) (s_get t) (s_get_mut t) (s_hit t) (s_miss t).
Definition add_take t n sz := mkStats (s_contains t) (m_add (s_take t) n sz) (s_pop t) (s_push t) (s_flush t) (s_flush_iter t) (s_get t) (s_get_mut t) (s_hit t) (s_miss t).
Definition add_pop t n sz := mkStats (s_contains t) (s_take t) (m_add (s_pop t) n sz) (s_push t) (s_flush t) (s_flush_iter t) (s_get t) (s_get_mut t) (s_hit t) (s_miss t).
Definition add_push t n sz := mkStats (s_contains t) (s_take t) (s_pop t) (m_add (s_push t) n sz) (s_flush t) (s_flush_iter t) (s_get t) (s_get_mut t) (s_hit t) (s_miss t).
Definition add_flush t n sz := mkStats (s_contains t) (s_take t) (s_pop t) (s_push t) (m_add (s_flush t) n sz) (s_flush_iter t) (s_get t) (s_get_mut t) (s_hit t) (s_miss t).
Definition add_flush_iter t n sz := mkStats (s_contains t) (s_take t) (s_pop t) (s_push t) (s_flush t) (m_add (s_flush_iter t) n sz) (s_get t) (s_get_mut t) (s_hit t) (s_miss t).
Definition add_get t n sz := mkStats (s_contains t) (s_take t) (s_pop t) (s_push t) (s_flush t) (s_flush_iter t) (m_add (s_get t) n sz) (s_get_mut t) (s_hit t) (s_miss t).
Definition add_get_mut t n sz := mkStats (s_contains t) (s_take t) (s_pop t) (s_push t) (s_flush t) (s_flush_iter t) (s_get t) (m_add (s_get_mut t) n sz) (s_hit t) (s_miss t).
Definition add_hit t n sz := mkStats (s_contains t) (s_take t) (s_pop t) (s_push t) (s_flush t) (s_flush_iter t) (s_get t) (s_get_mut t) (m_add (s_hit t) n sz) (s_miss t).
Definition add_miss t n sz := mkStats (s_contains t) (s_take t) (s_pop t) (s_push t) (s_flush t) (s_flush_iter t) (s_get t) (s_get_mut t) (s_hit t) (m_add (s_miss t) n sz).

(** size_it!, /repo/src/profiler/building_block.rs:19-27: absolute difference. *)
Definition size_diff (s0 s1 : nat) : nat := if s1 <? s0 then s0 - s1 else s1 - s0.

Section Profiler.
Context {K V : Type}.
Variable C : Block K V.

(** take, /repo/src/profiler/building_block.rs:100-113. *)
Definition pf_take (s : stats * St C) (k : K) : res (stats * St C * option (K * V)) :=
  let* (c, o) := take C (snd s) k in
  let t := add_take (fst s) 1 (size_diff (size C (snd s)) (size C c)) in
  Ok ((match o with Some _ => add_hit t 1 0 | None => add_miss t 1 0 end, c), o).

(** take_multiple, /repo/src/profiler/building_block.rs:127-137. *)
Definition pf_take_multiple (s : stats * St C) (ks : list K) : res (stats * St C * list K * list (K * V)) :=
  let n := length ks in
  let* (c, ks', o) := take_multiple C (snd s) ks in
  let t := add_take (fst s) n (size_diff (size C (snd s)) (size C c)) in
  let hits := length o in
  let* misses := sub_chk n hits in
  Ok ((add_miss (add_hit t hits 0) misses 0, c), ks', o).

(** pop, /repo/src/profiler/building_block.rs:147-157. *)
Definition pf_pop (s : stats * St C) (n : nat) : res (stats * St C * list (K * V)) :=
  let* (c, o) := pop C (snd s) n in
  let* freed := sub_chk (size C (snd s)) (size C c) in
  Ok ((add_pop (fst s) freed (size_diff (size C (snd s)) (size C c)), c), o).

(** push, /repo/src/profiler/building_block.rs:167-172. *)
Definition pf_push (s : stats * St C) (vs : list (K * V)) : res (stats * St C * list (K * V)) :=
  let* (c, o) := push C (snd s) vs in Ok ((add_push (fst s) (length vs) 0, c), o).

(** flush, /repo/src/profiler/building_block.rs:185-193, the iterator being consumed to its end:
    ProfilerFlushIter::next (lines 36-46) counts each call, the last one (returning None) included. *)
Definition pf_flush (s : stats * St C) : res (stats * St C * list (K * V)) :=
  let* (c, o) := flush C (snd s) in
  let t := add_flush (fst s) 1 (size_diff (size C (snd s)) (size C c)) in
  Ok ((add_flush_iter t (S (length o)) 0, c), o).

(** contains, /repo/src/profiler/building_block.rs:78-88, with the update of the shared counters. *)
Definition pf_contains_stats (s : stats * St C) (k : K) : res (stats * St C * bool) :=
  let* b := contains C (snd s) k in
  let t := add_contains (fst s) 1 0 in
  Ok ((if b then add_hit t 1 0 else add_miss t 1 0, snd s), b).

(** reset, /repo/src/profiler/profiler.rs:231-233. *)
Definition pf_reset (s : stats * St C) : stats * St C := (stats_zero, snd s).

(** impl BuildingBlock for Profiler, /repo/src/profiler/building_block.rs:48-194 (the counters updated
    by [contains] through the shared pointer are in [pf_contains_stats]). *)
Definition ProfilerB : Block K V := {|
  St := (stats * St C)%type;
  capacity := fun s => capacity C (snd s);
  size := fun s => size C (snd s);
  contains := fun s k => contains C (snd s) k;
  take := pf_take;
  take_multiple := pf_take_multiple;
  pop := pf_pop;
  push := pf_push;
  flush := pf_flush
|}.
End Profiler.
