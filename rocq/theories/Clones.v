(** Clones.v -- [Concurrent::clone] and [Clone::clone]: several handles, on one container or on copies of it
    (/repo/src/traits/concurrent.rs and the implementations of both traits).  The calls are made one after the other,
    by whichever thread; calls that overlap are in SeqConc.v and Linear.v. *)
From Coq Require Import NArith.
From Verif Require Import Base Block Wrappers Associative Arch Spec Sim Linear.
Set Implicit Arguments.

(** How a container implements [Concurrent].
    - Sequential (/repo/src/sequential/concurrent.rs:8-15): the SharedPtr and the lock are shared.
    - DynConcurrent over a type-erased container (/repo/src/objsafe/concurrent.rs:52-59): the pointer is copied.
    - Profiler (/repo/src/profiler/concurrent.rs:8-18): the wrapped container is cloned, the counters are shared
      (a SharedPtr).
    - Decorator (/repo/src/decorator/concurrent.rs:19-32): the wrapped container is cloned and the factory too.
      [own = true]: the clone of the factory has a state of its own (Fifo, /repo/src/decorator/fifo.rs:61-67);
      [own = false]: it has not (Lru, /repo/src/decorator/lru.rs:44-52, and Lrfu, /repo/src/decorator/lrfu.rs:108-116,
      whose only state is the clock of the program).
    - Associative (/repo/src/associative/concurrent.rs:9-20): every set is cloned. *)
Inductive concurrent {K} {OK : Ord K} : forall {V}, arch K V -> Type :=
| KSequential : forall V (a : arch K V), concurrent (ASequential a)
| KDyn : forall V (a : arch K V), concurrent (ADyn a)
| KProfiler : forall V (a : arch K V), concurrent a -> concurrent (AProfiler a)
| KDecorator : forall V D (F : Factory V D) (f0 : Fst F) (own : bool) (a : arch K D),
    concurrent a -> concurrent (ADecorator F f0 a)
| KAssociative : forall V (hash : K -> N) n (f : nat -> arch K V),
    (forall i, concurrent (f i)) -> concurrent (AAssociative hash n f).

(** No part of the container belongs to the handle: no Fifo in it. *)
Fixpoint all_shared {K} {OK : Ord K} {V} {a : arch K V} (i : concurrent a) : Prop :=
  match i with
  | KSequential _ | KDyn _ => True
  | KProfiler i => all_shared i
  | KDecorator _ _ own i => own = false /\ all_shared i
  | KAssociative _ _ _ im => forall j, all_shared (im j)
  end.

(** The components of a collection, each seen through the handle's own component. *)
Definition see_one {P : nat -> Type} (g : forall i, P i -> P i -> P i) (o c : {i : nat & P i}) : {i : nat & P i} :=
  match Nat.eq_dec (projT1 o) (projT1 c) with
  | left e => existT P (projT1 c) (g (projT1 c) (eq_rect _ P (projT2 o) _ e) (projT2 c))
  | right _ => c
  end.
Fixpoint see_each {P : nat -> Type} (g : forall i, P i -> P i -> P i) (own cur : list {i : nat & P i})
  : list {i : nat & P i} :=
  match own, cur with
  | o :: own', c :: cur' => see_one g o c :: see_each g own' cur'
  | _, _ => cur
  end.

(** The container as a handle sees it: [cur] is the container as the last call through any handle left it, [own] as
    the last call through this handle did.  Only the state of a factory that is cloned with the handle is the
    handle's own. *)
Fixpoint through {K} {OK : Ord K} {V} {a : arch K V} (i : concurrent a)
  : St (block a) -> St (block a) -> St (block a) :=
  match i in @concurrent _ _ V a return St (block a) -> St (block a) -> St (block a) with
  | KSequential _ | KDyn _ => fun own cur => cur
  | KProfiler i => fun own cur => (fst cur, through i (snd own) (snd cur))
  | KDecorator F _ copied i => fun own cur =>
      ((if copied then fst own else fst cur), through i (snd own) (snd cur))
  | KAssociative _ _ _ im => fun own cur => see_each (fun j => through (im j)) own cur
  end.

Section World.
Context {K : Type} {OK : Ord K} {V : Type}.
Variable a : arch K V.
Variable i : concurrent a.

(** Containers, and handles on them: the container of a handle, and the handle's own state. *)
Record world : Type := mkW { boxes : list (St (block a)); handles : list (nat * St (block a)) }.

(** A new container with its first handle. *)
Definition start (s : St (block a)) : world := mkW [s] [(0, s)].
Definition box_of (w : world) (h : nat) : option nat := option_map fst (nth_error (handles w) h).
(** The container as handle [h] sees it. *)
Definition seen (w : world) (h : nat) : option (St (block a)) :=
  match nth_error (handles w) h with
  | Some (b, own) => option_map (through i own) (nth_error (boxes w) b)
  | None => None
  end.

(** [Concurrent::clone] of handle [h]; [Clone::clone] of it (Array, /repo/src/array/array.rs:109-117; Sequential,
    /repo/src/sequential/sequential.rs:49-56; Decorator, /repo/src/decorator/decorator.rs:55-67: a container of its
    own, in the same state; simplification: a Lru or Lrfu in the copy goes on with the readings of the clock its
    original would have made); a call through it. *)
Inductive happening : Type :=
| Shallow (h : nat)
| Deep (h : nat)
| Ask (h : nat) (q : ask K V).

(** One happening; what is written down of it: container, call and answer. *)
Inductive happens : world -> happening -> list (nat * ask K V * saw K V) -> world -> Prop :=
| H_shallow : forall w h b own, nth_error (handles w) h = Some (b, own) ->
    happens w (Shallow h) [] (mkW (boxes w) (handles w ++ [(b, own)]))
| H_deep : forall w h s, seen w h = Some s ->
    happens w (Deep h) [] (mkW (boxes w ++ [s]) (handles w ++ [(length (boxes w), s)]))
| H_ask : forall w h b q s s' r, box_of w h = Some b -> seen w h = Some s -> answer (block a) s q = Ok (s', r) ->
    happens w (Ask h q) [(b, q, r)] (mkW (replace_nth b s' (boxes w)) (replace_nth h (b, s') (handles w))).
Inductive history : world -> list happening -> list (nat * ask K V * saw K V) -> world -> Prop :=
| H_none : forall w, history w [] [] w
| H_more : forall w e l w1 es ls w2,
    happens w e l w1 -> history w1 es ls w2 -> history w (e :: es) (l ++ ls) w2.

(** What was asked of one container, with the answers. *)
Definition asked_of (b : nat) (l : list (nat * ask K V * saw K V)) : list (ask K V * saw K V) :=
  flat_map (fun x => if fst (fst x) =? b then [(snd (fst x), snd x)] else []) l.
(** One container called through its only handle. *)
Fixpoint answers (s : St (block a)) (l : list (ask K V * saw K V)) (s' : St (block a)) : Prop :=
  match l with
  | [] => s' = s
  | (q, r) :: l' => exists s1, answer (block a) s q = Ok (s1, r) /\ answers s1 l' s'
  end.

(** What a call hands over, and what an answer hands back. *)
Definition put (q : ask K V) : list (K * V) := match q with AskPush vs => vs | _ => [] end.
Definition got (r : saw K V) : list (K * V) :=
  match r with SawOne o => opt_list o | SawKeys _ l => l | SawPairs l => l | SawNum _ | SawBool _ | SawPanic => [] end.
Definition all_put (l : list (ask K V * saw K V)) : list (K * V) := flat_map (fun x => put (fst x)) l.
Definition all_got (l : list (ask K V * saw K V)) : list (K * V) := flat_map (fun x => got (snd x)) l.
End World.
Arguments Shallow {K V} h.
Arguments Deep {K V} h.
Arguments Ask {K V} h q.
