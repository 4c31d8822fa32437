(** Lazy.v -- the iterators flush returns, pulled one element at a time, and kept while the container goes on being
    used.  The rest of the model runs a flush iterator to its end at once (Block.v); here each method [flush] is
    modelled again as it is, returning its iterator. *)
From Coq Require Import NArith.
From Verif Require Import Base Block Cut Array BTree Batch Exclusive Wrappers Associative Stream Compressed Inclusive Arch Sim.
Set Implicit Arguments.

(** ** Iterators
    [FlushIterator] of each container, as values:
    - [IVec l]: std::vec::IntoIter (Array, Compressed, SocketClient; std::iter::empty is [IVec []]);
    - [IBTree m]: [elements.into_iter().map(|(k, rc)| (k, Self::as_value(rc)))], /repo/src/btree/building_block.rs:45;
    - [IMap f i]: std::iter::Map (/repo/src/decorator/building_block.rs:105, /repo/src/inclusive/building_block.rs:225);
    - [IChain a b]: std::iter::Chain (/repo/src/exclusive/building_block.rs:145); [a] is forgotten once it has
      returned None.  std::iter::Flatten over a vector of iterators (/repo/src/batch/building_block.rs:117-124,
      /repo/src/associative/building_block.rs:26-33) is a chain of them all: it forgets each of them in turn in the
      same way;
    - [IProf i]: ProfilerFlushIter, /repo/src/profiler/building_block.rs:31-46 (its effect on the counters of the
      Profiler is in [pull_counted] below).
    A boxed iterator (/repo/src/objsafe/building_block.rs:36-39) is the iterator itself. *)
Inductive iter (K : Type) : Type -> Type :=
| IVec : forall X, list X -> iter K X
| IBTree : forall V, list (K * (V * nat)) -> iter K (K * V)
| IMap : forall X Y, (Y -> X) -> iter K Y -> iter K X
| IChain : forall X, option (iter K X) -> iter K X -> iter K X
| IProf : forall X, iter K X -> iter K X.
Arguments IVec {K X} l.
Arguments IBTree {K V} m.
Arguments IMap {K X Y} f i.
Arguments IChain {K X} a b.
Arguments IProf {K X} i.

(** [Iterator::next]. *)
Fixpoint next {K X : Type} (i : iter K X) : res (iter K X * option X) :=
  match i in iter _ X return res (iter K X * option X) with
  | IVec [] => Ok (IVec [], None)
  | IVec (x :: l) => Ok (IVec l, Some x)
  | IBTree [] => Ok (IBTree [], None)
  | IBTree ((k, x) :: m) => let* v := as_value x (BTree.in_map (snd x) m) in Ok (IBTree m, Some (k, v))
  | IMap f j => let* (j', o) := next j in Ok (IMap f j', option_map f o)
  | IChain (Some a) b =>
      let* (a', o) := next a in
      match o with
      | Some x => Ok (IChain (Some a') b, Some x)
      | None => let* (b', o') := next b in Ok (IChain None b', o')
      end
  | IChain None b => let* (b', o) := next b in Ok (IChain None b', o)
  | IProf j => let* (j', o) := next j in Ok (IProf j', o)
  end.

(** [collect]: [next] until it returns None.  The fuel is the number of elements left, plus one for the None. *)
Fixpoint left_in {K X : Type} (i : iter K X) : nat :=
  match i with
  | IVec l => length l
  | IBTree m => length m
  | IMap _ j => left_in j
  | IChain (Some a) b => left_in a + left_in b
  | IChain None b => left_in b
  | IProf j => left_in j
  end.
Fixpoint collect_fuel {K X : Type} (n : nat) (i : iter K X) : res (list X) :=
  match n with
  | 0 => Panic
  | S n =>
      let* (i', o) := next i in
      match o with
      | None => Ok []
      | Some x => let* l := collect_fuel n i' in Ok (x :: l)
      end
  end.
Definition collect {K X : Type} (i : iter K X) : res (list X) := collect_fuel (S (left_in i)) i.

(** [n] pulls. *)
Fixpoint pulls {K X : Type} (n : nat) (i : iter K X) : res (iter K X * list (option X)) :=
  match n with
  | 0 => Ok (i, [])
  | S n =>
      let* (i1, o) := next i in
      let* (i2, os) := pulls n i1 in Ok (i2, o :: os)
  end.

(** A pull on the iterator of a Profiler counts one more call of next, whatever it returns:
    /repo/src/profiler/building_block.rs:36-46. *)
Definition pull_counted {K X C : Type} (s : stats * C) (i : iter K X) : res (stats * C * iter K X * option X) :=
  let* (i', o) := next i in Ok ((add_flush_iter (fst s) 1 0, snd s), i', o).
Fixpoint pulls_counted {K X C : Type} (n : nat) (s : stats * C) (i : iter K X) : res (stats * C * list (option X)) :=
  match n with
  | 0 => Ok (s, [])
  | S n =>
      let* (s1, i1, o) := pull_counted s i in
      let* (s2, os) := pulls_counted n s1 i1 in Ok (s2, o :: os)
  end.

(** ** The method flush of each container *)
Section LazyFlush.
Context {K : Type} {OK : Ord K}.
Definition lflush_of {V} (B : Block K V) : Type := St B -> res (St B * iter K (K * V)).

(** Array (/repo/src/array/building_block.rs:25-28) and Compressed (/repo/src/compression/building_block.rs:322-334)
    make a vector of their elements during the call. *)
Definition vec_lflush {V} (B : Block K V) : lflush_of B := fun s => let* (s', l) := flush B s in Ok (s', IVec l).
(** BTree, /repo/src/btree/building_block.rs:39-46: the map is moved into the iterator, the set is cleared. *)
Definition btree_lflush {V} {OV : Ord V} : lflush_of (@BTreeB K V OK OV) :=
  fun s => Ok (mkBT (b_cap s) 0 (b_esz s) [] [] (b_next s), IBTree (b_map s)).
(** FlushStopper, /repo/src/flush_stopper/building_block.rs:32-34. *)
Definition stopper_lflush {V} (B : Block K V) : lflush_of (FlushStopperB B) := fun s => Ok (s, IVec []).
(** Profiler, /repo/src/profiler/building_block.rs:185-193; the calls of next are counted as they happen. *)
Definition profiler_lflush {V} (B : Block K V) (lf : lflush_of B) : lflush_of (ProfilerB B) := fun s =>
  let* (c, i) := lf (snd s) in
  Ok ((add_flush (fst s) 1 (size_diff (size B (snd s)) (size B c)), c), IProf i).
(** Decorator, /repo/src/decorator/building_block.rs:104-106. *)
Definition decorator_lflush {V D} (F : Factory V D) (B : Block K D) (lf : lflush_of B) : lflush_of (DecoratorB F B) := fun s =>
  let* (c, i) := lf (snd s) in Ok ((fst s, c), IMap (unwrap_kv F) i).
(** Batch and Associative: the containers are flushed during the call, in order; their iterators are flattened. *)
Fixpoint list_lflush {V} (B : Block K V) (lf : lflush_of B) (s : list (St B)) : res (list (St B) * iter K (K * V)) :=
  match s with
  | [] => Ok ([], IVec [])
  | c :: s' =>
      let* (c1, i1) := lf c in
      let* (s2, i2) := list_lflush lf s' in
      Ok (c1 :: s2, IChain (Some i1) i2)
  end.
Definition batch_lflush {V} (B : Block K V) (lf : lflush_of B) : lflush_of (BatchB B) := list_lflush lf.
Definition associative_lflush {V} (hash : K -> N) (B : Block K V) (lf : lflush_of B) : lflush_of (AssociativeB hash B) :=
  list_lflush lf.
Definition sum_lflush {V} {I : Type} (C : I -> Block K V) (lf : forall i, lflush_of (C i)) : lflush_of (SumB C) := fun s =>
  let* (s', i) := lf (projT1 s) (projT2 s) in Ok (existT (fun i => St (C i)) (projT1 s) s', i).
Arguments sum_lflush {V I} C lf s.
(** Exclusive, /repo/src/exclusive/building_block.rs:140-146: the first iterator of the back container is alive while
    the back container is pushed to and flushed again. *)
Definition exclusive_lflush {V} (bs : BSearch K) (L R : Block K V) (lfL : lflush_of L) (lfR : lflush_of R)
  : lflush_of (ExclusiveB bs L R) := fun s =>
  let* (b1, back) := lfR (snd s) in
  let* (f1, fi) := lfL (fst s) in
  let* front := collect fi in
  let* (b2, over) := push R b1 front in
  let* (b3, new_back) := lfR b2 in
  Ok ((f1, b3), IChain (Some back) (IChain (Some (IVec over)) new_back)).
(** SocketClient: the server collects the iterator into its response (/repo/src/socket/server_thread.rs), the client
    returns the vector it receives, /repo/src/socket/building_block.rs:78-83. *)
Definition remote_lflush {V} (B : Block K V) (lf : lflush_of B) : lflush_of (RemoteB B) := fun s =>
  let* (s', i) := lf s in let* l := collect i in Ok (s', IVec l).
(** Inclusive, /repo/src/inclusive/building_block.rs:208-226. *)
Definition inclusive_lflush {V} (L R : Block K (cell V)) (lfL : lflush_of L) (lfR : lflush_of R)
  : lflush_of (InclusiveB L R) := fun s =>
  let* (f, fi) := lfL (fst s) in
  let* all := collect fi in
  let front := map (fun kc => (fst kc, cell_new (c_value (snd kc)))) (filter (fun kc => c_updated (snd kc)) all) in
  let* (b1, _, _) := take_multiple R (snd s) (keys front) in
  let* (b2, over) := push R b1 front in
  match over with
  | [] => let* (b3, i) := lfR b2 in Ok ((f, b3), IMap (@plain K V) i)
  | _ => Panic
  end.

(** The flush of a whole tree. *)
Fixpoint lflush {V : Type} (a : arch K V) : lflush_of (block a) :=
  match a return lflush_of (block a) with
  | AArray srt bs _ _ => vec_lflush (ArrayB srt bs)
  | ABTree _ _ _ => btree_lflush
  | ABatch _ f => batch_lflush (sum_lflush (fun i => block (f i)) (fun i => lflush (f i)))
  | AExclusive bs l r => exclusive_lflush (lflush l) (lflush r)
  | AFlushStopper a => stopper_lflush (block a)
  | ASequential a => lflush a   (* /repo/src/sequential/building_block.rs:14-20 *)
  | ADyn a => lflush a          (* /repo/src/objsafe/building_block.rs:36-39, 146-149 *)
  | AProfiler a => profiler_lflush (lflush a)
  | @ADecorator _ _ _ _ F _ a => decorator_lflush (F := F) (lflush a)
  | AAssociative hash _ f => associative_lflush (hash := hash) (sum_lflush (fun i => block (f i)) (fun i => lflush (f i)))
  | ACompressed L C srt bs _ => vec_lflush (CompressedB VecStream L C srt bs)
  | ARemote a => remote_lflush (lflush a)
  end.
End LazyFlush.

(** ** What a user sees who keeps the iterators *)
Section Seen.
Context {K V : Type}.
Variable B : Block K V.

(** Calls on the container, and pulls on the [j]-th iterator that flush has returned.  An iterator is dropped by not
    being pulled any more: no iterator has an effect when it is dropped. *)
Inductive levent : Type := LAsk (q : ask K V) | LNext (j : nat).
Inductive lsaw : Type := LSaw (x : saw K V) | LFlushed | LGot (o : option (K * V)) | LNone.

(** A call other than flush. *)
Definition ask_one (s : St B) (q : ask K V) : res (St B * saw K V) :=
  match q with
  | AskCapacity => Ok (s, SawNum (capacity B s))
  | AskSize => Ok (s, SawNum (size B s))
  | AskContains k => let* b := contains B s k in Ok (s, SawBool b)
  | AskTake k => let* (s', o) := take B s k in Ok (s', SawOne o)
  | AskTakeMultiple ks => let* (s', ks', l) := take_multiple B s ks in Ok (s', SawKeys ks' l)
  | AskPop n => let* (s', l) := pop B s n in Ok (s', SawPairs l)
  | AskPush vs => let* (s', l) := push B s vs in Ok (s', SawPairs l)
  | AskFlush => Panic
  end.

Fixpoint set_at {T} (j : nat) (x : T) (l : list T) : list T :=
  match l, j with
  | [], _ => []
  | _ :: l', 0 => x :: l'
  | y :: l', S j' => y :: set_at j' x l'
  end.

(** The code: flush returns an iterator, which the events pull. *)
Fixpoint lwatch (lf : lflush_of B) (s : St B) (its : list (iter K (K * V))) (h : list levent) : list lsaw :=
  match h with
  | [] => []
  | LAsk AskFlush :: h' =>
      match lf s with Ok (s', i) => LFlushed :: lwatch lf s' (its ++ [i]) h' | Panic => [LSaw SawPanic] end
  | LAsk q :: h' =>
      match ask_one s q with Ok (s', x) => LSaw x :: lwatch lf s' its h' | Panic => [LSaw SawPanic] end
  | LNext j :: h' =>
      match nth_error its j with
      | None => LNone :: lwatch lf s its h'
      | Some i => match next i with Ok (i', o) => LGot o :: lwatch lf s (set_at j i' its) h' | Panic => [LSaw SawPanic] end
      end
  end.

(** The specification: every flush hands over at once the list of what the container held; a pull removes the first
    element of its list. *)
Fixpoint ewatch (s : St B) (ls : list (list (K * V))) (h : list levent) : list lsaw :=
  match h with
  | [] => []
  | LAsk AskFlush :: h' =>
      match flush B s with Ok (s', l) => LFlushed :: ewatch s' (ls ++ [l]) h' | Panic => [LSaw SawPanic] end
  | LAsk q :: h' =>
      match ask_one s q with Ok (s', x) => LSaw x :: ewatch s' ls h' | Panic => [LSaw SawPanic] end
  | LNext j :: h' =>
      match nth_error ls j with
      | None => LNone :: ewatch s ls h'
      | Some l => LGot (hd_error l) :: ewatch s (set_at j (tl l) ls) h'
      end
  end.
End Seen.
Arguments levent K V : clear implicits.
Arguments lsaw K V : clear implicits.
