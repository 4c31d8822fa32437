(** InPlace.v -- the guards of the containers that forward get and get_mut: what they point to inside the containers
    they wrap.  With GuardConc.v, threads sharing such a container through clones of a [Sequential]. *)
From Coq Require Import NArith.
From Verif Require Import Base Block Exclusive Batch Associative Wrappers Array BTree Stream Compressed Arch Get GuardConc.
Set Implicit Arguments.

(** FlushStopper, /repo/src/flush_stopper/get.rs:5-17: forwards. *)
Definition flush_cells {K V} (C : Block K V) (G : Cells C) : Cells (FlushStopperB C) :=
  @mkCells K V (FlushStopperB C) (cell G) (open_cell G) (see G) (put G) (close_cell G).

(** Batch, /repo/src/batch/get.rs:11-36: the guard of the first batch that has the key.  Simplification: its index in the list
    stands for the node, which does not move in memory; a node that is not there any more shows nothing. *)
Section Batch.
Context {K V : Type}.
Variable C : Block K V.
Variable G : Cells C.
Fixpoint batch_open (m : bool) (s : batch C) (k : K) : res (batch C * option (nat * cell G)) :=
  match s with
  | [] => Ok ([], None)
  | c :: s' =>
      let* (c1, o) := open_cell G m c k in
      match o with
      | Some x => Ok (c1 :: s', Some (0, x))
      | None => let* (s1, o1) := batch_open m s' k in Ok (c1 :: s1, option_map (fun p => (S (fst p), snd p)) o1)
      end
  end.
Definition among_see (s : list (St C)) (p : nat * cell G) : option V :=
  match nth_error s (fst p) with Some c => see G c (snd p) | None => None end.
Definition among_put (s : list (St C)) (p : nat * cell G) (w : V) : option (list (St C) * (nat * cell G)) :=
  match nth_error s (fst p) with
  | Some c => match put G c (snd p) w with Some (c', x) => Some (replace_nth (fst p) c' s, (fst p, x)) | None => None end
  | None => None
  end.
Definition among_close (s : list (St C)) (p : nat * cell G) : res (list (St C)) :=
  match nth_error s (fst p) with
  | Some c => let* c' := close_cell G c (snd p) in Ok (replace_nth (fst p) c' s)
  | None => Ok s
  end.
Definition batch_cells : Cells (BatchB C) := @mkCells K V (BatchB C) (nat * cell G) batch_open among_see among_put among_close.

(** Associative, /repo/src/associative/get.rs:12-31: the guard of the set of the key. *)
Variable hash : K -> N.
Definition assoc_open (m : bool) (s : assoc C) (k : K) : res (assoc C * option (nat * cell G)) :=
  let* i := as_set hash C s k in
  let* c := unwrap (nth_error s i) in
  let* (c', o) := open_cell G m c k in
  Ok (replace_nth i c' s, option_map (pair i) o).
Definition assoc_cells : Cells (AssociativeB hash C) := @mkCells K V (AssociativeB hash C) (nat * cell G) assoc_open among_see among_put among_close.
End Batch.

(** Decorator, /repo/src/decorator/get.rs:30-43, 50-78: the guard of the wrapped container, through the decoration.  Only for
    decorations that a read leaves as they are (Fifo); reading an Lru or Lrfu cell writes its timestamp. *)
Definition deco_cells {K V D} (F : Factory V D) (C : Block K D) (G : Cells C) : Cells (DecoratorB F C) :=
  @mkCells K V (DecoratorB F C) (cell G)
    (fun m s k => let* (c, o) := open_cell G m (snd s) k in Ok ((fst s, c), o))
    (fun s x => option_map (unwrap_deco F) (see G (snd s) x))
    (fun s x w => match see G (snd s) x with
       | Some d => match put G (snd s) x (touched F (fst s) d (fun _ => w)) with Some (c, x') => Some ((fst s, c), x') | None => None end
       | None => None
       end)
    (fun s x => let* c := close_cell G (snd s) x in Ok (fst s, c)).

(** Exclusive, /repo/src/exclusive/get.rs:12-45: a key of the back comes to the front first, and the guard points there. *)
Definition exclusive_cells {K V} {OK : Ord K} (bs : BSearch K) (L R : Block K V) (G : Cells L) : Cells (ExclusiveB bs L R) :=
  @mkCells K V (ExclusiveB bs L R) (cell G)
    (fun m s k =>
       let* b := contains L (fst s) k in
       if b then let* (l, o) := open_cell G m (fst s) k in Ok ((l, snd s), o)
       else
         let* (s1, found) := ex_downgrade s k in
         if found then let* (l, o) := open_cell G m (fst s1) k in Ok ((l, snd s1), o) else Ok (s1, None))
    (fun s x => see G (fst s) x)
    (fun s x w => match put G (fst s) x w with Some (l, x') => Some ((l, snd s), x') | None => None end)
    (fun s x => let* l := close_cell G (fst s) x in Ok (l, snd s)).


(** Profiler, /repo/src/profiler/get.rs:23-35, 44-56: the lookup counts, the guard is that of the wrapped container. *)
Definition profiler_cells {K V} (C : Block K V) (G : Cells C) : Cells (ProfilerB C) :=
  @mkCells K V (ProfilerB C) (cell G)
    (fun m s k => let* (c, o) := open_cell G m (snd s) k in
       let t := if m then add_get_mut (fst s) 1 0 else add_get (fst s) 1 0 in
       Ok ((match o with Some _ => add_hit t 1 0 | None => add_miss t 1 0 end, c), o))
    (fun s x => see G (snd s) x)
    (fun s x w => match put G (snd s) x w with Some (c, x') => Some ((fst s, c), x') | None => None end)
    (fun s x => let* c := close_cell G (snd s) x in Ok (fst s, c)).

(** One container among several (SumB): the guard points into the one it was made by. *)
Section Sum.
Context {K V : Type}.
Variable C : nat -> Block K V.
Variable G : forall i, Cells (C i).
Definition the_one {T} (s : {i : nat & St (C i)}) (j : nat) (f : St (C j) -> option T) : option T :=
  match Nat.eq_dec (projT1 s) j with
  | left e => f (eq_rect _ (fun i => St (C i)) (projT2 s) _ e)
  | right _ => None
  end.
Definition sum_open (m : bool) (s : {i : nat & St (C i)}) (k : K) : res ({i : nat & St (C i)} * option {i : nat & cell (G i)}) :=
  let* (c, o) := open_cell (G (projT1 s)) m (projT2 s) k in
  Ok (existT _ (projT1 s) c, option_map (existT (fun i => cell (G i)) (projT1 s)) o).
Definition sum_see (s : {i : nat & St (C i)}) (x : {i : nat & cell (G i)}) : option V :=
  @the_one _ s (projT1 x) (fun c => see (G (projT1 x)) c (projT2 x)).
Definition sum_put (s : {i : nat & St (C i)}) (x : {i : nat & cell (G i)}) (w : V) : option ({i : nat & St (C i)} * {i : nat & cell (G i)}) :=
  @the_one _ s (projT1 x) (fun c => match put (G (projT1 x)) c (projT2 x) w with
    | Some (c', x') => Some (existT _ (projT1 x) c', existT _ (projT1 x) x')
    | None => None
    end).
Definition sum_close (s : {i : nat & St (C i)}) (x : {i : nat & cell (G i)}) : res {i : nat & St (C i)} :=
  match @the_one _ s (projT1 x) (fun c => Some (close_cell (G (projT1 x)) c (projT2 x))) with
  | Some r => let* c := r in Ok (existT _ (projT1 x) c)
  | None => Ok s
  end.
Definition sum_cells : Cells (SumB C) := @mkCells K V (SumB C) {i : nat & cell (G i)} sum_open sum_see sum_put sum_close.
End Sum.

(** The guards of an architecture.  DynBuildingBlock and SocketClient do not implement get and get_mut (a panic stands for
    it); the guard of a Sequential inside another one, which holds a lock of its own, is not modelled (the same). *)
Definition no_cells {K V} (B : Block K V) : Cells B :=
  @mkCells K V B Empty_set (fun _ _ _ => Panic) (fun _ _ => None) (fun _ _ _ => None) (fun s _ => Ok s).
Fixpoint acells {K} {OK : Ord K} {V} (a : arch K V) : Cells (block a) :=
  match a in arch _ V return Cells (block a) with
  | AArray srt bs _ _ => array_cells srt bs
  | ABTree _ _ _ => btree_cells
  | ABatch _ f => @batch_cells K _ (SumB (fun i => block (f i))) (@sum_cells K _ (fun i => block (f i)) (fun i => acells (f i)))
  | AExclusive bs l r => @exclusive_cells K _ OK bs (block l) (block r) (acells l)
  | AFlushStopper a => flush_cells (acells a)
  | ASequential a => no_cells _
  | ADyn a => no_cells _
  | AProfiler a => profiler_cells (acells a)
  | @ADecorator _ _ _ _ F _ a => deco_cells F (acells a)
  | AAssociative hash _ f => @assoc_cells K _ (SumB (fun i => block (f i))) (@sum_cells K _ (fun i => block (f i)) (fun i => acells (f i))) hash
  | ACompressed L C srt bs _ => compressed_cells VecStream L C srt bs
  | ARemote a => no_cells _
  end.
