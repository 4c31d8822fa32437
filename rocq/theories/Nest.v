(** Nest.v -- threads calling one container, a tree of containers in which [Sequential]s may be nested, through clones
    of it: the locks and borrows of every [Sequential] on the way to the leaves (SeqConc.v has a single one). *)
From Verif Require Import Base Lock SeqConc Config.
Set Implicit Arguments.

(** A tree of containers, as far as synchronisation goes.
    - [TLeaf]: a container that keeps pairs itself, by no lock: Array, BTree, Compressed, Stream, SocketClient;
    - [TSeq t]: [Sequential] over [t];
    - [TNode n f]: a container that calls the [n] containers [f 0 .. f (n-1)]: Batch, Exclusive, Inclusive,
      Associative, FlushStopper, Decorator, Profiler, DynBuildingBlock, DynConcurrent.  Nothing of its own is written
      by the calls but atomic counters (Fifo) and, in a Profiler, counters behind a [SharedPtr], which are not
      modelled here (ProfConc.v has them). *)
Inductive tree : Type :=
| TLeaf
| TSeq (t : tree)
| TNode (n : nat) (f : nat -> tree).

(** A container of the tree is named by the way to it from the root, last step first. *)
Definition path := list nat.

(** What a call does, step by step: the actions of SeqConc.v on the [Sequential] at a path, and the accesses to
    leaves ([true]: by [&mut self]). *)
Inductive nact : Type :=
| NAcq (p : path) (m : mode)
| NRel (p : path) (m : mode)
| NIn (p : path) (a : access)
| NOut (p : path) (a : access)
| NBegin (p : path) (w : bool)
| NEnd (p : path) (w : bool).

(** The method of the trait BuildingBlock (no get and get_mut here). *)
Definition building_block (c : call) : bool := match c with CGet _ | CGetMut _ => false | _ => true end.

(** The script of a method of the [Sequential] at [p] (SeqConc.v), with the call of the wrapped container, [inner], in
    its place. *)
Definition weave (p : path) (inner : list nact) (s : list action) : list nact :=
  flat_map (fun x => match x with
    | Acq m => [NAcq p m]
    | Rel m => [NRel p m]
    | In a => [NIn p a]
    | Out a => [NOut p a]
    | CallBegin => inner
    | CallEnd | GuardUse | BackBegin | BackEnd => []
    end) s.

(** What the call [c] on the tree [t] at [p] may do.  A [Sequential] calls the same method of its container.  The other
    containers make any number of calls on their components; a method that takes the container by [&self] makes
    calls that do too (Rust's typing; the wrapped containers are plain fields). *)
Inductive does : path -> tree -> call -> list nact -> Prop :=
| does_leaf : forall p c, does p TLeaf c [NBegin p (modifies c); NEnd p (modifies c)]
| does_seq : forall p t c l, does (0 :: p) t c l -> does p (TSeq t) c (weave p l (script c))
| does_nothing : forall p n f c, does p (TNode n f) c []
| does_node : forall p n f c i d l ls, i < n -> building_block d = true -> (modifies d = true -> modifies c = true) ->
    does (i :: p) (f i) d l -> does p (TNode n f) c ls -> does p (TNode n f) c (l ++ ls).

(** A thread: the locks and the borrows it holds, what remains of its call, and whether it panicked. *)
Record nthread : Type := mkN {
  n_locks : list (path * mode); n_borrows : list (path * access); n_todo : list nact; n_dead : bool
}.
Definition n_idle : nthread := mkN [] [] [] false.

Definition path_dec : forall p q : path, {p = q} + {p <> q} := list_eq_dec Nat.eq_dec.
Definition mode_dec : forall m n : mode, {m = n} + {m <> n}. decide equality. Defined.
Definition access_dec : forall a b : access, {a = b} + {a <> b}. decide equality. Defined.
Definition lock_dec : forall x y : path * mode, {x = y} + {x <> y}.
intros [p m] [q n]. destruct (path_dec p q), (mode_dec m n); [left; congruence|right; congruence..]. Defined.
Definition borrow_dec : forall x y : path * access, {x = y} + {x <> y}.
intros [p m] [q n]. destruct (path_dec p q), (access_dec m n); [left; congruence|right; congruence..]. Defined.
(** One occurrence less. *)
Fixpoint less {T} (dec : forall x y : T, {x = y} + {x <> y}) (x : T) (l : list T) : list T :=
  match l with [] => [] | y :: l' => if dec x y then l' else y :: less dec x l' end.

(** Somebody (the thread itself included) holds it. *)
Definition lock_held (ts : list nthread) (p : path) (m : mode) : Prop := exists t, List.In t ts /\ List.In (p, m) (n_locks t).
Definition borrow_held (ts : list nthread) (p : path) (a : access) : Prop := exists t, List.In t ts /\ List.In (p, a) (n_borrows t).
(** The lock may be taken (Lock.v), the SharedPtr borrowed (its RwLock: any number of readers or one writer). *)
Definition lock_free (ts : list nthread) (p : path) (m : mode) : Prop :=
  ~ lock_held ts p Ex /\ (m = Ex -> ~ lock_held ts p Sh).
Definition borrow_free (ts : list nthread) (p : path) (a : access) : Prop :=
  ~ borrow_held ts p Wr /\ (a = Wr -> ~ borrow_held ts p Rd).

(** One action of a thread. *)
Inductive nstep1 (ts : list nthread) : nthread -> nthread -> Prop :=
| N_acq : forall ls bs p m r, lock_free ts p m ->
    nstep1 ts (mkN ls bs (NAcq p m :: r) false) (mkN ((p, m) :: ls) bs r false)
| N_rel : forall ls bs p m r,
    nstep1 ts (mkN ls bs (NRel p m :: r) false) (mkN (less lock_dec (p, m) ls) bs r false)
| N_in : forall ls bs p a r, borrow_free ts p a ->
    nstep1 ts (mkN ls bs (NIn p a :: r) false) (mkN ls ((p, a) :: bs) r false)
(* shared_ptr.rs:97-98, 110-111: panic.  The thread unwinds: borrows for reading are given back, those for writing are
   poisoned, so that nobody gets them any more (here: they are never given back); locks taken by hand stay taken. *)
| N_panic : forall ls bs p a r, ~ borrow_free ts p a ->
    nstep1 ts (mkN ls bs (NIn p a :: r) false)
              (mkN ls (filter (fun b => match snd b with Wr => true | Rd => false end) bs) [] true)
| N_out : forall ls bs p a r,
    nstep1 ts (mkN ls bs (NOut p a :: r) false) (mkN ls (less borrow_dec (p, a) bs) r false)
| N_begin : forall ls bs p w r, nstep1 ts (mkN ls bs (NBegin p w :: r) false) (mkN ls bs r false)
| N_end : forall ls bs p w r, nstep1 ts (mkN ls bs (NEnd p w :: r) false) (mkN ls bs r false).

(** One step of the program: an action, or a thread whose call is over makes another. *)
Inductive nstep (t : tree) : list nthread -> list nthread -> Prop :=
| N_act : forall l1 x x' l2, nstep1 (l1 ++ x :: l2) x x' -> nstep t (l1 ++ x :: l2) (l1 ++ x' :: l2)
| N_call : forall l1 l2 c l, building_block c = true -> does [] t c l ->
    nstep t (l1 ++ n_idle :: l2) (l1 ++ mkN [] [] l false :: l2).
Inductive nsteps (t : tree) : list nthread -> list nthread -> Prop :=
| ns_refl : forall s, nsteps t s s
| ns_step : forall s s' s'', nsteps t s s' -> nstep t s' s'' -> nsteps t s s''.

(** ** What the property speaks about *)
(** The thread is inside a method of the leaf at [p], called by [&mut self] or not. *)
Definition inside (x : nthread) (p : path) (w : bool) : Prop := n_dead x = false /\ exists r, n_todo x = NEnd p w :: r.
(** Two threads are inside the same leaf, and one of them changes it. *)
Definition data_race (ts : list nthread) : Prop :=
  exists i j x y p w w', i <> j /\ nth_error ts i = Some x /\ nth_error ts j = Some y /\
    inside x p w /\ inside y p w' /\ (w = true \/ w' = true).
(** A call is not over. *)
Definition busy (x : nthread) : Prop := n_dead x = false /\ n_todo x <> [].

(** Every leaf is below some [Sequential]. *)
Fixpoint guarded (t : tree) : Prop :=
  match t with
  | TLeaf => False
  | TSeq _ => True
  | TNode n f => forall i, i < n -> guarded (f i)
  end.

(** The trees of the containers of a type (Config.v). *)
Inductive shaped : shape -> tree -> Prop :=
| sh_array : shaped ShArray TLeaf
| sh_btree : shaped ShBTree TLeaf
| sh_compressed : shaped ShCompressed TLeaf
| sh_stream : shaped ShStream TLeaf
| sh_socket : shaped ShSocket TLeaf
| sh_batch : forall s n f, (forall i, i < n -> shaped s (f i)) -> shaped (ShBatch s) (TNode n f)
| sh_exclusive : forall l r f, shaped l (f 0) -> shaped r (f 1) -> shaped (ShExclusive l r) (TNode 2 f)
| sh_inclusive : forall l r f, shaped l (f 0) -> shaped r (f 1) -> shaped (ShInclusive l r) (TNode 2 f)
| sh_associative : forall s n f, (forall i, i < n -> shaped s (f i)) -> shaped (ShAssociative s) (TNode n f)
| sh_flush_stopper : forall s f, shaped s (f 0) -> shaped (ShFlushStopper s) (TNode 1 f)
| sh_profiler : forall s f, shaped s (f 0) -> shaped (ShProfiler s) (TNode 1 f)
| sh_decorator : forall s f, shaped s (f 0) -> shaped (ShDecorator s) (TNode 1 f)
| sh_sequential : forall s t, shaped s t -> shaped (ShSequential s) (TSeq t).
(** The tree of the container built from a configuration (Config.v); the boxes around the containers add nothing. *)
Fixpoint config_tree (c : config) : tree :=
  match c with
  | CArray _ | CBTree _ | CCompressed _ _ | CStream _ | CSocket _ => TLeaf
  | CBatch l | CAssociative l => TNode (length l) (fun i => nth i (map config_tree l) TLeaf)
  | CExclusive f b => TNode 2 (fun i => match i with 0 => config_tree f | _ => config_tree b end)
  | CFlushStopper c | CProfiler c => TNode 1 (fun _ => config_tree c)
  | CSequential c => TSeq (config_tree c)
  end.
