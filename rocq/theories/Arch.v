(** Arch.v -- container architectures: every nesting of the containers of the library. *)
From Coq Require Import NArith.
From Verif Require Import Base Block Cut Array BTree Batch Exclusive Wrappers Associative Stream Compressed.
Set Implicit Arguments.

Section Arch.
Context {K : Type} {OK : Ord K}.

(** A Compressed on a VecStream, as CompressedBuilder makes it with its default factory
    (/repo/src/compression/builder.rs), with any lossless compression [L] and serializer [C]; and a SocketClient
    of a server that holds an architecture are among the trees.

    A tree of containers over values of type [V], as a user writes it with the constructors or the
    builders of the library (/repo/src/builder).  [ABatch n f] has the [n] batches [f 0 .. f (n-1)] and
    [AAssociative hash n f] the [n + 1] sets [f 0 .. f n]; they may all differ (a Rust collection of boxed
    containers). *)
Inductive arch : Type -> Type :=
| AArray : forall (V : Type) (OV : Ord V) (srt : Sorter (K * V) V snd) (bs : BSearch K)
                  (cap : nat) (esz : K * V -> nat), arch V
| ABTree : forall (V : Type) (OV : Ord V) (cap : nat) (esz : K * V -> nat), arch V
| ABatch : forall (V : Type) (n : nat) (f : nat -> arch V), arch V
| AExclusive : forall (V : Type) (bs : BSearch K) (front back : arch V), arch V
| AFlushStopper : forall (V : Type) (a : arch V), arch V
| ASequential : forall (V : Type) (a : arch V), arch V
| ADyn : forall (V : Type) (a : arch V), arch V
| AProfiler : forall (V : Type) (a : arch V), arch V
| ADecorator : forall (V D : Type) (F : Factory V D) (f0 : Fst F) (a : arch D), arch V
| AAssociative : forall (V : Type) (hash : K -> N) (n : nat) (f : nat -> arch V), arch V
| ACompressed : forall (V : Type) (OV : Ord V) (L : Lz) (C : VCodec (K * V)) (srt : Sorter (K * V) V snd)
                       (bs : BSearch K) (cap : nat), arch V
| ARemote : forall (V : Type) (a : arch V), arch V.

(** The container an architecture denotes. *)
Fixpoint block {V : Type} (a : arch V) : Block K V :=
  match a with
  | AArray srt bs _ _ => ArrayB srt bs
  | ABTree _ _ _ => BTreeB
  | ABatch _ f => BatchB (SumB (fun i => block (f i)))
  | AExclusive bs l r => ExclusiveB bs (block l) (block r)
  | AFlushStopper a => FlushStopperB (block a)
  | ASequential a => SequentialB (block a)
  | ADyn a => DynB (block a)
  | AProfiler a => ProfilerB (block a)
  | @ADecorator _ _ F _ a => DecoratorB F (block a)
  | AAssociative hash _ f => AssociativeB hash (SumB (fun i => block (f i)))
  | ACompressed L C srt bs _ => CompressedB VecStream L C srt bs
  | ARemote a => RemoteB (block a)
  end.

(** Its state just after construction. *)
Fixpoint init {V : Type} (a : arch V) : St (block a) :=
  match a return St (block a) with
  | AArray _ _ cap esz => array_new cap esz
  | ABTree _ cap esz => btree_new cap esz
  | ABatch n f => map (fun i => existT (fun i => St (block (f i))) i (init (f i))) (seq 0 n)
  | AExclusive _ l r => (init l, init r)
  | AFlushStopper a => init a
  | ASequential a => init a
  | ADyn a => init a
  | AProfiler a => (stats_zero, init a)
  | ADecorator _ f0 a => (f0, init a)
  | AAssociative _ n f => map (fun i => existT (fun i => St (block (f i))) i (init (f i))) (seq 0 (S n))
  | ACompressed _ _ _ _ cap => c_new VecStream (s_new VecStream) cap
  | ARemote a => init a
  end.

(** The pairs held by a state. *)
Fixpoint held {V : Type} (a : arch V) : St (block a) -> list (K * V) :=
  match a in arch V return St (block a) -> list (K * V) with
  | AArray _ _ _ _ => fun s => a_vals s
  | ABTree _ _ _ => fun s => map (fun e => (fst e, fst (snd e))) (b_map s)
  | ABatch _ f => fun s => flat_map (fun c => held (f (projT1 c)) (projT2 c)) s
  | AExclusive _ l r => fun s => held l (fst s) ++ held r (snd s)
  | AFlushStopper a => held a
  | ASequential a => held a
  | ADyn a => held a
  | AProfiler a => fun s => held a (snd s)
  | @ADecorator _ _ F _ a => fun s => map (unwrap_kv F) (held a (snd s))
  | AAssociative _ _ f => fun s => flat_map (fun c => held (f (projT1 c)) (projT2 c)) s
  | ACompressed L C _ _ _ => fun s => match c_read L C s with Some l => l | None => [] end
  | ARemote a => held a
  end.

(** Does a BTree or a Compressed occur in it?  Then pushed keys must be distinct and new. *)
Fixpoint needs_new_keys {V : Type} (a : arch V) : bool :=
  match a with
  | AArray _ _ _ _ => false
  | ABTree _ _ _ => true
  | ABatch n f => existsb (fun i => needs_new_keys (f i)) (seq 0 n)
  | AExclusive _ l r => needs_new_keys l || needs_new_keys r
  | AFlushStopper a | ASequential a | ADyn a | AProfiler a => needs_new_keys a
  | ADecorator _ _ a => needs_new_keys a
  | AAssociative _ n f => existsb (fun i => needs_new_keys (f i)) (seq 0 (S n))
  | ACompressed _ _ _ _ _ => true
  | ARemote a => needs_new_keys a
  end.
(** Does an Associative occur in it?  Then pop may fail. *)
Fixpoint has_associative {V : Type} (a : arch V) : bool :=
  match a with
  | AArray _ _ _ _ => false
  | ABTree _ _ _ => false
  | ABatch n f => existsb (fun i => has_associative (f i)) (seq 0 n)
  | AExclusive _ l r => has_associative l || has_associative r
  | AFlushStopper a | ASequential a | ADyn a | AProfiler a => has_associative a
  | ADecorator _ _ a => has_associative a
  | AAssociative _ _ _ => true
  | ACompressed _ _ _ _ _ => false
  | ARemote a => has_associative a
  end.
(** Does a FlushStopper occur in it?  Then flush may leave elements inside. *)
Fixpoint has_stopper {V : Type} (a : arch V) : bool :=
  match a with
  | AArray _ _ _ _ => false
  | ABTree _ _ _ => false
  | ABatch n f => existsb (fun i => has_stopper (f i)) (seq 0 n)
  | AExclusive _ l r => has_stopper l || has_stopper r
  | AFlushStopper _ => true
  | ASequential a | ADyn a | AProfiler a => has_stopper a
  | ADecorator _ _ a => has_stopper a
  | AAssociative _ n f => existsb (fun i => has_stopper (f i)) (seq 0 (S n))
  | ACompressed _ _ _ _ _ => false
  | ARemote a => has_stopper a
  end.

(** Type-erased containers or socket clients, whose take_multiple leaves the caller's keys alone, occur in it. *)
Fixpoint has_dyn {V : Type} (a : arch V) : bool :=
  match a with
  | AArray _ _ _ _ => false
  | ABTree _ _ _ => false
  | ABatch n f => existsb (fun i => has_dyn (f i)) (seq 0 n)
  | AExclusive _ l r => has_dyn l || has_dyn r
  | ADyn _ => true
  | AFlushStopper a | ASequential a | AProfiler a => has_dyn a
  | ADecorator _ _ a => has_dyn a
  | AAssociative _ n f => existsb (fun i => has_dyn (f i)) (seq 0 (S n))
  | ACompressed _ _ _ _ _ => false
  | ARemote a => true
  end.
(** A Profiler over a tree with type-erased containers inside: its take_multiple may count more hits than
    requests if keys are duplicated. *)
Fixpoint profiled_dyn {V : Type} (a : arch V) : bool :=
  match a with
  | AArray _ _ _ _ => false
  | ABTree _ _ _ => false
  | ABatch n f => existsb (fun i => profiled_dyn (f i)) (seq 0 n)
  | AExclusive _ l r => profiled_dyn l || profiled_dyn r
  | ADyn a | AFlushStopper a | ASequential a => profiled_dyn a
  | AProfiler a => has_dyn a || profiled_dyn a
  | ADecorator _ _ a => profiled_dyn a
  | AAssociative _ n f => existsb (fun i => profiled_dyn (f i)) (seq 0 (S n))
  | ACompressed _ _ _ _ _ => false
  | ARemote a => profiled_dyn a
  end.

(** The discipline an architecture imposes on its user's pushes: none, or new distinct keys. *)
Definition any_keys {V : Type} (a : arch V) : bool := negb (needs_new_keys a) && negb (profiled_dyn a).
End Arch.
Arguments arch K {OK} V.
