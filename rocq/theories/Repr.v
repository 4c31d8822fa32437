(** Repr.v -- specification: when two caches are built to the same policy, and when two conversations with a cache
    show the same.  Written over the interface (Block.v, Sim.v) and the trees of Arch.v only. *)
From Coq Require Import NArith.
From Verif Require Import Base Block Sim Arch.
Set Implicit Arguments.

Section Repr.
Context {K : Type} {OK : Ord K}.

(** Pairs that can be told apart both by key and by value: no two have the same key, and no two have values that
    compare equal. *)
Definition apart {V} {O : Ord V} (l : list (K * V)) : Prop :=
  NoDup (keys l) /\ (forall p q, In p l -> In q l -> eqb (snd p) (snd q) = true -> p = q).

(** The same answer, the pairs handed back coming in any order.  (What take_multiple leaves in the vector of keys is
    not compared: an Array removes the keys it found, a BTree, a type-erased container or a socket client do not.) *)
Definition alike_saw {V} (x y : saw K V) : Prop :=
  match x, y with
  | SawNum n, SawNum m => n = m
  | SawBool b, SawBool c => b = c
  | SawOne o, SawOne p => o = p
  | SawPairs l, SawPairs m => Permutation l m
  | SawKeys _ l, SawKeys _ m => Permutation l m
  | SawPanic, SawPanic => True
  | _, _ => False
  end.

(** Two trees built to the same policy: the same nesting of Batch, Exclusive, Associative and FlushStopper, with
    leaves of the same capacity and element sizes, ordered by the same order on values.  Each leaf may be an Array
    in one and a BTree in the other, whatever sorting algorithm and binary search they use, and either may
    have Sequential, DynBuildingBlock, Profiler or SocketClient wrapped anywhere around its parts.  (Inside an
    Associative no FlushStopper: its pop calls flush, which could then make a container grow.) *)
Inductive leaf_of {V} (O : Ord V) (cap : nat) (esz : K * V -> nat) : arch K V -> Prop :=
| LeafArray : forall srt bs, leaf_of O cap esz (AArray (OV := O) srt bs cap esz)
| LeafBTree : leaf_of O cap esz (ABTree O cap esz).
Inductive wrapped {V} (a : arch K V) : arch K V -> Prop :=
| WSequential : wrapped a (ASequential a)
| WDyn : wrapped a (ADyn a)
| WProfiler : wrapped a (AProfiler a)
| WRemote : wrapped a (ARemote a).
Inductive same_policy {V} (O : Ord V) : arch K V -> arch K V -> Prop :=
| SPLeaf : forall cap esz a b, (forall e, 1 <= esz e) -> leaf_of O cap esz a -> leaf_of O cap esz b -> same_policy O a b
| SPBatch : forall n f g, (forall i, i < n -> same_policy O (f i) (g i)) -> same_policy O (ABatch n f) (ABatch n g)
| SPExclusive : forall bs bs' l r l' r', same_policy O l l' -> same_policy O r r' ->
    same_policy O (AExclusive bs l r) (AExclusive bs' l' r')
| SPAssociative : forall hash n f g, (forall i, i < S n -> has_stopper (f i) = false) ->
    (forall i, i < S n -> same_policy O (f i) (g i)) ->
    same_policy O (AAssociative hash n f) (AAssociative hash n g)
| SPStopper : forall a b, same_policy O a b -> same_policy O (AFlushStopper a) (AFlushStopper b)
| SPLeft : forall a a' b, wrapped a a' -> same_policy O a b -> same_policy O a' b
| SPRight : forall a b b', wrapped b b' -> same_policy O a b -> same_policy O a b'.

(** A sequence of calls in which every push is [good] for what the cache holds at that point: the pairs held,
    followed by the pairs pushed. *)
Fixpoint pushes_are {V} (good : list (K * V) -> Prop) (a : arch K V) (s : St (block a)) (h : list (ask K V)) : Prop :=
  match h with
  | [] => True
  | q :: h' =>
      match q with
      | AskTake k => forall s' o, take (block a) s k = Ok (s', o) -> pushes_are good a s' h'
      | AskTakeMultiple ks => forall s' l o, take_multiple (block a) s ks = Ok (s', l, o) -> pushes_are good a s' h'
      | AskPop n => forall s' o, pop (block a) s n = Ok (s', o) -> pushes_are good a s' h'
      | AskPush vs => good (held a s ++ vs) /\ forall s' o, push (block a) s vs = Ok (s', o) -> pushes_are good a s' h'
      | AskFlush => forall s' o, flush (block a) s = Ok (s', o) -> pushes_are good a s' h'
      | _ => pushes_are good a s h'
      end
  end.
(** Every push is of pairs that can be told apart from each other and from all pairs the cache holds. *)
Definition tells_apart {V} {O : Ord V} (a : arch K V) (s : St (block a)) (h : list (ask K V)) : Prop := pushes_are apart a s h.
(** Every push is of pairs with keys different from each other and from all keys the cache holds. *)
Definition new_keys {V} (a : arch K V) (s : St (block a)) (h : list (ask K V)) : Prop := pushes_are (fun l => NoDup (keys l)) a s h.

(** All the pairs pushed by a sequence of calls. *)
Definition asked_in {V} (h : list (ask K V)) : list (K * V) :=
  flat_map (fun q => match q with AskPush vs => vs | _ => [] end) h.
End Repr.
