(** ReprGet.v -- specification: conversations with a cache that also get and get_mut (Repr.v without them). *)
From Coq Require Import NArith.
From Verif Require Import Base Block Sim Arch Get Repr.
Set Implicit Arguments.

Section ReprGet.
Context {K : Type} {OK : Ord K}.

(** A call of the trait BuildingBlock, or get ([m = false]) or get_mut ([m = true]) of a key, [f] being what happens
    to the value through the guard ([fun v => v] for a read). *)
Inductive gask (V : Type) : Type := Ask (q : ask K V) | AskGet (m : bool) (k : K) (f : V -> V).
Inductive gsaw (V : Type) : Type := Saw (x : saw K V) | SawValue (o : option V).
Arguments Ask {V} q.
Arguments AskGet {V} m k f.
Arguments Saw {V} x.
Arguments SawValue {V} o.
Definition galike {V} (x y : gsaw V) : Prop :=
  match x, y with Saw a, Saw b => alike_saw a b | SawValue o, SawValue p => o = p | _, _ => False end.

(** The answers to a conversation. *)
Fixpoint gwatch {V} (a : arch K V) (s : St (block a)) (h : list (gask V)) : list (gsaw V) :=
  match h with
  | [] => []
  | AskGet m k f :: h' =>
      match aget m a s k f with Ok (s', o) => SawValue o :: gwatch a s' h' | Panic => [Saw SawPanic] end
  | Ask q :: h' =>
      match q with
      | AskCapacity => Saw (SawNum (capacity (block a) s)) :: gwatch a s h'
      | AskSize => Saw (SawNum (size (block a) s)) :: gwatch a s h'
      | AskContains k => match contains (block a) s k with Ok b => Saw (SawBool b) :: gwatch a s h' | Panic => [Saw SawPanic] end
      | AskTake k => match take (block a) s k with Ok (s', o) => Saw (SawOne o) :: gwatch a s' h' | Panic => [Saw SawPanic] end
      | AskTakeMultiple ks =>
          match take_multiple (block a) s ks with Ok (s', l, o) => Saw (SawKeys l o) :: gwatch a s' h' | Panic => [Saw SawPanic] end
      | AskPop n => match pop (block a) s n with Ok (s', o) => Saw (SawPairs o) :: gwatch a s' h' | Panic => [Saw SawPanic] end
      | AskPush vs => match push (block a) s vs with Ok (s', o) => Saw (SawPairs o) :: gwatch a s' h' | Panic => [Saw SawPanic] end
      | AskFlush => match flush (block a) s with Ok (s', o) => Saw (SawPairs o) :: gwatch a s' h' | Panic => [Saw SawPanic] end
      end
  end.

(** Every push, and every write through a guard, leaves pairs that are [good] together. *)
Fixpoint writes_are {V} (good : list (K * V) -> Prop) (a : arch K V) (s : St (block a)) (h : list (gask V)) : Prop :=
  match h with
  | [] => True
  | AskGet m k f :: h' =>
      (forall v rest, Permutation (held a s) ((k, v) :: rest) -> good ((k, f v) :: rest)) /\
      forall s' o, aget m a s k f = Ok (s', o) -> writes_are good a s' h'
  | Ask q :: h' =>
      match q with
      | AskTake k => forall s' o, take (block a) s k = Ok (s', o) -> writes_are good a s' h'
      | AskTakeMultiple ks => forall s' l o, take_multiple (block a) s ks = Ok (s', l, o) -> writes_are good a s' h'
      | AskPop n => forall s' o, pop (block a) s n = Ok (s', o) -> writes_are good a s' h'
      | AskPush vs => good (held a s ++ vs) /\ forall s' o, push (block a) s vs = Ok (s', o) -> writes_are good a s' h'
      | AskFlush => forall s' o, flush (block a) s = Ok (s', o) -> writes_are good a s' h'
      | _ => writes_are good a s h'
      end
  end.

(** The trees that offer get: no type-erased container or socket client on the way to a leaf (the back of an
    Exclusive is not on it: the pair is moved to the front). *)
Fixpoint readable {V} (a : arch K V) : Prop :=
  match a with
  | AArray _ _ _ _ | ABTree _ _ _ | ACompressed _ _ _ _ _ => True
  | ABatch n f => forall i, i < n -> readable (f i)
  | AExclusive _ l r => readable l
  | AFlushStopper a | ASequential a | AProfiler a => readable a
  | ADyn _ | ARemote _ => False
  | ADecorator _ _ a => readable a
  | AAssociative _ n f => forall i, i < S n -> readable (f i)
  end.
End ReprGet.
Arguments gask K V : clear implicits.
Arguments gsaw K V : clear implicits.
Arguments Ask {K V} q.
Arguments AskGet {K V} m k f.
Arguments Saw {K V} x.
Arguments SawValue {K V} o.
