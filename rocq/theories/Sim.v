(** Sim.v -- specification: what a user sees of a container through a sequence of calls, and when two containers
    cannot be told apart.  Written over the interface of Block.v only. *)
From Verif Require Import Base Block.
Set Implicit Arguments.

Section Watch.
Context {K V : Type}.

(** The calls of the trait BuildingBlock (/repo/src/traits/building_block.rs:19-121). *)
Inductive ask : Type :=
| AskCapacity | AskSize | AskContains (k : K) | AskTake (k : K) | AskTakeMultiple (ks : list K)
| AskPop (n : nat) | AskPush (vs : list (K * V)) | AskFlush.
(** What comes back; [SawPanic] ends the conversation. *)
Inductive saw : Type :=
| SawNum (n : nat) | SawBool (b : bool) | SawOne (o : option (K * V)) | SawPairs (l : list (K * V))
| SawKeys (left : list K) (l : list (K * V))   (* take_multiple: the vector of keys as left, and the pairs *)
| SawPanic.

(** The answers to a sequence of calls, from a state of the container. *)
Fixpoint watch (B : Block K V) (s : St B) (h : list ask) : list saw :=
  match h with
  | [] => []
  | AskCapacity :: h' => SawNum (capacity B s) :: watch B s h'
  | AskSize :: h' => SawNum (size B s) :: watch B s h'
  | AskContains k :: h' => match contains B s k with Ok b => SawBool b :: watch B s h' | Panic => [SawPanic] end
  | AskTake k :: h' => match take B s k with Ok (s', o) => SawOne o :: watch B s' h' | Panic => [SawPanic] end
  | AskTakeMultiple ks :: h' =>
      match take_multiple B s ks with Ok (s', ks', l) => SawKeys ks' l :: watch B s' h' | Panic => [SawPanic] end
  | AskPop n :: h' => match pop B s n with Ok (s', l) => SawPairs l :: watch B s' h' | Panic => [SawPanic] end
  | AskPush vs :: h' => match push B s vs with Ok (s', l) => SawPairs l :: watch B s' h' | Panic => [SawPanic] end
  | AskFlush :: h' => match flush B s with Ok (s', l) => SawPairs l :: watch B s' h' | Panic => [SawPanic] end
  end.

(** Sequences of calls: all of them, or ([tm = false]) those without take_multiple. *)
Definition asked (tm : bool) (a : ask) : bool := match a with AskTakeMultiple _ => tm | _ => true end.

(** Two containers, each in some state, that answer every sequence of calls the same. *)
Definition same_answers (tm : bool) (A B : Block K V) (s : St A) (t : St B) : Prop :=
  forall h, forallb (asked tm) h = true -> watch A s h = watch B t h.
End Watch.
Arguments ask K V : clear implicits.
Arguments saw K V : clear implicits.

(** The proof side of it: a relation between states preserved by every call. *)
Section Sim.
Context {K V : Type}.
Definition rel1 {S T O : Type} (R : S -> T -> Prop) (x : res (S * O)) (y : res (T * O)) : Prop :=
  match x, y with
  | Ok (s, o), Ok (t, o') => R s t /\ o = o'
  | Panic, Panic => True
  | _, _ => False
  end.
Definition rel2 {S T O P : Type} (R : S -> T -> Prop) (x : res (S * O * P)) (y : res (T * O * P)) : Prop :=
  match x, y with
  | Ok (s, o, p), Ok (t, o', p') => R s t /\ o = o' /\ p = p'
  | Panic, Panic => True
  | _, _ => False
  end.
Record Sim (tm : bool) (A B : Block K V) (R : St A -> St B -> Prop) : Prop := {
  sim_capacity : forall s t, R s t -> capacity A s = capacity B t;
  sim_size : forall s t, R s t -> size A s = size B t;
  sim_contains : forall s t k, R s t -> contains A s k = contains B t k;
  sim_take : forall s t k, R s t -> rel1 R (take A s k) (take B t k);
  sim_tm : tm = true -> forall s t ks, R s t -> rel2 R (take_multiple A s ks) (take_multiple B t ks);
  sim_pop : forall s t n, R s t -> rel1 R (pop A s n) (pop B t n);
  sim_push : forall s t vs, R s t -> rel1 R (push A s vs) (push B t vs);
  sim_flush : forall s t, R s t -> rel1 R (flush A s) (flush B t)
}.
End Sim.

(** Relations between the two sides of a bind. *)
Lemma rel1_bind {S T O S' T' O'} (R : S -> T -> Prop) (Q : S' -> T' -> Prop) (x : res (S * O)) (y : res (T * O))
    (f : S * O -> res (S' * O')) (g : T * O -> res (T' * O')) :
  rel1 R x y -> (forall s t o, R s t -> rel1 Q (f (s, o)) (g (t, o))) -> rel1 Q (bind x f) (bind y g).
Proof. destruct x as [[s o]|], y as [[t o']|]; cbn [rel1 bind]; try tauto. intros [H ->] F. auto. Qed.
Lemma rel12_bind {S T O S' T' O' P'} (R : S -> T -> Prop) (Q : S' -> T' -> Prop) (x : res (S * O)) (y : res (T * O))
    (f : S * O -> res (S' * O' * P')) (g : T * O -> res (T' * O' * P')) :
  rel1 R x y -> (forall s t o, R s t -> rel2 Q (f (s, o)) (g (t, o))) -> rel2 Q (bind x f) (bind y g).
Proof. destruct x as [[s o]|], y as [[t o']|]; cbn [rel1 rel2 bind]; try tauto. intros [H ->] F. auto. Qed.
Lemma rel2_bind {S T O P S' T' O' P'} (R : S -> T -> Prop) (Q : S' -> T' -> Prop) (x : res (S * O * P)) (y : res (T * O * P))
    (f : S * O * P -> res (S' * O' * P')) (g : T * O * P -> res (T' * O' * P')) :
  rel2 R x y -> (forall s t o p, R s t -> rel2 Q (f (s, o, p)) (g (t, o, p))) -> rel2 Q (bind x f) (bind y g).
Proof. destruct x as [[[s o] p]|], y as [[[t o'] p']|]; cbn [rel2 bind]; try tauto. intros (H & -> & ->) F. auto. Qed.
Lemma rel21_bind {S T O P S' T' O'} (R : S -> T -> Prop) (Q : S' -> T' -> Prop) (x : res (S * O * P)) (y : res (T * O * P))
    (f : S * O * P -> res (S' * O')) (g : T * O * P -> res (T' * O')) :
  rel2 R x y -> (forall s t o p, R s t -> rel1 Q (f (s, o, p)) (g (t, o, p))) -> rel1 Q (bind x f) (bind y g).
Proof. destruct x as [[[s o] p]|], y as [[[t o'] p']|]; cbn [rel2 rel1 bind]; try tauto. intros (H & -> & ->) F. auto. Qed.
