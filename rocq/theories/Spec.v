(** Spec.v -- the contract of a container, written from the documentation of the trait
    (/repo/src/traits/building_block.rs:19-121), independently of any implementation.

    A container's contents are a list of pairs read as a multiset: every clause is up to [Permutation]. *)
From Verif Require Import Base Block.
Set Implicit Arguments.

Section Spec.
Context {K V : Type} {OK : Ord K}.
Variable B : Block K V.
(** [Inv] : the states of the container that can be reached; [ct] : what it holds. *)
Variable Inv : St B -> Prop.
Variable ct : St B -> list (K * V).

(** [dup = false]: the caller only pushes pairs whose keys are pairwise distinct and not held.
    [dup = true]: the caller may push anything. *)
Definition may_push (dup : bool) (s : St B) (vs : list (K * V)) : Prop :=
  dup = false -> NoDup (keys (ct s ++ vs)).

Definition take_ok (s : St B) (k : K) : Prop :=
  exists s' o, take B s k = Ok (s', o) /\ Inv s' /\ capacity B s' = capacity B s /\ size B s' <= size B s /\
    match o with
    | Some (k', v) => k' = k /\ Permutation ((k, v) :: ct s') (ct s)
    | None => ~ In k (keys (ct s)) /\ Permutation (ct s') (ct s)
    end.

Definition take_multiple_ok (s : St B) (ks : list K) : Prop :=
  exists s' ks' out, take_multiple B s ks = Ok (s', ks', out) /\ Inv s' /\
    capacity B s' = capacity B s /\ size B s' <= size B s /\
    (* nothing lost, nothing invented *)
    Permutation (out ++ ct s') (ct s) /\
    (* only requested keys come out *)
    incl (keys out) ks /\
    (* every requested key that is held comes out *)
    (forall k, In k ks -> In k (keys (ct s)) -> In k (keys out)) /\
    (* the key vector only loses keys that came out *)
    (exists removed, Permutation ks (removed ++ ks') /\ incl removed (keys out)).

Definition push_ok (s : St B) (vs : list (K * V)) : Prop :=
  exists s' out, push B s vs = Ok (s', out) /\ Inv s' /\ capacity B s' = capacity B s /\
    Permutation (out ++ ct s') (ct s ++ vs).

Definition pop_ok (s : St B) (n : nat) : Prop :=
  exists s' out, pop B s n = Ok (s', out) /\ Inv s' /\ capacity B s' = capacity B s /\
    Permutation (out ++ ct s') (ct s) /\
    (* at least [n] is freed, or the container is empty *)
    (size B s' + n <= size B s \/ ct s' = []) /\ size B s' <= size B s.

Definition flush_ok (empties : bool) (s : St B) : Prop :=
  exists s' out, flush B s = Ok (s', out) /\ Inv s' /\ capacity B s' = capacity B s /\
    Permutation (out ++ ct s') (ct s) /\ (empties = true -> ct s' = []).

(** The contract.  [pops = false] leaves out the clause on [pop] (Associative); [empties = false]
    leaves out that [flush] empties (FlushStopper). *)
Record Laws (dup pops empties : bool) : Prop := {
  law_size : forall s, Inv s -> size B s <= capacity B s;
  law_empty : forall s, Inv s -> ct s = [] -> size B s = 0;
  law_unique : forall s, Inv s -> dup = false -> NoDup (keys (ct s));
  law_contains : forall s k, Inv s -> contains B s k = Ok (has_key k (ct s));
  law_take : forall s k, Inv s -> take_ok s k;
  law_take_multiple : forall s ks, Inv s -> take_multiple_ok s ks;
  law_push : forall s vs, Inv s -> may_push dup s vs -> push_ok s vs;
  law_pop : pops = true -> forall s n, Inv s -> pop_ok s n;
  law_flush : forall s, Inv s -> flush_ok empties s
}.

(** get and get_mut: [f] is what the user writes through the guard (the identity for a read).  A held key
    shows a value held under it, and afterwards exactly that pair has been rewritten; an absent key shows
    nothing and changes nothing. *)
Definition get_ok (g : St B -> K -> (V -> V) -> res (St B * option V)) (s : St B) (k : K) (f : V -> V) : Prop :=
  exists s' o, g s k f = Ok (s', o) /\ Inv s' /\ capacity B s' = capacity B s /\ size B s' = size B s /\
    match o with
    | Some v => exists rest, Permutation (ct s) ((k, v) :: rest) /\ Permutation (ct s') ((k, f v) :: rest)
    | None => ~ In k (keys (ct s)) /\ Permutation (ct s') (ct s)
    end.

(** A container whose elements all have size one: it counts them, a push fills it as far as it can, and a
    new key alone is kept if there is any room at all. *)
Record Unit (dup : bool) : Prop := {
  u_size : forall s, Inv s -> size B s = length (ct s);
  u_push : forall s vs s' out, Inv s -> may_push dup s vs -> push B s vs = Ok (s', out) ->
    size B s' = Nat.min (capacity B s) (size B s + length vs);
  u_keep : forall s k v s' out, Inv s -> ~ In k (keys (ct s)) -> 1 <= capacity B s ->
    push B s [(k, v)] = Ok (s', out) -> ~ In k (keys out)
}.

(** A history the caller may play: at each push, the discipline holds; no pop if [pops = false]. *)
Fixpoint allowed (dup pops : bool) (s : St B) (h : list (op K V)) : Prop :=
  match h with
  | [] => True
  | o :: h' =>
      match o with
      | OpPush vs => may_push dup s vs
      | OpPop _ => pops = true
      | _ => True
      end /\
      forall s' r, step B s o = Ok (s', r) -> allowed dup pops s' h'
  end.

End Spec.

Arguments law_size {K V OK B Inv ct dup pops empties} _ s _.
Arguments law_empty {K V OK B Inv ct dup pops empties} _ s _ _.
Arguments law_unique {K V OK B Inv ct dup pops empties} _ s _ _.
Arguments law_contains {K V OK B Inv ct dup pops empties} _ s k _.
Arguments law_take {K V OK B Inv ct dup pops empties} _ s k _.
Arguments law_take_multiple {K V OK B Inv ct dup pops empties} _ s ks _.
Arguments law_push {K V OK B Inv ct dup pops empties} _ s vs _ _.
Arguments law_pop {K V OK B Inv ct dup pops empties} _ _ s n _.
Arguments law_flush {K V OK B Inv ct dup pops empties} _ s _.
Arguments u_size {K V B Inv ct dup} _ s _.
Arguments u_push {K V B Inv ct dup} _ s vs s' out _ _ _.
Arguments u_keep {K V B Inv ct dup} _ s k v s' out _ _ _ _.
