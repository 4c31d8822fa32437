(** Levels.v -- specification: an ideal cache of the most recently used keys, and a read-through client. *)
From Verif Require Import Base Block Arch Get Repr.
Set Implicit Arguments.

Section Levels.
Context {K : Type} {OK : Ord K}.

(** Distinct keys, the last used first. *)
Definition touch (k : K) (l : list K) : list K := k :: filter (fun x => negb (eqb x k)) l.
Definition recent (tr : list K) : list K := fold_left (fun l k => touch k l) tr [].
(** An ideal Lru cache of [n] keys has a hit when the key is among the [n] most recently used ones. *)
Fixpoint lru_hits (n : nat) (l : list K) (tr : list K) : list bool :=
  match tr with [] => [] | k :: tr' => existsb (eqb k) (firstn n l) :: lru_hits n (touch k l) tr' end.
(** An ideal Fifo cache of [n] keys: a missing key enters first, the key that entered first leaves. *)
Definition fifo_step (n : nat) (l : list K) (k : K) : list K := if existsb (eqb k) l then l else firstn n (k :: l).
Fixpoint fifo_hits (n : nat) (l : list K) (tr : list K) : list bool :=
  match tr with [] => [] | k :: tr' => existsb (eqb k) l :: fifo_hits n (fifo_step n l k) tr' end.

(** The client: a key is used through get ([m = false]) or get_mut ([m = true]), doing [f] to its value; when the
    cache does not have it, the value is fetched ([load k]) and pushed.  The answers: hit or not. *)
Fixpoint read_through {V} (a : arch K V) (load : K -> V) (s : St (block a)) (tr : list (bool * K * (V -> V))) : res (St (block a) * list bool) :=
  match tr with
  | [] => Ok (s, [])
  | (m, k, f) :: tr' =>
      let* (s1, o) := aget m a s k f in
      match o with
      | Some _ => let* (s3, l) := read_through a load s1 tr' in Ok (s3, true :: l)
      | None =>
          let* (s2, _) := push (block a) s1 [(k, load k)] in
          let* (s3, l) := read_through a load s2 tr' in Ok (s3, false :: l)
      end
  end.
Definition used_keys {V} (tr : list (bool * K * (V -> V))) : list K := map (fun x => snd (fst x)) tr.

(** Trees made of levels: Arrays and BTrees ordered by [O] and counting elements by one, stacked by Exclusive (no front
    without capacity), and wrapped. *)
Inductive levels {V} (O : Ord V) : arch K V -> Prop :=
| LvLeaf : forall cap a, leaf_of O cap (fun _ => 1) a -> levels O a
| LvExclusive : forall bs l r, levels O l -> levels O r -> 1 <= capacity (block l) (init l) -> levels O (AExclusive bs l r)
| LvStopper : forall a, levels O a -> levels O (AFlushStopper a)
| LvWrapped : forall a a', levels O a -> wrapped a a' -> levels O a'.
End Levels.
