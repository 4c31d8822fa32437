(** WriteBack.v -- specification: a cache used in front of a slower store, the way a user of the crate uses one.
    Nothing here is code of /repo: it is the client, calling the trait methods of the tree [a]. *)
From Verif Require Import Base Block Spec Arch Get PGet.
Set Implicit Arguments.

Section WriteBack.
Context {K : Type} {OK : Ord K} {V : Type}.

(** The store: every key has a value (possibly a default one).  What leaves the cache is written to the store. *)
Definition store := K -> V.
Definition put (k : K) (v : V) (d : store) : store := fun x => if eqb x k then v else d x.
Definition put_all (out : list (K * V)) (d : store) : store := fold_left (fun d p => put (fst p) (snd p) d) out d.

(** What the client does. *)
Inductive act : Type :=
| Read (k : K)                  (* get; if the key is not cached, fetch the value from the store and push it *)
| Write (k : K) (f : V -> V)    (* get_mut, and [v] becomes [f v]; if not cached, fetch [v] and push [f v] *)
| Update (k : K) (f : V -> V)   (* take, and push the modified value back; if not cached, fetch it first *)
| Prefetch (ks : list K)        (* push the values of the keys that are not cached (as told by contains) *)
| Evict (n : nat)               (* pop n *)
| WriteBackOf (ks : list K)     (* take_multiple *)
| Sync.                         (* flush *)

Variable a : arch K V.
Fixpoint absent (s : St (block a)) (seen ks : list K) : res (list K) :=
  match ks with
  | [] => Ok []
  | k :: ks' =>
      let* c := contains (block a) s k in
      if c || existsb (eqb k) seen then absent s seen ks' else
      let* r := absent s (k :: seen) ks' in Ok (k :: r)
  end.
Definition insert (s : St (block a)) (d : store) (vs : list (K * V)) : res (St (block a) * store) :=
  let* (s', out) := push (block a) s vs in Ok (s', put_all out d).
(** One action: the new cache and store, and the value the client has seen, if it looked at one. *)
Definition perform (s : St (block a)) (d : store) (x : act) : res (St (block a) * store * option V) :=
  match x with
  | Read k =>
      let* (s1, o) := aget false a s k (fun v => v) in
      match o with
      | Some v => Ok (s1, d, Some v)
      | None => let* (s2, d2) := insert s1 d [(k, d k)] in Ok (s2, d2, Some (d k))
      end
  | Write k f =>
      let* (s1, o) := aget true a s k f in
      match o with
      | Some v => Ok (s1, d, Some v)
      | None => let* (s2, d2) := insert s1 d [(k, f (d k))] in Ok (s2, d2, Some (d k))
      end
  | Update k f =>
      let* (s1, o) := take (block a) s k in
      let v := match o with Some (_, v) => v | None => d k end in
      let* (s2, d2) := insert s1 d [(k, f v)] in Ok (s2, d2, Some v)
  | Prefetch ks =>
      let* ks' := absent s [] ks in
      let* (s2, d2) := insert s d (map (fun k => (k, d k)) ks') in Ok (s2, d2, None)
  | Evict n => let* (s', out) := pop (block a) s n in Ok (s', put_all out d, None)
  | WriteBackOf ks => let* (s', _, out) := take_multiple (block a) s ks in Ok (s', put_all out d, None)
  | Sync => let* (s', out) := flush (block a) s in Ok (s', put_all out d, None)
  end.
Fixpoint client (s : St (block a)) (d : store) (h : list act) : res (St (block a) * store * list V) :=
  match h with
  | [] => Ok (s, d, [])
  | x :: h' =>
      let* (s1, d1, o) := perform s d x in
      let* (s2, d2, l) := client s1 d1 h' in
      Ok (s2, d2, match o with Some v => v :: l | None => l end)
  end.

(** The same client without a cache: a plain memory. *)
Definition remember (d : store) (x : act) : store :=
  match x with Write k f | Update k f => put k (f (d k)) d | _ => d end.
Definition sees (d : store) (x : act) : list V :=
  match x with Read k | Write k _ | Update k _ => [d k] | _ => [] end.
Fixpoint memory (d : store) (h : list act) : store := match h with [] => d | x :: h' => memory (remember d x) h' end.
Fixpoint seen_in (d : store) (h : list act) : list V := match h with [] => [] | x :: h' => sees d x ++ seen_in (remember d x) h' end.

(** Restrictions on the client: get and get_mut where they are offered and faithful (C46, C13), without changing the
    size of elements in place; no pop of an Associative (C17). *)
Definition permitted (x : act) : Prop :=
  match x with
  | Read _ => get_ready a /\ keeps_size false a (fun v => v)
  | Write _ f => get_ready a /\ keeps_size true a f
  | Evict _ => has_associative a = false
  | _ => True
  end.
End WriteBack.
Arguments act K V : clear implicits.
Arguments store K V : clear implicits.
Arguments Read {K V} k.
Arguments Write {K V} k f.
Arguments Update {K V} k f.
Arguments Prefetch {K V} ks.
Arguments Evict {K V} n.
Arguments WriteBackOf {K V} ks.
Arguments Sync {K V}.
