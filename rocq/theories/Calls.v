(** Calls.v -- specification: what a history of calls on a cache means, written from the documentation of the
    traits (/repo/src/traits/building_block.rs, get.rs), with no reference to any container.  The cache is a
    list of pairs read up to order; a write through get_mut changes the value of one pair. *)
From Verif Require Import Base Block.
Set Implicit Arguments.

Section Calls.
Context {K V : Type}.

Inductive call : Type :=
| COp (o : op K V)               (* push, pop, take, take_multiple, flush *)
| CContains (k : K)
| CRead (k : K)                  (* get, then read through the guard *)
| CWrite (k : K) (f : V -> V).   (* get_mut, then a write of [f v] over the value [v] *)
Inductive reply : Type :=
| RPairs (out : list (K * V))
| RBool (b : bool)
| RValue (o : option V).         (* the value seen through the guard, before the write *)

(** [effect cap c x r c']: on a cache of capacity [cap] holding [c], the call [x] may answer [r] and leave [c'].
    Elements count for one. *)
Definition effect (cap : nat) (c : list (K * V)) (x : call) (r : reply) (c' : list (K * V)) : Prop :=
  match x, r with
  | COp (OpPush vs), RPairs out =>
      Permutation (out ++ c') (c ++ vs) /\ length c' = Nat.min cap (length c + length vs)
  | COp (OpPop n), RPairs out => Permutation (out ++ c') c /\ (n <= length out \/ c' = [])
  | COp (OpTake k), RPairs out =>
      (exists v, out = [(k, v)] /\ Permutation ((k, v) :: c') c) \/ (out = [] /\ ~ In k (keys c) /\ Permutation c' c)
  | COp (OpTakeMultiple ks), RPairs out =>
      Permutation (out ++ c') c /\ forall k, In k (keys out) <-> In k ks /\ In k (keys c)
  | COp OpFlush, RPairs out => Permutation out c /\ c' = []
  | CContains k, RBool b => (b = true <-> In k (keys c)) /\ Permutation c' c
  | CRead k, RValue (Some v) => In (k, v) c /\ Permutation c' c
  | CRead k, RValue None => ~ In k (keys c) /\ Permutation c' c
  | CWrite k f, RValue (Some v) => exists rest, Permutation c ((k, v) :: rest) /\ Permutation c' ((k, f v) :: rest)
  | CWrite k f, RValue None => ~ In k (keys c) /\ Permutation c' c
  | _, _ => False
  end.

(** Only what is held counts, not its order. *)
Lemma effect_perm cap0 (c d : list (K * V)) x r c' : Permutation c d -> effect cap0 d x r c' -> effect cap0 c x r c'.
Proof.
  intros P. assert (Pk : forall k, In k (keys c) <-> In k (keys d)) by (intros k; split; apply Permutation_in; [|symmetry]; apply keys_perm; auto).
  destruct x as [[vs|n|k|ks|]|k|k|k w], r as [out|b|[v|]]; cbn [effect]; try tauto.
  - rewrite P. auto.
  - rewrite P. auto.
  - rewrite Pk. intros [(v & E & H)|(E & H1 & H2)]; [left; exists v|right]; rewrite P; auto.
  - rewrite P. setoid_rewrite Pk. auto.
  - rewrite P. auto.
  - rewrite Pk, P. auto.
  - rewrite P. auto.
  - rewrite Pk, P. auto.
  - setoid_rewrite P. auto.
  - rewrite Pk, P. auto.
Qed.

(** A whole history from an empty cache. *)
Inductive follows (cap : nat) : list call -> list reply -> list (K * V) -> Prop :=
| follows_nil : follows cap [] [] []
| follows_snoc h rs c x r c' : follows cap h rs c -> effect cap c x r c' -> follows cap (h ++ [x]) (rs ++ [r]) c'.

(** The caller only pushes pairs whose keys are distinct and not in the cache, as it knows from the answers it
    got ([answers h rs]: the history [h] got the answers [rs]). *)
Definition new_keys_only (answers : list call -> list reply -> Prop) (cap : nat) (h : list call) : Prop :=
  forall h1 vs h2 rs c, h = h1 ++ COp (OpPush vs) :: h2 -> answers h1 rs -> follows cap h1 rs c -> NoDup (keys (c ++ vs)).
Lemma new_keys_prefix answers cap h x : new_keys_only answers cap (h ++ [x]) -> new_keys_only answers cap h.
Proof. intros H h1 vs h2 rs c E. apply (H h1 vs (h2 ++ [x])). rewrite E, <- app_assoc. auto. Qed.

(** The cache as a machine answering calls. *)
Variable S : Type.
Variable do : S -> call -> res (S * reply).
Fixpoint play (s : S) (h : list call) : res (S * list reply) :=
  match h with
  | [] => Ok (s, [])
  | x :: h' => let* (s1, r) := do s x in let* (s2, rs) := play s1 h' in Ok (s2, r :: rs)
  end.
Lemma play_snoc s h x : play s (h ++ [x]) = let* (s1, rs) := play s h in let* (s2, r) := do s1 x in Ok (s2, rs ++ [r]).
Proof.
  revert s. induction h as [|y h IH]; intros s; cbn [play app].
  - cbn [bind]. destruct (do s x) as [[s2 r]|]; cbn; auto.
  - destruct (do s y) as [[s1 r]|]; cbn [bind]; auto. rewrite IH. destruct (play s1 h) as [[s2 rs]|]; cbn [bind]; auto.
    destruct (do s2 x) as [[s3 r3]|]; cbn; auto.
Qed.
Definition answers (s : S) (h : list call) (rs : list reply) : Prop := exists s', play s h = Ok (s', rs).

(** A container with its get and get_mut as such a machine. *)
Definition do_call (B : Block K V) (get : St B -> K -> res (St B * option V)) (get_mut : St B -> K -> (V -> V) -> res (St B * option V))
  (s : St B) (x : call) : res (St B * reply) :=
  match x with
  | COp o => let* (s', out) := step B s o in Ok (s', RPairs out)
  | CContains k => let* b := contains B s k in Ok (s, RBool b)
  | CRead k => let* (s', o) := get s k in Ok (s', RValue o)
  | CWrite k f => let* (s', o) := get_mut s k f in Ok (s', RValue o)
  end.
End Calls.
Arguments call K V : clear implicits.
Arguments reply K V : clear implicits.
