(** Profiled.v -- every method of Profiler, its counters, its clones (/repo/src/profiler). *)
From Verif Require Import Base Block Wrappers Get.
Set Implicit Arguments.

(** A call of the interface of Profiler and what it returns. *)
Inductive pcall (K V : Type) : Type :=
| PContains (k : K)
| PTake (k : K)
| PTakeMultiple (ks : list K)
| PPop (n : nat)
| PPush (vs : list (K * V))
| PFlush
| PGet (mut : bool) (k : K) (f : V -> V)
| PReset.
Arguments PContains {K V} k.
Arguments PTake {K V} k.
Arguments PTakeMultiple {K V} ks.
Arguments PPop {K V} n.
Arguments PPush {K V} vs.
Arguments PFlush {K V}.
Arguments PGet {K V} mut k f.
Arguments PReset {K V}.
Inductive presult (K V : Type) : Type :=
| RBool (b : bool)
| ROne (o : option (K * V))
| RMany (l : list (K * V))
| RTaken (left : list K) (l : list (K * V))
| RValue (o : option V)
| RUnit.
Arguments RBool {K V} b.
Arguments ROne {K V} o.
Arguments RMany {K V} l.
Arguments RTaken {K V} left l.
Arguments RValue {K V} o.
Arguments RUnit {K V}.

Section Profiled.
Context {K V : Type}.
Variable C : Block K V.
Variable gt : bool -> Getter C.

(** The call on the wrapped container itself. *)
Definition bare_call (c : St C) (p : pcall K V) : res (St C * presult K V) :=
  match p with
  | PContains k => let* b := contains C c k in Ok (c, RBool b)
  | PTake k => let* (c', o) := take C c k in Ok (c', ROne o)
  | PTakeMultiple ks => let* (c', ks', o) := take_multiple C c ks in Ok (c', RTaken ks' o)
  | PPop n => let* (c', o) := pop C c n in Ok (c', RMany o)
  | PPush vs => let* (c', o) := push C c vs in Ok (c', RMany o)
  | PFlush => let* (c', o) := flush C c in Ok (c', RMany o)
  | PGet m k f => let* (c', o) := gt m c k f in Ok (c', RValue o)
  | PReset => Ok (c, RUnit)
  end.
(** The call on the Profiler: /repo/src/profiler/building_block.rs:48-194, get.rs, profiler.rs:231-233. *)
Definition prof_call (s : stats * St C) (p : pcall K V) : res (stats * St C * presult K V) :=
  match p with
  | PContains k => let* (s', b) := pf_contains_stats C s k in Ok (s', RBool b)
  | PTake k => let* (s', o) := take (ProfilerB C) s k in Ok (s', ROne o)
  | PTakeMultiple ks => let* (s', ks', o) := take_multiple (ProfilerB C) s ks in Ok (s', RTaken ks' o)
  | PPop n => let* (s', o) := pop (ProfilerB C) s n in Ok (s', RMany o)
  | PPush vs => let* (s', o) := push (ProfilerB C) s vs in Ok (s', RMany o)
  | PFlush => let* (s', o) := flush (ProfilerB C) s in Ok (s', RMany o)
  | PGet m k f => let* (s', o) := pf_get m (gt m) s k f in Ok (s', RValue o)
  | PReset => Ok (pf_reset C s, RUnit)
  end.

(** ** Profilers and their clones
    A Profiler points to counters (SharedPtr<Stats>, /repo/src/profiler/profiler.rs:73-76) and owns a handle on
    a container; [Profiler::new] (lines 86-91) allocates counters, [Concurrent::clone]
    (/repo/src/profiler/concurrent.rs:8-18) copies both pointers.  Calls of different handles are taken one
    after the other here; calls of several threads that overlap are studied in ProfConc.v. *)
Record pworld : Type := mkPW { w_stats : list stats; w_caches : list (St C); w_handles : list (nat * nat) }.
Inductive pevent : Type :=
| WNew (c : St C)
| WClone (h : nat)
| WCall (h : nat) (p : pcall K V).
Definition set_nth {T} (i : nat) (x : T) (l : list T) : list T := firstn i l ++ x :: skipn (S i) l.
Definition pw_step (w : pworld) (e : pevent) : res (pworld * presult K V) :=
  match e with
  | WNew c =>
      Ok (mkPW (w_stats w ++ [stats_zero]) (w_caches w ++ [c])
               (w_handles w ++ [(length (w_stats w), length (w_caches w))]), RUnit)
  | WClone h =>
      let* p := unwrap (nth_error (w_handles w) h) in
      Ok (mkPW (w_stats w) (w_caches w) (w_handles w ++ [p]), RUnit)
  | WCall h p =>
      let* (i, j) := unwrap (nth_error (w_handles w) h) in
      let* t := unwrap (nth_error (w_stats w) i) in
      let* c := unwrap (nth_error (w_caches w) j) in
      let* (t', c', r) := prof_call (t, c) p in
      Ok (mkPW (set_nth i t' (w_stats w)) (set_nth j c' (w_caches w)) (w_handles w), r)
  end.
Fixpoint pw_run (w : pworld) (es : list pevent) : res (pworld * list (presult K V)) :=
  match es with
  | [] => Ok (w, [])
  | e :: es' =>
      let* (w1, r) := pw_step w e in
      let* (w2, rs) := pw_run w1 es' in Ok (w2, r :: rs)
  end.
Definition pw_empty : pworld := mkPW [] [] [].
(** What the counters of a handle read: contains_stats, take_stats, ..., /repo/src/profiler/profiler.rs:93-208. *)
Definition pw_read (w : pworld) (h : nat) : option stats :=
  match nth_error (w_handles w) h with Some (i, _) => nth_error (w_stats w) i | None => None end.
End Profiled.
