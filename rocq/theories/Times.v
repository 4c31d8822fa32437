(** Times.v -- the times measured by a Profiler (/repo/src/profiler), with its 64-bit counters, the
    iterators returned by flush, and Profilers inside Profilers.  (Wrappers.v and Profiled.v model the
    same code without times and with unbounded counters.) *)
From Coq Require Import NArith.
From Verif Require Import Base Block Wrappers Get Profiled.
Set Implicit Arguments.
Local Open Scope N_scope.

(** What is asked of a container: a call of its interface, or [next] of the iterator returned by the
    [i]-th flush. *)
Inductive ask (K V : Type) : Type :=
| Call (p : pcall K V)
| NextOf (i : nat).
Arguments Call {K V} p.
Arguments NextOf {K V} i.

(** A container in time: [now] is what Instant::now() reads (a monotonic clock, in nanoseconds), [pass]
    lets time pass outside any call. *)
Record Timed (K V : Type) : Type := {
  TSt : Type;
  now : TSt -> N;
  tsize : TSt -> nat;
  tcall : TSt -> ask K V -> res (TSt * presult K V);
  pass : TSt -> N -> TSt
}.

Section Times.
Context {K V : Type}.

(** ** Any container, its calls taking any time *)
Section Bare.
Variable C : Block K V.
Variable gt : bool -> Getter C.
(** The clock, how long the next calls take, the container, and what the iterators returned so far have
    left.  Simplification: flush empties the container at once (Lazy.v studies the lazy ones). *)
Record bare := mkBare { b_clock : N; b_lasts : nat -> N; b_cont : St C; b_iters : list (list (K * V)) }.
Definition b_ask (s : bare) (a : ask K V) : res (bare * presult K V) :=
  let later c its := mkBare (b_clock s + b_lasts s 0%nat) (fun n => b_lasts s (S n)) c its in
  match a with
  | Call PReset => Ok (s, RUnit)      (* not a method of a container *)
  | Call PFlush =>
      let* (c, o) := flush C (b_cont s) in Ok (later c (b_iters s ++ [o]), RUnit)
  | Call p =>
      let* (c, r) := bare_call gt (b_cont s) p in Ok (later c (b_iters s), r)
  | NextOf i =>
      let* l := unwrap (nth_error (b_iters s) i) in
      match l with
      | [] => Ok (later (b_cont s) (b_iters s), ROne None)
      | x :: l' => Ok (later (b_cont s) (set_nth i l' (b_iters s)), ROne (Some x))
      end
  end.
Definition BareT : Timed K V := {|
  TSt := bare;
  now := b_clock;
  tsize := fun s => size C (b_cont s);
  tcall := b_ask;
  pass := fun s d => mkBare (b_clock s + d) (b_lasts s) (b_cont s) (b_iters s)
|}.
End Bare.

(** ** Profiler *)
(** MethodStats, stats.rs:4-12: three AtomicU64. *)
Record m3 := mk3 { c3 : N; e3 : N; z3 : N }.
Definition W64 : N := 2 ^ 64.
Definition zero3 : m3 := mk3 0 0 0.                       (* stats.rs:16-22, 25-29 *)
(** add, stats.rs:32-36: [as u64] keeps the low 64 bits, fetch_add wraps around. *)
Definition add3 (m : m3) (count : N) (elapsed : N) (sz : N) : m3 :=
  mk3 ((c3 m + count) mod W64) ((e3 m + elapsed mod W64) mod W64) ((z3 m + sz) mod W64).
(** Stats, stats.rs:47-58. *)
Inductive counter := Contains | Take | Pop | Push | Flush | FlushIter | Get_ | GetMut_ | Hit | Miss.
Definition counter_eqb (a b : counter) : bool :=
  match a, b with
  | Contains, Contains | Take, Take | Pop, Pop | Push, Push | Flush, Flush | FlushIter, FlushIter
  | Get_, Get_ | GetMut_, GetMut_ | Hit, Hit | Miss, Miss => true
  | _, _ => false
  end.
Definition tstats := counter -> m3.
Definition tstats_zero : tstats := fun _ => zero3.       (* stats.rs:62-89 *)
Definition bump (t : tstats) (c : counter) (count : nat) (elapsed : N) (sz : nat) : tstats :=
  fun c' => if counter_eqb c c' then add3 (t c) (N.of_nat count) elapsed (N.of_nat sz) else t c'.

(** What each method does with the counters once the call on the wrapped container answered [r] and
    [elapsed] was measured; [z0], [z1] are its sizes before and after.  building_block.rs:36-46 (next),
    78-88 (contains), 100-113 (take), 127-137 (take_multiple), 147-157 (pop), 167-172 (push), 185-193
    (flush); get.rs:26-38, 48-60.  An answer of another shape cannot happen. *)
Definition after (t : tstats) (a : ask K V) (r : presult K V) (elapsed : N) (z0 z1 : nat) : res tstats :=
  let d := size_diff z0 z1 in
  match a, r with
  | Call (PContains _), RBool b =>
      let t := bump t Contains 1 elapsed 0 in
      Ok (if b then bump t Hit 1 elapsed 0 else bump t Miss 1 elapsed 0)
  | Call (PTake _), ROne o =>
      let t := bump t Take 1 elapsed d in
      Ok (match o with Some _ => bump t Hit 1 elapsed 0 | None => bump t Miss 1 elapsed 0 end)
  | Call (PTakeMultiple ks), RTaken _ o =>
      let n := length ks in
      let t := bump t Take n elapsed d in
      let hits := length o in
      let* misses := sub_chk n hits in
      Ok (bump (bump t Hit hits elapsed 0) Miss misses elapsed 0)
  | Call (PPop _), RMany _ =>
      let* n := sub_chk z0 z1 in Ok (bump t Pop n elapsed d)
  | Call (PPush vs), RMany _ => Ok (bump t Push (length vs) elapsed 0)
  | Call PFlush, RUnit => Ok (bump t Flush 1 elapsed d)
  | NextOf _, ROne _ => Ok (bump t FlushIter 1 elapsed 0)
  | Call (PGet m _ _), RValue o =>
      let t := bump t (if m then GetMut_ else Get_) 1 elapsed 0 in
      Ok (match o with Some _ => bump t Hit 1 elapsed 0 | None => bump t Miss 1 elapsed 0 end)
  | _, _ => Panic
  end.

Section Profiler.
Variable B : Timed K V.
(** The counters, the time the Profiler itself takes around each coming call (between reading the clock
    and entering the call, and between leaving it and reading the clock again), and the container. *)
Record prof := mkProf { p_stats : tstats; p_own : nat -> N * N; p_in : TSt B }.
(** time_it!, building_block.rs:8-16 and get.rs:9-17, with size_it! around it (19-27).  Returns the time
    measured, the states of the container on entering and on leaving the call, and its answer. *)
Definition time_it (s : prof) (a : ask K V) : res (N * TSt B * TSt B * TSt B * presult K V) :=
  let (o1, o2) := p_own s 0%nat in
  let t0 := now B (p_in s) in
  let s1 := pass B (p_in s) o1 in
  let* (s2, r) := tcall B s1 a in
  let s3 := pass B s2 o2 in
  Ok (now B s3 - t0, s1, s2, s3, r).
Definition p_ask (s : prof) (a : ask K V) : res (prof * presult K V) :=
  match a with
  | Call PReset => Ok (mkProf tstats_zero (p_own s) (p_in s), RUnit)   (* profiler.rs:231-233 *)
  | _ =>
      let* (el, _, _, s3, r) := time_it s a in
      let* t := after (p_stats s) a r el (tsize B (p_in s)) (tsize B s3) in
      Ok (mkProf t (fun n => p_own s (S n)) s3, r)
  end.
(** A Profiler is a container in time, too. *)
Definition ProfT : Timed K V := {|
  TSt := prof;
  now := fun s => now B (p_in s);
  tsize := fun s => tsize B (p_in s);
  tcall := p_ask;
  pass := fun s d => mkProf (p_stats s) (p_own s) (pass B (p_in s) d)
|}.
End Profiler.

(** contains_stats, ..., miss_stats, profiler.rs:93-208: (count, time, size). *)
Definition read_stats {B} (s : prof B) (c : counter) : N * N * N :=
  (c3 (p_stats s c), e3 (p_stats s c), z3 (p_stats s c)).
(** time_stats, profiler.rs:211-228; the additions are checked (debug build). *)
Definition add64 (a b : N) : res N := if a + b <? W64 then Ok (a + b) else Panic.
Definition time_stats {B} (s : prof B) : res N :=
  let t c := e3 (p_stats s c) in
  let* x := add64 (t Contains) (t Take) in
  let* x := add64 x (t Pop) in
  let* x := add64 x (t Push) in
  let* x := add64 x (t Flush) in
  let* x := add64 x (t FlushIter) in
  let* x := add64 x (t Get_) in
  add64 x (t GetMut_).
End Times.

(** ** Several threads on clones of one Profiler
    The clones share the counters (profiler/concurrent.rs:8-18).  A thread is outside, or inside a call
    that began when the clock read [t0]; on leaving, it adds to the shared counters what [after] says, for
    whatever answer and sizes the wrapped container gave.  Simplifications: the additions of one call are
    one step (each of them is an atomic fetch_add; C55 has them one by one), and no call panics because two
    threads borrow the counters at once (C55 again). *)
Record crowd := mkCrowd { q_clock : N; q_stats : tstats; q_in : list (option N) }.
Inductive qstep (K V : Type) : crowd -> crowd -> Prop :=
| Q_time : forall t ts l d, qstep K V (mkCrowd t ts l) (mkCrowd (t + d) ts l)
| Q_enter : forall t ts l1 l2, qstep K V (mkCrowd t ts (l1 ++ None :: l2)) (mkCrowd t ts (l1 ++ Some t :: l2))
| Q_leave : forall t ts l1 t0 l2 (a : ask K V) r z0 z1 ts', after ts a r (t - t0) z0 z1 = Ok ts' ->
    qstep K V (mkCrowd t ts (l1 ++ Some t0 :: l2)) (mkCrowd t ts' (l1 ++ None :: l2)).
Inductive qsteps (K V : Type) : crowd -> crowd -> Prop :=
| qs_refl : forall s, qsteps K V s s
| qs_step : forall s s' s'', qsteps K V s s' -> qstep K V s' s'' -> qsteps K V s s''.
(** [time_stats()] of any of the clones: the same sum, profiler.rs:211-228. *)
Definition crowd_time (s : crowd) : res N :=
  let t c := e3 (q_stats s c) in
  let* x := add64 (t Contains) (t Take) in
  let* x := add64 x (t Pop) in
  let* x := add64 x (t Push) in
  let* x := add64 x (t Flush) in
  let* x := add64 x (t FlushIter) in
  let* x := add64 x (t Get_) in
  add64 x (t GetMut_).
