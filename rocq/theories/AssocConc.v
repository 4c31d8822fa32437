(** AssocConc.v -- model of the container Associative shared between threads
    (/repo/src/associative/building_block.rs:5-256, /repo/src/associative/concurrent.rs:5-20).

    A clone of an Associative is a vector of clones of its sets and a copy of the hasher
    (concurrent.rs:9-20): the threads have no lock in common, only the sets are shared.  Each method is
    therefore written here as a program of calls on single sets, in the order of the source, and threads
    interleave between the calls on sets.  That one call on one set is a single step is what C54 proves
    of the sets which are [Sequential]; a call on a set that another thread is using may also panic
    (C29_contention_panics_refuted): step [A_contended].

    [PAssocConc.C58_alone] checks the programs against Associative.v: run without interruption they are its
    methods. *)
From Coq Require Import NArith.
From Verif Require Import Base Block Associative Sim Linear.
Set Implicit Arguments.

Section AssocConc.
Context {K V : Type}.
Variable hash : K -> N.
Variable C : Block K V.

(** What remains of a method: return, panic, or call set number [i] and go on with its answer. *)
Inductive prog : Type :=
| Ret (r : saw K V)
| Crash
| On (i : nat) (q : ask K V) (f : saw K V -> prog).

(** set, /repo/src/associative/associative.rs:88-94, for a vector of [n] sets; [% 0] panics. *)
Definition pick (n : nat) (k : K) : res nat :=
  match n with 0 => Panic | _ => Ok (N.to_nat (N.modulo (hash k) (N.of_nat n))) end.
(** Distribution over the [n] sets, /repo/src/associative/building_block.rs:79-86 and 241-248. *)
Fixpoint bins {T} (key : T -> K) (n : nat) (l : list T) (acc : list (list T)) : res (list (list T)) :=
  match l with
  | [] => Ok acc
  | x :: l' => let* i := pick n (key x) in let* acc' := push_at i x acc in bins key n l' acc'
  end.

(** capacity and size, /repo/src/associative/building_block.rs:20-22, 53-55: [todo] sets from set [i] on. *)
Fixpoint p_sum (q : ask K V) (todo i acc : nat) : prog :=
  match todo with
  | 0 => Ret (SawNum acc)
  | S m => On i q (fun r => match r with SawNum x => p_sum q m (S i) (acc + x) | _ => Crash end)
  end.
(** contains and take, /repo/src/associative/building_block.rs:40-43, 63-66. *)
Definition p_one (n : nat) (k : K) (q : ask K V) : prog :=
  match pick n k with Ok i => On i q Ret | Panic => Crash end.
(** take from each bucket, /repo/src/associative/building_block.rs:89-102. *)
Fixpoint p_tm (kss : list (list K)) (i : nat) (left : list K) (out : list (K * V)) : prog :=
  match kss with
  | [] => Ret (SawKeys left out)
  | ks :: kss' =>
      match ks with
      | [] => p_tm kss' (S i) left out
      | _ => On i (AskTakeMultiple ks)
               (fun r => match r with SawKeys ks1 o => p_tm kss' (S i) (left ++ ks1) (out ++ o) | _ => Crash end)
      end
  end.
(** push to each bucket, /repo/src/associative/building_block.rs:250-254: also the empty vectors. *)
Fixpoint p_push (vss : list (list (K * V))) (i : nat) (out : list (K * V)) : prog :=
  match vss with
  | [] => Ret (SawPairs out)
  | vs :: vss' => On i (AskPush vs) (fun r => match r with SawPairs o => p_push vss' (S i) (out ++ o) | _ => Crash end)
  end.
(** flush, /repo/src/associative/building_block.rs:26-33: every set is flushed before the first pair is seen. *)
Fixpoint p_flush (todo i : nat) (out : list (K * V)) : prog :=
  match todo with
  | 0 => Ret (SawPairs out)
  | S m => On i AskFlush (fun r => match r with SawPairs o => p_flush m (S i) (out ++ o) | _ => Crash end)
  end.
(** The final loop of pop, /repo/src/associative/building_block.rs:217-223. *)
Fixpoint p_pops (n target : nat) (pb : list (nat * nat)) (out : list (K * V)) : prog :=
  match pb with
  | [] => Ret (SawPairs out)
  | (bucket_size, bucket_index) :: pb' =>
      if bucket_index <? n
      then match sub_chk bucket_size target with
           | Ok m => On bucket_index (AskPop m)
                       (fun r => match r with SawPairs o => p_pops n target pb' (out ++ o) | _ => Crash end)
           | Panic => Crash
           end
      else Crash
  end.
(** The rest of pop once the sizes have been read, /repo/src/associative/building_block.rs:138-226. *)
Definition p_pop_rest (n want : nat) (sizes : list nat) : prog :=
  let popped_buckets := enumerate_from 0 sizes in
  let total := list_sum (map snd popped_buckets) in
  if (want =? 0) || (total =? 0) then Ret (SawPairs [])
  else if total <=? want then p_flush n 0 []
  else match as_target popped_buckets total want with
       | Ok (target, pb) => p_pops n target pb []
       | Panic => Crash
       end.
(** pop reads the sizes, /repo/src/associative/building_block.rs:129-134. *)
Fixpoint p_sizes (n want todo i : nat) (sizes : list nat) : prog :=
  match todo with
  | 0 => p_pop_rest n want sizes
  | S m => On i AskSize (fun r => match r with SawNum x => p_sizes n want m (S i) (sizes ++ [x]) | _ => Crash end)
  end.

(** The methods of an Associative of [n] sets. *)
Definition program (n : nat) (q : ask K V) : prog :=
  match q with
  | AskCapacity => p_sum AskCapacity n 0 0
  | AskSize => p_sum AskSize n 0 0
  | AskContains k => p_one n k (AskContains k)
  | AskTake k => p_one n k (AskTake k)
  | AskTakeMultiple ks => match bins (fun k => k) n ks (repeat [] n) with Ok kss => p_tm kss 0 [] [] | Panic => Crash end
  | AskPop m => p_sizes n m n 0 []
  | AskPush vs => match bins fst n vs (repeat [] n) with Ok vss => p_push vss 0 [] | Panic => Crash end
  | AskFlush => p_flush n 0 []
  end.

(** A program run without interruption. *)
Fixpoint run_alone (p : prog) (s : list (St C)) : res (list (St C) * saw K V) :=
  match p with
  | Ret r => Ok (s, r)
  | Crash => Panic
  | On i q f =>
      let* c := unwrap (nth_error s i) in
      let* (c', r) := answer C c q in
      run_alone (f r) (replace_nth i c' s)
  end.

(** One call on one set, as an observer notes it: the set, the call, the answer, and the moment. *)
Record note : Type := mkNote { n_set : nat; n_ask : ask K V; n_saw : saw K V; n_time : nat }.

(** A thread with its clone: idle, in the middle of a method (called at moment [start]; [done]: its calls on sets so
    far), or panicked; [contended]: because another thread was using the set. *)
Inductive athread : Type :=
| AIdle
| ABusy (q : ask K V) (start : nat) (p : prog) (done : list note)
| ADead (q : ask K V) (contended : bool).

(** What an observer writes down of a method that returned. *)
Record areturn : Type := mkAR {
  ar_who : nat; ar_ask : ask K V; ar_saw : saw K V; ar_start : nat; ar_end : nat; ar_notes : list note }.

(** The shared sets, the threads; the earlier states of the sets (moment [m] is the [m]-th of them, the present moment
    comes after them all); the methods called and those that returned. *)
Record asys : Type := mkA {
  a_sets : list (St C); a_threads : list athread;
  a_past : list (list (St C)); a_asked : list (ask K V); a_returns : list areturn }.
Definition now (s : asys) : nat := length (a_past s).
(** The state of the sets at every moment, the present one last. *)
Definition history (s : asys) : list (list (St C)) := a_past s ++ [a_sets s].

Inductive astep : asys -> asys -> Prop :=
(* a thread calls a method of its clone *)
| A_call : forall s t q, nth_error (a_threads s) t = Some AIdle ->
    astep s (mkA (a_sets s) (replace_nth t (ABusy q (now s) (program (length (a_sets s)) q) []) (a_threads s))
                 (a_past s) (a_asked s ++ [q]) (a_returns s))
(* the method calls one set *)
| A_on : forall s t q t0 i q' f done c c' r,
    nth_error (a_threads s) t = Some (ABusy q t0 (On i q' f) done) ->
    nth_error (a_sets s) i = Some c -> answer C c q' = Ok (c', r) ->
    astep s (mkA (replace_nth i c' (a_sets s))
                 (replace_nth t (ABusy q t0 (f r) (done ++ [mkNote i q' r (now s)])) (a_threads s))
                 (a_past s ++ [a_sets s]) (a_asked s) (a_returns s))
(* ... which another thread is using *)
| A_contended : forall s t q t0 i q' f done,
    nth_error (a_threads s) t = Some (ABusy q t0 (On i q' f) done) ->
    astep s (mkA (a_sets s) (replace_nth t (ADead q true) (a_threads s)) (a_past s) (a_asked s) (a_returns s))
(* ... which panics *)
| A_set_panics : forall s t q t0 i q' f done c,
    nth_error (a_threads s) t = Some (ABusy q t0 (On i q' f) done) ->
    nth_error (a_sets s) i = Some c -> answer C c q' = Panic ->
    astep s (mkA (a_sets s) (replace_nth t (ADead q false) (a_threads s)) (a_past s) (a_asked s) (a_returns s))
(* ... which is not there *)
| A_no_set : forall s t q t0 i q' f done,
    nth_error (a_threads s) t = Some (ABusy q t0 (On i q' f) done) -> nth_error (a_sets s) i = None ->
    astep s (mkA (a_sets s) (replace_nth t (ADead q false) (a_threads s)) (a_past s) (a_asked s) (a_returns s))
(* the method panics by itself *)
| A_crash : forall s t q t0 done,
    nth_error (a_threads s) t = Some (ABusy q t0 Crash done) ->
    astep s (mkA (a_sets s) (replace_nth t (ADead q false) (a_threads s)) (a_past s) (a_asked s) (a_returns s))
(* the method returns *)
| A_return : forall s t q t0 r done,
    nth_error (a_threads s) t = Some (ABusy q t0 (Ret r) done) ->
    astep s (mkA (a_sets s) (replace_nth t AIdle (a_threads s)) (a_past s) (a_asked s)
                 (a_returns s ++ [mkAR t q r t0 (now s) done])).
Inductive asteps : asys -> asys -> Prop :=
| as_refl : forall s, asteps s s
| as_more : forall s s' s'', asteps s s' -> astep s' s'' -> asteps s s''.

(** [Associative::new(sets, hasher)], with a clone for each of [threads] threads. *)
Definition astart (sets : list (St C)) (threads : nat) : asys := mkA sets (repeat AIdle threads) [] [] [].
End AssocConc.
Arguments Ret {K V} r.
Arguments Crash {K V}.
Arguments On {K V} i q f.
Arguments AIdle {K V}.
Arguments ABusy {K V} q start p done.
Arguments ADead {K V} q contended.
Arguments mkA {K V C} a_sets a_threads a_past a_asked a_returns.
Arguments a_sets {K V C} a.
Arguments a_threads {K V C} a.
Arguments a_past {K V C} a.
Arguments a_asked {K V C} a.
Arguments a_returns {K V C} a.
Arguments now {K V C} s.
Arguments history {K V C} s.
