(** ProfConc.v -- threads calling clones of one Profiler (/repo/src/profiler/concurrent.rs:8-18: the clones share the
    counters and have clones of the wrapped container).

    The counters are behind a [SharedPtr] (/repo/src/profiler/profiler.rs:78), that is a [RwLock] which is tried and
    never waited for (/repo/src/utils/shared_ptr.rs:100-106): every update of a counter borrows all of them exclusively.

    Simplifications: a call on the wrapped container is one step (C54 shows it for Sequential), and so is a reading of
    its size; guards of get and get_mut are dropped at once; the flush iterator is consumed by the thread that called
    flush, right after; [reset] and the reading of counters are not among the calls. *)
From Verif Require Import Base Block Wrappers Get Profiled.
Set Implicit Arguments.

(** What a method of Profiler does besides the call of the wrapped container. *)
Inductive pact : Type :=
| ASize                   (* self.cache.size() *)
| ACheck                  (* let misses = n - hits *)
| ABorrow                 (* self.stats.as_mut(): panics if the counters are borrowed or poisoned *)
| AMain                   (* the counter of the method: add(count, time, size) *)
| AHitOrMiss              (* hit or miss, according to the result *)
| AHits | AMisses         (* take_multiple: as many hits as pairs, as many misses as other keys *)
| AIter                   (* flush_iter *)
| AGive.                  (* the borrow ends *)

Section ProfConc.
Context {K V : Type}.
Variable C : Block K V.
Variable gt : bool -> Getter C.

(** Before the call of the wrapped container; /repo/src/profiler/building_block.rs:78-193, get.rs:20-63. *)
Definition before_call (c : pcall K V) : list pact :=
  match c with
  | PTake _ | PTakeMultiple _ | PFlush => [ASize]
  | PPop _ => [ASize; ASize]
  | _ => []
  end.
(** After it, given what it returned. *)
Definition one_add (x : pact) : list pact := [ABorrow; x; AGive].
Definition after_call (c : pcall K V) (r : presult K V) : list pact :=
  match c with
  | PContains _ | PGet _ _ _ => one_add AMain ++ one_add AHitOrMiss
  | PTake _ => ASize :: one_add AMain ++ one_add AHitOrMiss
  | PTakeMultiple _ => ASize :: one_add AMain ++ ACheck :: one_add AHits ++ one_add AMisses
  | PPop _ => ASize :: ASize :: one_add AMain
  | PPush _ => one_add AMain
  | PFlush => ASize :: one_add AMain ++
      flat_map (fun _ => one_add AIter) (seq 0 (match r with RMany l => S (length l) | _ => 0 end))
  | PReset => []
  end.

(** The additions.  [z]: the sizes read, the last one first.  The argument [size_before - size_after] of pop is
    computed after the counters are borrowed (building_block.rs:153-156). *)
Definition found (r : presult K V) : bool :=
  match r with RBool b => b | ROne (Some _) => true | RValue (Some _) => true | _ => false end.
Definition add_main (c : pcall K V) (z : list nat) (t : stats) : res stats :=
  match c, z with
  | PContains _, _ => Ok (add_contains t 1 0)
  | PTake _, s1 :: s0 :: _ => Ok (add_take t 1 (size_diff s0 s1))
  | PTakeMultiple ks, s1 :: s0 :: _ => Ok (add_take t (length ks) (size_diff s0 s1))
  | PPop _, after :: s1 :: s0 :: before :: _ => let* n := sub_chk before after in Ok (add_pop t n (size_diff s0 s1))
  | PPush vs, _ => Ok (add_push t (length vs) 0)
  | PFlush, s1 :: s0 :: _ => Ok (add_flush t 1 (size_diff s0 s1))
  | PGet false _ _, _ => Ok (add_get t 1 0)
  | PGet true _ _, _ => Ok (add_get_mut t 1 0)
  | _, _ => Panic
  end.
Definition add_of (x : pact) (c : pcall K V) (r : presult K V) (z : list nat) (t : stats) : res stats :=
  match x with
  | AMain => add_main c z t
  | AHitOrMiss => Ok (if found r then add_hit t 1 0 else add_miss t 1 0)
  | AHits => match r with RTaken _ l => Ok (add_hit t (length l) 0) | _ => Panic end
  | AMisses =>
      match c, r with PTakeMultiple ks, RTaken _ l => let* m := sub_chk (length ks) (length l) in Ok (add_miss t m 0) | _, _ => Panic end
  | AIter => Ok (add_flush_iter t 1 0)
  | ACheck =>
      match c, r with PTakeMultiple ks, RTaken _ l => let* _ := sub_chk (length ks) (length l) in Ok t | _, _ => Panic end
  | _ => Ok t
  end.

(** A thread: between calls; before the call of the wrapped container; after it. *)
Inductive pthread : Type :=
| PIdle
| PBefore (c : pcall K V) (p : list pact) (z : list nat)
| PAfter (c : pcall K V) (r : presult K V) (p : list pact) (z : list nat)
| PDead (c : pcall K V) (r : option (presult K V)) (p : list pact).  (* panicked; result it was to return, rest *)

(** The counters, whether they are borrowed, the wrapped container, the threads.  Observer's notes: the calls of the
    wrapped container (thread, call, result) and the calls of the Profiler that returned. *)
Record note : Type := mkNote { n_who : nat; n_call : pcall K V; n_res : presult K V }.
Record psys : Type := mkP {
  p_stats : stats; p_held : bool; p_st : St C; p_threads : list pthread; p_calls : list note; p_returns : list note
}.

Inductive pstep : psys -> psys -> Prop :=
| P_call : forall t h st l1 l2 c cs rs, c <> PReset ->
    pstep (mkP t h st (l1 ++ PIdle :: l2) cs rs) (mkP t h st (l1 ++ PBefore c (before_call c) [] :: l2) cs rs)
| P_size_before : forall t h st l1 l2 c p z cs rs,
    pstep (mkP t h st (l1 ++ PBefore c (ASize :: p) z :: l2) cs rs)
          (mkP t h st (l1 ++ PBefore c p (size C st :: z) :: l2) cs rs)
(* the wrapped container is called *)
| P_inner : forall t h st l1 l2 c z cs rs st' r, bare_call gt st c = Ok (st', r) ->
    pstep (mkP t h st (l1 ++ PBefore c [] z :: l2) cs rs)
          (mkP t h st' (l1 ++ PAfter c r (after_call c r) z :: l2) (cs ++ [mkNote (length l1) c r]) rs)
| P_inner_panic : forall t h st l1 l2 c z cs rs, bare_call gt st c = Panic ->
    pstep (mkP t h st (l1 ++ PBefore c [] z :: l2) cs rs) (mkP t h st (l1 ++ PDead c None [] :: l2) cs rs)
| P_size_after : forall t h st l1 l2 c r p z cs rs,
    pstep (mkP t h st (l1 ++ PAfter c r (ASize :: p) z :: l2) cs rs)
          (mkP t h st (l1 ++ PAfter c r p (size C st :: z) :: l2) cs rs)
(* the counters are borrowed, or the thread panics *)
| P_borrow : forall t st l1 l2 c r p z cs rs,
    pstep (mkP t false st (l1 ++ PAfter c r (ABorrow :: p) z :: l2) cs rs)
          (mkP t true st (l1 ++ PAfter c r p z :: l2) cs rs)
| P_refused : forall t st l1 l2 c r p z cs rs,
    pstep (mkP t true st (l1 ++ PAfter c r (ABorrow :: p) z :: l2) cs rs)
          (mkP t true st (l1 ++ PDead c (Some r) (ABorrow :: p) :: l2) cs rs)
| P_give : forall t st l1 l2 c r p z cs rs,
    pstep (mkP t true st (l1 ++ PAfter c r (AGive :: p) z :: l2) cs rs)
          (mkP t false st (l1 ++ PAfter c r p z :: l2) cs rs)
(* an addition; if computing its arguments panics the thread dies where it is: if it holds the counters they are
   poisoned, and nobody gets them any more *)
| P_add : forall t t' h st l1 l2 x c r p z cs rs,
    x <> ASize -> x <> ABorrow -> x <> AGive -> add_of x c r z t = Ok t' ->
    pstep (mkP t h st (l1 ++ PAfter c r (x :: p) z :: l2) cs rs) (mkP t' h st (l1 ++ PAfter c r p z :: l2) cs rs)
| P_add_panic : forall t h st l1 l2 x c r p z cs rs,
    x <> ASize -> x <> ABorrow -> x <> AGive -> add_of x c r z t = Panic ->
    pstep (mkP t h st (l1 ++ PAfter c r (x :: p) z :: l2) cs rs) (mkP t h st (l1 ++ PDead c (Some r) (x :: p) :: l2) cs rs)
| P_return : forall t h st l1 l2 c r z cs rs,
    pstep (mkP t h st (l1 ++ PAfter c r [] z :: l2) cs rs) (mkP t h st (l1 ++ PIdle :: l2) cs (rs ++ [mkNote (length l1) c r])).
Inductive psteps : psys -> psys -> Prop :=
| ps_refl : forall s, psteps s s
| ps_step : forall s s' s'', psteps s s' -> pstep s' s'' -> psteps s s''.
(** [Profiler::new] around a container in state [st], with a clone for each of [n] threads. *)
Definition pinit (st : St C) (n : nat) : psys := mkP stats_zero false st (repeat PIdle n) [] [].
End ProfConc.
Arguments PIdle {K V}.
Arguments PBefore {K V} c p z.
Arguments PAfter {K V} c r p z.
Arguments PDead {K V} c r p.
Arguments mkP {K V C} p_stats p_held p_st p_threads p_calls p_returns.
