(** Linear.v -- threads calling one container through clones of a [Sequential]: the scripts of SeqConc.v, now with
    the wrapped container, the arguments of the calls and their answers.

    A call on the wrapped container is not atomic: it reads the container when it begins ([CallBegin]) and leaves its
    effect when it ends ([CallEnd]); whatever happened to the container in between is overwritten.  Two overlapping
    calls would thus lose updates and answer from stale states. *)
From Verif Require Import Base Block Sim Lock SeqConc.
Set Implicit Arguments.

(** The method called, for the script of locks it follows (/repo/src/sequential/building_block.rs). *)
Definition method {K V} (a : ask K V) : call :=
  match a with
  | AskCapacity => CCapacity
  | AskSize => CSize
  | AskContains _ => CContains
  | AskTake _ => CTake
  | AskTakeMultiple _ => CTakeMultiple
  | AskPop _ => CPop
  | AskPush _ => CPush
  | AskFlush => CFlush
  end.

Section Linear.
Context {K V : Type}.
Variable B : Block K V.

(** The method of the wrapped container, from a state of it: its new state and the answer. *)
Definition answer (s : St B) (a : ask K V) : res (St B * saw K V) :=
  match a with
  | AskCapacity => Ok (s, SawNum (capacity B s))
  | AskSize => Ok (s, SawNum (size B s))
  | AskContains k => let* b := contains B s k in Ok (s, SawBool b)
  | AskTake k => let* (s', o) := take B s k in Ok (s', SawOne o)
  | AskTakeMultiple ks => let* (s', ks', l) := take_multiple B s ks in Ok (s', SawKeys ks' l)
  | AskPop n => let* (s', l) := pop B s n in Ok (s', SawPairs l)
  | AskPush vs => let* (s', l) := push B s vs in Ok (s', SawPairs l)
  | AskFlush => let* (s', l) := flush B s in Ok (s', SawPairs l)
  end.

(** A thread: idle, or in the middle of a call on its clone: the call, what remains of its script, whether the
    thread panicked, when it called, what it read of the container, and the answer once it has it. *)
Inductive thread : Type :=
| Idle
| Busy (a : ask K V) (p : list action) (dead : bool) (start : nat) (view : option (St B)) (reply : option (saw K V)).

(** What an observer writes down.  [took_effect]: thread, call, answer and time of every [CallEnd];
    [returned]: thread, call, answer, time of the call and time of the return. *)
Record took_effect : Type := mkEff { e_who : nat; e_ask : ask K V; e_saw : saw K V; e_time : nat }.
Record returned : Type := mkRet { r_who : nat; r_ask : ask K V; r_saw : saw K V; r_start : nat; r_end : nat }.

(** The lock and the RwLock as in SeqConc.v, the wrapped container, the threads, and the records. *)
Record lsys : Type := mkL {
  l_sh : nat; l_ex : nat; l_rd : nat; l_wr : nat;
  l_st : St B; l_threads : list thread;
  l_now : nat; l_effects : list took_effect; l_returns : list returned
}.

Definition plain (a : action) : Prop := match a with CallBegin | CallEnd => False | _ => True end.

(** One step of one thread; every step takes one unit of time. *)
Inductive lstep : lsys -> lsys -> Prop :=
(* the thread makes a call *)
| L_call : forall sh ex rd wr st l1 l2 a now es rs,
    lstep (mkL sh ex rd wr st (l1 ++ Idle :: l2) now es rs)
          (mkL sh ex rd wr st (l1 ++ Busy a (script (method a)) false now None None :: l2) (S now) es rs)
(* lock, unlock, borrow, end of a borrow *)
| L_act : forall sh ex rd wr sh' ex' rd' wr' st l1 a x p t v r l2 now es rs,
    plain x -> act x sh ex rd wr = Some (sh', ex', rd', wr') ->
    lstep (mkL sh ex rd wr st (l1 ++ Busy a (x :: p) false t v r :: l2) now es rs)
          (mkL sh' ex' rd' wr' st (l1 ++ Busy a p false t v r :: l2) (S now) es rs)
(* the borrow is refused: panic *)
| L_panic : forall sh ex rd wr st l1 a x p t v r l2 now es rs,
    is_in x = true -> act x sh ex rd wr = None ->
    lstep (mkL sh ex rd wr st (l1 ++ Busy a (x :: p) false t v r :: l2) now es rs)
          (mkL sh ex rd wr st (l1 ++ Busy a (x :: p) true t v r :: l2) (S now) es rs)
(* the method of the wrapped container starts: it sees the container *)
| L_begin : forall sh ex rd wr st l1 a p t v r l2 now es rs,
    lstep (mkL sh ex rd wr st (l1 ++ Busy a (CallBegin :: p) false t v r :: l2) now es rs)
          (mkL sh ex rd wr st (l1 ++ Busy a p false t (Some st) r :: l2) (S now) es rs)
(* ... and ends: a [&mut self] method leaves its result *)
| L_end : forall sh ex rd wr st l1 a p t v r l2 now es rs st' q,
    answer v a = Ok (st', q) ->
    lstep (mkL sh ex rd wr st (l1 ++ Busy a (CallEnd :: p) false t (Some v) r :: l2) now es rs)
          (mkL sh ex rd wr (if modifies (method a) then st' else st)
               (l1 ++ Busy a p false t (Some v) (Some q) :: l2) (S now)
               (es ++ [mkEff (length l1) a q now]) rs)
(* ... or panics: a panic under as_mut() poisons the RwLock, nobody gets it any more (here: it is never given back);
   a panic under as_ref() gives it back *)
| L_end_panic : forall sh ex rd wr st l1 a p t v r l2 now es rs,
    answer v a = Panic ->
    lstep (mkL sh ex rd wr st (l1 ++ Busy a (CallEnd :: p) false t (Some v) r :: l2) now es rs)
          (if modifies (method a)
           then mkL sh ex rd wr st (l1 ++ Busy a (CallEnd :: p) true t (Some v) r :: l2) (S now) es rs
           else mkL sh ex (rd - 1) wr st (l1 ++ Busy a [] true t (Some v) r :: l2) (S now) es rs)
(* the call returns *)
| L_return : forall sh ex rd wr st l1 a t v q l2 now es rs,
    lstep (mkL sh ex rd wr st (l1 ++ Busy a [] false t v (Some q) :: l2) now es rs)
          (mkL sh ex rd wr st (l1 ++ Idle :: l2) (S now) es (rs ++ [mkRet (length l1) a q t now])).
Inductive lsteps : lsys -> lsys -> Prop :=
| ls_refl : forall s, lsteps s s
| ls_step : forall s s' s'', lsteps s s' -> lstep s' s'' -> lsteps s s''.
(** A container in state [st] under [Sequential::new], with a clone for each of [n] threads. *)
Definition linit (st : St B) (n : nat) : lsys := mkL 0 0 0 0 st (repeat Idle n) 0 [] [].
End Linear.
Arguments Idle {K V B}.
Arguments Busy {K V B} a p dead start view reply.
