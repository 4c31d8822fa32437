(** SeqConc.v -- concurrent calls on clones of a [Sequential] container: /repo/src/sequential/ over
    /repo/src/utils/shared_ptr.rs (a std [RwLock], tried, never waited for) and the lock of Lock.v.

    Simplifications: the lock [Sequential.lock] is taken at the level proved of it in PLock.v (shared
    holders or one exclusive holder, acquisition and release as single steps, no spurious failures, no
    poisoning -- both are studied in PLock.v); [RwLock::try_read]/[try_write] are single steps.  A client
    is one call on one clone, together with the life of the guard it returns; a thread using several
    clones is several clients.  A panicking client stops where it is, without releasing the lock it took
    by hand. *)
From Verif Require Import Base Lock.
Set Implicit Arguments.

(** Access to the wrapped container: [SharedPtr::as_ref] or [as_mut] (shared_ptr.rs:94-115). *)
Inductive access := Rd | Wr.

(** What a method does, step by step. *)
Inductive action :=
| Acq (m : mode)          (* self.lock.lock() / lock_mut(): waits *)
| Rel (m : mode)          (* self.lock.unlock(), explicit or by a guard's Drop *)
| In (a : access)         (* self.container.as_ref() / as_mut(): panics on contention *)
| Out (a : access)        (* the RwLock guard is dropped *)
| CallBegin               (* the method of the wrapped container starts *)
| CallEnd                 (* ... and returns *)
| GuardUse                (* the caller reads (get) or writes (get_mut) through the returned guard *)
| BackBegin               (* the guard of the wrapped container, inside the returned one, starts to be dropped *)
| BackEnd.                (* ... and is dropped *)

(** The calls.  [found]: whether the wrapped container's get returns [Some]. *)
Inductive call :=
| CCapacity | CSize | CContains | CTake | CTakeMultiple | CPop | CPush | CFlush
| CGet (found : bool) | CGetMut (found : bool).

(** The methods, /repo/src/sequential/building_block.rs and get.rs.  [let _ = self.lock.lock_for(())]
    binds nothing: the guard is dropped, and the lock released, before the next line. *)
Definition script (c : call) : list action :=
  match c with
  (* building_block.rs:8-11, 22-26, 28-32 *)
  | CCapacity | CSize | CContains => [Acq Sh; Rel Sh; In Rd; CallBegin; CallEnd; Out Rd]
  (* 34-38, 46-50 *)
  | CTake | CPop => [Acq Ex; Rel Ex; In Wr; CallBegin; CallEnd; Out Wr]
  (* 40-44: shared mode *)
  | CTakeMultiple => [Acq Sh; Rel Sh; In Wr; CallBegin; CallEnd; Out Wr]
  (* 52-62: the guard [container] is dropped at the end of the block, after unlock *)
  | CPush => [Acq Ex; In Wr; CallBegin; CallEnd; Rel Ex; Out Wr]
  (* 14-20: shared mode; same order of release *)
  | CFlush => [Acq Sh; In Wr; CallBegin; CallEnd; Rel Sh; Out Wr]
  (* get.rs:65-79: the temporary as_mut() lives to the end of the match; if found the lock is kept by the
     SequentialCell returned, whose Drop (get.rs:34-38) unlocks.  Rust drops the fields of a value after its
     own [drop] has returned: the guard of the wrapped container (field [value], get.rs:21) is dropped then,
     and if that container is a BTree its drop writes the pair back into the container through a raw pointer
     (/repo/src/btree/get.rs:30-36), by no lock at all. *)
  | CGet true => [Acq Sh; In Wr; CallBegin; CallEnd; Out Wr; GuardUse; Rel Sh; BackBegin; BackEnd]
  | CGet false => [Acq Sh; In Wr; CallBegin; CallEnd; Rel Sh; Out Wr]
  (* get.rs:87-101 *)
  | CGetMut true => [Acq Ex; In Wr; CallBegin; CallEnd; Out Wr; GuardUse; Rel Ex; BackBegin; BackEnd]
  | CGetMut false => [Acq Ex; In Wr; CallBegin; CallEnd; Rel Ex; Out Wr]
  end.

(** A client: the call it makes, what remains of it, and whether it panicked. *)
Record client := mkClient { what : call; todo : list action; dead : bool }.
Definition fresh (c : call) : client := mkClient c (script c) false.

(** The shared state: holders of the lock, holders of the RwLock. *)
Record qsys := mkQ { nsh : nat; nex : nat; nrd : nat; nwr : nat; cl : list client }.

(** Effect of one action on the shared state: [Some] the new counts, [None] if it must wait;
    panics are told apart by [must_panic]. *)
Definition act (a : action) (sh ex rd wr : nat) : option (nat * nat * nat * nat) :=
  match a with
  | Acq Sh => if ex =? 0 then Some (S sh, ex, rd, wr) else None
  | Acq Ex => if (ex =? 0) && (sh =? 0) then Some (sh, 1, rd, wr) else None
  | Rel Sh => Some (sh - 1, ex, rd, wr)
  | Rel Ex => Some (sh, 0, rd, wr)
  | In Rd => if wr =? 0 then Some (sh, ex, S rd, wr) else None
  | In Wr => if (wr =? 0) && (rd =? 0) then Some (sh, ex, rd, 1) else None
  | Out Rd => Some (sh, ex, rd - 1, wr)
  | Out Wr => Some (sh, ex, rd, 0)
  | CallBegin | CallEnd | GuardUse | BackBegin | BackEnd => Some (sh, ex, rd, wr)
  end.
Definition is_in (a : action) : bool := match a with In _ => true | _ => false end.

(** One step of one client. *)
Inductive qstep : qsys -> qsys -> Prop :=
| Q_act : forall sh ex rd wr sh' ex' rd' wr' l1 c a p l2,
    act a sh ex rd wr = Some (sh', ex', rd', wr') ->
    qstep (mkQ sh ex rd wr (l1 ++ mkClient c (a :: p) false :: l2))
          (mkQ sh' ex' rd' wr' (l1 ++ mkClient c p false :: l2))
(* shared_ptr.rs:97-98, 110-111: panic!("Cannot borrow SharedPtr ...") *)
| Q_panic : forall sh ex rd wr l1 c a p l2,
    is_in a = true -> act a sh ex rd wr = None ->
    qstep (mkQ sh ex rd wr (l1 ++ mkClient c (a :: p) false :: l2))
          (mkQ sh ex rd wr (l1 ++ mkClient c (a :: p) true :: l2))
(* a finished client makes another call *)
| Q_again : forall sh ex rd wr l1 c c' l2,
    qstep (mkQ sh ex rd wr (l1 ++ mkClient c [] false :: l2))
          (mkQ sh ex rd wr (l1 ++ fresh c' :: l2)).

Inductive qsteps : qsys -> qsys -> Prop :=
| qs_refl : forall s, qsteps s s
| qs_step : forall s s' s'', qsteps s s' -> qstep s' s'' -> qsteps s s''.

(** [Sequential::new] and clones of it ([Concurrent::clone], sequential/concurrent.rs:8-15, share the
    container and the lock), each about to make a call. *)
Definition qinit (calls : list call) : qsys := mkQ 0 0 0 0 (map fresh calls).

(** ** What the property speaks about *)
(** The client is inside a method of the wrapped container. *)
Definition in_call (c : client) : Prop := dead c = false /\ exists p, todo c = CallEnd :: p.
(** Calls that take the wrapped container by [&mut self]. *)
Definition modifies (c : call) : bool :=
  match c with CCapacity | CSize | CContains => false | _ => true end.
(** The client holds a live guard got from get / get_mut. *)
Definition has_guard (c : client) : Prop := dead c = false /\ exists p, todo c = GuardUse :: p.
(** The guard of the wrapped container is being dropped (a BTree's guard: the container is being modified). *)
Definition writes_back (c : client) : Prop := dead c = false /\ exists p, todo c = BackEnd :: p.
Definition panicked (c : client) : Prop := dead c = true.
