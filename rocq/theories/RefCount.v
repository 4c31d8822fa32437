(** RefCount.v -- who frees what is shared between clones: SharedPtr (/repo/src/utils/shared_ptr.rs),
    FileStream (/repo/src/stream/file_stream.rs) and DynConcurrent (/repo/src/objsafe/concurrent.rs), the last
    two counting their clones with the lock of Lock.v.  Steps are atomic operations; any interleaving. *)
From Coq Require Import NArith.
From Verif Require Import Base Lock.
Set Implicit Arguments.

(** ** SharedPtr: an [Arc] (shared_ptr.rs:57-59, From at 118-126, Clone at 128-139).
    std's [Arc] is modelled by its documented behaviour: clone increments the count, drop decrements it and the
    one who brings it to zero destroys the value. *)
Inductive ptr_client := Owner | Destroying | PtrGone.
Record ptrs := mkPtrs { strong : nat; owners : list ptr_client; destroyed : nat }.
Inductive ptr_step : ptrs -> ptrs -> Prop :=
| P_clone : forall n l1 l2 d, ptr_step (mkPtrs n (l1 ++ Owner :: l2) d) (mkPtrs (S n) (l1 ++ Owner :: Owner :: l2) d)
| P_drop : forall n l1 l2 d, ptr_step (mkPtrs n (l1 ++ Owner :: l2) d)
    (mkPtrs (n - 1) (l1 ++ (if n =? 1 then Destroying else PtrGone) :: l2) d)
| P_destroy : forall n l1 l2 d, ptr_step (mkPtrs n (l1 ++ Destroying :: l2) d) (mkPtrs n (l1 ++ PtrGone :: l2) (S d)).
Definition ptr_init : ptrs := mkPtrs 1 [Owner] 0.
Inductive ptr_steps : ptrs -> ptrs -> Prop :=
| ps_refl : forall s, ptr_steps s s
| ps_step : forall s s' s'', ptr_steps s s' -> ptr_step s' s'' -> ptr_steps s s''.

(** ** FileStream.  A handle and the call in progress on it. *)
Inductive handle :=
| Live                 (* usable *)
| Cloning (p : pc)     (* in Clone::clone, file_stream.rs:60-67: p is where it is in rc.lock() *)
| Keeping (p : pc)     (* in do_not_delete, file_stream.rs:45-48 *)
| Unlocking (p : pc)   (* in Drop, file_stream.rs:77 *)
| Trying (p : pc)      (* in Drop, file_stream.rs:79 *)
| Removing             (* try_lock_mut returned Ok: about to remove the file, file_stream.rs:83 *)
| HGone.

(** [rcw]: the lock word; [kept]: ghost, number of do_not_delete calls that returned; [removed]: number of times
    the file was removed by a Drop.  Poisoning is left out (no thread panics). *)
Record files := mkFiles { rcw : N; handles : list handle; kept : nat; removed : nat }.

Inductive fstep : bool -> files -> files -> Prop :=
(* clone: lock() loops until it gets Hold, then the new handle exists *)
| F_clone : forall w l1 l2 k r, fstep false (mkFiles w (l1 ++ Live :: l2) k r) (mkFiles w (l1 ++ Cloning (Load Sh true) :: l2) k r)
| F_clone_step : forall sp w w' p p' l1 l2 k r, astep sp w p w' p' -> p' <> Hold Sh ->
    fstep sp (mkFiles w (l1 ++ Cloning p :: l2) k r) (mkFiles w' (l1 ++ Cloning p' :: l2) k r)
| F_clone_done : forall sp w w' p l1 l2 k r, astep sp w p w' (Hold Sh) ->
    fstep sp (mkFiles w (l1 ++ Cloning p :: l2) k r) (mkFiles w' (l1 ++ Live :: Live :: l2) k r)
(* do_not_delete: one more lock(), never unlocked *)
| F_keep : forall w l1 l2 k r, fstep false (mkFiles w (l1 ++ Live :: l2) k r) (mkFiles w (l1 ++ Keeping (Load Sh true) :: l2) k r)
| F_keep_step : forall sp w w' p p' l1 l2 k r, astep sp w p w' p' -> p' <> Hold Sh ->
    fstep sp (mkFiles w (l1 ++ Keeping p :: l2) k r) (mkFiles w' (l1 ++ Keeping p' :: l2) k r)
| F_keep_done : forall sp w w' p l1 l2 k r, astep sp w p w' (Hold Sh) ->
    fstep sp (mkFiles w (l1 ++ Keeping p :: l2) k r) (mkFiles w' (l1 ++ Live :: l2) (S k) r)
(* drop: unlock, then try_lock_mut, then remove the file if Ok *)
| F_drop : forall w l1 l2 k r, fstep false (mkFiles w (l1 ++ Live :: l2) k r) (mkFiles w (l1 ++ Unlocking (Unl1 Sh) :: l2) k r)
| F_unlock_step : forall sp w w' p p' l1 l2 k r, astep sp w p w' p' -> p' <> Idle ->
    fstep sp (mkFiles w (l1 ++ Unlocking p :: l2) k r) (mkFiles w' (l1 ++ Unlocking p' :: l2) k r)
| F_unlock_done : forall sp w w' p l1 l2 k r, astep sp w p w' Idle ->
    fstep sp (mkFiles w (l1 ++ Unlocking p :: l2) k r) (mkFiles w' (l1 ++ Trying (Load Ex false) :: l2) k r)
| F_try_step : forall sp w w' p p' l1 l2 k r, astep sp w p w' p' -> p' <> Hold Ex -> p' <> Idle ->
    fstep sp (mkFiles w (l1 ++ Trying p :: l2) k r) (mkFiles w' (l1 ++ Trying p' :: l2) k r)
| F_try_err : forall sp w w' p l1 l2 k r, astep sp w p w' Idle ->
    fstep sp (mkFiles w (l1 ++ Trying p :: l2) k r) (mkFiles w' (l1 ++ HGone :: l2) k r)
| F_try_ok : forall sp w w' p l1 l2 k r, astep sp w p w' (Hold Ex) ->
    fstep sp (mkFiles w (l1 ++ Trying p :: l2) k r) (mkFiles w' (l1 ++ Removing :: l2) k r)
| F_remove : forall w l1 l2 k r, fstep false (mkFiles w (l1 ++ Removing :: l2) k r) (mkFiles w (l1 ++ HGone :: l2) k (S r)).

(** [FileStream::new] (file_stream.rs:30-42): one handle, the count locked once. *)
Definition f_init : files := mkFiles 1 [Live] 0 0.
(** A handle the user still has (it may be in the middle of clone or do_not_delete). *)
Definition alive (h : handle) : bool := match h with Live | Cloning _ | Keeping _ => true | _ => false end.

(** ** TempFileStreamFactory::create, file_stream.rs:133-138.  The names present in the directory: the NamedTempFile
    creates one, FileStream::new opens it, and [named_tmpfile] is dropped on return, which removes the name
    (documented behaviour of the crate tempfile). *)
Definition temp_create (dir : list nat) (fresh_name : nat) : list nat * (nat * files) :=
  let dir1 := fresh_name :: dir in                     (* NamedTempFile::new() *)
  let stream := (fresh_name, f_init) in                (* FileStream::new(path).unwrap() *)
  let dir2 := List.filter (fun n => negb (n =? fresh_name)) dir1 in  (* drop(named_tmpfile) *)
  (dir2, stream).

(** ** DynConcurrent.  [new] (objsafe/concurrent.rs:28-36) locks [rc] once; [clone] (53-58) copies the pointer and the
    lock without locking; [drop] (40-45) frees the container if [try_lock_mut] succeeds. *)
Inductive dyn_client :=
| DLive
| DTrying (p : pc)
| DFreeing
| DUnlocking (p : pc)
| DGone.
Record dyns := mkDyns { dw : N; dcl : list dyn_client; freed : nat }.
Inductive dstep : dyns -> dyns -> Prop :=
| D_clone : forall w l1 l2 f, dstep (mkDyns w (l1 ++ DLive :: l2) f) (mkDyns w (l1 ++ DLive :: DLive :: l2) f)
| D_drop : forall w l1 l2 f, dstep (mkDyns w (l1 ++ DLive :: l2) f) (mkDyns w (l1 ++ DTrying (Load Ex false) :: l2) f)
| D_step : forall sp w w' p p' l1 l2 f, astep sp w p w' p' -> p' <> Hold Ex -> p' <> Idle ->
    dstep (mkDyns w (l1 ++ DTrying p :: l2) f) (mkDyns w' (l1 ++ DTrying p' :: l2) f)
| D_err : forall sp w w' p l1 l2 f, astep sp w p w' Idle ->
    dstep (mkDyns w (l1 ++ DTrying p :: l2) f) (mkDyns w' (l1 ++ DGone :: l2) f)
| D_ok : forall sp w w' p l1 l2 f, astep sp w p w' (Hold Ex) ->
    dstep (mkDyns w (l1 ++ DTrying p :: l2) f) (mkDyns w' (l1 ++ DFreeing :: l2) f)
| D_free : forall w l1 l2 f, dstep (mkDyns w (l1 ++ DFreeing :: l2) f) (mkDyns w (l1 ++ DUnlocking (Unl1 Ex) :: l2) (S f))
| D_unlock : forall sp w w' p p' l1 l2 f, astep sp w p w' p' -> p' <> Idle ->
    dstep (mkDyns w (l1 ++ DUnlocking p :: l2) f) (mkDyns w' (l1 ++ DUnlocking p' :: l2) f)
| D_unlocked : forall sp w w' p l1 l2 f, astep sp w p w' Idle ->
    dstep (mkDyns w (l1 ++ DUnlocking p :: l2) f) (mkDyns w' (l1 ++ DGone :: l2) f).
Definition d_init : dyns := mkDyns 1 [DLive] 0.
Inductive dsteps : dyns -> dyns -> Prop :=
| ds_refl : forall s, dsteps s s
| ds_step : forall s s' s'', dsteps s s' -> dstep s' s'' -> dsteps s s''.
