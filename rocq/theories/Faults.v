(** Faults.v -- an environment, not code of /repo: a stream whose operations may fail.  The trait Stream is public
    (/repo/src/stream/mod.rs:75-83); this one is the VecStream of /repo/src/stream/vec_stream.rs:40-119 with a list
    of what befalls its next operations: one that fails does nothing and returns an error; a write may also store
    the beginning of its buffer only.  After the list, everything works.  A read is whole or fails: the only reader
    considered (read_to_end, of Compressed) goes on reading after a short read, and fails at the first error. *)
From Coq Require Import ZArith Init.Byte.
From Verif Require Import Base Block Cut BTree Stream IOVec Compressed.
Set Implicit Arguments.

Inductive fault : Type := Works | Fails | Short (n : nat).
Definition next_fault (fs : list fault) : fault * list fault := match fs with [] => (Works, []) | f :: r => (f, r) end.

(** A handle: its position, what befalls its operations, and what befalls those of its clones.  Compressed reads
    through a clone and writes through its own handle, so the faults of the two are independent.  [C] is what is
    known of the clones: here the faults of a clone, of which no clone is made; in StreamFaults.v, also those of
    the clones of clones. *)
Definition fhandle (C : Type) : Type := nat * (list fault * C).
(** read, write, seek, resize, for vec_stream.rs:46-119. *)
Definition f_read {C} (v : list byte) (h : fhandle C) (n : nat) : list byte * fhandle C * option (list byte) :=
  let '(pos, (own, cl)) := h in
  match next_fault own with
  | (Fails, fs) => (v, (pos, (fs, cl)), None)
  | (_, fs) => let '(v', pos', r) := vs_read v pos n in (v', (pos', (fs, cl)), r)
  end.
Definition f_write {C} (v : list byte) (h : fhandle C) (buf : list byte) : res (list byte * fhandle C * option nat) :=
  let '(pos, (own, cl)) := h in
  match next_fault own with
  | (Fails, fs) => Ok (v, (pos, (fs, cl)), None)
  | (Works, fs) => let* (v', pos', r) := vs_write v pos buf in Ok (v', (pos', (fs, cl)), r)
  | (Short n, fs) => let* (v', pos', r) := vs_write v pos (firstn n buf) in Ok (v', (pos', (fs, cl)), r)
  end.
Definition f_seek {C} (v : list byte) (h : fhandle C) (where_ : seek_from) : list byte * fhandle C * option nat :=
  let '(pos, (own, cl)) := h in
  match next_fault own with
  | (Fails, fs) => (v, (pos, (fs, cl)), None)
  | (_, fs) => let '(v', pos', r) := vs_seek v pos where_ in (v', (pos', (fs, cl)), r)
  end.
Definition f_resize {C} (v : list byte) (h : fhandle C) (size : nat) : list byte * fhandle C * option unit :=
  let '(pos, (own, cl)) := h in
  match next_fault own with
  | (Fails, fs) => (v, (pos, (fs, cl)), None)
  | (_, fs) => let '(v', pos', r) := vs_resize v pos size in (v', (pos', (fs, cl)), r)
  end.
Definition FaultStream : Stream := {|
  sW := list byte; sH := fhandle (list fault);
  s_new := ([], (0, ([], [])));
  s_clone := fun h => (fst h, (snd (snd h), []));
  s_read := f_read (C := list fault); s_write := f_write (C := list fault); s_seek := f_seek (C := list fault); s_resize := f_resize (C := list fault)
|}.

(** The faults that a call meets: when it writes, and when it reads. *)
Definition faults : Type := list fault * list fault.
(** A Compressed whose stream meets the faults [fs], and the same without faults. *)
Definition faulty (fs : faults) (s : compressed VecStream) : compressed FaultStream :=
  @mkC FaultStream (c_w s) (c_h s, fs) (c_cap s).
Definition calm (s : compressed FaultStream) : compressed VecStream := @mkC VecStream (c_w s) (fst (c_h s)) (c_cap s).

(** A history, with the faults each call meets; if no call panics, the last state and what was handed back. *)
Section Faults.
Variable L : Lz.
Context {K V : Type} {OK : Ord K} {OV : Ord V}.
Variable C : VCodec (K * V).
Variable srt : Sorter (K * V) V snd.
Variable bs : BSearch K.
Fixpoint fault_run (s : compressed VecStream) (h : list (faults * op K V)) : res (compressed VecStream * list (K * V)) :=
  match h with
  | [] => Ok (s, [])
  | (fs, o) :: h' =>
      let* (s1, out) := step (CompressedB FaultStream L C srt bs) (faulty fs s) o in
      let* (s2, out') := fault_run (calm s1) h' in
      Ok (s2, out ++ out')
  end.
End Faults.
