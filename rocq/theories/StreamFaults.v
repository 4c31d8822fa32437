(** StreamFaults.v -- an environment, not code of /repo: the streams of a ByteStream, whose operations may fail.
    The trait Stream is public (/repo/src/stream/mod.rs:75-83); this one is the FaultStream of Faults.v, whose
    reads may also come short, as those of std::io::Read may: [Short n] returns at most [n] bytes. *)
From Coq Require Import ZArith Init.Byte.
From Verif Require Import Base Block Cut BTree KMin Hasher Stream IOVec ByteStream Faults.
Set Implicit Arguments.

(** The faults of a handle: its own, and those of each clone of it ([0]), of each clone of these ([1]), and so on. *)
Definition sfaults : Type := list fault * (nat -> list fault).
Definition shandle : Type := fhandle (nat -> list fault).
Definition r_read (v : list byte) (h : shandle) (n : nat) : list byte * shandle * option (list byte) :=
  let '(pos, (own, cl)) := h in
  match next_fault own with
  | (Fails, fs) => (v, (pos, (fs, cl)), None)
  | (Works, fs) => let '(v', pos', r) := vs_read v pos n in (v', (pos', (fs, cl)), r)
  | (Short m, fs) => let '(v', pos', r) := vs_read v pos (Nat.min m n) in (v', (pos', (fs, cl)), r)
  end.
Definition clone_faults (cl : nat -> list fault) : sfaults := (cl 0, fun d => cl (S d)).
(** [nf]: what befalls the streams that the call creates. *)
Definition FaultyStream (nf : sfaults) : Stream := {|
  sW := list byte; sH := shandle;
  s_new := ([], (0, nf));
  s_clone := fun h => (fst h, clone_faults (snd (snd h)));
  s_read := r_read; s_write := f_write (C := nat -> list fault); s_seek := f_seek (C := nat -> list fault);
  s_resize := f_resize (C := nat -> list fault)
|}.

(** Nothing is done by halves: an operation works or fails.  A write that fails has stored nothing. *)
Definition whole1 (f : fault) : Prop := match f with Short _ => False | _ => True end.
Definition whole (fs : sfaults) : Prop := Forall whole1 (fst fs) /\ forall d, Forall whole1 (snd fs d).

Section StreamFaults.
Context {K V : Type} {OK : Ord K} {OV : Ord V}.
Variable bs : BSearch K.
Variable ser : K * V -> option (list byte).
Variable de : list byte -> option (K * V).

(** The stream of class [i] meets the faults [fs i]: when it is written to or taken from through its own handle,
    and when it is read through a clone. *)
Definition faulty_slot (nf : sfaults) (f : sfaults) (o : option (iovec VecStream)) : option (iovec (FaultyStream nf)) :=
  match o with None => None | Some v => Some (@mkIV (FaultyStream nf) (iv_w v) (iv_h v, f) (iv_chunk v)) end.
Fixpoint faulty_slots (nf : sfaults) (fs : nat -> sfaults) (i : nat) (sl : list (option (iovec VecStream))) :=
  match sl with [] => [] | o :: r => faulty_slot nf (fs i) o :: faulty_slots nf fs (S i) r end.
Definition faulty_bs nf fs (s : bstream VecStream) : bstream (FaultyStream nf) :=
  mkBS (faulty_slots nf fs 0 (st_slots s)) (st_cap s).
(** The same without faults. *)
Definition calm_v {nf} (v : iovec (FaultyStream nf)) : iovec VecStream := @mkIV VecStream (iv_w v) (fst (iv_h v)) (iv_chunk v).
Definition calm_bs {nf} (s : bstream (FaultyStream nf)) : bstream VecStream := mkBS (map (option_map calm_v) (st_slots s)) (st_cap s).

(** A history, with the faults that each call meets; if no call panics, the last state and what was handed back. *)
Fixpoint bs_fault_run (s : bstream VecStream) (h : list (sfaults * (nat -> sfaults) * op K V)) : res (bstream VecStream * list (K * V)) :=
  match h with
  | [] => Ok (s, [])
  | (nf, fs, o) :: h' =>
      let* (s1, out) := step (ByteStreamB (FaultyStream nf) bs ser de) (faulty_bs nf fs s) o in
      let* (s2, out') := bs_fault_run (calm_bs s1) h' in
      Ok (s2, out ++ out')
  end.
End StreamFaults.
