(** Stream.v -- model of the byte streams of /repo/src/stream: VecStream (vec_stream.rs), FileStream
    (file_stream.rs) and the provided methods of StreamBase (mod.rs). *)
From Coq Require Import ZArith Init.Byte.
From Coq Require Export List.
From Verif Require Import Base.
Set Implicit Arguments.

(** std::io::SeekFrom.  Simplification: positions are below 2^63, so that the conversions to and from i64
    (/repo/src/stream/vec_stream.rs:90-104) do not wrap. *)
Inductive seek_from : Type := SeekStart (n : nat) | SeekEnd (z : Z) | SeekCurrent (z : Z).

(** The traits Read, Write, Seek, StreamBase and Stream (/repo/src/stream/mod.rs:44-83): [sW] is what all the
    clones of a stream share, [sH] what each handle has of its own.  A result [None] is an [Err]. *)
Record Stream : Type := mkStream {
  sW : Type;
  sH : Type;
  s_new : sW * sH;
  s_clone : sH -> sH;
  s_read : sW -> sH -> nat -> sW * sH * option (list byte);
  s_write : sW -> sH -> list byte -> res (sW * sH * option nat);
  s_seek : sW -> sH -> seek_from -> sW * sH * option nat;
  s_resize : sW -> sH -> nat -> sW * sH * option unit
}.

(** Vec::resize(n, 0u8). *)
Definition vec_resize (n : nat) (v : list byte) : list byte := firstn n v ++ repeat x00 (n - length v).
(** [slice[p..p + buf.len()].copy_from_slice(buf)]. *)
Definition overwrite (v : list byte) (p : nat) (buf : list byte) : list byte :=
  firstn p v ++ buf ++ skipn (p + length buf) v.

(** VecStream::read, /repo/src/stream/vec_stream.rs:40-60. *)
Definition vs_read (v : list byte) (pos : nat) (buf_len : nat) : list byte * nat * option (list byte) :=
  if length v <=? pos then (v, pos, Some [])
  else
    let len := if length v - pos <? buf_len then length v - pos else buf_len in
    (v, pos + len, Some (firstn len (skipn pos v))).
(** VecStream::write, /repo/src/stream/vec_stream.rs:62-81; [vec_len - self.pos] underflows when another
    clone has shrunk the vector. *)
Definition vs_write (v : list byte) (pos : nat) (buf : list byte) : res (list byte * nat * option nat) :=
  let* room := sub_chk (length v) pos in
  let v1 := if room <? length buf then vec_resize (pos + length buf) v else v in
  Ok (overwrite v1 pos buf, pos + length buf, Some (length buf)).
(** VecStream::seek, /repo/src/stream/vec_stream.rs:88-107. *)
Definition vs_target (len pos : nat) (s : seek_from) : Z :=
  match s with
  | SeekStart n => Z.of_nat n
  | SeekEnd z => (z + Z.of_nat len)%Z
  | SeekCurrent z => (Z.of_nat pos + z)%Z
  end.
Definition vs_seek (v : list byte) (pos : nat) (s : seek_from) : list byte * nat * option nat :=
  let max := Z.of_nat (length v) in
  let p := vs_target (length v) pos s in
  let p' := if (p <? 0)%Z then 0%Z else if (max <? p)%Z then max else p in
  (v, Z.to_nat p', Some (Z.to_nat p')).
(** VecStream::resize, /repo/src/stream/vec_stream.rs:114-119. *)
Definition vs_resize (v : list byte) (pos size : nat) : list byte * nat * option unit :=
  (vec_resize size v, if size <? pos then size else pos, Some tt).

(** struct VecStream, new, clone: /repo/src/stream/vec_stream.rs:10-38 (clones share [vec], copy [pos]). *)
Definition VecStream : Stream := {|
  sW := list byte; sH := nat;
  s_new := ([], 0);
  s_clone := fun p => p;
  s_read := vs_read; s_write := vs_write; s_seek := vs_seek; s_resize := vs_resize
|}.

(** FileStream, /repo/src/stream/file_stream.rs:24-123: a file opened with [OpenOptions::new().write(true)],
    hence not readable: [read] fails.  [try_clone] duplicates the descriptor: all the clones share one cursor.
    POSIX files: a seek below 0 fails, a seek beyond the end is allowed, a write there zero-fills. *)
Definition fs_write (w : list byte * nat) (h : unit) (buf : list byte) : res (list byte * nat * unit * option nat) :=
  let (v, pos) := w in
  let v1 := if length v <? pos + length buf then vec_resize (pos + length buf) v else v in
  Ok ((overwrite v1 pos buf, pos + length buf), h, Some (length buf)).
Definition fs_seek (w : list byte * nat) (h : unit) (s : seek_from) : list byte * nat * unit * option nat :=
  let (v, pos) := w in
  let p := vs_target (length v) pos s in
  if (p <? 0)%Z then (w, h, None) else ((v, Z.to_nat p), h, Some (Z.to_nat p)).
Definition FileStream : Stream := {|
  sW := list byte * nat; sH := unit;
  s_new := (([], 0), tt);
  s_clone := fun h => h;
  s_read := fun w h _ => (w, h, None);
  s_write := fs_write;
  s_seek := fs_seek;
  s_resize := fun w h n => ((vec_resize n (fst w), snd w), h, Some tt)
|}.

(** StreamBase::len and is_empty (provided), /repo/src/stream/mod.rs:64-73. *)
Definition st_len (S : Stream) (w : sW S) (h : sH S) : sW S * sH S * option nat := s_seek S w h (SeekEnd 0).
Definition st_is_empty (S : Stream) (w : sW S) (h : sH S) : sW S * sH S * option bool :=
  match st_len S w h with
  | (w', h', Some l) => (w', h', Some (0 <? l))
  | (w', h', None) => (w', h', None)
  end.

(** ** Several clones of one stream: the shared contents and the handles in the order they were made. *)
Inductive stream_call : Type :=
| CallClone (i : nat)
| CallRead (i n : nat)
| CallWrite (i : nat) (buf : list byte)
| CallSeek (i : nat) (s : seek_from)
| CallResize (i n : nat).
Inductive stream_reply : Type :=
| ReplyBytes (b : list byte) | ReplyCount (n : nat) | ReplyUnit | ReplyErr | ReplyNoHandle.

Unset Implicit Arguments.
Definition handles (S : Stream) : Type := (sW S * list (sH S))%type.
Definition call (S : Stream) (c : stream_call) (x : handles S) : res (handles S * stream_reply) :=
  let (w, hs) := x in
  let on i (f : sH S -> res (handles S * stream_reply)) :=
    match nth_error hs i with None => Ok (x, ReplyNoHandle) | Some h => f h end in
  match c with
  | CallClone i => on i (fun h => Ok ((w, hs ++ [s_clone S h]), ReplyUnit))
  | CallRead i n => on i (fun h =>
      let '(w', h', r) := s_read S w h n in
      Ok ((w', replace_nth i h' hs), match r with Some b => ReplyBytes b | None => ReplyErr end))
  | CallWrite i b => on i (fun h =>
      let* (w', h', r) := s_write S w h b in
      Ok ((w', replace_nth i h' hs), match r with Some n => ReplyCount n | None => ReplyErr end))
  | CallSeek i s => on i (fun h =>
      let '(w', h', r) := s_seek S w h s in
      Ok ((w', replace_nth i h' hs), match r with Some n => ReplyCount n | None => ReplyErr end))
  | CallResize i n => on i (fun h =>
      let '(w', h', r) := s_resize S w h n in
      Ok ((w', replace_nth i h' hs), match r with Some _ => ReplyUnit | None => ReplyErr end))
  end.
Fixpoint calls (S : Stream) (l : list stream_call) (x : handles S) : res (handles S * list stream_reply) :=
  match l with
  | [] => Ok (x, [])
  | c :: l' =>
      let* (x1, r) := call S c x in
      let* (x2, rs) := calls S l' x1 in
      Ok (x2, r :: rs)
  end.
