(** Quota.v -- an environment, not code of /repo: a stream that holds at most [quota] bytes, such as a file on
    a full device or under a limit on the size of files.  The trait Stream is public
    (/repo/src/stream/mod.rs:75-83) and anybody's stream can be given to ByteStream: this one is the VecStream
    of /repo/src/stream/vec_stream.rs:40-119 but for two methods.  As write(2) does, [write] stores the bytes
    there is room for, and fails when there is room for none; [resize] beyond the quota fails. *)
From Coq Require Import ZArith Init.Byte.
From Verif Require Import Base Stream IOVec ByteStream.
Set Implicit Arguments.

Section Quota.
Variable quota : nat.

(** write, for vec_stream.rs:62-81. *)
Definition q_write (v : list byte) (pos : nat) (buf : list byte) : res (list byte * nat * option nat) :=
  match buf with
  | [] => Ok (v, pos, Some 0)
  | _ => if quota <=? pos then Ok (v, pos, None) else vs_write v pos (firstn (quota - pos) buf)
  end.
(** resize, for vec_stream.rs:114-119. *)
Definition q_resize (v : list byte) (pos size : nat) : list byte * nat * option unit :=
  if quota <? size then (v, pos, None) else vs_resize v pos size.

Definition QuotaStream : Stream := {|
  sW := list byte; sH := nat;
  s_new := ([], 0);
  s_clone := fun p => p;
  s_read := vs_read; s_write := q_write; s_seek := vs_seek; s_resize := q_resize
|}.

(** ** Specification: what a ByteStream over such streams holds, read off their bytes: every stream is cut in
    chunks of its own length; bytes at the end too few for a chunk count for nothing. *)
Context {K V : Type}.
Variable de : list byte -> option (K * V).
Fixpoint chunks_of (fuel c : nat) (w : list byte) : list (list byte) :=
  match fuel with
  | 0 => []
  | S fuel' => if length w <? c then [] else firstn c w :: chunks_of fuel' c (skipn c w)
  end.
Definition decode (chs : list (list byte)) : list (K * V) :=
  flat_map (fun ch => match de ch with Some x => [x] | None => [] end) chs.
Definition stream_bytes (o : option (iovec QuotaStream)) : list byte := match o with Some v => iv_w v | None => [] end.
Definition stream_holds (o : option (iovec QuotaStream)) : list (K * V) :=
  match o with
  | Some v => decode (chunks_of (length (iv_w v : list byte)) (iv_chunk v) (iv_w v))
  | None => []
  end.
Definition holds_all (s : bstream QuotaStream) : list (K * V) := concat (map stream_holds (st_slots s)).
End Quota.
