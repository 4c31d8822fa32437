(** Backs.v -- the containers behind an Inclusive that Inclusive.v leaves out: the guard of their get, which
    Inclusive keeps while it writes back what its front has evicted, /repo/src/inclusive/get.rs:13-47. *)
From Coq Require Import Init.Byte.
From Verif Require Import Base Block Cut Exclusive Stream IOVec ByteStream Compressed Get Inclusive.
Set Implicit Arguments.

(** CompressedCell, /repo/src/compression/get.rs:11-13, 97-109: the guard has a copy of the value; what is done through it,
    marking the cell as cloned included, is done to the copy, and dropping it does nothing. *)
Definition compressed_copy {K V} {OK : Ord K} {OV : Ord V} (S : Stream) (L : Lz) (C : VCodec (K * V)) (srt : Sorter (K * V) V snd) (bs : BSearch K) :
  TGetter (CompressedB S L C srt bs) :=
  @mkTG K V (CompressedB S L C srt bs) unit (fun s k _ => Ok (s, option_map (fun v => (v, tt)) (c_get L C s k))) (fun s _ => Ok s).
(** StreamCell, /repo/src/stream/get.rs:13-22, 71-82: likewise. *)
Definition stream_copy {K V} {OK : Ord K} {OV : Ord V} (S : Stream) (bs : BSearch K) (ser : K * V -> option (list byte)) (de : list byte -> option (K * V)) :
  TGetter (ByteStreamB S bs ser de) :=
  @mkTG K V (ByteStreamB S bs ser de) unit (fun s k _ => let* o := bs_get de s k in Ok (s, option_map (fun v => (v, tt)) o)) (fun s _ => Ok s).
(** Exclusive, /repo/src/exclusive/get.rs:12-23: the guard is that of its front, where the element has been brought. *)
Definition ex_open {K V} (L R : Block K V) (tg : TGetter L) (s : exclusive L R) (k : K) (f : V -> V) : res (exclusive L R * option (V * tG tg)) :=
  let* b := contains L (fst s) k in
  if b then let* (l, o) := t_open tg (fst s) k f in Ok ((l, snd s), o)
  else
    let* (s1, found) := ex_downgrade s k in
    if found then let* (l, o) := t_open tg (fst s1) k f in Ok ((l, snd s1), o) else Ok (s1, None).
Definition exclusive_tget {K V} {OK : Ord K} (bs : BSearch K) (L R : Block K V) (tg : TGetter L) : TGetter (ExclusiveB bs L R) :=
  @mkTG K V (ExclusiveB bs L R) (tG tg) (fun s k f => ex_open tg s k f) (fun s g => let* l := t_close tg (fst s) g in Ok (l, snd s)).

(** Sequential used by one thread that keeps guards: the state has the number of guards of get alive, each of them a shared
    holder of the lock (SequentialCell, /repo/src/sequential/get.rs:20-38, 65-80).  A call that takes the lock
    exclusively (/repo/src/sequential/building_block.rs:34-38, 46-63) while there is one waits for ever: the lock is given only
    when nobody holds it (/repo/src/utils/lock.rs), and the only thread that could drop the guard is the one that waits.
    [Panic] stands here for a call that does not return. *)
Section Held.
Context {K V : Type}.
Variable C : Block K V.
Definition alone {A} (s : St C * nat) (r : res A) : res A := match snd s with 0 => r | S _ => Panic end.
Definition HeldB : Block K V := {|
  St := (St C * nat)%type;
  capacity := fun s => capacity C (fst s);
  size := fun s => size C (fst s);
  contains := fun s k => contains C (fst s) k;
  take := fun s k => alone s (let* (c, o) := take C (fst s) k in Ok ((c, snd s), o));
  take_multiple := fun s ks => let* (c, ks', o) := take_multiple C (fst s) ks in Ok ((c, snd s), ks', o);
  pop := fun s n => alone s (let* (c, o) := pop C (fst s) n in Ok ((c, snd s), o));
  push := fun s vs => alone s (let* (c, o) := push C (fst s) vs in Ok ((c, snd s), o));
  flush := fun s => let* (c, o) := flush C (fst s) in Ok ((c, snd s), o)
|}.
(** get, /repo/src/sequential/get.rs:65-80: the lock is given back at once if there is nothing, else by the drop (34-38). *)
Variable tg : TGetter C.
Definition held_tget : TGetter HeldB :=
  @mkTG K V HeldB (tG tg)
    (fun s k f => let* (c, o) := t_open tg (fst s) k f in Ok ((c, match o with Some _ => S (snd s) | None => snd s end), o))
    (fun s g => let* c := t_close tg (fst s) g in Ok (c, pred (snd s))).
End Held.
