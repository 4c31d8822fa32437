(** Guards.v -- guards of get and get_mut that are dropped after other calls on the container.

    LifeTimeGuard (/repo/src/utils/lifetime.rs:15-19) has no Drop of its own and holds only a PhantomData of the
    borrow, so the borrow of the container ends at the last use of the guard: the borrow checker accepts other
    calls before the end of the scope, where the cell inside the guard is dropped.  (Inclusive relies on it,
    /repo/src/inclusive/get.rs:13-47.)  The guards of Array and BTree are in Inclusive.v; these are the others.
    In all of them the guard has been written through: a guard that was only read is dropped without effect,
    except that of a BTree. *)
From Coq Require Import ZArith Init.Byte.
From Verif Require Import Base Block Stream IOVec ByteStream Compressed Inclusive.
Set Implicit Arguments.

(** CompressedMutCell, /repo/src/compression/get.rs:34-45: a handle on the same stream (shallow_copy), a copy of
    all the elements. *)
Section Compressed.
Variable S : Stream.
Variable L : Lz.
Context {K V : Type} {OK : Ord K} {OV : Ord V}.
Variable C : VCodec (K * V).
Variable srt : Sorter (K * V) V snd.
Variable bs : BSearch K.
Record c_guard : Type := mkCG { cg_h : sH S; cg_cap : nat; cg_elements : list (K * V) }.
(** get_mut, /repo/src/compression/get.rs:120-145, then [*guard = f( *guard)]. *)
Definition c_open (s : compressed S) (k : K) (f : V -> V) : res (compressed S * option (V * c_guard)) :=
  match c_read L C s with
  | None => Ok (s, None)
  | Some v =>
      match find_index (fun kv => eqb (fst kv) k) v with
      | None => Ok (s, None)
      | Some i =>
          let* kv := unwrap (nth_error v i) in
          Ok (s, Some (snd kv, mkCG (s_clone S (c_h s)) (c_cap s) (replace_nth i (fst kv, f (snd kv)) v)))
      end
  end.
(** drop, /repo/src/compression/get.rs:78-86. *)
Definition c_close (s : compressed S) (g : c_guard) : res (compressed S) :=
  let* s' := c_write_or_panic L C (mkC S (c_w s) (cg_h g) (cg_cap g)) (cg_elements g) in
  Ok (mkC S (c_w s') (c_h s) (c_cap s)).
Definition compressed_tget : TGetter (CompressedB S L C srt bs) :=
  @mkTG K V (CompressedB S L C srt bs) c_guard (fun s k f => c_open s k f) (fun s g => c_close s g).
End Compressed.

(** StreamMutCell, /repo/src/stream/get.rs:30-38, around an IOStructMut, /repo/src/stream/io_vec.rs:110-119: a
    handle on the stream of the element, a position, a copy of the element. *)
Section ByteStream.
Variable S : Stream.
Context {K V : Type} {OK : Ord K} {OV : Ord V}.
Variable ser : K * V -> option (list byte).
Variable de : list byte -> option (K * V).
Variable bs : BSearch K.
(** The stream is known by its slot.  Simplification: a flush while the guard is alive makes the container use
    new streams, the guard keeping the old one; this is not followed here. *)
Record bs_guard : Type := mkBG { bg_slot : nat; bg_h : sH S; bg_pos : nat; bg_item : K * V }.
(** [iter_mut().find_map(..)] up to the first item satisfying [p]. *)
Fixpoint iter_mut_open (p : K * V -> bool) (chunk fuel : nat) (m : itermut S) : res (option (sW S * (K * V) * nat * sH S)) :=
  match fuel with
  | 0 => Ok None
  | Datatypes.S fuel' =>
      let* (m', o) := iter_mut_next de chunk m in
      match o with
      | None => Ok None
      | Some (x, pos, cur) => if p x then Ok (Some (br_w (im_br m'), x, pos, cur)) else iter_mut_open p chunk fuel' m'
      end
  end.
Definition iv_open (p : K * V -> bool) (v : iovec S) : res (option (iovec S * (K * V) * nat * sH S)) :=
  let '(w, h, r) := s_seek S (iv_w v) (s_clone S (iv_h v)) (SeekStart 0) in
  match r with
  | None => Panic
  | Some _ =>
      let* o := iter_mut_open p (iv_chunk v) (iv_fuel v) (mkIM (br_new S w h) (s_clone S h)) in
      Ok (option_map (fun r => let '(w', x, pos, cur) := r in (mkIV S w' (iv_h v) (iv_chunk v), x, pos, cur)) o)
  end.
(** get_mut, /repo/src/stream/get.rs:93-110, then [*guard = f( *guard)]. *)
Fixpoint bs_slots_open (k : K) (f : V -> V) (i : nat) (slots : list (option (iovec S))) : res (list (option (iovec S)) * option (V * bs_guard)) :=
  match slots with
  | [] => Ok ([], None)
  | None :: r => let* (r', o) := bs_slots_open k f (Datatypes.S i) r in Ok (None :: r', o)
  | Some v :: r =>
      let* o := iv_open (fun kv => eqb (fst kv) k) v in
      match o with
      | Some (v', kv, pos, cur) => Ok (Some v' :: r, Some (snd kv, mkBG i cur pos (fst kv, f (snd kv))))
      | None => let* (r', o') := bs_slots_open k f (Datatypes.S i) r in Ok (Some v :: r', o')
      end
  end.
Definition bs_open (s : bstream S) (k : K) (f : V -> V) : res (bstream S * option (V * bs_guard)) :=
  let* (slots, o) := bs_slots_open k f 0 (st_slots s) in Ok (mkBS slots (st_cap s), o).
(** drop, /repo/src/stream/io_vec.rs:151-166. *)
Definition bs_close (s : bstream S) (g : bs_guard) : res (bstream S) :=
  match nth_error (st_slots s) (bg_slot g) with
  | Some (Some v) =>
      let* w := write_back S ser (iv_w v) (bg_h g) (bg_pos g) (bg_item g) in
      Ok (mkBS (replace_nth (bg_slot g) (Some (mkIV S w (iv_h v) (iv_chunk v))) (st_slots s)) (st_cap s))
  | _ => Ok s
  end.
Definition bytestream_tget : TGetter (ByteStreamB S bs ser de) :=
  @mkTG K V (ByteStreamB S bs ser de) bs_guard (fun s k f => bs_open s k f) (fun s g => bs_close s g).
End ByteStream.
