(** IOVec.v -- model of /repo/src/stream/io_vec.rs: a vector of values in fixed size chunks of a byte stream.

    [ser] and [de] stand for bincode::serialize and bincode::deserialize_from, [None] for their errors.  Their
    round trip is a hypothesis of the theorems, not of the model.  An [IOResult] is an [option]: which error it
    is does not matter to any caller.  Clones of the stream made by [&self] methods are dropped at the end of
    the method: what they did to the shared part of the stream is kept for methods that write, and ignored for
    methods that only read (only a file's shared cursor could differ, and every method seeks first, except
    [into_iter], which is modelled with the cursor of the vector's own handle). *)
From Coq Require Import ZArith NArith Init.Byte.
From Verif Require Import Base Stream.
Set Implicit Arguments.

(** Default capacity of std::io::BufReader and BufWriter. *)
Definition bufcap : nat := N.to_nat 8192.

Section IOVec.
Variable S : Stream.
Variable T : Type.
Variable ser : T -> option (list byte).
Variable de : list byte -> option T.

(** struct IOVec, new: /repo/src/stream/io_vec.rs:90-98, 406-412. *)
Record iovec : Type := mkIV { iv_w : sW S; iv_h : sH S; iv_chunk : nat }.
Definition iv_new (store : sW S * sH S) (chunk_size : nat) : iovec := mkIV (fst store) (snd store) chunk_size.

(** IOChunk::from_stream, /repo/src/stream/io_vec.rs:28-43, from what the read returned. *)
Definition chunk_from (size : nat) (r : option (list byte)) : option (option (list byte)) :=
  match r with
  | None => None
  | Some buf => Some (if length buf <? size then None else Some buf)
  end.
(** IOChunk::serialize into a chunk of [size] zeros, /repo/src/stream/io_vec.rs:50-63. *)
Definition chunk_serialize (size : nat) (item : T) : option (list byte) :=
  match ser item with
  | None => None
  | Some v => if size <? length v then None else Some (vec_resize size v)
  end.

(** ** std::io::BufReader: the handle it owns and the bytes read ahead. *)
Record bufreader : Type := mkBR { br_w : sW S; br_h : sH S; br_buf : list byte }.
Definition br_new (w : sW S) (h : sH S) : bufreader := mkBR w h [].
(** BufReader::read: with nothing read ahead, a large request bypasses the buffer; otherwise the buffer is
    filled once and what it has is returned. *)
Definition br_read (b : bufreader) (n : nat) : bufreader * option (list byte) :=
  match br_buf b with
  | [] =>
      if bufcap <=? n then
        let '(w, h, r) := s_read S (br_w b) (br_h b) n in (mkBR w h [], r)
      else
        let '(w, h, r) := s_read S (br_w b) (br_h b) bufcap in
        match r with
        | None => (mkBR w h [], None)
        | Some buf => (mkBR w h (skipn n buf), Some (firstn n buf))
        end
  | buf => (mkBR (br_w b) (br_h b) (skipn n buf), Some (firstn n buf))
  end.

(** IOVecIter::next and IOIter::next, /repo/src/stream/io_vec.rs:253-264, 298-309. *)
Definition iter_next (chunk : nat) (b : bufreader) : res (bufreader * option T) :=
  let (b', r) := br_read b chunk in
  match chunk_from chunk r with
  | None => Panic
  | Some None => Ok (b', None)
  | Some (Some c) => match de c with None => Panic | Some o => Ok (b', Some o) end
  end.
(** [iterator.enumerate().find_map(p)].  [fuel] bounds the number of items: one more than there are bytes is
    always enough for chunks of at least one byte. *)
Fixpoint iter_find {A} (p : nat -> T -> option A) (chunk fuel j : nat) (b : bufreader) : res (option A) :=
  match fuel with
  | 0 => Ok None
  | Datatypes.S fuel' =>
      let* (b', o) := iter_next chunk b in
      match o with
      | None => Ok None
      | Some x => match p j x with Some a => Ok (Some a) | None => iter_find p chunk fuel' (Datatypes.S j) b' end
      end
  end.
(** [iterator.collect()]. *)
Fixpoint iter_list (chunk fuel : nat) (b : bufreader) : res (list T) :=
  match fuel with
  | 0 => Ok []
  | Datatypes.S fuel' =>
      let* (b', o) := iter_next chunk b in
      match o with
      | None => Ok []
      | Some x => let* l := iter_list chunk fuel' b' in Ok (x :: l)
      end
  end.

(** size, /repo/src/stream/io_vec.rs:430-435. *)
Definition iv_size (v : iovec) : option nat :=
  snd (s_seek S (iv_w v) (s_clone S (iv_h v)) (SeekEnd 0)).
Definition iv_fuel (v : iovec) : nat := match iv_size v with Some n => Datatypes.S n | None => 1 end.
(** len, /repo/src/stream/io_vec.rs:420-427 (a chunk size of 0 would divide by zero). *)
Definition iv_len (v : iovec) : res (option nat) :=
  match iv_size v with
  | None => Ok None
  | Some pos => if iv_chunk v =? 0 then Panic else Ok (Some (pos / iv_chunk v))
  end.
(** is_empty, /repo/src/stream/io_vec.rs:437-444. *)
Definition iv_is_empty (v : iovec) : bool :=
  match snd (s_seek S (iv_w v) (s_clone S (iv_h v)) (SeekCurrent 0)) with
  | None => true
  | Some pos => pos =? 0
  end.

(** iter, /repo/src/stream/io_vec.rs:616-621. *)
Definition iv_iter (v : iovec) : res bufreader :=
  let '(w, h, r) := s_seek S (iv_w v) (s_clone S (iv_h v)) (SeekStart 0) in
  match r with None => Panic | Some _ => Ok (br_new w h) end.
Definition iv_find {A} (p : nat -> T -> option A) (v : iovec) : res (option A) :=
  let* b := iv_iter v in iter_find p (iv_chunk v) (iv_fuel v) 0 b.
Definition iv_list (v : iovec) : res (list T) :=
  let* b := iv_iter v in iter_list (iv_chunk v) (iv_fuel v) b.
(** into_iter, /repo/src/stream/io_vec.rs:624-626: from the current position. *)
Definition iv_into_list (v : iovec) : res (list T) :=
  iter_list (iv_chunk v) (iv_fuel v) (br_new (iv_w v) (iv_h v)).

(** get, /repo/src/stream/io_vec.rs:459-476. *)
Definition iv_get (v : iovec) (n : nat) : option (option T) :=
  let '(w, h, r) := s_seek S (iv_w v) (s_clone S (iv_h v)) (SeekStart (n * iv_chunk v)) in
  match r with
  | None => None
  | Some _ =>
      let '(_, _, b) := s_read S w h (iv_chunk v) in
      match chunk_from (iv_chunk v) b with
      | None => None
      | Some None => Some None
      | Some (Some c) => match de c with None => None | Some item => Some (Some item) end
      end
  end.

(** The standard library's loop around [write] (Write::write_all, BufWriter::flush_buf): again while a write
    stores only part of the bytes; an error, or nothing stored, ends it.  What was not written, and whether all
    was.  Left out: ErrorKind::Interrupted, which is retried. *)
Fixpoint write_loop (fuel : nat) (w : sW S) (h : sH S) (buf : list byte) : res (sW S * sH S * list byte * bool) :=
  match buf, fuel with
  | [], _ => Ok (w, h, [], true)
  | _, 0 => Ok (w, h, buf, false)
  | _, Datatypes.S fuel' =>
      let* (w', h', r) := s_write S w h buf in
      match r with
      | None | Some 0 => Ok (w', h', buf, false)
      | Some n => write_loop fuel' w' h' (skipn n buf)
      end
  end.
Definition write_all (w : sW S) (h : sH S) (buf : list byte) := write_loop (length buf) w h buf.

(** IOStructMut::drop after a write, /repo/src/stream/io_vec.rs:151-166.  Simplification: the successive small
    write_all of bincode::serialize_into are one. *)
Definition write_back (w : sW S) (h : sH S) (pos : nat) (item : T) : res (sW S) :=
  let '(w1, h1, r) := s_seek S w h (SeekStart pos) in
  match r, ser item with
  | Some _, Some bytes =>
      let* (w2, _, _, ok) := write_all w1 h1 bytes in
      if ok : bool then Ok w2 else Panic
  | _, _ => Panic
  end.
(** IOStructMut::new, /repo/src/stream/io_vec.rs:131-143: the position the item will be written back to is the
    current position of the handle it is given. *)
Definition struct_mut_pos (w : sW S) (h : sH S) : sW S * sH S * option nat := s_seek S w h (SeekCurrent 0).

(** get_mut, /repo/src/stream/io_vec.rs:493-516, the user writing [f] through the structure, which is then
    dropped: the new vector and what the structure showed. *)
Definition iv_get_mut (v : iovec) (n : nat) (f : T -> T) : res (iovec * option (option T)) :=
  let '(w, h, r) := s_seek S (iv_w v) (s_clone S (iv_h v)) (SeekStart (n * iv_chunk v)) in
  match r with
  | None => Ok (v, None)
  | Some _ =>
      let '(w1, h1, b) := s_read S w h (iv_chunk v) in
      match chunk_from (iv_chunk v) b with
      | None => Ok (v, None)
      | Some None => Ok (v, Some None)
      | Some (Some c) =>
          match de c with
          | None => Ok (v, None)
          | Some item =>
              let '(w2, h2, p) := struct_mut_pos w1 h1 in
              match p with
              | None => Ok (v, None)
              | Some pos =>
                  let* w3 := write_back w2 h2 pos (f item) in
                  Ok (mkIV w3 (iv_h v) (iv_chunk v), Some (Some item))
              end
          end
      end
  end.

(** IOVecIterMut, /repo/src/stream/io_vec.rs:312-388: a reader, and a handle [im_pos] at the position of the
    next item.  Panics on every error. *)
Record itermut : Type := mkIM { im_br : bufreader; im_pos : sH S }.
Definition iter_mut_next (chunk : nat) (m : itermut) : res (itermut * option (T * nat * sH S)) :=
  let current := s_clone S (im_pos m) in
  let (b', r) := br_read (im_br m) chunk in
  match chunk_from chunk r with
  | None => Panic
  | Some None => Ok (mkIM b' (im_pos m), None)
  | Some (Some c) =>
      match de c with
      | None => Panic
      | Some o =>
          let '(w1, cur1, p) := struct_mut_pos (br_w b') current in
          match p with
          | None => Panic
          | Some pos =>
              let '(w2, pos1, q) := s_seek S w1 (im_pos m) (SeekCurrent (Z.of_nat chunk)) in
              match q with
              | None => Panic
              | Some _ => Ok (mkIM (mkBR w2 (br_h b') (br_buf b')) pos1, Some (o, pos, cur1))
              end
          end
      end
  end.
(** [iter_mut().find_map(..)] on the first item satisfying [p], which is written [f] and dropped: the items
    before it are dropped unwritten.  Returns the new shared part. *)
Fixpoint iter_mut_find (p : T -> bool) (f : T -> T) (chunk fuel : nat) (m : itermut) : res (option (sW S * T)) :=
  match fuel with
  | 0 => Ok None
  | Datatypes.S fuel' =>
      let* (m', o) := iter_mut_next chunk m in
      match o with
      | None => Ok None
      | Some (x, pos, cur) =>
          if p x then
            let* w := write_back (br_w (im_br m')) cur pos (f x) in Ok (Some (w, x))
          else iter_mut_find p f chunk fuel' m'
      end
  end.
(** iter_mut, /repo/src/stream/io_vec.rs:631-636. *)
Definition iv_find_mut (p : T -> bool) (f : T -> T) (v : iovec) : res (option (iovec * T)) :=
  let '(w, h, r) := s_seek S (iv_w v) (s_clone S (iv_h v)) (SeekStart 0) in
  match r with
  | None => Panic
  | Some _ =>
      let* o := iter_mut_find p f (iv_chunk v) (iv_fuel v) (mkIM (br_new w h) (s_clone S h)) in
      Ok (option_map (fun r => (mkIV (fst r) (iv_h v) (iv_chunk v), snd r)) o)
  end.

(** ** std::io::BufWriter.  [true] is success.  flush_buf keeps what it could not write. *)
Definition bw_flush (w : sW S) (h : sH S) (buf : list byte) : res (sW S * sH S * list byte * bool) :=
  write_all w h buf.
Definition bw_write (w : sW S) (h : sH S) (buf c : list byte) : res (sW S * sH S * list byte * bool) :=
  if length c <? bufcap - length buf then Ok (w, h, buf ++ c, true)
  else
    let* (w1, h1, buf1, ok) :=
      (if bufcap - length buf <? length c then bw_flush w h buf else Ok (w, h, buf, true)) in
    if negb ok then Ok (w1, h1, buf1, false)
    else if bufcap <=? length c then
      let* (w2, h2, r) := s_write S w1 h1 c in
      Ok (w2, h2, buf1, match r with Some _ => true | None => false end)
    else Ok (w1, h1, buf1 ++ c, true).

(** The loop of append, /repo/src/stream/io_vec.rs:526-534: values are popped from the back ([rvs] is the
    vector reversed).  Returns the values left (reversed). *)
Fixpoint append_loop (chunk : nat) (rvs : list T) (w : sW S) (h : sH S) (buf : list byte)
  : res (sW S * sH S * list byte * list T * bool) :=
  match rvs with
  | [] => Ok (w, h, buf, [], true)
  | x :: rvs' =>
      match chunk_serialize chunk x with
      | None => Ok (w, h, buf, rvs', false)
      | Some c =>
          let* (w1, h1, buf1, ok) := bw_write w h buf c in
          if ok then append_loop chunk rvs' w1 h1 buf1 else Ok (w1, h1, buf1, rvs', false)
      end
  end.
(** append, /repo/src/stream/io_vec.rs:519-536.  The BufWriter is flushed when dropped, errors being ignored. *)
Definition iv_append (v : iovec) (values : list T) : res (iovec * list T * bool) :=
  let '(w, h, r) := s_seek S (iv_w v) (iv_h v) (SeekEnd 0) in
  match r with
  | None => Ok (mkIV w h (iv_chunk v), values, false)
  | Some _ =>
      let* (w1, h1, buf, rest, ok) := append_loop (iv_chunk v) (rev values) w h [] in
      let* (w2, h2, _, _) := bw_flush w1 h1 buf in
      Ok (mkIV w2 h2 (iv_chunk v), rev rest, ok)
  end.

(** swap_remove, /repo/src/stream/io_vec.rs:543-613. *)
Definition iv_swap_remove (v : iovec) (n : nat) : res (iovec * option (option T)) :=
  let c := iv_chunk v in
  let pos := n * c in
  let '(w, h, r) := s_seek S (iv_w v) (iv_h v) (SeekStart pos) in
  match r with
  | None => Ok (mkIV w h c, None)
  | Some _ =>
    let '(w, h, b) := s_read S w h c in
    let item := match chunk_from c b with
                | None => None
                | Some None => Some None
                | Some (Some buf) => match de buf with Some o => Some (Some o) | None => None end
                end in
    match item with
    | None => Ok (mkIV w h c, None)
    | Some item =>
      let '(w, h, e) := s_seek S w h (SeekEnd 0) in
      match e with
      | None => Ok (mkIV w h c, None)
      | Some ende =>
        if ende <? c then Ok (mkIV w h c, Some None)
        else
          let* (w, h, failed) :=
            (if pos <? ende - c then
               let '(w, h, r1) := s_seek S w h (SeekStart (ende - c)) in
               match r1 with
               | None => Ok (w, h, true)
               | Some _ =>
                 let '(w, h, b1) := s_read S w h c in
                 match chunk_from c b1 with
                 | None => Ok (w, h, true)
                 | Some None => Panic
                 | Some (Some last) =>
                   let '(w, h, r2) := s_seek S w h (SeekStart pos) in
                   match r2 with
                   | None => Ok (w, h, true)
                   | Some _ =>
                     let* (w, h, r3) := s_write S w h last in
                     Ok (w, h, match r3 with Some _ => false | None => true end)
                   end
                 end
               end
             else Ok (w, h, false)) in
          if failed : bool then Ok (mkIV w h c, None)
          else
            let '(w, h, r4) := s_resize S w h (ende - c) in
            match r4 with
            | None => Panic
            | Some _ => Ok (mkIV w h c, Some item)
            end
      end
    end
  end.
End IOVec.
