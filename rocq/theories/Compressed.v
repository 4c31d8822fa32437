(** Compressed.v -- model of /repo/src/compression: a vector of pairs, serialized then compressed in a stream. *)
From Coq Require Import ZArith Init.Byte.
From Verif Require Import Base Block Cut BTree Stream IOVec.
Set Implicit Arguments.

(** The lz4 crate: an encoder writing one frame and a decoder reading it.  A stream with no byte at all decodes
    to no byte. *)
Record Lz : Type := {
  lz : list byte -> list byte;
  unlz : list byte -> option (list byte);
  unlz_lz : forall b, unlz (lz b) = Some b;
  unlz_nil : unlz [] = Some []
}.
(** bincode on vectors: [c_esz] is serialized_size of an element (None: an error), [c_ser] and [c_de] are
    serialize and deserialize_from on vectors.  A vector takes 8 bytes (its length) and its elements. *)
Record VCodec (T : Type) : Type := {
  c_esz : T -> option nat;
  c_ser : list T -> option (list byte);
  c_de : list byte -> option (list T);
  c_round : forall l b, c_ser l = Some b -> c_de b = Some l;
  c_len : forall l b, c_ser l = Some b -> length b = 8 + sum_sz (fun x => match c_esz x with Some n => n | None => 0 end) l;
  c_some : forall l, (exists b, c_ser l = Some b) <-> Forall (fun x => c_esz x <> None) l
}.

Section Compressed.
Variable S : Stream.
Variable L : Lz.
Context {K V : Type} {OK : Ord K} {OV : Ord V}.
Variable C : VCodec (K * V).
Variable srt : Sorter (K * V) V snd.
Variable bs : BSearch K.

(** struct Compressed, new, shallow_copy: /repo/src/compression/compression.rs:64-90. *)
Record compressed : Type := mkC { c_w : sW S; c_h : sH S; c_cap : nat }.
Definition c_new (stream : sW S * sH S) (capacity : nat) : compressed := mkC (fst stream) (snd stream) capacity.

(** read_bytes, /repo/src/compression/compression.rs:92-113.  Simplification: the successive reads of
    [read_to_end] are one read of the whole stream. *)
Definition c_read_bytes (s : compressed) : option (list byte) :=
  let '(w, h, r) := s_seek S (c_w s) (s_clone S (c_h s)) (SeekStart 0) in
  match r with
  | None => None
  | Some _ =>
      match snd (s_seek S w h (SeekEnd 0)) with
      | None => None
      | Some n => match snd (s_read S w h n) with None => None | Some b => unlz L b end
      end
  end.
(** read, /repo/src/compression/compression.rs:115-127. *)
Definition c_read (s : compressed) : option (list (K * V)) :=
  match c_read_bytes s with
  | None => None
  | Some [] => Some []
  | Some bytes => c_de C bytes
  end.
(** write, /repo/src/compression/compression.rs:132-190; the boolean tells success.  Simplification: the
    successive write_all of the encoder (header, blocks, end mark) are one. *)
Definition c_write (s : compressed) (val : list (K * V)) : res (compressed * bool) :=
  match val with
  | [] =>
      let '(w, h, r) := s_resize S (c_w s) (c_h s) 0 in
      Ok (mkC w h (c_cap s), match r with Some _ => true | None => false end)
  | _ =>
      match c_ser C val with
      | None => Ok (s, false)
      | Some bytes =>
          if c_cap s <? length bytes then Ok (s, false)
          else
            let '(w, h, r) := s_resize S (c_w s) (c_h s) 0 in
            match r with
            | None => Ok (mkC w h (c_cap s), false)
            | Some _ =>
                let '(w, h, r) := s_seek S w h (SeekStart 0) in
                match r with
                | None => Ok (mkC w h (c_cap s), false)
                | Some _ =>
                    let* (w, h, _, ok) := write_all S w h (lz L bytes) in
                    Ok (mkC w h (c_cap s), ok)
                end
            end
      end
  end.
(** [self.write(..).expect(..)] *)
Definition c_write_or_panic (s : compressed) (val : list (K * V)) : res compressed :=
  let* (s', ok) := c_write s val in if ok then Ok s' else Panic.

(** size, /repo/src/compression/building_block.rs:25-30. *)
Definition c_size (s : compressed) : nat := match c_read_bytes s with None => 0 | Some b => length b end.
(** contains, /repo/src/compression/building_block.rs:36-43. *)
Definition c_contains (s : compressed) (k : K) : res bool :=
  Ok (match c_read s with None => false | Some v => existsb (fun kv => eqb (fst kv) k) v end).

(** Vec::swap_remove, which panics out of bounds. *)
Definition vec_swap_remove {T} (i : nat) (l : list T) : res (list T * T) :=
  match nth_error l i with Some x => Ok (swap_remove i l, x) | None => Panic end.

(** take, /repo/src/compression/building_block.rs:52-81. *)
Definition c_take (s : compressed) (k : K) : res (compressed * option (K * V)) :=
  match c_read s with
  | None => Ok (s, None)
  | Some v =>
      match find_index (fun kv => eqb (fst kv) k) v with
      | None => Ok (s, None)
      | Some i =>
          let* (v', ret) := vec_swap_remove i v in
          let* s' := c_write_or_panic s v' in
          Ok (s', Some ret)
      end
  end.

(** take_multiple, /repo/src/compression/building_block.rs:92-150: the matches (lines 112-121); their removal
    from the container in descending order (124-133); their removal from the keys (136-139). *)
Fixpoint c_matches (ks : list K) (j : nat) (v : list (K * V)) : list (nat * nat) :=
  match v with
  | [] => []
  | (k, _) :: v' =>
      match bs ks k with
      | Some i => (j, i) :: c_matches ks (Datatypes.S j) v'
      | None => c_matches ks (Datatypes.S j) v'
      end
  end.
Fixpoint c_take_out (ms : list (nat * nat)) (v : list (K * V)) : res (list (K * V) * list (K * V)) :=
  match ms with
  | [] => Ok (v, [])
  | (j, _) :: ms' =>
      let* (v', e) := vec_swap_remove j v in
      let* (v'', out) := c_take_out ms' v' in
      Ok (v'', e :: out)
  end.
Fixpoint c_drop_keys (ix : list nat) (ks : list K) : res (list K) :=
  match ix with
  | [] => Ok ks
  | i :: ix' => let* (ks', _) := vec_swap_remove i ks in c_drop_keys ix' ks'
  end.
Definition c_take_multiple (s : compressed) (ks : list K) : res (compressed * list K * list (K * V)) :=
  match c_read s with
  | None => Ok (s, ks, [])
  | Some v =>
      let ks := sort_keys ks in
      let ms := rev (c_matches ks 0 v) in
      let* (v', out) := c_take_out ms v in
      let* ks' := c_drop_keys (rev (stable_sort (fun i => i) (map snd ms))) ks in
      match out with
      | [] => Ok (s, ks', [])
      | _ => let* s' := c_write_or_panic s v' in Ok (s', ks', out)
      end
  end.

(** [bincode::serialized_size(e)], 0 in case of error. *)
Definition c_esz0 (x : K * V) : nat := match c_esz C x with Some n => n | None => 0 end.

(** pop, /repo/src/compression/building_block.rs:165-213. *)
Definition c_pop (s : compressed) (n : nat) : res (compressed * list (K * V)) :=
  match c_read s with
  | None => Ok (s, [])
  | Some [] => Ok (s, [])
  | Some v =>
      let v := stable_sort (fun kv => (snd kv, fst kv)) v in
      match find_cut_at_size v c_esz0 n with
      | (split, split_size, _) =>
          if split_size <? n then
            let '(w, h, r) := s_resize S (c_w s) (c_h s) 0 in
            Ok (mkC w h (c_cap s), match r with Some _ => v | None => [] end)
          else
            let* s' := c_write_or_panic s (firstn split v) in
            Ok (s', skipn split v)
      end
  end.

(** [bincode::serialized_size(&values)] of a vector. *)
Definition c_vsize (l : list (K * V)) : option nat :=
  if forallb (fun x => match c_esz C x with Some _ => true | None => false end) l
  then Some (8 + sum_sz c_esz0 l) else None.

(** push, /repo/src/compression/building_block.rs:229-317. *)
Definition c_push (s : compressed) (values : list (K * V)) : res (compressed * list (K * V)) :=
  match c_read_bytes s with
  | None => Ok (s, values)
  | Some bytes =>
      match (match bytes with [] => Some [] | _ => c_de C bytes end) with
      | None => Ok (s, values)
      | Some vec =>
          match c_vsize values with
          | None => Ok (s, values)
          | Some total =>
              let* room := sub_chk (c_cap s) (length bytes) in
              let (in_vec, out_vec) :=
                if c_cap s <? total then
                  let vals := srt values in
                  match find_cut_at_size vals c_esz0 (total - c_cap s) with
                  | (cut, _, _) => (firstn cut vals, vec ++ skipn cut vals)
                  end
                else if total <=? room then (vec ++ values, [])
                else
                  let vec := srt vec in
                  match find_cut_at_size vec c_esz0 (total - room) with
                  | (cut, _, _) => (firstn cut vec ++ values, skipn cut vec)
                  end in
              let* s' := c_write_or_panic s in_vec in
              Ok (s', out_vec)
          end
      end
  end.

(** flush, /repo/src/compression/building_block.rs:322-334. *)
Definition c_flush (s : compressed) : res (compressed * list (K * V)) :=
  match c_read s with
  | None => Ok (s, [])
  | Some v =>
      let '(w, h, r) := s_resize S (c_w s) (c_h s) 0 in
      Ok (mkC w h (c_cap s), match r with Some _ => v | None => [] end)
  end.

Definition CompressedB : Block K V := {|
  St := compressed;
  capacity := c_cap;
  size := c_size;
  contains := c_contains;
  take := c_take;
  take_multiple := c_take_multiple;
  pop := c_pop;
  push := c_push;
  flush := c_flush
|}.

(** get, /repo/src/compression/get.rs:97-109: a copy. *)
Definition c_get (s : compressed) (k : K) : option V :=
  match c_read s with
  | None => None
  | Some v => option_map snd (find (fun kv => eqb (fst kv) k) v)
  end.
(** get_mut, /repo/src/compression/get.rs:120-145, the user writing [f] through the cell, whose drop
    (lines 78-86) writes the vector back through a clone of the stream. *)
Definition c_get_mut (s : compressed) (k : K) (f : V -> V) : res (compressed * option V) :=
  match c_read s with
  | None => Ok (s, None)
  | Some v =>
      match find_index (fun kv => eqb (fst kv) k) v with
      | None => Ok (s, None)
      | Some i =>
          let* kv := unwrap (nth_error v i) in
          let* s' := c_write_or_panic (mkC (c_w s) (s_clone S (c_h s)) (c_cap s)) (replace_nth i (fst kv, f (snd kv)) v) in
          Ok (mkC (c_w s') (c_h s) (c_cap s), Some (snd kv))
      end
  end.
End Compressed.
