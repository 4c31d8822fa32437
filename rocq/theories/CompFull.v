(** CompFull.v -- what the calls of /repo/src/compression/building_block.rs write, apart from what they answer: to
    speak of the state a call that panics leaves.  C76_what_is_written ties it to the model of Compressed.v. *)
From Coq Require Import ZArith Init.Byte.
From Verif Require Import Base Block Spec Cut BTree Stream IOVec Compressed.
Set Implicit Arguments.

Section CompFull.
Variable S : Stream.
Variable L : Lz.
Context {K V : Type} {OK : Ord K} {OV : Ord V}.
Variable C : VCodec (K * V).
Variable srt : Sorter (K * V) V snd.
Variable bs : BSearch K.

(** The vector a call hands to Compressed::write, if it comes to that. *)
Definition written (s : compressed S) (o : op K V) : res (option (list (K * V))) :=
  match o with
  (* building_block.rs:229-313 *)
  | OpPush values =>
      match c_read_bytes L s with
      | None => Ok None
      | Some bytes =>
          match (match bytes with [] => Some [] | _ => c_de C bytes end), c_vsize C values with
          | Some vec, Some total =>
              let* room := sub_chk (c_cap s) (length bytes) in
              Ok (Some (
                if c_cap s <? total then
                  match find_cut_at_size (srt values) (c_esz0 C) (total - c_cap s) with (cut, _, _) => firstn cut (srt values) end
                else if total <=? room then vec ++ values
                else match find_cut_at_size (srt vec) (c_esz0 C) (total - room) with (cut, _, _) => firstn cut (srt vec) ++ values end))
          | _, _ => Ok None
          end
      end
  (* building_block.rs:52-74 *)
  | OpTake k =>
      match c_read L C s with
      | None => Ok None
      | Some v =>
          match find_index (fun kv => eqb (fst kv) k) v with
          | None => Ok None
          | Some i => let* (v', _) := vec_swap_remove i v in Ok (Some v')
          end
      end
  (* building_block.rs:92-147 *)
  | OpTakeMultiple ks =>
      match c_read L C s with
      | None => Ok None
      | Some v =>
          let* (v', out) := c_take_out (rev (c_matches bs (sort_keys ks) 0 v)) v in
          Ok (match out with [] => None | _ => Some v' end)
      end
  (* building_block.rs:165-205; when everything goes, the stream is only resized *)
  | OpPop n =>
      match c_read L C s with
      | None | Some [] => Ok None
      | Some v =>
          let v := stable_sort (fun kv => (snd kv, fst kv)) v in
          match find_cut_at_size v (c_esz0 C) n with
          | (split, split_size, _) => if split_size <? n then Ok None else Ok (Some (firstn split v))
          end
      end
  | OpFlush => Ok None
  end.
(** The call [o] writes, and the write leaves the container in the state [s']: [done] tells whether the write
    succeeds, and if not the call panics. *)
Definition leaves (s : compressed S) (o : op K V) (done : bool) (s' : compressed S) : Prop :=
  exists v, written s o = Ok (Some v) /\ c_write L C s v = Ok (s', done).
End CompFull.
