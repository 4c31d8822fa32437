(** Hasher.v -- models of /repo/src/utils/math.rs, /repo/src/associative/multiset_hasher.rs and
    ByteStream::chunk_size (/repo/src/stream/stream.rs:107-115).  Machine words are N, truncated to 64 bits
    where the code can exceed them. *)
From Coq Require Import NArith List Lia.
From Verif Require Import Base.
Import ListNotations.
Local Open Scope N_scope.

(** The loop of log2, /repo/src/utils/math.rs:8-11: [while n != 0 { n >>= 1; i += 1 }] on n > 0 returns the
    number of iterations. *)
Fixpoint shifts (p : positive) : N :=
  match p with xH => 1 | xO q => N.succ (shifts q) | xI q => N.succ (shifts q) end.
(** log2, /repo/src/utils/math.rs:1-14. *)
Definition log2 (n : N) : N := match n with 0 => 0 | Npos p => shifts p - 1 end.

(** chunk_size, /repo/src/stream/stream.rs:107-115.  A shift of a u64 by 64 or more panics. *)
Definition chunk_size (size : N) : res (N * N) :=
  let i := log2 size in
  if N.shiftl 1 i =? size then Ok (i, size)
  else if i + 1 <? 64 then Ok (i + 1, N.shiftl 1 (i + 1)) else Panic.

(** struct ExclusiveHasher, /repo/src/associative/multiset_hasher.rs:23-28 (the inner hasher is the source of
    the word [x] below). *)
Record exhasher : Type := mkEH { eh_mask : N; eh_rshift : N; eh_nbits : N }.

Definition ones64 : N := N.ones 64.
(** finish, /repo/src/associative/multiset_hasher.rs:31-34; [x] is what the inner hasher returns. *)
Definition finish (h : exhasher) (x : N) : N := N.shiftr (N.land x (eh_mask h)) (eh_rshift h).
(** new, /repo/src/associative/multiset_hasher.rs:55-63. *)
Definition eh_new (nsets : N) : exhasher :=
  let nbits := log2 nsets + 1 in
  mkEH (N.shiftr ones64 (64 - nbits)) 0 nbits.
(** next, /repo/src/associative/multiset_hasher.rs:71-86; [<<] drops the bits above 64. *)
Definition eh_next (h : exhasher) (nsets : N) : option exhasher :=
  let nbits := log2 nsets + 1 in
  let rshift := eh_nbits h + eh_rshift h in
  if 64 <? rshift + nbits then None
  else Some (mkEH (N.land (N.shiftl (N.shiftr ones64 (64 - nbits)) rshift) ones64) rshift nbits).

(** A tower of associative containers: [new] for the first, then [next] for each further level, as
    AssociativeBuilder does, /repo/src/associative/builder.rs. *)
Fixpoint eh_levels (h : exhasher) (ns : list N) : option (list exhasher) :=
  match ns with
  | [] => Some [h]
  | n :: ns' =>
      match eh_next h n with
      | None => None
      | Some h' => match eh_levels h' ns' with None => None | Some l => Some (h :: l) end
      end
  end.
Definition eh_tower (n : N) (ns : list N) : option (list exhasher) := eh_levels (eh_new n) ns.
