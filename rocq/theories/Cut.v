(** Cut.v -- model of /repo/src/utils/size.rs. *)
From Verif Require Import Base.
Set Implicit Arguments.

(** The [try_fold] over the reversed, enumerated elements, /repo/src/utils/size.rs:30-40.  [rl] is what
    remains of the reversed vector, so the index of its head is the length of its tail. *)
Fixpoint cut_loop {T} (sz : T -> nat) (n : nat) (acc : nat) (last : option T) (rl : list T)
  : nat * nat * option T :=
  match rl with
  | [] => (0, acc, last)
  | x :: rest =>
      let total := acc + sz x in
      if total <? n then cut_loop sz n total (Some x) rest
      else (length rest, total, Some x)
  end.

(** [find_cut_at_size], /repo/src/utils/size.rs:11-44. *)
Definition find_cut_at_size {T} (values : list T) (sz : T -> nat) (n : nat) : nat * nat * option T :=
  cut_loop sz n 0 None (rev values).
