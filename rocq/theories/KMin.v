(** KMin.v -- model of /repo/src/utils/kmin.rs. *)
From Verif Require Import Base BTree.
Set Implicit Arguments.

Section KMin.
Context {T : Type} {OT : Ord T}.

(** struct KMin, /repo/src/utils/kmin.rs:5-9; the BTreeSet<(T, usize)> is its sorted list of elements. *)
Record kmin : Type := mkKM { km_set : list (T * nat); km_max : nat; km_size : nat }.
(** new, /repo/src/utils/kmin.rs:13-19. *)
Definition km_new (k : nat) : kmin := mkKM [] k 0.

(** The loop dropping smallest elements and the reinsertion of the others (already in order),
    /repo/src/utils/kmin.rs:36-50: remaining set and size. *)
Fixpoint km_drop (set : list (T * nat)) (max size : nat) : res (list (T * nat) * nat) :=
  match set with
  | [] => Ok ([], size)
  | (item, item_size) :: set' =>
      let* rest := sub_chk size item_size in
      if rest <? max then Ok (set, size) else km_drop set' max rest
  end.
(** push, /repo/src/utils/kmin.rs:25-53. *)
Definition km_push (m : kmin) (item : T) (item_size : nat) : res (kmin * bool) :=
  if existsb (fun x => eqb x (item, item_size)) (km_set m) then Ok (m, false)
  else
    let set := ins (fun x => x) (item, item_size) (km_set m) in
    let size := km_size m + item_size in
    let* old := sub_chk size item_size in
    if old <? km_max m then Ok (mkKM set (km_max m) size, true)
    else
      let* (set', size') := km_drop set (km_max m) size in
      Ok (mkKM set' (km_max m) size', true).

Fixpoint km_push_all (m : kmin) (l : list (T * nat)) : res kmin :=
  match l with
  | [] => Ok m
  | (x, n) :: l' => let* (m', _) := km_push m x n in km_push_all m' l'
  end.
End KMin.
Arguments kmin T : clear implicits.
