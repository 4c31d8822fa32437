(** Exclusive.v -- model of /repo/src/exclusive. *)
From Verif Require Import Base Block.
Set Implicit Arguments.

(** [for (k, _) in found.iter() { if let Ok(i) = keys.binary_search(k) { keys.remove(i); } }],
    /repo/src/exclusive/building_block.rs:62-66 and 72-76. *)
Fixpoint remove_found {K V} {OK : Ord K} (bs : BSearch K) (ks : list K) (found : list (K * V)) : list K :=
  match found with
  | [] => ks
  | (k, _) :: found' =>
      remove_found bs (match bs ks k with Some i => remove_nth i ks | None => ks end) found'
  end.

Section Exclusive.
Context {K V : Type} {OK : Ord K}.
Variable bs : BSearch K.
Variables L R : Block K V.

(** struct Exclusive { front, back }, /repo/src/exclusive/exclusive.rs:85-93. *)
Definition exclusive : Type := (St L * St R)%type.

(** capacity / size / contains, /repo/src/exclusive/building_block.rs:14-16, 22-24, 31-33. *)
Definition ex_capacity (s : exclusive) : nat := capacity L (fst s) + capacity R (snd s).
Definition ex_size (s : exclusive) : nat := size L (fst s) + size R (snd s).
Definition ex_contains (s : exclusive) (k : K) : res bool :=
  let* b := contains L (fst s) k in if b then Ok true else contains R (snd s) k.

(** take, /repo/src/exclusive/building_block.rs:40-45. *)
Definition ex_take (s : exclusive) (k : K) : res (exclusive * option (K * V)) :=
  let* (f, o) := take L (fst s) k in
  match o with
  | Some x => Ok ((f, snd s), Some x)
  | None => let* (b, o') := take R (snd s) k in Ok ((f, b), o')
  end.

(** take_multiple, /repo/src/exclusive/building_block.rs:56-81. *)
Definition ex_take_multiple (s : exclusive) (ks : list K) : res (exclusive * list K * list (K * V)) :=
  let ks0 := sort_keys ks in
  let* (f, ks1, of_) := take_multiple L (fst s) ks0 in
  let ks2 := remove_found bs ks1 of_ in
  let* (b, ks3, ob) := take_multiple R (snd s) ks2 in
  let ks4 := remove_found bs ks3 ob in
  Ok ((f, b), ks4, of_ ++ ob).

(** pop, /repo/src/exclusive/building_block.rs:94-103. *)
Definition ex_pop (s : exclusive) (n : nat) : res (exclusive * list (K * V)) :=
  let old_size := size R (snd s) in
  let* (b, v) := pop R (snd s) n in
  let* evicted := sub_chk old_size (size R b) in
  if evicted <? n then
    let* (f, v') := pop L (fst s) (n - evicted) in Ok ((f, b), v ++ v')
  else Ok ((fst s, b), v).

(** push, /repo/src/exclusive/building_block.rs:111-113. *)
Definition ex_push (s : exclusive) (vs : list (K * V)) : res (exclusive * list (K * V)) :=
  let* (f, o) := push L (fst s) vs in
  let* (b, o') := push R (snd s) o in
  Ok ((f, b), o').

(** flush, /repo/src/exclusive/building_block.rs:140-146. *)
Definition ex_flush (s : exclusive) : res (exclusive * list (K * V)) :=
  let* (b1, back) := flush R (snd s) in
  let* (f1, front) := flush L (fst s) in
  let* (b2, front') := push R b1 front in
  let* (b3, new_back) := flush R b2 in
  Ok ((f1, b3), back ++ front' ++ new_back).

(** impl BuildingBlock for Exclusive, /repo/src/exclusive/building_block.rs:4-147. *)
Definition ExclusiveB : Block K V := {|
  St := exclusive;
  capacity := ex_capacity;
  size := ex_size;
  contains := ex_contains;
  take := ex_take;
  take_multiple := ex_take_multiple;
  pop := ex_pop;
  push := ex_push;
  flush := ex_flush
|}.

(** downgrade, /repo/src/exclusive/exclusive.rs:131-154. *)
Definition ex_downgrade (s : exclusive) (k : K) : res (exclusive * bool) :=
  let* (b, o) := take R (snd s) k in
  match o with
  | None => Ok ((fst s, b), false)
  | Some x =>
      let* (f, popped) := push L (fst s) [x] in
      match popped with
      | [] => Ok ((f, b), true)
      | _ =>
        let* (b', popped') := push R b popped in
        match popped' with
        | [] => Ok ((f, b'), true)
        | _ => Panic
        end
      end
  end.
End Exclusive.
