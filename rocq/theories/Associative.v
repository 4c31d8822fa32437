(** Associative.v -- model of /repo/src/associative (containers, not the hasher: Hasher.v). *)
From Coq Require Import NArith.
From Verif Require Import Base Block.
Set Implicit Arguments.

(** Append [x] to the vector at index [i] of a vector of vectors; out of bounds is a panic. *)
Fixpoint push_at {T} (i : nat) (x : T) (l : list (list T)) : res (list (list T)) :=
  match l, i with
  | [], _ => Panic
  | b :: l', 0 => Ok ((b ++ [x]) :: l')
  | b :: l', S i' => let* r := push_at i' x l' in Ok (b :: r)
  end.

Section Associative.
Context {K V : Type}.
(** [key.hash(&mut hasher.clone()); hasher.finish()]: an arbitrary function of the key. *)
Variable hash : K -> N.
Variable C : Block K V.

(** struct Associative { containers, hasher }, /repo/src/associative/associative.rs:71-74. *)
Definition assoc : Type := list (St C).

(** set, /repo/src/associative/associative.rs:88-94; [% 0] panics. *)
Definition as_set (s : assoc) (k : K) : res nat :=
  match length s with
  | 0 => Panic
  | n => Ok (N.to_nat (N.modulo (hash k) (N.of_nat n)))
  end.

(** capacity / size, /repo/src/associative/building_block.rs:20-22, 53-55. *)
Definition as_capacity (s : assoc) : nat := list_sum (map (capacity C) s).
Definition as_size (s : assoc) : nat := list_sum (map (size C) s).

(** contains, /repo/src/associative/building_block.rs:40-43. *)
Definition as_contains (s : assoc) (k : K) : res bool :=
  let* i := as_set s k in
  let* c := unwrap (nth_error s i) in
  contains C c k.

(** take, /repo/src/associative/building_block.rs:63-66. *)
Definition as_take (s : assoc) (k : K) : res (assoc * option (K * V)) :=
  let* i := as_set s k in
  let* c := unwrap (nth_error s i) in
  let* (c', o) := take C c k in
  Ok (replace_nth i c' s, o).

(** Distribution of keys or elements over the sets, /repo/src/associative/building_block.rs:79-86 and
    241-248. *)
Fixpoint distribute {T} (key : T -> K) (s : assoc) (l : list T) (acc : list (list T)) : res (list (list T)) :=
  match l with
  | [] => Ok acc
  | x :: l' =>
      let* i := as_set s (key x) in
      let* acc' := push_at i x acc in
      distribute key s l' acc'
  end.

(** take from each bucket, /repo/src/associative/building_block.rs:89-95. *)
Fixpoint as_tm_loop (s : assoc) (kss : list (list K)) : res (assoc * list (list K) * list (K * V)) :=
  match s, kss with
  | c :: s', ks :: kss' =>
      let* (c1, ks1, o1) :=
        match ks with
        | [] => Ok (c, [], [])
        | _ => take_multiple C c ks
        end in
      let* (s2, kss2, o2) := as_tm_loop s' kss' in
      Ok (c1 :: s2, ks1 :: kss2, o1 ++ o2)
  | _, _ => Ok (s, kss, [])
  end.

(** take_multiple, /repo/src/associative/building_block.rs:75-103. *)
Definition as_take_multiple (s : assoc) (ks : list K) : res (assoc * list K * list (K * V)) :=
  let* kss := distribute (fun k => k) s ks (repeat [] (length s)) in
  let* (s', kss', out) := as_tm_loop s kss in
  Ok (s', concat kss', out).

(** push to each bucket, /repo/src/associative/building_block.rs:251-253. *)
Fixpoint as_push_loop (s : assoc) (vss : list (list (K * V))) : res (assoc * list (K * V)) :=
  match s, vss with
  | c :: s', vs :: vss' =>
      let* (c1, o1) := push C c vs in
      let* (s2, o2) := as_push_loop s' vss' in
      Ok (c1 :: s2, o1 ++ o2)
  | _, _ => Ok (s, [])
  end.
(** push, /repo/src/associative/building_block.rs:238-255. *)
Definition as_push (s : assoc) (vs : list (K * V)) : res (assoc * list (K * V)) :=
  let* vss := distribute fst s vs (repeat [] (length s)) in
  as_push_loop s vss.

(** flush, /repo/src/associative/building_block.rs:26-33. *)
Fixpoint as_flush (s : assoc) : res (assoc * list (K * V)) :=
  match s with
  | [] => Ok ([], [])
  | c :: s' =>
      let* (c1, o1) := flush C c in
      let* (s2, o2) := as_flush s' in
      Ok (c1 :: s2, o1 ++ o2)
  end.

(** The loop of pop computing the target average size, /repo/src/associative/building_block.rs:173-202.
    [pb] is the vector [popped_buckets] reversed (its last element first).  As in the source, the pairs
    were built by [enumerate()] as (index, size) and are read here as (bucket_size, bucket_index). *)
Fixpoint as_target (pb : list (nat * nat)) (total n : nat) : res (nat * list (nat * nat)) :=
  let* d := sub_chk total n in
  let target := Nat.div d (length pb + 1) in
  match pb with
  | [] => Panic
  | (bucket_size, bucket_index) :: pb' =>
      if target <=? bucket_size then Ok (target, (bucket_size, bucket_index) :: pb')
      else
        let* total' := sub_chk total bucket_size in
        if n <? total' then as_target pb' total' n else Panic
  end.

(** The final loop of pop, /repo/src/associative/building_block.rs:217-223. *)
Fixpoint as_pop_loop (s : assoc) (target : nat) (pb : list (nat * nat)) : res (assoc * list (K * V)) :=
  match pb with
  | [] => Ok (s, [])
  | (bucket_size, bucket_index) :: pb' =>
      let* c := unwrap (nth_error s bucket_index) in
      let* pop_size := sub_chk bucket_size target in
      let* (c', o) := pop C c pop_size in
      let* (s', o') := as_pop_loop (replace_nth bucket_index c' s) target pb' in
      Ok (s', o ++ o')
  end.

Fixpoint enumerate_from {T} (i : nat) (l : list T) : list (nat * T) :=
  match l with [] => [] | x :: l' => (i, x) :: enumerate_from (S i) l' end.

(** pop, /repo/src/associative/building_block.rs:123-226.  [sort_unstable_by(|(a, _), (b, _)| b.cmp(a))]
    sorts on the first component, here the (distinct) indexes in descending order: the reversed vector
    is thus the enumeration itself. *)
Definition as_pop (s : assoc) (n : nat) : res (assoc * list (K * V)) :=
  let popped_buckets := enumerate_from 0 (map (size C) s) in
  let total := list_sum (map snd popped_buckets) in
  if (n =? 0) || (total =? 0) then Ok (s, [])
  else if total <=? n then as_flush s
  else
    let* (target, pb) := as_target popped_buckets total n in
    as_pop_loop s target pb.

(** impl BuildingBlock for Associative, /repo/src/associative/building_block.rs:5-256. *)
Definition AssociativeB : Block K V := {|
  St := assoc;
  capacity := as_capacity;
  size := as_size;
  contains := as_contains;
  take := as_take;
  take_multiple := as_take_multiple;
  pop := as_pop;
  push := as_push;
  flush := as_flush
|}.
End Associative.
Arguments as_set {K V} hash C s k.
Arguments as_capacity {K V} C s.
Arguments as_size {K V} C s.
Arguments as_contains {K V} hash C s k.
Arguments as_take {K V} hash C s k.
Arguments distribute {K V} hash C {T} key s l acc.
Arguments as_tm_loop {K V} C s kss.
Arguments as_take_multiple {K V} hash C s ks.
Arguments as_push_loop {K V} C s vss.
Arguments as_push {K V} hash C s vs.
Arguments as_flush {K V} C s.
Arguments as_pop_loop {K V} C s target pb.
Arguments as_pop {K V} C s n.
