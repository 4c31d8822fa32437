(** Decorations.v -- the three decorations of the library: Fifo, Lru, Lrfu (/repo/src/decorator). *)
From Coq Require Import QArith.
From Verif Require Import Base Block Wrappers.
Set Implicit Arguments.
Local Open Scope nat_scope.

(** [Ordering::reverse] of the order of a number, as both FifoCell::cmp (/repo/src/decorator/fifo.rs:83-91) and
    LruCell::cmp (/repo/src/decorator/lru.rs:88-96) compute it. *)
Lemma later_first_total {D} (stamp : D -> nat) a b :
  (stamp b <=? stamp a) = true \/ (stamp a <=? stamp b) = true.
Proof. rewrite !Nat.leb_le. lia. Qed.
Lemma later_first_trans {D} (stamp : D -> nat) a b c :
  (stamp b <=? stamp a) = true -> (stamp c <=? stamp b) = true -> (stamp c <=? stamp a) = true.
Proof. rewrite !Nat.leb_le. lia. Qed.
Definition later_first {D : Type} (stamp : D -> nat) : Ord D := {|
  leb := fun a b => stamp b <=? stamp a;
  leb_total := later_first_total stamp;
  leb_trans := later_first_trans stamp
|}.

(** ** Fifo *)
Section Fifo.
Context {V : Type}.
(** FifoCell, /repo/src/decorator/fifo.rs:14-17. *)
Record fifo_cell : Type := mkFifo { fifo_value : V; fifo_counter : nat }.
(** Ord for FifoCell, /repo/src/decorator/fifo.rs:83-91. *)
Definition fifo_ord : Ord fifo_cell := later_first fifo_counter.
(** DecorationFactory for Fifo, /repo/src/decorator/fifo.rs:69-78 ([fetch_add] returns the previous value;
    the wrap-around of the u64 counter after 2^64 wraps is not modelled), and Decoration for FifoCell, lines
    107-117: access changes nothing but the value. *)
Definition Fifo : Factory V fifo_cell := {|
  Fst := nat;
  wrap := fun c v => (S c, mkFifo v c);
  unwrap_deco := fifo_value;
  tick := fun c => c;
  touched := fun _ d f => mkFifo (f (fifo_value d)) (fifo_counter d);
  unwrap_wrap := fun _ _ => eq_refl;
  unwrap_touched := fun _ _ _ => eq_refl
|}.
(** Fifo::new, /repo/src/decorator/fifo.rs:48-52. *)
Definition fifo_new : Fst Fifo := 0.
(** Clone for Fifo, /repo/src/decorator/fifo.rs:61-67: the clone gets a counter of its own, at the same value. *)
Definition fifo_clone (c : Fst Fifo) : Fst Fifo := c.
End Fifo.
Arguments fifo_cell V : clear implicits.

(** ** Lru *)
Section Lru.
Context {V : Type}.
(** The n-th reading of [Timestamp::now] this decorator makes (/repo/src/utils/timestamp.rs:60-64, 101-103): a
    parameter, so that readings made elsewhere in the program in between are covered. *)
Variable clock : nat -> nat.
(** LruCell, /repo/src/decorator/lru.rs:14-18. *)
Record lru_cell : Type := mkLru { lru_value : V; lru_stamp : nat }.
(** Ord for LruCell, /repo/src/decorator/lru.rs:88-96. *)
Definition lru_ord : Ord lru_cell := later_first lru_stamp.
(** DecorationFactory for Lru, /repo/src/decorator/lru.rs:66-74, and Decoration for LruCell, lines 112-124:
    both get and get_mut set the timestamp. *)
Definition Lru : Factory V lru_cell := {|
  Fst := nat;
  wrap := fun n v => (S n, mkLru v (clock n));
  unwrap_deco := lru_value;
  tick := fun n => S n;
  touched := fun n d f => mkLru (f (lru_value d)) (clock n);
  unwrap_wrap := fun _ _ => eq_refl;
  unwrap_touched := fun _ _ _ => eq_refl
|}.
End Lru.
Arguments lru_cell V : clear implicits.

(** ** Lrfu *)
Section Lrfu.
Local Open Scope Q_scope.
(** Timestamps as rationals; [diff] is the subtraction (/repo/src/utils/timestamp.rs:74-76, 105-107).
    Simplification: f32 arithmetic is exact. *)
(** Stats, /repo/src/decorator/lrfu.rs:23-30. *)
Record lrfu_stats : Type := mkLS { ls_last : Q; ls_eavg : Q; ls_exponent : Q }.
(** Stats::new, /repo/src/decorator/lrfu.rs:36-42; [now] is the reading of the clock. *)
Definition ls_new (exponent now : Q) : lrfu_stats := mkLS now 0 exponent.
(** Stats::touch, /repo/src/decorator/lrfu.rs:49-54. *)
Definition ls_touch (now : Q) (s : lrfu_stats) : lrfu_stats :=
  mkLS now ((now - ls_last s) + ls_eavg s / ls_exponent s) (ls_exponent s).
(** Stats::score, /repo/src/decorator/lrfu.rs:57-59. *)
Definition ls_score (now : Q) (s : lrfu_stats) : Q := (now - ls_last s) + ls_eavg s / ls_exponent s.
(** Ord for LrfuCell, /repo/src/decorator/lrfu.rs:176-187: [self.score()] reads the clock first ([now1]), then
    [other.score()] reads it again ([now2]). *)
Definition lrfu_cmp (now1 now2 : Q) (a b : lrfu_stats) : comparison := ls_score now1 a ?= ls_score now2 b.

Context {V : Type}.
Variable clock : nat -> Q.
(** LrfuCell, /repo/src/decorator/lrfu.rs:71-75. *)
Record lrfu_cell : Type := mkLrfu { lrfu_value : V; lrfu_st : lrfu_stats }.
(** LrfuCell::new, /repo/src/decorator/lrfu.rs:157-165: an exponent at most 0 panics. *)
Definition lrfu_cell_new (v : V) (exponent now : Q) : res lrfu_cell :=
  if Qle_bool exponent 0 then Panic else Ok (mkLrfu v (ls_new exponent now)).
(** DecorationFactory for Lrfu, /repo/src/decorator/lrfu.rs:144-149 (for an exponent that does not panic), and
    Decoration for LrfuCell, lines 203-215. *)
Definition Lrfu (exponent : Q) : Factory V lrfu_cell := {|
  Fst := nat;
  wrap := fun n v => (S n, mkLrfu v (ls_new exponent (clock n)));
  unwrap_deco := lrfu_value;
  tick := fun n => S n;
  touched := fun n d f => mkLrfu (f (lrfu_value d)) (ls_touch (clock n) (lrfu_st d));
  unwrap_wrap := fun _ _ => eq_refl;
  unwrap_touched := fun _ _ _ => eq_refl
|}.
End Lrfu.
Arguments lrfu_cell V : clear implicits.
