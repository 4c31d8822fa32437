(** LrfuF32.v -- model of the Lrfu decoration (/repo/src/decorator/lrfu.rs) computed as the code computes it, in the
    binary32 floating-point numbers of IEEE 754 with rounding to nearest, ties to even.  The arithmetic is that of Coq's
    standard library (Floats.SpecFloat) at 24 bits of mantissa and a maximal exponent of 128.  (Decorations.v has the same
    decoration over exact rationals.) *)
From Coq Require Import ZArith NArith.
From Coq Require Import Floats.SpecFloat.
From Verif Require Import Base Block.
Set Implicit Arguments.

Definition f32 : Type := spec_float.
Definition f_add : f32 -> f32 -> f32 := SFadd 24 128.
Definition f_div : f32 -> f32 -> f32 := SFdiv 24 128.
Definition f_zero : f32 := S754_zero false.
(** [n as f32], for the u64 and u128 differences of timestamps. *)
Definition f_of (n : N) : f32 := binary_normalize 24 128 (Z.of_N n) 0 false.

(** Timestamp::diff, /repo/src/utils/timestamp.rs:74-76 and 105-107: the difference of the readings, in ticks of the
    counter or nanoseconds of the clock, then [as f32]; an unsigned difference below 0 panics. *)
Definition t_diff (now last : N) : res f32 :=
  if (last <=? now)%N then Ok (f_of (now - last)) else Panic.

(** Stats, /repo/src/decorator/lrfu.rs:23-30. *)
Record fstats : Type := mkFS { fs_last : N; fs_eavg : f32; fs_exponent : f32 }.
(** Stats::new, /repo/src/decorator/lrfu.rs:36-42. *)
Definition fs_new (exponent : f32) (now : N) : fstats := mkFS now f_zero exponent.
(** Stats::touch, /repo/src/decorator/lrfu.rs:49-54. *)
Definition fs_touch (now : N) (s : fstats) : res fstats :=
  let* d := t_diff now (fs_last s) in
  Ok (mkFS now (f_add d (f_div (fs_eavg s) (fs_exponent s))) (fs_exponent s)).
(** Stats::score, /repo/src/decorator/lrfu.rs:57-59. *)
Definition fs_score (now : N) (s : fstats) : res f32 :=
  let* d := t_diff now (fs_last s) in
  Ok (f_add d (f_div (fs_eavg s) (fs_exponent s))).
(** Ord for LrfuCell, /repo/src/decorator/lrfu.rs:174-188: the clock is read by each score; incomparable is [Equal]. *)
Definition fs_cmp (now1 now2 : N) (a b : fstats) : res comparison :=
  let* x := fs_score now1 a in
  let* y := fs_score now2 b in
  Ok (match SFcompare x y with Some c => c | None => Eq end).
(** LrfuCell::new, /repo/src/decorator/lrfu.rs:157-165: [exponent <= 0.0] panics. *)
Definition f_cell (exponent : f32) (now : N) : res fstats :=
  if SFleb exponent f_zero then Panic else Ok (fs_new exponent now).
(** A cell created at [t0], then accessed at the times [ts], in that order. *)
Fixpoint f_touches (s : fstats) (ts : list N) : res fstats :=
  match ts with [] => Ok s | t :: ts' => let* s' := fs_touch t s in f_touches s' ts' end.
Definition f_accessed (e : f32) (t0 : N) (ts : list N) : res fstats := let* s := f_cell e t0 in f_touches s ts.
