(** GuardConc.v -- threads sharing a container through clones of a [Sequential], holding guards of get and get_mut:
    Linear.v with the two methods it leaves out, /repo/src/sequential/get.rs. *)
From Verif Require Import Base Block Stream Compressed Guards Sim Lock SeqConc Linear Array BTree.
Set Implicit Arguments.

(** A call; a key looked up by get ([false]) or get_mut ([true]). *)
Inductive gask (K V : Type) : Type := GAsk (a : ask K V) | GGet (m : bool) (k : K).
Arguments GAsk {K V} a.
Arguments GGet {K V} m k.
(** What a thread does with a guard: it reads, it writes; or the guard points to nothing any more. *)
Inductive entry (V : Type) : Type := Saw (v : V) | Wrote (v : V) | Dangling.
Arguments Saw {V} v.
Arguments Wrote {V} v.
Arguments Dangling {V}.
(** What a call gave: an answer; no guard; a guard, and all that was done with it. *)
Inductive gsaw (K V : Type) : Type := GSaw (q : saw K V) | GNone | GUsed (log : list (entry V)).
Arguments GSaw {K V} q.
Arguments GNone {K V}.
Arguments GUsed {K V} log.

(** The guards of a container: lookup, dereferences, drop.  [None]: the pointer dangles. *)
Record Cells {K V} (B : Block K V) : Type := mkCells {
  cell : Type;
  open_cell : bool -> St B -> K -> res (St B * option cell);
  see : St B -> cell -> option V;
  put : St B -> cell -> V -> option (St B * cell);
  close_cell : St B -> cell -> res (St B)
}.

Section GuardConc.
Context {K V : Type}.
Variable B : Block K V.
Variable G : Cells B.

(** The script of a call: that of SeqConc.v; for a lookup, it depends on whether a guard was found. *)
Definition lookup (m found : bool) : SeqConc.call := if m then CGetMut found else CGet found.
Definition gmethod (a : gask K V) (found : bool) : SeqConc.call :=
  match a with GAsk a => method a | GGet m _ => lookup m found end.

(** As in Linear.v, with the guard and what was done with it. *)
Inductive gthread : Type :=
| GIdle
| GBusy (a : gask K V) (p : list action) (dead : bool) (start : nat) (view : option (St B))
        (guard : option (cell G)) (log : list (entry V)) (reply : option (gsaw K V)).
Record geffect : Type := mkGE { ge_who : nat; ge_ask : gask K V; ge_saw : gsaw K V; ge_time : nat }.
Record greturn : Type := mkGR { gr_who : nat; gr_ask : gask K V; gr_saw : gsaw K V; gr_start : nat; gr_end : nat }.
Record gsys : Type := mkG {
  g_sh : nat; g_ex : nat; g_rd : nat; g_wr : nat;
  g_st : St B; g_threads : list gthread;
  g_now : nat; g_effects : list geffect; g_returns : list greturn
}.

(** Steps that only concern the locks. *)
Definition locks (x : action) : Prop := match x with Acq _ | Rel _ | In _ | Out _ => True | _ => False end.
Definition releases (x : action) : bool := match x with Rel _ => true | _ => false end.

(** [allowed]: the calls that the threads make. *)
Inductive gstep (allowed : gask K V -> Prop) : gsys -> gsys -> Prop :=
| G_call : forall sh ex rd wr st l1 l2 a now es rs, allowed a ->
    gstep allowed (mkG sh ex rd wr st (l1 ++ GIdle :: l2) now es rs)
      (mkG sh ex rd wr st (l1 ++ GBusy a (script (gmethod a false)) false now None None [] None :: l2) (S now) es rs)
(* lock, unlock, borrow, end of a borrow; but for the unlock of a guard *)
| G_act : forall sh ex rd wr sh' ex' rd' wr' st l1 a x p t v g log r l2 now es rs,
    locks x -> act x sh ex rd wr = Some (sh', ex', rd', wr') -> (releases x = true -> g = None) ->
    gstep allowed (mkG sh ex rd wr st (l1 ++ GBusy a (x :: p) false t v g log r :: l2) now es rs)
      (mkG sh' ex' rd' wr' st (l1 ++ GBusy a p false t v g log r :: l2) (S now) es rs)
(* the borrow is refused: panic, shared_ptr.rs:97-98, 110-111 *)
| G_refused : forall sh ex rd wr st l1 a x p t v g log r l2 now es rs,
    is_in x = true -> act x sh ex rd wr = None ->
    gstep allowed (mkG sh ex rd wr st (l1 ++ GBusy a (x :: p) false t v g log r :: l2) now es rs)
      (mkG sh ex rd wr st (l1 ++ GBusy a (x :: p) true t v g log r :: l2) (S now) es rs)
(* the method of the wrapped container starts *)
| G_begin : forall sh ex rd wr st l1 a p t v g log r l2 now es rs,
    gstep allowed (mkG sh ex rd wr st (l1 ++ GBusy a (CallBegin :: p) false t v g log r :: l2) now es rs)
      (mkG sh ex rd wr st (l1 ++ GBusy a p false t (Some st) g log r :: l2) (S now) es rs)
(* ... and ends, or panics: as in Linear.v *)
| G_end : forall sh ex rd wr st l1 a p t v g log r l2 now es rs st' q,
    answer B v a = Ok (st', q) ->
    gstep allowed (mkG sh ex rd wr st (l1 ++ GBusy (GAsk a) (CallEnd :: p) false t (Some v) g log r :: l2) now es rs)
      (mkG sh ex rd wr (if modifies (method a) then st' else st) (l1 ++ GBusy (GAsk a) p false t (Some v) g log (Some (GSaw q)) :: l2) (S now)
        (es ++ [mkGE (length l1) (GAsk a) (GSaw q) now]) rs)
| G_end_panic : forall sh ex rd wr st l1 a p t v g log r l2 now es rs,
    answer B v a = Panic ->
    gstep allowed (mkG sh ex rd wr st (l1 ++ GBusy (GAsk a) (CallEnd :: p) false t (Some v) g log r :: l2) now es rs)
      (if modifies (method a)
       then mkG sh ex rd wr st (l1 ++ GBusy (GAsk a) (CallEnd :: p) true t (Some v) g log r :: l2) (S now) es rs
       else mkG sh ex (rd - 1) wr st (l1 ++ GBusy (GAsk a) [] true t (Some v) g log r :: l2) (S now) es rs)
(* the lookup in the wrapped container finds nothing: sequential/get.rs:67-71, 89-93 *)
| G_miss : forall sh ex rd wr st l1 m k p t v g log r l2 now es rs st',
    open_cell G m v k = Ok (st', None) ->
    gstep allowed (mkG sh ex rd wr st (l1 ++ GBusy (GGet m k) (CallEnd :: p) false t (Some v) g log r :: l2) now es rs)
      (mkG sh ex rd wr st' (l1 ++ GBusy (GGet m k) p false t (Some v) g log (Some GNone) :: l2) (S now)
        (es ++ [mkGE (length l1) (GGet m k) GNone now]) rs)
(* ... or a guard: get.rs:72-75, 94-97; the lock is kept *)
| G_hit : forall sh ex rd wr st l1 m k p t v g log r l2 now es rs st' c,
    open_cell G m v k = Ok (st', Some c) ->
    gstep allowed (mkG sh ex rd wr st (l1 ++ GBusy (GGet m k) (CallEnd :: p) false t (Some v) g log r :: l2) now es rs)
      (mkG sh ex rd wr st' (l1 ++ GBusy (GGet m k) (tl (tl (tl (tl (script (lookup m true)))))) false t (Some v) (Some c) log r :: l2) (S now) es rs)
| G_lookup_panic : forall sh ex rd wr st l1 m k p t v g log r l2 now es rs,
    open_cell G m v k = Panic ->
    gstep allowed (mkG sh ex rd wr st (l1 ++ GBusy (GGet m k) (CallEnd :: p) false t (Some v) g log r :: l2) now es rs)
      (mkG sh ex rd wr st (l1 ++ GBusy (GGet m k) (CallEnd :: p) true t (Some v) g log r :: l2) (S now) es rs)
(* the thread reads through its guard: SequentialCell::deref, get.rs:40-48 *)
| G_read : forall sh ex rd wr st l1 a p t v c log r l2 now es rs w,
    see G st c = Some w ->
    gstep allowed (mkG sh ex rd wr st (l1 ++ GBusy a (GuardUse :: p) false t v (Some c) log r :: l2) now es rs)
      (mkG sh ex rd wr st (l1 ++ GBusy a (GuardUse :: p) false t v (Some c) (log ++ [Saw w]) r :: l2) (S now) es rs)
(* it writes through a guard of get_mut: deref_mut, get.rs:50-57 *)
| G_write : forall sh ex rd wr st l1 k p t v c log r l2 now es rs w st' c',
    put G st c w = Some (st', c') ->
    gstep allowed (mkG sh ex rd wr st (l1 ++ GBusy (GGet true k) (GuardUse :: p) false t v (Some c) log r :: l2) now es rs)
      (mkG sh ex rd wr st' (l1 ++ GBusy (GGet true k) (GuardUse :: p) false t v (Some c') (log ++ [Wrote w]) r :: l2) (S now) es rs)
(* the guard does not point to a value any more: undefined behaviour *)
| G_dangling : forall sh ex rd wr st l1 a p t v c log r l2 now es rs,
    see G st c = None ->
    gstep allowed (mkG sh ex rd wr st (l1 ++ GBusy a (GuardUse :: p) false t v (Some c) log r :: l2) now es rs)
      (mkG sh ex rd wr st (l1 ++ GBusy a (GuardUse :: p) false t v (Some c) (log ++ [Dangling]) r :: l2) (S now) es rs)
(* it is done with its guard *)
| G_done : forall sh ex rd wr st l1 a p t v g log r l2 now es rs,
    gstep allowed (mkG sh ex rd wr st (l1 ++ GBusy a (GuardUse :: p) false t v g log r :: l2) now es rs)
      (mkG sh ex rd wr st (l1 ++ GBusy a p false t v g log r :: l2) (S now) es rs)
(* the guard is dropped: SequentialCell::drop unlocks, get.rs:34-38 *)
| G_release : forall sh ex rd wr sh' ex' rd' wr' st l1 a m p t v c log r l2 now es rs,
    act (Rel m) sh ex rd wr = Some (sh', ex', rd', wr') ->
    gstep allowed (mkG sh ex rd wr st (l1 ++ GBusy a (Rel m :: p) false t v (Some c) log r :: l2) now es rs)
      (mkG sh' ex' rd' wr' st (l1 ++ GBusy a p false t v (Some c) log (Some (GUsed log)) :: l2) (S now)
        (es ++ [mkGE (length l1) a (GUsed log) now]) rs)
(* ... then the guard of the wrapped container inside it; simplification: at once *)
| G_back : forall sh ex rd wr st l1 a p t v g log r l2 now es rs,
    gstep allowed (mkG sh ex rd wr st (l1 ++ GBusy a (BackBegin :: p) false t v g log r :: l2) now es rs)
      (mkG sh ex rd wr st (l1 ++ GBusy a p false t v g log r :: l2) (S now) es rs)
| G_close : forall sh ex rd wr st l1 a p t v c log r l2 now es rs st',
    close_cell G st c = Ok st' ->
    gstep allowed (mkG sh ex rd wr st (l1 ++ GBusy a (BackEnd :: p) false t v (Some c) log r :: l2) now es rs)
      (mkG sh ex rd wr st' (l1 ++ GBusy a p false t v (Some c) log r :: l2) (S now) es rs)
| G_close_panic : forall sh ex rd wr st l1 a p t v c log r l2 now es rs,
    close_cell G st c = Panic ->
    gstep allowed (mkG sh ex rd wr st (l1 ++ GBusy a (BackEnd :: p) false t v (Some c) log r :: l2) now es rs)
      (mkG sh ex rd wr st (l1 ++ GBusy a (BackEnd :: p) true t v (Some c) log r :: l2) (S now) es rs)
(* the thread is done with the call *)
| G_return : forall sh ex rd wr st l1 a t v g log q l2 now es rs,
    gstep allowed (mkG sh ex rd wr st (l1 ++ GBusy a [] false t v g log (Some q) :: l2) now es rs)
      (mkG sh ex rd wr st (l1 ++ GIdle :: l2) (S now) es (rs ++ [mkGR (length l1) a q t now])).
Inductive gsteps (allowed : gask K V -> Prop) : gsys -> gsys -> Prop :=
| gs_refl : forall s, gsteps allowed s s
| gs_step : forall s s' s'', gsteps allowed s s' -> gstep allowed s' s'' -> gsteps allowed s s''.
Definition ginit (st : St B) (n : nat) : gsys := mkG 0 0 0 0 st (repeat GIdle n) 0 [] [].
End GuardConc.

(** Array, /repo/src/array/get.rs:8-78: a pointer to the value in the vector.  Simplification: an index into the vector;
    a vector that shrank or was rearranged shows through it whatever is there now. *)
Definition array_cells {K V} {OK : Ord K} {OV : Ord V} (srt : Sorter (K * V) V snd) (bs : BSearch K) : Cells (ArrayB srt bs) :=
  @mkCells K V (ArrayB srt bs) nat
    (fun _ (s : array K V) k => Ok (s, find_index (fun p => eqb (fst p) k) (a_vals s)))
    (fun (s : array K V) i => option_map snd (nth_error (a_vals s) i))
    (fun (s : array K V) i w => match nth_error (a_vals s) i with
       | Some p => Some (mkArray (a_cap s) (a_total s) (replace_nth i (fst p, w) (a_vals s)) (a_esz s), i)
       | None => None
       end)
    (fun s _ => Ok s).
(** BTree, /repo/src/btree/get.rs:12-57: the pair is taken out, and pushed back by the drop. *)
Definition btree_cells {K V} {OK : Ord K} {OV : Ord V} : Cells (@BTreeB K V OK OV) :=
  @mkCells K V BTreeB (K * V) (fun _ s k => b_take s k) (fun _ c => Some (snd c)) (fun s c w => Some (s, (fst c, w)))
    (fun s c => let* (s', out) := b_push s [c] in match out with [] => Ok s' | _ => Panic end).
(** Compressed, /repo/src/compression/get.rs:36-87, 120-146, get_mut only: a copy of all the elements, the index of the
    one looked up, and whether it was written; the drop then writes all the elements. *)
Definition compressed_cells (S : Stream) (L : Lz) {K V} {OK : Ord K} {OV : Ord V} (C : VCodec (K * V)) (srt : Sorter (K * V) V snd) (bs : BSearch K)
  : Cells (CompressedB S L C srt bs) :=
  @mkCells K V (CompressedB S L C srt bs) (c_guard S (K := K) (V := V) * nat * bool)
    (fun _ (s : compressed S) k => match c_read L C s with
       | None => Ok (s, None)
       | Some v => Ok (s, option_map (fun i => (mkCG S (s_clone S (c_h s)) (c_cap s) v, i, false)) (find_index (fun kv => eqb (fst kv) k) v))
       end)
    (fun _ c => option_map snd (nth_error (cg_elements (fst (fst c))) (snd (fst c))))
    (fun s c w => match nth_error (cg_elements (fst (fst c))) (snd (fst c)) with
       | Some p => Some (s, (mkCG S (cg_h (fst (fst c))) (cg_cap (fst (fst c))) (replace_nth (snd (fst c)) (fst p, w) (cg_elements (fst (fst c)))), snd (fst c), true))
       | None => None
       end)
    (fun s c => if snd c then c_close L C s (fst (fst c)) else Ok s).
