(** PProfConc.v -- property theorems: clones of a Profiler used by several threads (C55). *)
From Verif Require Import Base Block Spec Wrappers Get Array BTree BTreeProof PBTree Profiled PProfiler ProfConc.
Set Implicit Arguments.

(** ** Specification: the counters that count calls, elements, hits and misses (the count of pop, which is a size, and
    the sizes are studied below), each as a sum over the calls made on the wrapped container. *)
Section Counts.
Context {K V : Type}.
Definition entry_of (n : note (K := K) (V := V)) : entry K V := mkE (n_call n) (n_res n) 0 0.
Record counts_are (t : stats) (l : list (note (K := K) (V := V))) : Prop := {
  c_contains : m_count (s_contains t) = total contains_calls (map entry_of l);
  c_take : m_count (s_take t) = total keys_to_take (map entry_of l);
  c_push : m_count (s_push t) = total elements_pushed (map entry_of l);
  c_flush : m_count (s_flush t) = total flush_calls (map entry_of l);
  c_flush_iter : m_count (s_flush_iter t) = total flush_iterations (map entry_of l);
  c_get : m_count (s_get t) = total get_calls (map entry_of l);
  c_get_mut : m_count (s_get_mut t) = total get_mut_calls (map entry_of l);
  c_hit : m_count (s_hit t) = total hits (map entry_of l);
  c_miss : m_count (s_miss t) = total misses (map entry_of l)
}.
(** The calls of a thread. *)
Definition of_thread (i : nat) (l : list (note (K := K) (V := V))) := filter (fun n => n_who n =? i) l.
End Counts.

Section Proof.
Context {K V : Type}.
Variable C : Block K V.
Variable gt : bool -> Getter C.
Notation notes := (list (note (K := K) (V := V))).

(** The wrapped container alone, called in this order, gives the results noted. *)
Inductive bare_gives : St C -> notes -> St C -> Prop :=
| bg_nil : forall st, bare_gives st [] st
| bg_snoc : forall st l st1 n st2, bare_gives st l st1 -> bare_call gt st1 (n_call n) = Ok (st2, n_res n) ->
    bare_gives st (l ++ [n]) st2.

(** ** Proof *)
Inductive field := FContains | FTake | FPush | FFlush | FIter | FGet | FGetMut | FHit | FMiss.
Definition rd (f : field) (t : stats) : nat :=
  m_count (match f with
  | FContains => s_contains t | FTake => s_take t | FPush => s_push t | FFlush => s_flush t | FIter => s_flush_iter t
  | FGet => s_get t | FGetMut => s_get_mut t | FHit => s_hit t | FMiss => s_miss t end).
Definition doc (f : field) (e : entry K V) : nat :=
  match f with
  | FContains => contains_calls e | FTake => keys_to_take e | FPush => elements_pushed e | FFlush => flush_calls e
  | FIter => flush_iterations e | FGet => get_calls e | FGetMut => get_mut_calls e | FHit => hits e | FMiss => misses e end.
(** What an addition adds. *)
Definition gives (f : field) (c : pcall K V) (r : presult K V) (x : pact) : nat :=
  let e := mkE c r 0 0 in
  match x, f with
  | AMain, (FHit | FMiss | FIter) => 0
  | AMain, _ => doc f e
  | AHitOrMiss, FHit => if found r then 1 else 0
  | AHitOrMiss, FMiss => if found r then 0 else 1
  | AHits, FHit => hits e
  | AMisses, FMiss => misses e
  | AIter, FIter => 1
  | _, _ => 0
  end.
Definition pending_of (f : field) (t : pthread (K := K) (V := V)) : nat :=
  match t with
  | PAfter c r p _ => list_sum (map (gives f c r) p)
  | PDead c (Some r) p => list_sum (map (gives f c r) p)
  | _ => 0
  end.
Lemma add_gives f x c r z t t' : add_of x c r z t = Ok t' -> rd f t' = rd f t + gives f c r x.
Proof.
  destruct x; cbn [add_of]; intros H.
  - injection H as <-. destruct f; unfold rd; cbn; lia.
  - destruct c; try discriminate. destruct r; try discriminate. destruct (sub_chk _ _); cbn in H; [|discriminate].
    injection H as <-. destruct f; unfold rd; cbn; lia.
  - injection H as <-. destruct f; unfold rd; cbn; lia.
  - destruct c as [k|k|ks|n|vs| |[] k g|]; cbn [add_main] in H;
      repeat match type of H with match ?z with [] => _ | _ :: _ => _ end = _ => destruct z as [|? z]; try discriminate end;
      try (destruct (sub_chk _ _); cbn in H; [|discriminate]);
      try discriminate; injection H as <-; destruct f; unfold rd; cbn; lia.
  - injection H as <-. destruct (found r) eqn:E; destruct f; unfold rd; cbn; rewrite ?E; lia.
  - destruct r; try discriminate. injection H as <-. destruct f; unfold rd; cbn; lia.
  - destruct c; try discriminate. destruct r; try discriminate. unfold sub_chk in H.
    destruct (_ <=? _) eqn:E; cbn in H; [|discriminate]. injection H as <-. destruct f; unfold rd; cbn; lia.
  - injection H as <-. destruct f; unfold rd; cbn; lia.
  - injection H as <-. destruct f; unfold rd; cbn; lia.
Qed.
Lemma iter_sum f c r n : forall a, list_sum (map (gives f c r) (flat_map (fun _ => one_add AIter) (seq a n))) = (match f with FIter => n | _ => 0 end).
Proof.
  induction n as [|n IH]; intros a; cbn [seq flat_map].
  - destruct f; auto.
  - rewrite map_app, list_sum_app, IH. destruct f; cbn; lia.
Qed.
(** After a call of the wrapped container, all that documents it is pending. *)
Lemma after_gives f st c st' r : bare_call gt st c = Ok (st', r) ->
  list_sum (map (gives f c r) (after_call c r)) = doc f (mkE c r 0 0).
Proof.
  intros H. destruct c as [k|k|ks|n|vs| |m k g|]; cbn [bare_call] in H.
  - destruct (contains C st k) as [b|]; cbn in H; [|discriminate]. injection H as <- <-. destruct b, f; reflexivity.
  - destruct (take C st k) as [[? o]|]; cbn in H; [|discriminate]. injection H as <- <-. destruct o, f; reflexivity.
  - destruct (take_multiple C st ks) as [[[? ?] o]|]; cbn in H; [|discriminate]. injection H as <- <-. destruct f; cbn; lia.
  - destruct (pop C st n) as [[? o]|]; cbn in H; [|discriminate]. injection H as <- <-. destruct f; reflexivity.
  - destruct (push C st vs) as [[? o]|]; cbn in H; [|discriminate]. injection H as <- <-. destruct f; cbn; lia.
  - destruct (flush C st) as [[? o]|]; cbn in H; [|discriminate]. injection H as <- <-.
    unfold after_call. change (ASize :: one_add AMain ++ ?l) with ([ASize; ABorrow; AMain; AGive] ++ l).
    rewrite map_app, list_sum_app, iter_sum. destruct f; cbn; lia.
  - destruct (gt m st k g) as [[? o]|]; cbn in H; [|discriminate]. injection H as <- <-. destruct m, o, f; reflexivity.
  - injection H as <- <-. destruct f; reflexivity.
Qed.

(** The invariant. *)
Definition pend_note (i : nat) (t : pthread (K := K) (V := V)) : notes :=
  match t with
  | PAfter c r _ _ => [mkNote i c r]
  | PDead c (Some r) _ => [mkNote i c r]
  | _ => []
  end.
Definition pinv (st0 : St C) (s : psys C) : Prop :=
  (forall f, rd f (p_stats s) + list_sum (map (pending_of f) (p_threads s)) = total (doc f) (map entry_of (p_calls s))) /\
  bare_gives st0 (p_calls s) (p_st s) /\
  (forall i t, nth_error (p_threads s) i = Some t -> of_thread i (p_calls s) = of_thread i (p_returns s) ++ pend_note i t) /\
  Forall (fun n => n_who n < length (p_threads s)) (p_calls s ++ p_returns s).

Lemma nth_swap {T} (l1 l2 : list T) x y i t : nth_error (l1 ++ y :: l2) i = Some t ->
  (i = length l1 /\ t = y) \/ (i <> length l1 /\ nth_error (l1 ++ x :: l2) i = Some t).
Proof.
  intros H. destruct (Nat.lt_trichotomy i (length l1)) as [L|[->|L]].
  - right. split; [lia|]. rewrite nth_error_app1 in * by auto. auto.
  - left. rewrite nth_error_app2, Nat.sub_diag in H by auto. injection H as <-. auto.
  - right. split; [lia|]. rewrite nth_error_app2 in * by lia. destruct (i - length l1) eqn:E; [lia|]. auto.
Qed.
Lemma nth_here {T} (l1 l2 : list T) x : nth_error (l1 ++ x :: l2) (length l1) = Some x.
Proof. rewrite nth_error_app2, Nat.sub_diag by auto. reflexivity. Qed.
Lemma len_here {T} (l1 l2 : list T) x y : length (l1 ++ x :: l2) = length (l1 ++ y :: l2).
Proof. rewrite !app_length. reflexivity. Qed.
Lemma sum_here {T} (f : T -> nat) l1 x l2 : list_sum (map f (l1 ++ x :: l2)) = f x + list_sum (map f (l1 ++ l2)).
Proof. rewrite !map_app, !list_sum_app. change (list_sum (map f (x :: l2))) with (f x + list_sum (map f l2)). lia. Qed.
Lemma of_thread_app i (l : notes) n : of_thread i (l ++ [n]) = if n_who n =? i then of_thread i l ++ [n] else of_thread i l.
Proof. unfold of_thread. rewrite filter_app. cbn [filter]. destruct (_ =? i); auto. apply app_nil_r. Qed.

Lemma pinv_quiet st0 t t' h h' st l1 x y l2 cs rs :
  pinv st0 (mkP t h st (l1 ++ x :: l2) cs rs) -> (forall f, rd f t' + pending_of f y = rd f t + pending_of f x) ->
  (forall i, pend_note i y = pend_note i x) ->
  pinv st0 (mkP t' h' st (l1 ++ y :: l2) cs rs).
Proof.
  intros (H1 & H2 & H3 & H4) HF HN. unfold pinv in *. cbn [p_stats p_threads p_calls p_returns p_st] in *.
  split; [|split; [|split]]; auto.
  - intros f. specialize (H1 f). specialize (HF f). rewrite sum_here in *. lia.
  - intros i u Hi. destruct (nth_swap _ _ x _ _ Hi) as [[-> ->]|[Hn Hi']]; auto.
    rewrite HN. apply H3. apply nth_here.
  - rewrite (len_here l1 l2 y x). auto.
Qed.

Lemma pstep_inv st0 s s' : pstep gt s s' -> pinv st0 s -> pinv st0 s'.
Proof.
  intros HS HI. destruct HS as
   [t h st l1 l2 c cs rs Hc|t h st l1 l2 c p z cs rs|t h st l1 l2 c z cs rs st' r HB|t h st l1 l2 c z cs rs HB
   |t h st l1 l2 c r p z cs rs|t st l1 l2 c r p z cs rs|t st l1 l2 c r p z cs rs|t st l1 l2 c r p z cs rs
   |t t' h st l1 l2 x c r p z cs rs X1 X2 X3 HA|t h st l1 l2 x c r p z cs rs X1 X2 X3 HA|t h st l1 l2 c r z cs rs].
  - eapply pinv_quiet; [exact HI|reflexivity|reflexivity].
  - eapply pinv_quiet; [exact HI|reflexivity|reflexivity].
  - destruct HI as (H1 & H2 & H3 & H4). unfold pinv in *. cbn [p_stats p_threads p_calls p_returns p_st] in *.
    split; [|split; [|split]].
    + intros f. specialize (H1 f). rewrite sum_here in *. rewrite (map_app entry_of), total_app. cbn [map entry_of n_call n_res].
      rewrite total_one. cbn [pending_of] in *. rewrite (after_gives f _ _ HB). change (entry_of (mkNote (length l1) c r)) with (mkE c r 0 0). lia.
    + econstructor; [exact H2|]. exact HB.
    + intros i u Hi. rewrite of_thread_app. cbn [n_who].
      destruct (nth_swap _ _ (PBefore c [] z) _ _ Hi) as [[-> ->]|[Hn Hi']].
      * rewrite Nat.eqb_refl. rewrite (H3 _ _ (nth_here l1 l2 _)). cbn. rewrite app_nil_r. auto.
      * destruct (Nat.eqb_spec (length l1) i); [congruence|]. auto.
    + rewrite (len_here l1 l2 _ (PBefore c [] z)). apply Forall_app in H4. destruct H4 as [H4 H5].
      rewrite <- app_assoc. apply Forall_app; split; auto. apply Forall_app; split; auto. constructor; auto.
      cbn. rewrite app_length. cbn. lia.
  - eapply pinv_quiet; [exact HI|reflexivity|reflexivity].
  - eapply pinv_quiet; [exact HI| |reflexivity]. intros f. cbn. destruct f; reflexivity.
  - eapply pinv_quiet; [exact HI| |reflexivity]. intros f. cbn. destruct f; reflexivity.
  - eapply pinv_quiet; [exact HI| |reflexivity]. intros f. cbn. destruct f; reflexivity.
  - eapply pinv_quiet; [exact HI| |reflexivity]. intros f. cbn. destruct f; reflexivity.
  - eapply pinv_quiet; [exact HI| |reflexivity]. intros f. rewrite (add_gives f _ _ _ _ _ HA).
    cbn [pending_of map list_sum fold_right]. unfold list_sum. lia.
  - eapply pinv_quiet; [exact HI|reflexivity|reflexivity].
  - destruct HI as (H1 & H2 & H3 & H4). unfold pinv in *. cbn [p_stats p_threads p_calls p_returns p_st] in *.
    split; [|split; [|split]]; auto.
    + intros f. specialize (H1 f). rewrite sum_here in *. exact H1.
    + intros i u Hi. rewrite of_thread_app. cbn [n_who].
      destruct (nth_swap _ _ (PAfter c r [] z) _ _ Hi) as [[-> ->]|[Hn Hi']].
      * rewrite Nat.eqb_refl. rewrite (H3 _ _ (nth_here l1 l2 _)). cbn. rewrite app_nil_r. auto.
      * destruct (Nat.eqb_spec (length l1) i); [congruence|]. auto.
    + rewrite (len_here l1 l2 _ (PAfter c r [] z)). rewrite app_assoc. apply Forall_app; split; auto. constructor; auto.
      cbn. rewrite app_length. cbn. lia.
Qed.
Lemma pinit_inv st n : pinv st (pinit C st n).
Proof.
  unfold pinv, pinit. cbn [p_stats p_threads p_calls p_returns p_st].
  assert (R : forall (f : pthread (K := K) (V := V) -> nat) m, f PIdle = 0 -> list_sum (map f (repeat PIdle m)) = 0).
  { intros f m Hf. induction m as [|m IH]; auto. change (f PIdle + list_sum (map f (repeat PIdle m)) = 0). lia. }
  split; [|split; [|split]].
  - intros f. rewrite R by reflexivity. destruct f; reflexivity.
  - constructor.
  - intros i t Hi. apply nth_error_In, repeat_spec in Hi. subst. reflexivity.
  - constructor.
Qed.
Lemma psteps_inv st n s : psteps gt (pinit C st n) s -> pinv st s.
Proof.
  intros H. remember (pinit C st n) as s1 eqn:E. induction H as [s|s s' s'' H IH H']; subst.
  - apply pinit_inv.
  - eapply pstep_inv; eauto.
Qed.
Lemma psteps_threads st n s : psteps gt (pinit C st n) s -> length (p_threads s) = n.
Proof.
  intros H. remember (pinit C st n) as s1 eqn:E. induction H as [s|s s' s'' H IH H']; subst.
  - cbn. apply repeat_length.
  - rewrite <- (IH eq_refl). destruct H'; cbn [p_threads]; apply len_here.
Qed.

(** The counters that come without a size keep the size 0: hits, misses, lookups, accesses, pushes, iterations of flush. *)
Definition sizeless (t : stats) : list nat :=
  [m_size (s_contains t); m_size (s_get t); m_size (s_get_mut t); m_size (s_push t); m_size (s_flush_iter t); m_size (s_hit t); m_size (s_miss t)].
Lemma add_sizeless x (c : pcall K V) r z t t' : add_of x c r z t = Ok t' -> sizeless t' = sizeless t.
Proof.
  assert (S : forall t u, (m_size (s_contains t) = m_size (s_contains u) /\ m_size (s_get t) = m_size (s_get u) /\ m_size (s_get_mut t) = m_size (s_get_mut u) /\
    m_size (s_push t) = m_size (s_push u) /\ m_size (s_flush_iter t) = m_size (s_flush_iter u) /\ m_size (s_hit t) = m_size (s_hit u) /\ m_size (s_miss t) = m_size (s_miss u)) ->
    sizeless t = sizeless u).
  { intros u v (A1 & A2 & A3 & A4 & A5 & A6 & A7). unfold sizeless. congruence. }
  intros H. apply S. destruct x; cbn [add_of] in H.
  - injection H as <-. repeat split.
  - destruct c; try discriminate. destruct r; try discriminate. destruct (sub_chk _ _); cbn in H; [|discriminate]. injection H as <-. repeat split.
  - injection H as <-. repeat split.
  - destruct c as [k|k|ks|n|vs| |[] k g|]; cbn [add_main] in H;
      repeat match type of H with match ?z with [] => _ | _ :: _ => _ end = _ => destruct z as [|? z]; try discriminate end;
      try (destruct (sub_chk _ _); cbn in H; [|discriminate]);
      try discriminate; injection H as <-; cbn; repeat split; lia.
  - injection H as <-. destruct (found r); cbn; repeat split; lia.
  - destruct r; try discriminate. injection H as <-. cbn; repeat split; lia.
  - destruct c; try discriminate. destruct r; try discriminate. destruct (sub_chk _ _); cbn in H; [|discriminate].
    injection H as <-. cbn; repeat split; lia.
  - injection H as <-. cbn; repeat split; lia.
  - injection H as <-. repeat split.
Qed.
Theorem C55_sizeless : forall st n s, psteps gt (pinit C st n) s -> Forall (fun z => z = 0) (sizeless (p_stats s)).
Proof.
  intros st n s H. remember (pinit C st n) as s1 eqn:E. induction H as [s|s s' s'' H IH H']; subst.
  - cbn. repeat constructor.
  - specialize (IH eq_refl). destruct H'; cbn [p_stats] in *; auto. erewrite add_sizeless by eassumption. auto.
Qed.
(** C55, first clause: what each thread gets back is what the wrapped container answered to its calls, in the order it
    made them, and these answers are those of the container called by one thread.  At most one call of each thread
    has been made on the container and has not returned. *)
Theorem C55_answers_of_the_container : forall st n s, psteps gt (pinit C st n) s ->
  bare_gives st (p_calls s) (p_st s) /\
  Forall (fun c => n_who c < n) (p_calls s) /\ Forall (fun c => n_who c < n) (p_returns s) /\
  forall i, i < n -> exists pending, of_thread i (p_calls s) = of_thread i (p_returns s) ++ pending /\
    length pending <= 1 /\ (nth_error (p_threads s) i = Some PIdle -> pending = []).
Proof.
  intros st n s H. pose proof (psteps_threads H) as L. destruct (psteps_inv H) as (_ & H2 & H3 & H4). rewrite L in *.
  apply Forall_app in H4. destruct H4 as [H4 H5].
  split; [auto|]. split; [auto|]. split; [auto|].
  intros i Hi. destruct (nth_error (p_threads s) i) as [t|] eqn:E; [|apply nth_error_None in E; lia].
  exists (pend_note i t). split; [apply H3; auto|]. destruct t as [| | |c [r|] p]; cbn; auto; split; auto; discriminate.
Qed.

(** C55, second clause: when no call is going on (and none panicked), the counters of calls, elements, hits and misses
    are exact, whatever the interleaving was. *)
Theorem C55_counts_exact : forall st n s, psteps gt (pinit C st n) s -> Forall (fun t => t = PIdle) (p_threads s) ->
  counts_are (p_stats s) (p_calls s).
Proof.
  intros st n s H HI. destruct (psteps_inv H) as (H1 & _).
  assert (Z : forall f, list_sum (map (pending_of f) (p_threads s)) = 0).
  { intros f. induction HI as [|t l -> HI IH]; auto. }
  assert (A : forall f, rd f (p_stats s) = total (doc f) (map entry_of (p_calls s))).
  { intros f. specialize (H1 f). rewrite Z in H1. lia. }
  constructor; [apply (A FContains)|apply (A FTake)|apply (A FPush)|apply (A FFlush)|apply (A FIter)|apply (A FGet)|
    apply (A FGetMut)|apply (A FHit)|apply (A FMiss)].
Qed.
(** While calls are going on they are never ahead. *)
Theorem C55_counts_never_ahead : forall st n s, psteps gt (pinit C st n) s ->
  m_count (s_contains (p_stats s)) <= total contains_calls (map entry_of (p_calls s)) /\
  m_count (s_take (p_stats s)) <= total keys_to_take (map entry_of (p_calls s)) /\
  m_count (s_push (p_stats s)) <= total elements_pushed (map entry_of (p_calls s)) /\
  m_count (s_hit (p_stats s)) <= total hits (map entry_of (p_calls s)) /\
  m_count (s_miss (p_stats s)) <= total misses (map entry_of (p_calls s)).
Proof.
  intros st n s H. destruct (psteps_inv H) as (H1 & _).
  assert (A : forall f, rd f (p_stats s) <= total (doc f) (map entry_of (p_calls s))) by (intros f; specialize (H1 f); lia).
  repeat split; [apply (A FContains)|apply (A FTake)|apply (A FPush)|apply (A FHit)|apply (A FMiss)].
Qed.

(** ** Who holds the counters *)
Fixpoint holdsp (p : list pact) : bool :=
  match p with [] => false | ABorrow :: _ => false | AGive :: _ => true | _ :: p' => holdsp p' end.
Fixpoint wfp (p : list pact) : bool :=
  match p with
  | [] => true
  | ABorrow :: p' => holdsp p' && wfp p'
  | AGive :: p' => negb (holdsp p') && wfp p'
  | _ :: p' => wfp p'
  end.
Definition rest (t : pthread (K := K) (V := V)) : list pact :=
  match t with PAfter _ _ p _ => p | PDead _ _ p => p | _ => [] end.
Definition holder (t : pthread (K := K) (V := V)) : bool := holdsp (rest t).
Lemma after_wf (c : pcall K V) r : holdsp (after_call c r) = false /\ wfp (after_call c r) = true.
Proof.
  assert (A : forall n a, holdsp (flat_map (fun _ => one_add AIter) (seq a n)) = false /\ wfp (flat_map (fun _ => one_add AIter) (seq a n)) = true).
  { induction n as [|n IH]; intros a; cbn [seq flat_map]; auto. destruct (IH (S a)) as [I1 I2]. cbn. rewrite I1, I2. auto. }
  destruct c as [k|k|ks|n|vs| |m k g|]; try (split; reflexivity).
  unfold after_call. destruct (A (match r with RMany l => S (length l) | _ => 0 end) 0) as [A1 A2].
  cbn [one_add app holdsp wfp]. rewrite A1, A2. auto.
Qed.
Definition hcount (l : list (pthread (K := K) (V := V))) : nat := length (filter holder l).
Lemma hcount_here l1 x l2 : hcount (l1 ++ x :: l2) = (if holder x then 1 else 0) + hcount (l1 ++ l2).
Proof. unfold hcount. rewrite !filter_app, !app_length. cbn [filter]. destruct (holder x); cbn; lia. Qed.
Definition hinv (s : psys C) : Prop :=
  hcount (p_threads s) = (if p_held s then 1 else 0) /\ Forall (fun t => wfp (rest t) = true) (p_threads s).
Lemma add_other x p : x <> ABorrow -> x <> AGive -> holdsp (x :: p) = holdsp p /\ wfp (x :: p) = wfp p.
Proof. destruct x; intros; try congruence; auto. Qed.
Lemma hinv_step s s' : pstep gt s s' -> hinv s -> hinv s'.
Proof.
  intros HS [H1 H2]. destruct HS as
   [t h st l1 l2 c cs rs Hc|t h st l1 l2 c p z cs rs|t h st l1 l2 c z cs rs st' r HB|t h st l1 l2 c z cs rs HB
   |t h st l1 l2 c r p z cs rs|t st l1 l2 c r p z cs rs|t st l1 l2 c r p z cs rs|t st l1 l2 c r p z cs rs
   |t t' h st l1 l2 x c r p z cs rs X1 X2 X3 HA|t h st l1 l2 x c r p z cs rs X1 X2 X3 HA|t h st l1 l2 c r z cs rs];
   unfold hinv in *; cbn [p_threads p_held] in *; rewrite hcount_here in *; unfold holder in *; cbn [rest] in *;
   apply Forall_app in H2; destruct H2 as [F1 F2]; inversion F2 as [|? ? F3 F4]; subst; cbn [rest] in *.
  - split; auto. apply Forall_app; auto.
  - split; auto. apply Forall_app; auto.
  - destruct (after_wf c r) as [A1 A2]. cbn [holdsp] in H1. rewrite A1. split; auto. apply Forall_app; auto.
  - split; auto. apply Forall_app; auto.
  - split; auto. apply Forall_app; auto.
  - cbn [holdsp wfp] in *. apply andb_true_iff in F3. destruct F3 as [F3 F3']. rewrite F3. split; [lia|]. apply Forall_app; auto.
  - split; auto. apply Forall_app; auto.
  - cbn [holdsp wfp] in *. apply andb_true_iff in F3. destruct F3 as [F3 F3']. apply negb_true_iff in F3. rewrite F3. split; [lia|]. apply Forall_app; auto.
  - destruct (add_other p X2 X3) as [E1 E2]. rewrite E1 in H1. rewrite E2 in F3. split; auto. apply Forall_app; auto.
  - split; auto. apply Forall_app; auto.
  - split; auto. apply Forall_app; auto.
Qed.
Lemma hinv_init st n : hinv (pinit C st n).
Proof.
  unfold hinv, pinit; cbn [p_threads p_held]. split.
  - induction n; auto.
  - apply Forall_forall. intros t Ht. apply repeat_spec in Ht. subst. reflexivity.
Qed.
Lemma hinv_steps s s' : psteps gt s s' -> hinv s -> hinv s'.
Proof. induction 1; auto. intros; eapply hinv_step; eauto. Qed.

(** ** Why a call panics *)
Definition sizes_in (p : list pact) : nat := length (filter (fun x => match x with ASize => true | _ => false end) p).
Definition zok (t : pthread (K := K) (V := V)) : Prop :=
  match t with
  | PBefore c p z => c <> PReset /\ exists q, before_call c = q ++ p /\ length z = sizes_in q
  | PAfter c r p z => c <> PReset /\ (exists st st', bare_call gt st c = Ok (st', r)) /\
      exists q, after_call c r = q ++ p /\ length z = sizes_in (before_call c) + sizes_in q
  | _ => True
  end.
Lemma sizes_app p q : sizes_in (p ++ q) = sizes_in p + sizes_in q.
Proof. unfold sizes_in. rewrite filter_app, app_length. auto. Qed.
Lemma zok_step s s' : pstep gt s s' -> Forall zok (p_threads s) -> Forall zok (p_threads s').
Proof.
  intros HS HF. destruct HS as
   [t h st l1 l2 c cs rs Hc|t h st l1 l2 c p z cs rs|t h st l1 l2 c z cs rs st' r HB|t h st l1 l2 c z cs rs HB
   |t h st l1 l2 c r p z cs rs|t st l1 l2 c r p z cs rs|t st l1 l2 c r p z cs rs|t st l1 l2 c r p z cs rs
   |t t' h st l1 l2 x c r p z cs rs X1 X2 X3 HA|t h st l1 l2 x c r p z cs rs X1 X2 X3 HA|t h st l1 l2 c r z cs rs];
   cbn [p_threads] in *; apply Forall_app in HF; destruct HF as [F1 F2]; inversion F2 as [|? ? F3 F4]; subst;
   apply Forall_app; split; auto; constructor; auto; cbn [zok] in *; try exact I.
  - split; auto. exists []. auto.
  - destruct F3 as (N & q & E & L). split; auto. exists (q ++ [ASize]). rewrite <- app_assoc. split; auto.
    rewrite sizes_app. cbn. lia.
  - destruct F3 as (N & q & E & L). rewrite app_nil_r in E. subst q. split; auto. split; eauto. exists []. split; auto. cbn. lia.
  - destruct F3 as (N & R & q & E & L). split; auto. split; auto. exists (q ++ [ASize]). rewrite <- app_assoc. split; auto. rewrite sizes_app. cbn. lia.
  - destruct F3 as (N & R & q & E & L). split; auto. split; auto. exists (q ++ [ABorrow]). rewrite <- app_assoc. split; auto. rewrite sizes_app. cbn. lia.
  - destruct F3 as (N & R & q & E & L). split; auto. split; auto. exists (q ++ [AGive]). rewrite <- app_assoc. split; auto. rewrite sizes_app. cbn. lia.
  - destruct F3 as (N & R & q & E & L). split; auto. split; auto. exists (q ++ [x]). rewrite <- app_assoc. split; auto. rewrite sizes_app.
    destruct x; try congruence; cbn; lia.
Qed.
Lemma zok_steps st n s : psteps gt (pinit C st n) s -> Forall zok (p_threads s).
Proof.
  intros H. remember (pinit C st n) as s1 eqn:E. induction H as [s|s s' s'' H IH H']; subst.
  - apply Forall_forall. intros t Ht. apply repeat_spec in Ht. subst. exact I.
  - eapply zok_step; eauto.
Qed.
Lemma main_once (c : pcall K V) r q p : after_call c r = q ++ AMain :: p -> c <> PReset ->
  sizes_in q = match c with PTake _ | PTakeMultiple _ | PFlush => 1 | PPop _ => 2 | _ => 0 end.
Proof.
  assert (A : forall n a, ~ In AMain (flat_map (fun _ => one_add AIter) (seq a n))).
  { induction n as [|n IH]; intros a; cbn [seq flat_map]; auto. intros H. apply in_app_or in H. destruct H as [H|H]; [|eapply IH; eauto]. cbn in H. intuition discriminate. }
  assert (B : forall q p l, q ++ AMain :: p = l -> In AMain l) by (intros q1 p1 l <-; apply in_or_app; right; left; auto).
  intros H N. symmetry in H. destruct c as [k|k|ks|m|vs| |m k g|]; [| | | | | | |congruence]; cbn [after_call one_add app] in H;
    do 5 (destruct q as [|? q]; cbn [app] in H; [first [discriminate H|reflexivity]|injection H as -> H;
          try (exfalso; apply B in H; first [apply A in H; exact H | cbn [In one_add] in H; intuition discriminate])]).
Qed.
Lemma only_take_multiple (c : pcall K V) r x : In x (after_call c r) -> x = ACheck \/ x = AHits \/ x = AMisses -> exists ks, c = PTakeMultiple ks.
Proof.
  assert (A : forall n a, In x (flat_map (fun _ => one_add AIter) (seq a n)) -> x = ABorrow \/ x = AIter \/ x = AGive).
  { induction n as [|n IH]; intros a; cbn [seq flat_map]; [intros []|]. intros H. apply in_app_or in H. destruct H as [H|H]; [|eapply IH; eauto]. cbn in H. intuition. }
  destruct c as [k|k|ks|m|vs| |m k g|]; intros H HX; [| |eauto| | | | |]; exfalso;
    try (cbn in H; destruct HX as [->|[->| ->]]; intuition discriminate).
  cbn [after_call one_add app] in H. destruct H as [H|[H|[H|[H|H]]]]; [| | | |apply A in H]; destruct HX as [->|[->| ->]]; intuition discriminate.
Qed.
(** C55: why a call panics -- the container did; or the counters were borrowed by another thread (or poisoned); or a pop
    found the container larger after than before; or take_multiple took more pairs than it was given keys.  (A thread
    alone: only the first, and the last for a container that breaks the law of take_multiple.) *)
Theorem C55_why_it_panics : forall st n s s' i c r p, psteps gt (pinit C st n) s -> pstep gt s s' ->
  nth_error (p_threads s') i = Some (PDead c r p) -> nth_error (p_threads s) i <> Some (PDead c r p) ->
  (r = None /\ bare_call gt (p_st s) c = Panic) \/
  (exists p', p = ABorrow :: p' /\ p_held s = true /\ exists j t, j <> i /\ nth_error (p_threads s) j = Some t /\ holder t = true) \/
  (exists m l p' s0 s1 before after, c = PPop m /\ r = Some (RMany l) /\ nth_error (p_threads s) i = Some (PAfter c (RMany l) (AMain :: p') [after; s1; s0; before]) /\ before < after) \/
  (exists ks ks' l, c = PTakeMultiple ks /\ r = Some (RTaken ks' l) /\ length ks < length l).
Proof.
  intros st n s s' i c r p HR HS Hi Hn. pose proof (zok_steps HR) as HZ. pose proof (hinv_steps HR (hinv_init st n)) as [HH HW]. destruct HS as
   [t h st1 l1 l2 c1 cs rs Hc|t h st1 l1 l2 c1 p1 z cs rs|t h st1 l1 l2 c1 z cs rs st' r1 HB|t h st1 l1 l2 c1 z cs rs HB
   |t h st1 l1 l2 c1 r1 p1 z cs rs|t st1 l1 l2 c1 r1 p1 z cs rs|t st1 l1 l2 c1 r1 p1 z cs rs|t st1 l1 l2 c1 r1 p1 z cs rs
   |t t' h st1 l1 l2 x c1 r1 p1 z cs rs X1 X2 X3 HA|t h st1 l1 l2 x c1 r1 p1 z cs rs X1 X2 X3 HA|t h st1 l1 l2 c1 r1 z cs rs];
   cbn [p_threads p_held p_st] in *;
   match type of Hn with nth_error (_ ++ ?x :: _) _ <> _ => destruct (nth_swap _ _ x _ _ Hi) as [[-> E]|[_ E]]; [|congruence] end; try discriminate E;
   injection E as -> -> ->.
  - left. auto.
  - right. left. exists p1. split; auto. split; auto.
    rewrite hcount_here in HH. assert (X : holder (PAfter c1 r1 (ABorrow :: p1) z) = false) by reflexivity. rewrite X in HH.
    unfold hcount in HH. destruct (filter holder (l1 ++ l2)) as [|t0 l] eqn:EF; [discriminate HH|].
    assert (Y : In t0 (l1 ++ l2) /\ holder t0 = true) by (apply filter_In; rewrite EF; left; auto). destruct Y as [Y1 Y2].
    apply in_app_or in Y1. destruct Y1 as [Y1|Y1]; apply In_nth_error in Y1 as (j & Hj).
    + exists j, t0. assert (j < length l1) by (apply nth_error_Some; congruence). split; [lia|]. split; auto. rewrite nth_error_app1 by auto. auto.
    + exists (length l1 + S j), t0. split; [lia|]. split; auto. rewrite nth_error_app2 by lia. replace (length l1 + S j - length l1) with (S j) by lia. exact Hj.
  - right. right. apply Forall_app in HZ as [_ HZ]. inversion HZ as [|? ? Z _]; subst. cbn [zok] in Z. destruct Z as (N & (sa & sb & HB) & q & EQ & L).
    assert (XI : In x (after_call c1 r1)) by (rewrite EQ; apply in_or_app; right; left; auto).
    assert (TM : x = ACheck \/ x = AHits \/ x = AMisses -> exists ks ks' l, c1 = PTakeMultiple ks /\ r1 = RTaken ks' l).
    { intros HX. destruct (only_take_multiple _ _ XI HX) as (ks & ->). cbn [bare_call] in HB.
      destruct (take_multiple C sa ks) as [[[? ks'] l]|]; cbn in HB; [|discriminate]. injection HB as _ <-. eauto. }
    destruct x; try congruence; cbn [add_of] in HA; try discriminate HA.
    + destruct TM as (ks & ks' & l & -> & ->); [auto|]. right. exists ks, ks', l. split; auto. split; auto.
      unfold sub_chk in HA. destruct (Nat.leb_spec (length l) (length ks)); [discriminate HA|auto].
    + pose proof (main_once _ _ _ EQ N) as M. left. destruct c1 as [k|k|ks|m|vs| |m k g|]; cbn [add_main before_call] in *; try discriminate HA; try congruence.
      * exfalso. destruct z as [|? [|? z]]; cbn in L; try lia; discriminate HA.
      * exfalso. destruct z as [|? [|? z]]; cbn in L; try lia; discriminate HA.
      * destruct z as [|after [|s1 [|s0 [|before [|? z]]]]]; cbn in L; try lia.
        cbn [bare_call] in HB. destruct (pop C sa m) as [[? l]|]; cbn in HB; [|discriminate]. injection HB as _ <-.
        exists m, l, p1, s0, s1, before, after. split; auto. split; auto. split; [apply nth_here|].
        unfold sub_chk in HA. destruct (Nat.leb_spec after before); [discriminate HA|auto].
      * exfalso. destruct z as [|? [|? z]]; cbn in L; try lia; discriminate HA.
      * destruct m; discriminate HA.
    + destruct TM as (ks & ks' & l & -> & ->); [auto|]. discriminate HA.
    + destruct TM as (ks & ks' & l & -> & ->); [auto|]. right. exists ks, ks', l. split; auto. split; auto.
      unfold sub_chk in HA. destruct (Nat.leb_spec (length l) (length ks)); [discriminate HA|auto].
Qed.

(** A thread that panicked while it held the counters. *)
Definition poisoned (s : psys C) : Prop := exists i c r p, nth_error (p_threads s) i = Some (PDead c r p) /\ holdsp p = true.
Definition stuck (t : pthread (K := K) (V := V)) : Prop :=
  match t with
  | PIdle | PDead _ _ _ => True
  | PBefore c _ _ => c <> PReset
  | PAfter _ _ p _ => In ABorrow p
  end.
Lemma after_borrows (c : pcall K V) r : c <> PReset -> In ABorrow (after_call c r).
Proof. destruct c; cbn; intros; auto. Qed.
Lemma nth_keep {T} (l1 l2 : list T) x y i t : nth_error (l1 ++ x :: l2) i = Some t -> t <> x ->
  nth_error (l1 ++ y :: l2) i = Some t.
Proof. intros H N. destruct (nth_swap _ _ y _ _ H) as [[-> ->]|[_ H']]; [congruence|auto]. Qed.
Lemma two_holders l1 x l2 i t : holder x = true -> nth_error (l1 ++ x :: l2) i = Some t -> holder t = true -> t <> x ->
  2 <= hcount (l1 ++ x :: l2).
Proof.
  intros Hx Hi Ht Hn. rewrite hcount_here, Hx.
  assert (In t (l1 ++ l2)).
  { apply nth_error_In in Hi. apply in_app_or in Hi. destruct Hi as [Hi|[Hi|Hi]]; [|congruence|]; apply in_or_app; auto. }
  assert (X : In t (filter holder (l1 ++ l2))) by (apply filter_In; auto).
  unfold hcount. destruct (filter holder (l1 ++ l2)); [contradiction|cbn; lia].
Qed.
Lemma poisoned_step s s' : pstep gt s s' -> hinv s -> poisoned s -> p_held s = true ->
  poisoned s' /\ p_held s' = true /\
  forall i, (forall t, nth_error (p_threads s) i = Some t -> stuck t) ->
    (forall t, nth_error (p_threads s') i = Some t -> stuck t) /\ of_thread i (p_returns s') = of_thread i (p_returns s).
Proof.
  intros HS [H1 H2] (j & d & r0 & p0 & Hj & Hp) Hh. destruct HS as
   [t h st l1 l2 c cs rs Hc|t h st l1 l2 c p z cs rs|t h st l1 l2 c z cs rs st' r HB|t h st l1 l2 c z cs rs HB
   |t h st l1 l2 c r p z cs rs|t st l1 l2 c r p z cs rs|t st l1 l2 c r p z cs rs|t st l1 l2 c r p z cs rs
   |t t' h st l1 l2 x c r p z cs rs X1 X2 X3 HA|t h st l1 l2 x c r p z cs rs X1 X2 X3 HA|t h st l1 l2 c r z cs rs];
   unfold poisoned; cbn [p_threads p_held p_returns] in *; try discriminate Hh.
  all: try (split; [do 4 eexists; split; [eapply nth_keep; [exact Hj|discriminate]|exact Hp]|]; split; [auto|]; intros i Hi).
  - split; auto. intros u Hu. destruct (nth_swap _ _ PIdle _ _ Hu) as [[-> ->]|[_ Hu']]; auto.
  - split; auto. intros u Hu. destruct (nth_swap _ _ (PBefore c (ASize :: p) z) _ _ Hu) as [[-> ->]|[_ Hu']]; auto.
    exact (Hi _ (nth_here l1 l2 _)).
  - split; auto. intros u Hu. destruct (nth_swap _ _ (PBefore c [] z) _ _ Hu) as [[-> ->]|[_ Hu']]; auto.
    pose proof (Hi _ (nth_here l1 l2 _)) as N. apply after_borrows. exact N.
  - split; auto. intros u Hu. destruct (nth_swap _ _ (PBefore c [] z) _ _ Hu) as [[-> ->]|[_ Hu']]; auto. exact I.
  - split; auto. intros u Hu. destruct (nth_swap _ _ (PAfter c r (ASize :: p) z) _ _ Hu) as [[-> ->]|[_ Hu']]; auto.
    destruct (Hi _ (nth_here l1 l2 _)) as [N|N]; [discriminate|exact N].
  - split; auto. intros u Hu. destruct (nth_swap _ _ (PAfter c r (ABorrow :: p) z) _ _ Hu) as [[-> ->]|[_ Hu']]; auto. exact I.
  - exfalso. assert (2 <= 1); [|lia]. rewrite <- H1 at 2. eapply two_holders; [reflexivity|exact Hj|exact Hp|discriminate].
  - split; auto. intros u Hu. destruct (nth_swap _ _ (PAfter c r (x :: p) z) _ _ Hu) as [[-> ->]|[_ Hu']]; auto.
    destruct (Hi _ (nth_here l1 l2 _)) as [N|N]; [congruence|exact N].
  - split; auto. intros u Hu. destruct (nth_swap _ _ (PAfter c r (x :: p) z) _ _ Hu) as [[-> ->]|[_ Hu']]; auto. exact I.
  - rewrite of_thread_app. cbn [n_who]. destruct (Nat.eqb_spec (length l1) i) as [<-|N].
    + exfalso. exact (Hi _ (nth_here l1 l2 _)).
    + split; auto. intros u Hu. destruct (nth_swap _ _ (PAfter c r [] z) _ _ Hu) as [[-> ->]|[_ Hu']]; auto. congruence.
Qed.
(** Once a thread panicked while it held the counters, no call made on any clone from then on returns. *)
Theorem C55_poisoned_for_ever : forall st n s s' i, psteps gt (pinit C st n) s -> psteps gt s s' -> poisoned s ->
  nth_error (p_threads s) i = Some PIdle -> of_thread i (p_returns s') = of_thread i (p_returns s).
Proof.
  intros st n s s' i HR HS HP Hi. pose proof (hinv_steps HR (hinv_init st n)) as HI.
  assert (Hh : p_held s = true).
  { destruct HP as (j & d & r0 & p0 & Hj & Hp). destruct HI as [H1 _]. destruct (p_held s); auto. exfalso.
    assert (X : In (PDead d r0 p0) (filter holder (p_threads s))) by (apply filter_In; split; [eapply nth_error_In; eauto|exact Hp]).
    unfold hcount in H1. destruct (filter holder (p_threads s)); [contradiction|discriminate]. }
  assert (A : hinv s' /\ poisoned s' /\ p_held s' = true /\ (forall t, nth_error (p_threads s') i = Some t -> stuck t) /\
              of_thread i (p_returns s') = of_thread i (p_returns s)).
  { induction HS as [s|s s1 s2 HS IH HT].
    - split; [auto|]. split; [auto|]. split; [auto|]. split; [|auto]. intros t Ht. rewrite Hi in Ht. injection Ht as <-. exact I.
    - destruct (IH HR HP Hi HI Hh) as (I1 & I2 & I3 & I4 & I5). destruct (poisoned_step HT I1 I2 I3) as (P1 & P2 & P3).
      destruct (P3 i I4) as [P4 P5]. split; [eapply hinv_step; eauto|]. split; [auto|]. split; [auto|]. split; [auto|congruence]. }
  tauto.
Qed.

(** C55, the claim that concurrent use is safe, is false: two threads that only look up keys can collide on the counters,
    whatever the wrapped container, and one of them panics. *)
Theorem C55_two_lookups_panic_refuted : forall (st : St C) k k' b b', contains C st k = Ok b -> contains C st k' = Ok b' ->
  exists s, psteps gt (pinit C st 2) s /\ nth_error (p_threads s) 1 = Some (PDead (V := V) (PContains k') (Some (RBool b')) (after_call (V := V) (PContains k') (RBool b'))).
Proof.
  intros st k k' b b' H H'. eexists. split.
  - eapply ps_step. eapply ps_step. eapply ps_step. eapply ps_step. eapply ps_step. eapply ps_step. apply ps_refl.
    + eapply (P_call gt _ _ _ [] [PIdle] (c := PContains k)). discriminate.
    + eapply (P_call gt _ _ _ [_] [] (c := PContains k')). discriminate.
    + eapply (P_inner gt _ _ _ [] [_]). cbn [bare_call]. rewrite H. reflexivity.
    + eapply (P_inner gt _ _ _ [_] []). cbn [bare_call]. rewrite H'. reflexivity.
    + eapply (P_borrow gt _ _ [] [_]).
    + eapply (P_refused gt _ _ [_] []).
  - reflexivity.
Qed.
End Proof.

(** ** Executing a schedule: which thread steps, and the call it makes if it is idle. *)
Section Play.
Context {K V : Type}.
Variable C : Block K V.
Variable gt : bool -> Getter C.
Definition is_add (x : pact) : bool := match x with ASize | ABorrow | AGive => false | _ => true end.
Definition pplay1 (s : psys C) (m : nat * pcall K V) : option (psys C) :=
  let (i, a) := m in
  match s with
  | mkP t h st ts cs rs =>
      let l1 := firstn i ts in
      let l2 := skipn (S i) ts in
      match nth_error ts i with
      | Some PIdle =>
          match a with PReset => None | _ => Some (mkP t h st (l1 ++ PBefore a (before_call a) [] :: l2) cs rs) end
      | Some (PBefore c (ASize :: p) z) => Some (mkP t h st (l1 ++ PBefore c p (size C st :: z) :: l2) cs rs)
      | Some (PBefore c [] z) =>
          match bare_call gt st c with
          | Ok (st', r) => Some (mkP t h st' (l1 ++ PAfter c r (after_call c r) z :: l2) (cs ++ [mkNote i c r]) rs)
          | Panic => None
          end
      | Some (PAfter c r [] z) => Some (mkP t h st (l1 ++ PIdle :: l2) cs (rs ++ [mkNote i c r]))
      | Some (PAfter c r (ASize :: p) z) => Some (mkP t h st (l1 ++ PAfter c r p (size C st :: z) :: l2) cs rs)
      | Some (PAfter c r (ABorrow :: p) z) =>
          Some (if h then mkP t true st (l1 ++ PDead c (Some r) (ABorrow :: p) :: l2) cs rs
                else mkP t true st (l1 ++ PAfter c r p z :: l2) cs rs)
      | Some (PAfter c r (AGive :: p) z) => if h then Some (mkP t false st (l1 ++ PAfter c r p z :: l2) cs rs) else None
      | Some (PAfter c r (x :: p) z) =>
          if is_add x then
            match add_of x c r z t with
            | Ok t' => Some (mkP t' h st (l1 ++ PAfter c r p z :: l2) cs rs)
            | Panic => Some (mkP t h st (l1 ++ PDead c (Some r) (x :: p) :: l2) cs rs)
            end
          else None
      | _ => None
      end
  end.
Fixpoint pplay (s : psys C) (h : list (nat * pcall K V)) : option (psys C) :=
  match h with [] => Some s | m :: h' => match pplay1 s m with Some s' => pplay s' h' | None => None end end.
Lemma nth_cut {T} (l : list T) i x : nth_error l i = Some x -> l = firstn i l ++ x :: skipn (S i) l.
Proof.
  revert i; induction l as [|y l IH]; intros [|i] H; cbn in *; try discriminate.
  - injection H as ->. reflexivity.
  - f_equal. apply IH; auto.
Qed.
Lemma pplay1_ok s m s' : pplay1 s m = Some s' -> pstep gt s s'.
Proof.
  destruct m as [i a0]. destruct s as [t h st ts cs rs]. unfold pplay1.
  destruct (nth_error ts i) as [th|] eqn:E; [|discriminate].
  assert (L : length (firstn i ts) = i).
  { apply firstn_length_le. assert (i < length ts) by (apply nth_error_Some; congruence). lia. }
  apply nth_cut in E. revert E L. cbv zeta. generalize (firstn i ts) (skipn (S i) ts). intros l1 l2 -> <-.
  destruct th as [|c p z|c r p z|c r p].
  - destruct a0; try discriminate; intros H; injection H as <-; apply P_call; discriminate.
  - destruct p as [|[] p]; try discriminate.
    + destruct (bare_call gt st c) as [[st' r]|] eqn:EB; [|discriminate]. intros H; injection H as <-. apply P_inner; auto.
    + intros H; injection H as <-. apply P_size_before.
  - destruct p as [|x p]; [intros H; injection H as <-; apply P_return|].
    destruct x; cbn [is_add];
    try (destruct (add_of _ c r z t) as [t'|] eqn:EA; intros H; injection H as <-; [apply P_add|apply P_add_panic]; auto; discriminate).
    + intros H; injection H as <-. apply P_size_after.
    + destruct h; intros H; injection H as <-; [apply P_refused|apply P_borrow].
    + destruct h; [|discriminate]. intros H; injection H as <-. apply P_give.
  - discriminate.
Qed.
Lemma pplay_ok h s s' : pplay s h = Some s' -> psteps gt s s'.
Proof.
  revert s. induction h as [|m h IH]; cbn; intros s H.
  - injection H as <-. constructor.
  - destruct (pplay1 s m) as [s1|] eqn:E; [|discriminate]. apply IH in H. apply pplay1_ok in E.
    clear IH. induction H as [s1|s1 s2 s3 H IH H']; [econstructor; [constructor|]; auto|].
    econstructor; eauto.
Qed.
End Play.

(** Concrete runs over a BTree of capacity 3. *)
Definition pc_b : Block nat nat := BTreeB.
Definition pc_st : St pc_b := btree_new 3 (fun _ : nat * nat => 1).
Definition no_get (m : bool) : Getter pc_b := fun s _ _ => Ok (s, None).
Definition steps_of (i n : nat) (c : pcall nat nat) : list (nat * pcall nat nat) := repeat (i, c) n.
(** What is seen of a run: counters, content of the container, dead threads, returns. *)
Definition seen (s : psys pc_b) := (p_stats s, b_ct (p_st s), map (fun t => match t with PDead _ r _ => Some r | _ => None end) (p_threads s), p_returns s).

(** A push whose thread panics on the counters has been done, and what it evicted is lost: neither in the container nor
    returned to anybody. *)
Definition h_lost : list (nat * pcall nat nat) :=
  steps_of 0 6 (PPush [(1, 10); (2, 20); (3, 30)]) ++
  steps_of 0 3 (PContains 1) ++       (* thread 0 holds the counters *)
  steps_of 1 3 (PPush [(4, 5)]).      (* thread 1 pushes; the pair (3, 30) is evicted; no counters: panic *)
Lemma see {O} (o : psys pc_b -> O) n h v : option_map o (pplay no_get (pinit pc_b pc_st n) h) = Some v ->
  exists s, psteps no_get (pinit pc_b pc_st n) s /\ o s = v.
Proof.
  destruct (pplay no_get (pinit pc_b pc_st n) h) as [s|] eqn:E; [|discriminate]. cbn. intros H. injection H as H.
  exists s. split; auto. eapply pplay_ok; exact E.
Qed.
Theorem C55_evicted_pair_lost_refuted : exists s, psteps no_get (pinit pc_b pc_st 2) s /\
  nth_error (p_threads s) 1 = Some (PDead (PPush [(4, 5)]) (Some (RMany [(3, 30)])) (after_call (PPush [(4, 5)]) (RMany [(3, 30)]))) /\
  Permutation (b_ct (p_st s)) [(1, 10); (2, 20); (4, 5)] /\ Forall (fun n => n_res n = RMany []) (p_returns s).
Proof.
  destruct (see (fun s => (nth_error (p_threads s) 1, b_ct (p_st s), p_returns s)) 2 h_lost ltac:(vm_compute; reflexivity)) as (s & HS & HO).
  pose proof (f_equal (fun x => fst (fst x)) HO) as HO1. pose proof (f_equal (fun x => snd (fst x)) HO) as HO2.
  pose proof (f_equal snd HO) as HO3. cbn [fst snd] in HO1, HO2, HO3. exists s. split; [exact HS|].
  rewrite HO1, HO2, HO3. split; [reflexivity|]. split; [repeat constructor|repeat constructor].
Qed.

(** A pop during which another thread pushes: the container is larger after than before, the subtraction overflows
    (in a build with overflow checks) while the counters are borrowed, and they are poisoned for ever
    ([C55_poisoned_for_ever]); the popped pair is lost. *)
Definition h_pop : list (nat * pcall nat nat) :=
  steps_of 0 3 (PPop 1) ++ steps_of 1 6 (PPush [(1, 10); (2, 20)]) ++ steps_of 0 5 (PPop 1).
Theorem C55_pop_poisons_refuted : exists s, psteps no_get (pinit pc_b pc_st 2) s /\ poisoned s /\
  nth_error (p_threads s) 1 = Some PIdle /\
  b_ct (p_st s) = [(1, 10)] /\ p_returns s = [mkNote 1 (PPush [(1, 10); (2, 20)]) (RMany [])].
Proof.
  destruct (see (fun s => (p_threads s, b_ct (p_st s), p_returns s)) 2 h_pop ltac:(vm_compute; reflexivity)) as (s & HS & HO).
  pose proof (f_equal (fun x => fst (fst x)) HO) as HO1. pose proof (f_equal (fun x => snd (fst x)) HO) as HO2.
  pose proof (f_equal snd HO) as HO3. cbn [fst snd] in HO1, HO2, HO3. exists s. split; [exact HS|].
  rewrite HO2, HO3, HO1. split; [|repeat split].
  exists 0. do 3 eexists. rewrite HO1. split; [reflexivity|reflexivity].
Qed.

(** Sizes are not exact: a take that finds nothing is recorded as having moved what another thread pushed meanwhile. *)
Definition h_size : list (nat * pcall nat nat) :=
  steps_of 0 3 (PTake 5) ++ steps_of 1 6 (PPush [(1, 10); (2, 20)]) ++ steps_of 0 8 (PTake 5).
Theorem C55_sizes_not_exact_refuted : exists s, psteps no_get (pinit pc_b pc_st 2) s /\
  Forall (fun t => t = PIdle) (p_threads s) /\
  p_returns s = [mkNote 1 (PPush [(1, 10); (2, 20)]) (RMany []); mkNote 0 (PTake 5) (ROne None)] /\
  m_size (s_take (p_stats s)) = 2.
Proof.
  destruct (see (fun s => (p_threads s, p_returns s, m_size (s_take (p_stats s)))) 2 h_size ltac:(vm_compute; reflexivity)) as (s & HS & HO).
  pose proof (f_equal (fun x => fst (fst x)) HO) as HO1. pose proof (f_equal (fun x => snd (fst x)) HO) as HO2.
  pose proof (f_equal snd HO) as HO3. cbn [fst snd] in HO1, HO2, HO3. exists s. split; [exact HS|].
  rewrite HO1, HO2, HO3. split; [repeat constructor|auto].
Qed.

(** A run of three threads with interleaved additions, none of which panics: the case of [C55_counts_exact]. *)
Definition h_fine : list (nat * pcall nat nat) :=
  steps_of 0 2 (PPush [(1, 10); (2, 20)]) ++ steps_of 1 2 (PContains 2) ++ steps_of 0 3 (PPush [(1, 10); (2, 20)]) ++
  steps_of 2 3 (PTakeMultiple [1; 7]) ++ steps_of 1 3 (PContains 2) ++ steps_of 2 4 (PTakeMultiple [1; 7]) ++
  steps_of 1 4 (PContains 2) ++ steps_of 2 8 (PTakeMultiple [1; 7]) ++ steps_of 0 1 PFlush.
Example C55_example : exists s, psteps no_get (pinit pc_b pc_st 3) s /\ Forall (fun t => t = PIdle) (p_threads s) /\
  map (fun n => (n_who n, n_res n)) (p_returns s) = [(1, RBool true); (2, RTaken [1; 7] [(1, 10)]); (0, RMany [])] /\
  m_count (s_hit (p_stats s)) = 2 /\ m_count (s_miss (p_stats s)) = 1 /\ m_count (s_push (p_stats s)) = 2 /\
  m_count (s_take (p_stats s)) = 2.
Proof.
  destruct (see (fun s => (p_threads s, map (fun n => (n_who n, n_res n)) (p_returns s), p_stats s)) 3 h_fine ltac:(vm_compute; reflexivity)) as (s & HS & HO).
  pose proof (f_equal (fun x => fst (fst x)) HO) as HO1. pose proof (f_equal (fun x => snd (fst x)) HO) as HO2.
  pose proof (f_equal snd HO) as HO3. cbn [fst snd] in HO1, HO2, HO3. exists s. split; [exact HS|].
  rewrite HO1, HO2, HO3. split; [repeat constructor|]. repeat split.
Qed.
