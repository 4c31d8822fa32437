(** PProfiler.v -- property theorems about Profiler: C26. *)
From Verif Require Import Base PermSolve Block Spec Wrappers WrappersProof Arch ArchProof TmLen PArch Get GetProof PGet Profiled.
Set Implicit Arguments.

(** ** Specification: what the documentation says each counter is (/repo/src/profiler/profiler.rs:93-208 and
    the method documentation of /repo/src/profiler/building_block.rs), as a sum over a log of calls on the
    wrapped container.  An entry of the log: the call, its result, the size before and after. *)
Section Log.
Context {K V : Type}.
Record entry : Type := mkE { e_call : pcall K V; e_res : presult K V; e_before : nat; e_after : nat }.
Definition total (f : entry -> nat) (l : list entry) : nat := list_sum (map f l).
Definition difference (e : entry) : nat := (e_before e - e_after e) + (e_after e - e_before e).

Definition contains_calls (e : entry) : nat := match e_call e with PContains _ => 1 | _ => 0 end.
Definition keys_to_take (e : entry) : nat := match e_call e with PTake _ => 1 | PTakeMultiple ks => length ks | _ => 0 end.
Definition size_taken (e : entry) : nat := match e_call e with PTake _ | PTakeMultiple _ => difference e | _ => 0 end.
Definition size_popped (e : entry) : nat := match e_call e with PPop _ => e_before e - e_after e | _ => 0 end.
Definition elements_pushed (e : entry) : nat := match e_call e with PPush vs => length vs | _ => 0 end.
Definition flush_calls (e : entry) : nat := match e_call e with PFlush => 1 | _ => 0 end.
Definition size_flushed (e : entry) : nat := match e_call e with PFlush => difference e | _ => 0 end.
(** calls of [next], the one returning None included *)
Definition flush_iterations (e : entry) : nat :=
  match e_call e, e_res e with PFlush, RMany l => S (length l) | _, _ => 0 end.
Definition get_calls (e : entry) : nat := match e_call e with PGet false _ _ => 1 | _ => 0 end.
Definition get_mut_calls (e : entry) : nat := match e_call e with PGet true _ _ => 1 | _ => 0 end.
Definition hits (e : entry) : nat :=
  match e_res e with
  | RBool true => 1
  | ROne (Some _) => 1
  | RTaken _ l => length l
  | RValue (Some _) => 1
  | _ => 0
  end.
Definition misses (e : entry) : nat :=
  match e_call e, e_res e with
  | PContains _, RBool false => 1
  | PTake _, ROne None => 1
  | PTakeMultiple ks, RTaken _ l => length ks - length l
  | PGet _ _ _, RValue None => 1
  | _, _ => 0
  end.
Definition documented (l : list entry) : stats := {|
  s_contains := mkM (total contains_calls l) 0;
  s_take := mkM (total keys_to_take l) (total size_taken l);
  s_pop := mkM (total size_popped l) (total size_popped l);
  s_push := mkM (total elements_pushed l) 0;
  s_flush := mkM (total flush_calls l) (total size_flushed l);
  s_flush_iter := mkM (total flush_iterations l) 0;
  s_get := mkM (total get_calls l) 0;
  s_get_mut := mkM (total get_mut_calls l) 0;
  s_hit := mkM (total hits l) 0;
  s_miss := mkM (total misses l) 0
|}.
(** The entries after the last reset. *)
Fixpoint since_reset (l : list entry) : list entry :=
  match l with
  | [] => []
  | e :: l' =>
      if existsb (fun e => match e_call e with PReset => true | _ => false end) l'
      then since_reset l'
      else match e_call e with PReset => l' | _ => l end
  end.
End Log.
Arguments entry K V : clear implicits.

Section Spec.
Context {K V : Type}.
Variable C : Block K V.
Variable gt : bool -> Getter C.

(** Several handles on wrapped containers, without any Profiler: which container each handle is on, the
    containers, and the log of the calls with the container they went to. *)
Record bworld : Type := mkBW { b_caches : list (St C); b_on : list nat }.
Definition bw_step (w : bworld) (e : pevent C) : res (bworld * presult K V * list (nat * entry K V)) :=
  match e with
  | WNew _ c => Ok (mkBW (b_caches w ++ [c]) (b_on w ++ [length (b_caches w)]), RUnit, [])
  | WClone _ h =>
      let* j := unwrap (nth_error (b_on w) h) in
      Ok (mkBW (b_caches w) (b_on w ++ [j]), RUnit, [])
  | WCall _ h p =>
      let* j := unwrap (nth_error (b_on w) h) in
      let* c := unwrap (nth_error (b_caches w) j) in
      let* (c', r) := bare_call gt c p in
      Ok (mkBW (set_nth j c' (b_caches w)) (b_on w), r, [(j, mkE p r (size C c) (size C c'))])
  end.
Fixpoint bw_run (w : bworld) (es : list (pevent C)) : res (bworld * list (presult K V) * list (nat * entry K V)) :=
  match es with
  | [] => Ok (w, [], [])
  | e :: es' =>
      let* (w1, r, l) := bw_step w e in
      let* (w2, rs, l') := bw_run w1 es' in Ok (w2, r :: rs, l ++ l')
  end.
Definition bw_empty : bworld := mkBW [] [].
(** The calls that went to container [j]. *)
Definition on (j : nat) (l : list (nat * entry K V)) : list (entry K V) :=
  map snd (filter (fun p => fst p =? j) l).

(** A container that does not return more pairs than keys asked for, and does not grow by popping. *)
Definition sane (l : list (nat * entry K V)) : Prop :=
  Forall (fun p => match e_call (snd p), e_res (snd p) with
    | PTakeMultiple ks, RTaken _ out => length out <= length ks
    | PPop _, _ => e_after (snd p) <= e_before (snd p)
    | _, _ => True end) l.

(** ** Proofs *)
Lemma total_app (f : entry K V -> nat) l1 l2 : total f (l1 ++ l2) = total f l1 + total f l2.
Proof. unfold total. rewrite map_app, list_sum_app. auto. Qed.
Lemma total_one (f : entry K V -> nat) e : total f [e] = f e.
Proof. unfold total. cbn. lia. Qed.
Definition is_reset (e : entry K V) : bool := match e_call e with PReset => true | _ => false end.
Lemma since_reset_snoc l e : since_reset (l ++ [e]) = if is_reset e then [] else since_reset l ++ [e].
Proof.
  unfold is_reset. induction l as [|a l IH]; cbn [app since_reset].
  - cbn. destruct (e_call e); auto.
  - rewrite existsb_app. cbn [existsb]. destruct (e_call e) eqn:E; rewrite ?orb_false_r, ?orb_true_r in *; auto;
      destruct (existsb _ l); auto; destruct (e_call a); auto.
Qed.
Lemma size_diff_spec a b : size_diff a b = (a - b) + (b - a).
Proof. unfold size_diff. destruct (b <? a) eqn:E; [apply Nat.ltb_lt in E|apply Nat.ltb_ge in E]; lia. Qed.

Definition next_stats (t : stats) (e : entry K V) : stats :=
  if is_reset e then stats_zero else
  mkStats (m_add (s_contains t) (contains_calls e) 0) (m_add (s_take t) (keys_to_take e) (size_taken e))
   (m_add (s_pop t) (size_popped e) (size_popped e)) (m_add (s_push t) (elements_pushed e) 0)
   (m_add (s_flush t) (flush_calls e) (size_flushed e)) (m_add (s_flush_iter t) (flush_iterations e) 0)
   (m_add (s_get t) (get_calls e) 0) (m_add (s_get_mut t) (get_mut_calls e) 0) (m_add (s_hit t) (hits e) 0)
   (m_add (s_miss t) (misses e) 0).
Lemma documented_snoc l e : documented (since_reset (l ++ [e])) = next_stats (documented (since_reset l)) e.
Proof.
  rewrite since_reset_snoc. unfold next_stats. destruct (is_reset e); [reflexivity|].
  unfold documented, m_add. cbn [s_contains s_take s_pop s_push s_flush s_flush_iter s_get s_get_mut s_hit s_miss m_count m_size].
  rewrite !total_app, !total_one. rewrite !Nat.add_0_r. reflexivity.
Qed.

(** One call: the Profiler does what the container does, and counts it. *)
Lemma prof_call_ok t c p t' c' r : prof_call gt (t, c) p = Ok (t', c', r) ->
  bare_call gt c p = Ok (c', r) /\ t' = next_stats t (mkE p r (size C c) (size C c')) /\
  sane [(0, mkE p r (size C c) (size C c'))].
Proof.
  destruct t as [[? ?] [? ?] [? ?] [? ?] [? ?] [? ?] [? ?] [? ?] [? ?] [? ?]].
  unfold sane, next_stats, is_reset, m_add.
  destruct p as [k|k|ks|n|vs| |m k f|]; cbn [prof_call bare_call e_call].
  - unfold pf_contains_stats. cbn [fst snd]. destruct (contains C c k) as [b|]; [|discriminate]. cbn [bind].
    intros H; injection H as <- <- <-. split; auto. split; [|repeat constructor].
    destruct b; unfold add_hit, add_miss, add_contains, m_add; cbn; rewrite ?Nat.add_0_r; reflexivity.
  - cbn [ProfilerB take]. unfold pf_take. cbn [fst snd]. destruct (take C c k) as [[c1 o]|]; [|discriminate]. cbn [bind].
    intros H; injection H as <- <- <-. split; auto. split; [|repeat constructor].
    rewrite size_diff_spec. destruct o; unfold add_hit, add_miss, add_take, m_add; cbn; rewrite ?Nat.add_0_r; reflexivity.
  - cbn [ProfilerB take_multiple]. unfold pf_take_multiple. cbn [fst snd].
    destruct (take_multiple C c ks) as [[[c1 ks'] o]|]; [|discriminate]. cbn [bind].
    unfold sub_chk. destruct (length o <=? length ks) eqn:L; [|discriminate]. cbn [bind]. apply Nat.leb_le in L.
    intros H; injection H as <- <- <-. split; auto. split; [|repeat constructor; auto].
    rewrite size_diff_spec. unfold add_hit, add_miss, add_take, m_add; cbn; rewrite ?Nat.add_0_r; reflexivity.
  - cbn [ProfilerB pop]. unfold pf_pop. cbn [fst snd]. destruct (pop C c n) as [[c1 o]|]; [|discriminate]. cbn [bind].
    unfold sub_chk. destruct (size C c1 <=? size C c) eqn:L; [|discriminate]. cbn [bind]. apply Nat.leb_le in L.
    intros H; injection H as <- <- <-. split; auto. split; [|repeat constructor; auto].
    rewrite size_diff_spec. unfold add_pop, m_add; cbn. replace (size C c1 - size C c) with 0 by lia. rewrite ?Nat.add_0_r; reflexivity.
  - cbn [ProfilerB push]. unfold pf_push. cbn [fst snd]. destruct (push C c vs) as [[c1 o]|]; [|discriminate]. cbn [bind].
    intros H; injection H as <- <- <-. split; auto. split; [|repeat constructor].
    unfold add_push, m_add; cbn; rewrite ?Nat.add_0_r; reflexivity.
  - cbn [ProfilerB flush]. unfold pf_flush. cbn [fst snd]. destruct (flush C c) as [[c1 o]|]; [|discriminate]. cbn [bind].
    intros H; injection H as <- <- <-. split; auto. split; [|repeat constructor].
    rewrite size_diff_spec. unfold add_flush, add_flush_iter, m_add; cbn; rewrite ?Nat.add_0_r; reflexivity.
  - unfold pf_get. cbn [fst snd]. destruct (gt m c k f) as [[c1 o]|]; [|discriminate]. cbn [bind].
    intros H; injection H as <- <- <-. split; auto. split; [|repeat constructor].
    destruct m, o; unfold add_hit, add_miss, add_get, add_get_mut, m_add; cbn; rewrite ?Nat.add_0_r; reflexivity.
  - unfold pf_reset. intros H; injection H as <- <- <-. split; auto. split; [reflexivity|repeat constructor].
Qed.
Lemma prof_call_back t c p c' r : bare_call gt c p = Ok (c', r) ->
  sane [(0, mkE p r (size C c) (size C c'))] -> exists t', prof_call gt (t, c) p = Ok (t', c', r).
Proof.
  intros H S. inversion S as [|? ? S1 _]; subst; clear S. cbn [snd e_call e_res e_before e_after] in S1.
  destruct p as [k|k|ks|n|vs| |m k f|]; cbn [prof_call bare_call] in *.
  - unfold pf_contains_stats. cbn [fst snd]. destruct (contains C c k) as [b|]; [|discriminate]. cbn [bind] in *.
    injection H as <- <-. eexists; reflexivity.
  - cbn [ProfilerB take]. unfold pf_take. cbn [fst snd]. destruct (take C c k) as [[c1 o]|]; [|discriminate]. cbn [bind] in *.
    injection H as <- <-. eexists; reflexivity.
  - cbn [ProfilerB take_multiple]. unfold pf_take_multiple. cbn [fst snd].
    destruct (take_multiple C c ks) as [[[c1 ks'] o]|]; [|discriminate]. cbn [bind] in *. injection H as <- <-.
    unfold sub_chk. replace (length o <=? length ks) with true by (symmetry; apply Nat.leb_le; auto). cbn [bind]. eexists; reflexivity.
  - cbn [ProfilerB pop]. unfold pf_pop. cbn [fst snd]. destruct (pop C c n) as [[c1 o]|]; [|discriminate]. cbn [bind] in *.
    injection H as <- <-.
    unfold sub_chk. replace (size C c1 <=? size C c) with true by (symmetry; apply Nat.leb_le; auto). cbn [bind]. eexists; reflexivity.
  - cbn [ProfilerB push]. unfold pf_push. cbn [fst snd]. destruct (push C c vs) as [[c1 o]|]; [|discriminate]. cbn [bind] in *.
    injection H as <- <-. eexists; reflexivity.
  - cbn [ProfilerB flush]. unfold pf_flush. cbn [fst snd]. destruct (flush C c) as [[c1 o]|]; [|discriminate]. cbn [bind] in *.
    injection H as <- <-. eexists; reflexivity.
  - unfold pf_get. cbn [fst snd]. destruct (gt m c k f) as [[c1 o]|]; [|discriminate]. cbn [bind] in *.
    injection H as <- <-. eexists; reflexivity.
  - injection H as <- <-. eexists; reflexivity.
Qed.

Lemma set_nth_length {T} i (x : T) l : i < length l -> length (set_nth i x l) = length l.
Proof. intros H. unfold set_nth. rewrite app_length. cbn [length]. rewrite firstn_length, skipn_length. lia. Qed.
Lemma set_nth_same {T} i (x : T) l : i < length l -> nth_error (set_nth i x l) i = Some x.
Proof. intros H. unfold set_nth. rewrite nth_error_app2; rewrite firstn_length; [|lia]. replace (i - _) with 0 by lia. auto. Qed.
Lemma set_nth_other {T} i j (x : T) l : i < length l -> i <> j -> nth_error (set_nth i x l) j = nth_error l j.
Proof.
  intros H N. revert i j H N. induction l as [|a l IH]; cbn [length]; intros i j H N; [lia|].
  destruct i, j; try lia; cbn; auto. apply IH; lia.
Qed.
Lemma nth_error_lt {T} (l : list T) i x : nth_error l i = Some x -> i < length l.
Proof. intros H. apply nth_error_Some. congruence. Qed.

(** The two worlds agree: the same containers, each handle on the same one, and counters of each container
    as documented for its part of the log. *)
Definition agree (w : pworld C) (b : bworld) (l : list (nat * entry K V)) : Prop :=
  w_caches w = b_caches b /\ w_handles w = map (fun j => (j, j)) (b_on b) /\
  length (w_stats w) = length (w_caches w) /\ Forall (fun j => j < length (b_caches b)) (b_on b) /\
  (forall j, j < length (b_caches b) -> nth_error (w_stats w) j = Some (documented (since_reset (on j l)))) /\
  Forall (fun p => fst p < length (b_caches b)) l.

Lemma on_app j l1 l2 : on j (l1 ++ l2) = on j l1 ++ on j l2.
Proof. unfold on. rewrite filter_app, map_app. auto. Qed.
Lemma on_fresh j l : Forall (fun p : nat * entry K V => fst p < j) l -> on j l = [].
Proof. induction 1 as [|[i e] l H _ IH]; auto. cbn [fst] in H. unfold on in *. cbn [filter fst].
  replace (i =? j) with false by (symmetry; apply Nat.eqb_neq; lia). auto. Qed.

Lemma step_agree w b l e w' r : agree w b l -> pw_step gt w e = Ok (w', r) ->
  exists b' l', bw_step b e = Ok (b', r, l') /\ agree w' b' (l ++ l') /\ sane l'.
Proof.
  intros (A1 & A2 & A3 & A4 & A5 & A6) H. destruct e as [c|h|h p]; cbn [pw_step bw_step] in *.
  - injection H as <- <-. eexists _, _. split; [reflexivity|]. split; [|constructor].
    unfold agree. cbn [w_caches w_handles w_stats b_caches b_on]. rewrite app_nil_r, !app_length, !map_app. cbn [length map].
    rewrite A3, A1. split; auto. split; [rewrite A2; auto|]. split; [auto|]. split.
    { apply Forall_app. split; [|repeat constructor; lia]. eapply Forall_impl; [|exact A4]. cbn; intros; lia. }
    split; [|eapply Forall_impl; [|exact A6]; cbn; intros; lia].
    intros j Hj. destruct (Nat.eq_dec j (length (b_caches b))) as [->|N].
    + rewrite on_fresh by auto. rewrite nth_error_app2 by (rewrite A3, A1; lia). rewrite A3, A1, Nat.sub_diag. reflexivity.
    + rewrite nth_error_app1 by (rewrite A3, A1; lia). apply A5. lia.
  - rewrite A2, nth_error_map in H. destruct (nth_error (b_on b) h) as [j|] eqn:Ej; [|discriminate]. cbn in H.
    injection H as <- <-. cbn [unwrap bind]. eexists _, _. split; [reflexivity|]. split; [|constructor].
    unfold agree. cbn [w_caches w_handles w_stats b_caches b_on]. rewrite app_nil_r, map_app. cbn [map].
    split; auto. split; [rewrite ?A2; auto|]. split; [auto|]. split; [|auto].
    apply Forall_app. split; auto. repeat constructor. rewrite Forall_forall in A4. apply A4. eapply nth_error_In; eauto.
  - rewrite A2, nth_error_map in H. destruct (nth_error (b_on b) h) as [j|] eqn:Ej; [|discriminate]. cbn [option_map unwrap bind] in H |- *.
    assert (Hj : j < length (b_caches b)) by (rewrite Forall_forall in A4; apply A4; eapply nth_error_In; eauto).
    rewrite (A5 j Hj) in H. cbn [unwrap bind] in H. rewrite A1 in H.
    destruct (nth_error (b_caches b) j) as [c|] eqn:Ec; [|discriminate]. cbn [unwrap bind] in H |- *.
    destruct (prof_call gt (documented (since_reset (on j l)), c) p) as [[[t' c'] r']|] eqn:E; [|discriminate].
    cbn [bind] in H. injection H as <- <-. apply prof_call_ok in E as (E1 & E2 & E3). rewrite E1. cbn [bind].
    eexists _, _. split; [reflexivity|]. split; [|inversion E3; subst; constructor; auto; constructor].
    unfold agree. cbn [w_caches w_handles w_stats b_caches b_on].
    rewrite !set_nth_length by (rewrite ?A3, ?A1; auto). split; auto. split; auto. split; [congruence|]. split; auto.
    split.
    + intros i Hi. rewrite on_app. destruct (Nat.eq_dec i j) as [->|N].
      * rewrite set_nth_same by (rewrite A3, A1; auto). f_equal. unfold on at 2. cbn [filter fst]. rewrite Nat.eqb_refl. cbn [map snd].
        rewrite documented_snoc. auto.
      * rewrite set_nth_other by (rewrite ?A3, ?A1; auto). unfold on at 2. cbn [filter fst].
        replace (j =? i) with false by (symmetry; apply Nat.eqb_neq; auto). cbn [map]. rewrite app_nil_r. auto.
    + apply Forall_app. split; auto.
Qed.
Lemma step_agree_back w b l e b' r l' : agree w b l -> bw_step b e = Ok (b', r, l') -> sane l' ->
  exists w', pw_step gt w e = Ok (w', r).
Proof.
  intros (A1 & A2 & A3 & A4 & A5 & A6) H S. destruct e as [c|h|h p]; cbn [pw_step bw_step] in *.
  - injection H as <- <- <-. eauto.
  - rewrite A2, nth_error_map. destruct (nth_error (b_on b) h) as [j|] eqn:Ej; [|discriminate]. cbn in *.
    injection H as <- <- <-. eauto.
  - rewrite A2, nth_error_map. destruct (nth_error (b_on b) h) as [j|] eqn:Ej; [|discriminate]. cbn [option_map unwrap bind] in *.
    assert (Hj : j < length (b_caches b)) by (rewrite Forall_forall in A4; apply A4; eapply nth_error_In; eauto).
    rewrite (A5 j Hj). cbn [unwrap bind]. rewrite A1.
    destruct (nth_error (b_caches b) j) as [c|] eqn:Ec; [|discriminate]. cbn [unwrap bind] in *.
    destruct (bare_call gt c p) as [[c' r']|] eqn:E; [|discriminate]. cbn [bind] in H. injection H as <- <- <-.
    destruct (@prof_call_back (documented (since_reset (on j l))) _ _ _ _ E) as (t' & E').
    { inversion S; subst. constructor; auto; constructor. }
    rewrite E'. cbn [bind]. eauto.
Qed.
Lemma run_agree es : forall w b l w' rs, agree w b l -> pw_run gt w es = Ok (w', rs) ->
  exists b' l', bw_run b es = Ok (b', rs, l') /\ agree w' b' (l ++ l') /\ sane l'.
Proof.
  induction es as [|e es IH]; intros w b l w' rs A H; cbn [pw_run bw_run] in *.
  - injection H as <- <-. eexists _, _. split; [reflexivity|]. rewrite app_nil_r. split; auto. constructor.
  - destruct (pw_step gt w e) as [[w1 r]|] eqn:E; [|discriminate]. cbn [bind] in H.
    destruct (step_agree _ A E) as (b1 & l1 & B1 & B2 & B3). rewrite B1. cbn [bind].
    destruct (pw_run gt w1 es) as [[w2 rs2]|] eqn:E2; [|discriminate]. cbn [bind] in H. injection H as <- <-.
    destruct (IH _ _ _ _ _ B2 E2) as (b2 & l2 & D1 & D2 & D3). rewrite D1. cbn [bind]. eexists _, _. split; [reflexivity|].
    rewrite app_assoc. split; auto. apply Forall_app. auto.
Qed.
Lemma run_agree_back es : forall w b l b' rs l', agree w b l -> bw_run b es = Ok (b', rs, l') -> sane l' ->
  exists w', pw_run gt w es = Ok (w', rs).
Proof.
  induction es as [|e es IH]; intros w b l b' rs l' A H S; cbn [pw_run bw_run] in *.
  - injection H as <- <- <-. eauto.
  - destruct (bw_step b e) as [[[b1 r] l1]|] eqn:E; [|discriminate]. cbn [bind] in H.
    destruct (bw_run b1 es) as [[[b2 rs2] l2]|] eqn:E2; [|discriminate]. cbn [bind] in H. injection H as <- <- <-.
    apply Forall_app in S as [S1 S2].
    destruct (step_agree_back _ A E S1) as (w1 & E1). rewrite E1. cbn [bind].
    destruct (step_agree _ A E1) as (b1' & l1' & B1 & B2 & _). rewrite E in B1. injection B1 as <- <-.
    destruct (IH _ _ _ _ _ _ B2 E2 S2) as (w2 & E3). rewrite E3. cbn [bind]. eauto.
Qed.
Lemma empty_agree : agree (pw_empty C) bw_empty [].
Proof. unfold agree. cbn. repeat split; auto; try constructor. intros; lia. Qed.

(** C26, for any wrapped container: profilers, their clones and any calls on them. Every call returns what
    the same call on the wrapped containers returns, ... *)
Theorem C26_transparent : forall es w rs, pw_run gt (pw_empty C) es = Ok (w, rs) ->
  exists b l, bw_run bw_empty es = Ok (b, rs, l) /\ w_caches w = b_caches b.
Proof.
  intros es w rs H. destruct (run_agree _ empty_agree H) as (b & l & H1 & H2 & _). exists b, l. split; auto. apply H2.
Qed.
(** ... no call panics that would not without the Profiler, as long as take_multiple returns no more pairs
    than asked for and pop does not grow the container, ... *)
Theorem C26_no_new_panic : forall es b rs l, bw_run bw_empty es = Ok (b, rs, l) ->
  (sane l <-> exists w, pw_run gt (pw_empty C) es = Ok (w, rs)).
Proof.
  intros es b rs l H. split.
  - intros S. exact (run_agree_back _ empty_agree H S).
  - intros (w & Hw). destruct (run_agree _ empty_agree Hw) as (b' & l' & H1 & _ & H2). rewrite H in H1. injection H1 as <- <-. auto.
Qed.
(** ... and the counters read through any handle are the documented sums over the calls made since the last
    reset through any handle on the same container. *)
Theorem C26_counters_exact_and_shared : forall es w rs, pw_run gt (pw_empty C) es = Ok (w, rs) ->
  exists b l, bw_run bw_empty es = Ok (b, rs, l) /\
    forall h j, nth_error (b_on b) h = Some j -> pw_read w h = Some (documented (since_reset (on j l))).
Proof.
  intros es w rs H. destruct (run_agree _ empty_agree H) as (b & l & H1 & (A1 & A2 & A3 & A4 & A5 & A6) & _). exists b, l. split; auto.
  intros h j Hh. unfold pw_read. rewrite A2, nth_error_map, Hh. cbn [option_map]. apply A5.
  rewrite Forall_forall in A4. apply A4. eapply nth_error_In; eauto.
Qed.
(** Every lookup is counted once, as a hit or as a miss. *)
Theorem C26_hits_and_misses : forall es w rs h t, pw_run gt (pw_empty C) es = Ok (w, rs) -> pw_read w h = Some t ->
  m_count (s_hit t) + m_count (s_miss t) =
  m_count (s_contains t) + m_count (s_take t) + m_count (s_get t) + m_count (s_get_mut t).
Proof.
  intros es w rs h t H Hr. destruct (run_agree _ empty_agree H) as (b & l & H1 & (A1 & A2 & A3 & A4 & A5 & A6) & S).
  unfold pw_read in Hr. rewrite A2, nth_error_map in Hr. destruct (nth_error (b_on b) h) as [j|] eqn:Eh; [|discriminate].
  cbn [option_map] in Hr. rewrite A5 in Hr by (rewrite Forall_forall in A4; apply A4; eapply nth_error_In; eauto).
  injection Hr as <-. cbn [documented s_hit s_miss s_contains s_take s_get s_get_mut m_count].
  assert (G : Forall (fun e : entry K V => hits e + misses e = contains_calls e + keys_to_take e + get_calls e + get_mut_calls e) (on j l)).
  { apply Forall_forall. intros e He. unfold on in He. apply in_map_iff in He as ((i & e') & <- & He). apply filter_In in He as [He _].
    cbn [snd].
    assert (W : exists c p c' r, bare_call gt c p = Ok (c', r) /\ e' = mkE p r (size C c) (size C c')).
    { clear - H1 He. revert H1 He. generalize bw_empty. revert b rs l.
      induction es as [|ev es IH]; intros b rs l b0 H1 He; cbn [bw_run] in H1.
      - injection H1 as <- <- <-. destruct He.
      - destruct (bw_step b0 ev) as [[[b1 r] l1]|] eqn:E; [|discriminate]. cbn [bind] in H1.
        destruct (bw_run b1 es) as [[[b2 rs2] l2]|] eqn:E2; [|discriminate]. cbn [bind] in H1. injection H1 as <- <- <-.
        apply in_app_iff in He as [He|He]; [|eauto].
        destruct ev as [c|h|h p]; cbn [bw_step] in E.
        + injection E as <- <- <-. destruct He.
        + destruct (nth_error (b_on b0) h); [|discriminate]. injection E as <- <- <-. destruct He.
        + destruct (nth_error (b_on b0) h) as [j'|]; [|discriminate]. cbn [unwrap bind] in E.
          destruct (nth_error (b_caches b0) j') as [c|]; [|discriminate]. cbn [unwrap bind] in E.
          destruct (bare_call gt c p) as [[c' r']|] eqn:Eb; [|discriminate]. cbn [bind] in E. injection E as <- <- <-.
          destruct He as [He|[]]. injection He as <- <-. eauto 8. }
    destruct W as (c & p & c' & r & W & ->). unfold sane in S. rewrite Forall_forall in S. specialize (S _ He). cbn [snd e_call e_res] in S.
    unfold hits, misses, contains_calls, keys_to_take, get_calls, get_mut_calls. cbn [e_call e_res].
    destruct p as [k|k|ks|n|vs| |m k f|]; cbn [bare_call] in W.
    - destruct (contains C c k) as [[|]|]; [| |discriminate]; injection W as <- <-; auto.
    - destruct (take C c k) as [[? [|]]|]; [| |discriminate]; injection W as <- <-; auto.
    - destruct (take_multiple C c ks) as [[[? ?] ?]|]; [|discriminate]; injection W as <- <-. lia.
    - destruct (pop C c n) as [[? ?]|]; [|discriminate]; injection W as <- <-; auto.
    - destruct (push C c vs) as [[? ?]|]; [|discriminate]; injection W as <- <-; auto.
    - destruct (flush C c) as [[? ?]|]; [|discriminate]; injection W as <- <-; auto.
    - destruct (gt m c k f) as [[? [|]]|]; [| |discriminate]; injection W as <- <-; destruct m; auto.
    - injection W as <- <-. auto. }
  clear - G. apply (f_equal (fun x => x)). unfold total in *.
  assert (G' : forall l', (forall e, In e l' -> In e (on j l)) ->
    list_sum (map hits l') + list_sum (map misses l') =
    list_sum (map contains_calls l') + list_sum (map keys_to_take l') + list_sum (map get_calls l') + list_sum (map get_mut_calls l')).
  { rewrite Forall_forall in G. induction l' as [|e l' IH]; intros Hl; auto. cbn [map]. unfold list_sum in *. cbn [fold_right].
    specialize (IH (fun e He => Hl e (or_intror He))). specialize (G e (Hl e (or_introl eq_refl))). lia. }
  apply G'. intros e. generalize (on j l). induction l0 as [|x l0 IH]; cbn [since_reset]; auto.
  destruct (existsb _ l0); [cbn; auto|]. destruct (e_call x); cbn; auto.
Qed.
End Spec.

(** [pop_stats().0] is documented as "the number of calls to the method" (profiler.rs:122) and as the size popped
    (building_block.rs:145-146): the code does the latter, so the former is false. *)
Definition prof_arr : Block nat nat := block (@AArray nat _ nat _ (@std_sorter _ _ Ord_nat snd) linear_bs 4 (fun _ => 1)).
Definition prof_arr_get (m : bool) : Getter prof_arr := aget m (@AArray nat _ nat _ (@std_sorter _ _ Ord_nat snd) linear_bs 4 (fun _ => 1)).
Definition prof_arr_new : St prof_arr := init (@AArray nat _ nat _ (@std_sorter _ _ Ord_nat snd) linear_bs 4 (fun _ => 1)).
Theorem C26_pop_count_is_not_the_number_of_calls_refuted :
  exists w t rs, pw_run prof_arr_get (pw_empty prof_arr)
      [WNew prof_arr prof_arr_new; WCall prof_arr 0 (PPush [(1, 1); (2, 2); (3, 3)]); WCall prof_arr 0 (PPop 2)] = Ok (w, rs) /\
    pw_read w 0 = Some t /\ m_count (s_pop t) = 2.
Proof. eexists _, _, _. split; [vm_compute; reflexivity|]. split; reflexivity. Qed.

(** Two handles of one profiler and one of another, with a reset in between. *)
Example profiler_ex : exists w rs t0 t2,
  pw_run prof_arr_get (pw_empty prof_arr)
    [WNew prof_arr prof_arr_new; WClone prof_arr 0; WCall prof_arr 1 (PPush [(1, 10); (2, 20)]); WCall prof_arr 0 PReset;
     WNew prof_arr prof_arr_new; WCall prof_arr 2 (PTake 7);
     WCall prof_arr 0 (PTakeMultiple [1; 5; 6]); WCall prof_arr 1 (PContains 2); WCall prof_arr 0 (PGet true 2 S);
     WCall prof_arr 1 PFlush] = Ok (w, rs) /\
  nth 9 rs RUnit = RMany [(2, 21)] /\
  pw_read w 0 = Some t0 /\ pw_read w 1 = Some t0 /\ pw_read w 2 = Some t2 /\
  s_push t0 = m_zero /\ s_take t0 = mkM 3 1 /\ m_count (s_hit t0) = 3 /\ m_count (s_miss t0) = 2 /\
  s_flush_iter t0 = mkM 2 0 /\ s_take t2 = mkM 1 0.
Proof. eexists _, _, _, _. split; [vm_compute; reflexivity|]. repeat split; vm_compute; reflexivity. Qed.
Print Assumptions C26_counters_exact_and_shared.
Print Assumptions C26_no_new_panic.
Print Assumptions C26_hits_and_misses.
