(** PArch.v -- property theorems over every architecture: C05, C06, C11, C12, C15-C17, C19-C21, C25, C47. *)
From Coq Require Import NArith.
From Verif Require Import Base PermSolve Block Spec LawsProof Cut Array ArrayProof BTree BTreeProof
  Batch BatchProof Exclusive ExclusiveProof Wrappers WrappersProof Associative AssociativeProof TmLen Arch ArchProof.
From Verif Require PCompressed.
Set Implicit Arguments.

Lemma allowed_snoc {K V} {OK : Ord K} (B : Block K V) ct d p h2 : forall h1 (s s1 : St B) r,
  allowed B ct d p s h1 -> run B s h1 = Ok (s1, r) -> allowed B ct d p s1 h2 -> allowed B ct d p s (h1 ++ h2).
Proof.
  induction h1 as [|o h1 IH]; intros s s1 r Ha Hr H2; cbn [app].
  - inversion Hr; subst; auto.
  - destruct Ha as [Ho Ha]. split; [auto|]. intros s' r' Es. cbn [run] in Hr. rewrite Es in Hr. cbn [bind] in Hr.
    destruct (run B s' h1) as [[s2 r2]|] eqn:E2; cbn in Hr; [|discriminate]. inversion Hr; subst.
    eapply IH; eauto.
Qed.

Section PArch.
Context {K : Type} {OK : Ord K} {EK : OrdEq K}.

(** How a caller uses an architecture.  [dup = false]: every pushed vector has distinct keys, none of them
    held.  [dup = true]: anything is pushed, which is allowed only if [any_keys a].  Never a pop if an
    Associative occurs inside. *)
Definition used {V} (dup : bool) (a : arch K V) (h : list (op K V)) : Prop :=
  (dup = true -> any_keys a = true) /\
  allowed (block a) (held a) dup (negb (has_associative a)) (init a) h.
(** The states a caller can bring it to. *)
Definition reaches {V} (dup : bool) (a : arch K V) (s : St (block a)) : Prop :=
  exists h out, used dup a h /\ run (block a) (init a) h = Ok (s, out).

Lemma used_run {V} dup (a : arch K V) h : used dup a h ->
  exists s out, run (block a) (init a) h = Ok (s, out) /\ ainv dup a s /\
    capacity (block a) s = capacity (block a) (init a) /\
    Permutation (out ++ held a s) (all_given h).
Proof.
  intros [Hd Ha]. destruct (init_ok dup a) as [Hi He].
  destruct (run_laws (arch_laws a Hd) h _ Hi Ha) as (s & out & H1 & H2 & H3 & H4).
  rewrite He in H4. exists s, out. auto.
Qed.
Lemma reaches_inv {V} dup (a : arch K V) s : reaches dup a s -> (dup = true -> any_keys a = true) /\ ainv dup a s.
Proof.
  intros (h & out & Hu & Hr). destruct (used_run Hu) as (s1 & o1 & H1 & H2 & _). rewrite Hr in H1.
  inversion H1; subst. split; auto. apply Hu.
Qed.
Lemma reaches_step {V} dup (a : arch K V) s o s' r : reaches dup a s -> step (block a) s o = Ok (s', r) ->
  match o with OpPush vs => may_push (block a) (held a) dup s vs | OpPop _ => negb (has_associative a) = true | _ => True end ->
  reaches dup a s'.
Proof.
  intros (h & out & [Hd Hu] & Hr) Es Ho. exists (h ++ [o]), (out ++ (r ++ [])). split.
  - split; auto. eapply allowed_snoc; eauto. split; auto. intros s1 r1 _. exact I.
  - rewrite run_app, Hr. cbn [bind run]. rewrite Es. reflexivity.
Qed.
Lemma reaches_unique {V} (a : arch K V) s : reaches false a s -> NoDup (keys (held a s)).
Proof. intros H. apply reaches_inv in H as [Hd Hi]. apply (law_unique (arch_laws a Hd) s Hi eq_refl). Qed.

(** C19 *)
Theorem C19_laws_for_every_nesting : forall V dup (a : arch K V) h, used dup a h ->
  exists s out, run (block a) (init a) h = Ok (s, out) /\ Permutation (out ++ held a s) (all_given h).
Proof. intros V dup a h Hu. destruct (used_run Hu) as (s & out & H1 & _ & _ & H4). eauto. Qed.

(** No discipline at all is needed without BTree (nor Profiler over type-erased containers). *)
Theorem C19_any_history : forall V (a : arch K V) h, any_keys a = true -> has_associative a = false ->
  used true a h.
Proof. intros V a h H1 H2. split; auto. rewrite H2. apply allowed_all. Qed.

(** C20 *)
Theorem C20_end_to_end : forall V dup (a : arch K V) h, used dup a h -> has_stopper a = false ->
  exists s out, run (block a) (init a) (h ++ [OpFlush]) = Ok (s, out) /\
    Permutation out (all_given h) /\
    (forall k, contains (block a) s k = Ok false) /\ size (block a) s = 0.
Proof.
  intros V dup a h Hu Hs. destruct (used_run Hu) as (s & out & H1 & H2 & H3 & H4). destruct Hu as [Hd _].
  pose proof (arch_laws a Hd) as L.
  destruct (law_flush L s H2) as (s' & o' & F1 & F2 & F3 & F4 & F5). rewrite Hs in F5. specialize (F5 eq_refl).
  rewrite F5, app_nil_r in F4. rewrite run_app, H1. cbn [bind run step]. rewrite F1. cbn [bind].
  eexists _, _. split; [reflexivity|]. split; [rewrite app_nil_r, F4; auto|]. split.
  - intros k. rewrite (law_contains L s' k F2), F5. auto.
  - apply (law_empty L s' F2 F5).
Qed.

(** What a tree of containers can hold: the sum of the capacities of its leaves. *)
Fixpoint leaves_capacity {V} (a : arch K V) : nat :=
  match a with
  | AArray _ _ cap _ => cap
  | ABTree _ cap _ => cap
  | ABatch n f => list_sum (map (fun i => leaves_capacity (f i)) (seq 0 n))
  | AExclusive _ l r => leaves_capacity l + leaves_capacity r
  | AFlushStopper a | ASequential a | ADyn a | AProfiler a => leaves_capacity a
  | ADecorator _ _ a => leaves_capacity a
  | AAssociative _ n f => list_sum (map (fun i => leaves_capacity (f i)) (seq 0 (S n)))
  | ACompressed _ _ _ _ cap => cap
  | ARemote a => leaves_capacity a
  end.
Lemma init_capacity V (a : arch K V) : capacity (block a) (init a) = leaves_capacity a.
Proof.
  induction a as [V OV srt bs cap esz|V OV cap esz|V n f IH|V bs l IHl r IHr|V a IH|V a IH|V a IH|V a IH|V D F f0 a IH|V hash n f IH|V OV L C srt bs cap|V a IH];
    cbn [block init leaves_capacity]; auto.
  - cbn. unfold bt_capacity. rewrite map_map. f_equal. apply map_ext. intros i. cbn. apply IH.
  - cbn. unfold ex_capacity. cbn. auto.
  - cbn -[seq]. unfold as_capacity. rewrite map_map. f_equal. apply map_ext. intros i. cbn. apply IH.
Qed.

(** C21 *)
Theorem C21_size_within_constant_capacity : forall V dup (a : arch K V) s, reaches dup a s ->
  size (block a) s <= capacity (block a) s /\ capacity (block a) s = leaves_capacity a.
Proof.
  intros V dup a s (h & out & Hu & Hr). destruct (used_run Hu) as (s1 & o1 & H1 & H2 & H3 & _).
  rewrite Hr in H1. inversion H1; subst. split; [|rewrite H3; apply init_capacity].
  apply (law_size (arch_laws a (proj1 Hu)) _ H2).
Qed.

(** C05 *)
Theorem C05_contains_agrees : forall V dup (a : arch K V) s k, reaches dup a s ->
  exists b, contains (block a) s k = Ok b /\ (b = true <-> In k (keys (held a s))).
Proof.
  intros V dup a s k Hr. apply reaches_inv in Hr as [Hd Hi].
  exists (has_key k (held a s)). split; [apply (law_contains (arch_laws a Hd) s k Hi)|apply has_key_in].
Qed.
Theorem C05_take_agrees : forall V dup (a : arch K V) s k, reaches dup a s ->
  exists s' o, take (block a) s k = Ok (s', o) /\ reaches dup a s' /\
    (In k (keys (held a s)) -> exists v, o = Some (k, v) /\ Permutation ((k, v) :: held a s') (held a s)) /\
    (~ In k (keys (held a s)) -> o = None /\ Permutation (held a s') (held a s)) /\
    (NoDup (keys (held a s)) -> contains (block a) s' k = Ok false).
Proof.
  intros V dup a s k Hre. pose proof (reaches_inv Hre) as [Hd Hi]. pose proof (arch_laws a Hd) as L.
  destruct (law_take L s k Hi) as (s' & o & H1 & H2 & H3 & H4 & H5). exists s', o. split; auto. split.
  { apply (@reaches_step V dup a s (OpTake k) s' (opt_list o) Hre); auto. cbn [step]. rewrite H1. reflexivity. }
  destruct o as [[k' v]|].
  - destruct H5 as [-> P]. assert (Hin : In k (keys (held a s))).
    { apply (in_keys_perm k P). left. auto. }
    split; [eauto|]. split; [tauto|]. intros Hn. rewrite (law_contains L s' k H2). f_equal. apply has_key_not_in.
    apply (nodup_keys_perm (Permutation_sym P)) in Hn. cbn in Hn. inversion Hn; auto.
  - destruct H5 as [Hni P]. split; [tauto|]. split; [auto|]. intros _. rewrite (law_contains L s' k H2). f_equal.
    apply has_key_not_in. intros Hk; apply Hni; apply (in_keys_perm k P); auto.
Qed.

(** C06 *)
Theorem C06_take_multiple_exact : forall V (a : arch K V) s ks, reaches false a s ->
  exists s' ks' out, take_multiple (block a) s ks = Ok (s', ks', out) /\ reaches false a s' /\
    NoDup (keys out) /\
    (forall k, In k (keys out) <-> In k ks /\ In k (keys (held a s))) /\
    Permutation (out ++ held a s') (held a s) /\
    exists removed, Permutation ks (removed ++ ks') /\ incl removed (keys out).
Proof.
  intros V a s ks Hre. pose proof (reaches_inv Hre) as [Hd Hi]. pose proof (arch_laws a Hd) as L.
  destruct (law_take_multiple L s ks Hi) as (s' & ks' & out & H1 & H2 & H3 & H4 & H5 & H6 & H7 & H8).
  exists s', ks', out. split; auto. split.
  { apply (@reaches_step V false a s (OpTakeMultiple ks) s' out Hre); auto. cbn [step]. rewrite H1. reflexivity. }
  pose proof (reaches_unique Hre) as Hn. apply (nodup_keys_perm (Permutation_sym H5)) in Hn.
  rewrite keys_app in Hn. apply NoDup_app_inv in Hn as (N1 & N2 & N3). split; auto. split; [|auto].
  intros k. split; [|intros [? ?]; auto]. intros Hk. split; auto.
  apply (in_keys_perm k H5). rewrite keys_app. apply in_or_app. auto.
Qed.

(** C11: the composition of the pushes a Batch may perform, as one would describe it on paper: each batch in
    turn receives what the previous one handed back. *)
Inductive cascade {V} (C : Block K V) : list (St C) -> list (K * V) -> list (St C) -> list (K * V) -> Prop :=
| cascade_nil vs : cascade C [] vs [] vs
| cascade_cons c cs vs c' vs1 cs' out :
    push C c vs = Ok (c', vs1) -> cascade C cs vs1 cs' out -> cascade C (c :: cs) vs (c' :: cs') out.
Arguments cascade {V} C.

(** If anything comes back from a push to a Batch, every batch has been tried in turn with what the previous
    ones did not keep. *)
Theorem C11_push_returns_only_what_no_batch_kept : forall V (C : Block K V) (s : St (BatchB C)) vs s' out,
  push (BatchB C) s vs = Ok (s', out) -> out <> [] -> cascade C s vs s' out.
Proof.
  intros V C s vs s' out H Hne. cbn in H. unfold bt_push in H.
  destruct (bt_push_loop C s vs) as [[[vis rest] o]|] eqn:E; cbn in H; [|discriminate]. inversion H; subst. clear H.
  assert (G : rest = [] /\ cascade C s vs vis out).
  { revert vs vis rest E. induction s as [|c s IH]; intros vs vis rest E; cbn in E; destruct vs as [|p vs].
    - inversion E; subst. congruence.
    - inversion E; subst. split; auto. constructor.
    - inversion E; subst. congruence.
    - destruct (push C c (p :: vs)) as [[c1 v1]|] eqn:E1; cbn in E; [|discriminate].
      destruct (bt_push_loop C s v1) as [[[vis1 rest1] o1]|] eqn:E2; cbn in E; [|discriminate].
      inversion E; subst. destruct (IH _ _ _ E2) as [-> Hc]. split; auto. econstructor; eauto. }
  destruct G as [-> G]. exact G.
Qed.
Theorem C11_batch_is_one_container : forall V dup n (f : nat -> arch K V) h, used dup (ABatch n f) h ->
  exists s out, run (block (ABatch n f)) (init (ABatch n f)) h = Ok (s, out) /\
    Permutation (out ++ held (ABatch n f) s) (all_given h) /\
    length s = n /\
    size (block (ABatch n f)) s = list_sum (map (fun c => size (block (f (projT1 c))) (projT2 c)) s) /\
    capacity (block (ABatch n f)) s = list_sum (map (fun i => leaves_capacity (f i)) (seq 0 n)).
Proof.
  intros V dup n f h Hu. destruct (used_run Hu) as (s & out & H1 & H2 & H3 & H4).
  exists s, out. split; auto. split; auto. split; [|split; [reflexivity|rewrite H3; apply init_capacity]].
  assert (Hstep : forall (C : Block K V) (s : St (BatchB C)) o s' r, step (BatchB C) s o = Ok (s', r) -> length s' = length s).
  { clear. intros C s o s' r. destruct o as [vs|m|k|ks|]; cbn [step BatchB push pop take take_multiple flush].
    - unfold bt_push. destruct (bt_push_loop C s vs) as [[[vis rest] o]|] eqn:E; cbn; [|discriminate].
      intros H; inversion H; subst; clear H. rewrite app_length. revert vs vis rest r E.
      induction s as [|c s IH]; intros [|p vs] vis rest r E; cbn in E; try (inversion E; subst; cbn; auto; fail).
      destruct (push C c (p :: vs)) as [[c1 v1]|] eqn:E1; cbn in E; [|discriminate].
      destruct (bt_push_loop C s v1) as [[[vis1 rest1] o1]|] eqn:E2; cbn in E; [|discriminate].
      inversion E; subst. apply IH in E2. cbn. lia.
    - unfold bt_pop. assert (G : forall rs n rs' o, bt_pop_loop C rs n = Ok (rs', o) -> length rs' = length rs).
      { clear. induction rs as [|c rs IH]; intros n rs' o E; cbn in E; [inversion E; auto|].
        destruct (pop C c n) as [[c1 o1]|]; cbn in E; [|discriminate].
        destruct (sub_chk _ _) as [d|]; cbn in E; [|discriminate].
        destruct (n <=? d); [inversion E; auto|].
        destruct (bt_pop_loop C rs (n - d)) as [[rs1 o2]|] eqn:E2; cbn in E; [|discriminate]. inversion E; subst.
        cbn. erewrite IH; eauto. }
      destruct (bt_pop_loop C (rev s) m) as [[rs o]|] eqn:E; cbn; [|discriminate]. intros H; inversion H; subst.
      apply G in E. rewrite rev_length in E. rewrite rev_length. exact E.
    - destruct (bt_take C s k) as [[s1 o]|] eqn:E; cbn; [|discriminate]. intros H; inversion H; subst. clear H.
      revert s' o E. induction s as [|c s IH]; intros s' o E; cbn in E; [inversion E; auto|].
      destruct (take C c k) as [[c1 [x|]]|]; cbn in E; try discriminate; [inversion E; auto|].
      destruct (bt_take C s k) as [[s2 o2]|] eqn:E2; cbn in E; [|discriminate]. inversion E; subst. cbn. erewrite IH; eauto.
    - destruct (bt_take_multiple C s ks) as [[[s1 ks1] o]|] eqn:E; cbn; [|discriminate]. intros H; inversion H; subst. clear H.
      revert ks s' ks1 r E. induction s as [|c s IH]; intros ks s' ks1 o E; cbn in E; [inversion E; auto|].
      destruct ks as [|k ks]; [inversion E; auto|].
      destruct (take_multiple C c (k :: ks)) as [[[c1 k1] o1]|]; cbn in E; try discriminate.
      destruct (bt_take_multiple C s k1) as [[[s2 k2] o2]|] eqn:E2; cbn in E; [|discriminate]. inversion E; subst. cbn. erewrite IH; eauto.
    - intros E. revert s' r E. induction s as [|c s IH]; intros s' o E; cbn in E; [inversion E; auto|].
      destruct (flush C c) as [[c1 o1]|]; cbn in E; try discriminate.
      destruct (bt_flush C s) as [[s2 o2]|] eqn:E2; cbn in E; [|discriminate]. inversion E; subst. cbn. erewrite IH; eauto. }
  assert (Hrun : forall (C : Block K V) h (s : St (BatchB C)) s' r, run (BatchB C) s h = Ok (s', r) -> length s' = length s).
  { clear - Hstep. intros C. induction h as [|o h IH]; intros s s' r E; cbn [run] in E; [inversion E; auto|].
    destruct (step (BatchB C) s o) as [[s1 r1]|] eqn:E1; cbn [bind] in E; [|discriminate].
    destruct (run (BatchB C) s1 h) as [[s2 r2]|] eqn:E2; cbn [bind] in E; [|discriminate]. inversion E; subst.
    apply IH in E2. apply Hstep in E1. congruence. }
  apply Hrun in H1. cbn [block init] in H1. etransitivity; [exact H1|].
  rewrite map_length, seq_length. auto.
Qed.
(** pop of any architecture without Associative (Batch and Exclusive in particular). *)
Theorem C11_pop_frees : forall V dup (a : arch K V) s n, reaches dup a s -> has_associative a = false ->
  exists s' out, pop (block a) s n = Ok (s', out) /\ reaches dup a s' /\
    Permutation (out ++ held a s') (held a s) /\
    (size (block a) s' + n <= size (block a) s \/ held a s' = []).
Proof.
  intros V dup a s n Hre Ha. pose proof (reaches_inv Hre) as [Hd Hi]. pose proof (arch_laws a Hd) as L.
  assert (Hp : negb (has_associative a) = true) by (rewrite Ha; auto).
  destruct (law_pop L Hp s n Hi) as (s' & out & H1 & H2 & H3 & H4 & H5 & H6). exists s', out. split; auto. split; auto.
  apply (@reaches_step V dup a s (OpPop n) s' out Hre); auto.
Qed.

(** C12 *)
Theorem C12_exclusive_sides_disjoint : forall V bs (l r : arch K V) s, reaches false (AExclusive bs l r) s ->
  forall k, In k (keys (held l (fst s))) -> In k (keys (held r (snd s))) -> False.
Proof.
  intros V bs l r s Hre k. apply reaches_unique in Hre. cbn [held] in Hre. rewrite keys_app in Hre.
  apply NoDup_app_inv in Hre as (_ & _ & D). apply D.
Qed.
Theorem C12_exclusive_conserves : forall V dup bs (l r : arch K V) h, used dup (AExclusive bs l r) h ->
  exists s out, run (block (AExclusive bs l r)) (init (AExclusive bs l r)) h = Ok (s, out) /\
    Permutation (out ++ held l (fst s) ++ held r (snd s)) (all_given h).
Proof. intros V dup bs l r h Hu. exact (C19_laws_for_every_nesting Hu). Qed.
(** pop takes from the front only once the back is empty. *)
Theorem C12_exclusive_pop_back_first : forall V dup bs (l r : arch K V) s n,
  reaches dup (AExclusive bs l r) s -> has_associative (AExclusive bs l r) = false ->
  exists f' b' of_back of_front, pop (block (AExclusive bs l r)) s n = Ok ((f', b'), of_back ++ of_front) /\
    Permutation (of_back ++ held r b') (held r (snd s)) /\
    Permutation (of_front ++ held l f') (held l (fst s)) /\
    (f' = fst s /\ of_front = [] \/ held r b' = []).
Proof.
  intros V dup bs l r s n Hre Ha. pose proof (reaches_inv Hre) as [Hd Hi]. destruct s as [f b]. cbn [fst snd].
  cbn [has_associative] in Ha. apply orb_false_iff in Ha as [Hal Har].
  assert (Hd2 : (dup = true -> any_keys l = true) /\ (dup = true -> any_keys r = true)).
  { split; intros E; specialize (Hd E); unfold any_keys in *; cbn [needs_new_keys profiled_dyn] in Hd;
      rewrite !negb_orb in Hd; destruct (needs_new_keys l), (needs_new_keys r), (profiled_dyn l), (profiled_dyn r); cbn in *; congruence. }
  destruct Hd2 as [Hdl Hdr]. destruct Hi as ((Il & _) & Ir & _). cbn [fst snd] in Il, Ir.
  destruct (law_pop (arch_laws r Hdr) (ltac:(rewrite Har; auto)) b n Ir) as (b' & ob & P1 & P2 & P3 & P4 & P5 & P6).
  cbn [block ExclusiveB pop]. unfold ex_pop. cbn [fst snd]. rewrite P1. cbn [bind].
  unfold sub_chk. replace (size (block r) b' <=? size (block r) b) with true by (symmetry; apply Nat.leb_le; auto).
  cbn [bind]. destruct (_ <? n) eqn:E.
  - destruct (law_pop (arch_laws l Hdl) (ltac:(rewrite Hal; auto)) f (n - (size (block r) b - size (block r) b')) Il)
      as (f' & of_ & Q1 & Q2 & Q3 & Q4 & _). rewrite Q1. cbn [bind].
    exists f', b', ob, of_. split; auto. split; auto. split; auto. right.
    apply Nat.ltb_lt in E. destruct P5 as [P5|P5]; auto. lia.
  - exists f, b', ob, []. rewrite app_nil_r. split; auto.
Qed.

(** C15 *)
Theorem C15_flush_stopper_flush : forall V (C : Block K V) s, flush (FlushStopperB C) s = Ok (s, []).
Proof. reflexivity. Qed.
(** Any history without flush behaves exactly as on the wrapped container; a flush is a no-op: so a history
    behaves as on the wrapped container with its flushes erased. *)
Definition not_flush {V} (o : op K V) : bool := match o with OpFlush => false | _ => true end.
Theorem C15_flush_stopper_transparent : forall V (C : Block K V) (s : St C) h,
  run (FlushStopperB C) s h = run C s (filter not_flush h).
Proof.
  intros V C s h. revert s. induction h as [|o h IH]; intros s; auto.
  destruct o; cbn [filter not_flush run]; try (change (step (FlushStopperB C)) with (step C) || idtac);
    try (match goal with |- context [step (FlushStopperB C) s ?o] =>
      change (step (FlushStopperB C) s o) with (step C s o) end;
      destruct (step C s _) as [[s1 r1]|]; cbn [bind]; auto; rewrite IH; auto).
  cbn [step FlushStopperB flush bind]. rewrite IH. destruct (run C s _) as [[s2 r2]|]; auto.
Qed.
Theorem C15_exclusive_over_stopped_back : forall V dup bs (l r : arch K V) s,
  reaches dup (AExclusive bs l (AFlushStopper r)) s -> has_stopper l = false ->
  exists f' b' out moved, flush (block (AExclusive bs l (AFlushStopper r))) s = Ok ((f', b'), out) /\
    (* the front is emptied, its elements are pushed to the back, and only the overflow comes out *)
    held l f' = [] /\ Permutation moved (held l (fst s)) /\ push (block r) (snd s) moved = Ok (b', out) /\
    Permutation (out ++ held r b') (held r (snd s) ++ held l (fst s)).
Proof.
  intros V dup bs l r s Hre Hst. pose proof (reaches_inv Hre) as [Hd Hi]. destruct s as [f b]. cbn [fst snd].
  assert (Hd2 : (dup = true -> any_keys l = true) /\ (dup = true -> any_keys r = true)).
  { split; intros E; specialize (Hd E); unfold any_keys in *; cbn [needs_new_keys profiled_dyn] in Hd;
      rewrite !negb_orb in Hd; destruct (needs_new_keys l), (needs_new_keys r), (profiled_dyn l), (profiled_dyn r); cbn in *; congruence. }
  destruct Hd2 as [Hdl Hdr]. destruct Hi as ((Il & _) & Ir & Hu). cbn [fst snd] in Il, Ir.
  destruct (law_flush (arch_laws l Hdl) f Il) as (f' & of_ & F1 & F2 & F3 & F4 & F5). rewrite Hst in F5.
  specialize (F5 eq_refl). rewrite F5, app_nil_r in F4.
  assert (Hm : may_push (block r) (held r) dup b of_).
  { intros E. specialize (Hu E). cbn in Hu. unfold ex_ct in Hu. cbn in Hu.
    apply (nodup_keys_perm (c:=held l f ++ held r b)); auto. rewrite F4. apply Permutation_app_comm. }
  destruct (law_push (arch_laws r Hdr) b of_ Ir Hm) as (b' & out & P1 & P2 & P3 & P4).
  exists f', b', out, of_. cbn [block ExclusiveB flush]. unfold ex_flush. cbn [fst snd FlushStopperB flush push bind].
  rewrite F1. cbn [bind]. rewrite P1. cbn [bind app]. rewrite app_nil_r. repeat split; auto. rewrite P4, F4. auto.
Qed.

(** C16 *)
Definition set_index (hash : K -> N) (nsets : nat) (k : K) : nat := N.to_nat (N.modulo (hash k) (N.of_nat nsets)).
Lemma placed_nth {T} (g : T -> list K) idx : forall (s : list T) i j c, placed idx i (map g s) -> nth_error s j = Some c ->
  forall k, In k (g c) -> idx k = i + j.
Proof.
  induction s as [|x s IH]; intros i j c Hp Hn k Hk; [destruct j; discriminate|]. cbn in Hp. destruct Hp as [H1 H2].
  destruct j as [|j]; cbn in Hn.
  - inversion Hn; subst. rewrite (H1 k Hk). lia.
  - rewrite (IH _ _ _ H2 Hn k Hk). lia.
Qed.

Lemma assoc_step_length V hash (C : Block K V) (s : St (AssociativeB hash C)) o s' r :
  step (AssociativeB hash C) s o = Ok (s', r) -> length s' = length s.
Proof.
  assert (Hf : forall (s : list (St C)) s' o, as_flush C s = Ok (s', o) -> length s' = length s).
  { clear. induction s as [|c s IH]; intros s' o E; cbn in E; [inversion E; auto|].
    destruct (flush C c) as [[c1 o1]|]; cbn in E; try discriminate.
    destruct (as_flush C s) as [[s2 o2]|] eqn:E2; cbn in E; [|discriminate]. inversion E; subst. cbn. erewrite IH; eauto. }
  destruct o as [vs|m|k|ks|]; cbn [step AssociativeB push pop take take_multiple flush].
  - unfold as_push. destruct (distribute _ _ _ _ _ _) as [vss|]; cbn [bind]; [|discriminate].
    revert vss s' r. induction s as [|c s IH]; intros [|vs1 vss] s' r E; cbn in E; try (inversion E; auto; fail).
    destruct (push C c vs1) as [[c1 o1]|]; cbn in E; [|discriminate].
    destruct (as_push_loop C s vss) as [[s2 o2]|] eqn:E2; cbn in E; [|discriminate]. inversion E; subst. cbn. erewrite IH; eauto.
  - unfold as_pop. destruct (_ || _); [intros H; inversion H; auto|]. destruct (_ <=? m); [apply Hf|].
    destruct (as_target _ _ _) as [[t pb]|]; cbn [bind]; [|discriminate].
    revert s s' r. induction pb as [|[x y] pb IH]; intros s s' r E; cbn in E; [inversion E; auto|].
    destruct (nth_error s y); cbn in E; [|discriminate]. destruct (sub_chk x t); cbn in E; [|discriminate].
    destruct (pop C s0 a) as [[c1 o1]|]; cbn in E; [|discriminate].
    destruct (as_pop_loop C _ t pb) as [[s2 o2]|] eqn:E2; cbn in E; [|discriminate]. inversion E; subst.
    apply IH in E2. rewrite replace_nth_length in E2. auto.
  - unfold as_take. destruct (as_set hash C s k); cbn [bind]; [|discriminate].
    destruct (nth_error s a); cbn; [|discriminate]. destruct (take C s0 k) as [[c1 o1]|]; cbn; [|discriminate].
    intros H; inversion H; subst. apply replace_nth_length.
  - unfold as_take_multiple. destruct (distribute _ _ _ _ _ _) as [kss|]; cbn [bind]; [|discriminate].
    destruct (as_tm_loop C s kss) as [[[s1 k1] o1]|] eqn:E; cbn [bind]; [|discriminate]. intros H; inversion H; subst. clear H.
    revert kss s' k1 r E. induction s as [|c s IH]; intros [|ks1 kss] s' k1 r E; cbn in E; try (inversion E; auto; fail).
    destruct (match ks1 with [] => _ | _ => _ end) as [[[c1 k2] o2]|]; cbn in E; [|discriminate].
    destruct (as_tm_loop C s kss) as [[[s2 k3] o3]|] eqn:E2; cbn in E; [|discriminate]. inversion E; subst. cbn. erewrite IH; eauto.
  - apply Hf.
Qed.
Lemma assoc_run_length V hash (C : Block K V) h : forall (s : St (AssociativeB hash C)) s' r,
  run (AssociativeB hash C) s h = Ok (s', r) -> length s' = length s.
Proof.
  induction h as [|o h IH]; intros s s' r E; cbn [run] in E; [inversion E; auto|].
  destruct (step (AssociativeB hash C) s o) as [[s1 r1]|] eqn:E1; cbn [bind] in E; [|discriminate].
  destruct (run (AssociativeB hash C) s1 h) as [[s2 r2]|] eqn:E2; cbn [bind] in E; [|discriminate]. inversion E; subst.
  apply IH in E2. apply assoc_step_length in E1. congruence.
Qed.

Theorem C16_each_key_in_its_set : forall V dup hash n (f : nat -> arch K V) s,
  reaches dup (AAssociative hash n f) s ->
  length s = S n /\
  forall i c, nth_error s i = Some c ->
  forall k, In k (keys (held (f (projT1 c)) (projT2 c))) -> set_index hash (S n) k = i.
Proof.
  intros V dup hash n f s Hre. assert (Hl : length s = S n).
  { destruct Hre as (h & out & _ & Hr). apply assoc_run_length in Hr. etransitivity; [exact Hr|].
    cbn [init]. rewrite map_length, seq_length. auto. }
  split; auto. intros i c Hn k Hk. pose proof (reaches_inv Hre) as [Hd (I1 & I2 & I3 & I4)].
  unfold ckeys in I3. pose proof (@placed_nth _ _ _ _ 0 i c I3 Hn k Hk) as E. cbn in E. rewrite <- E. unfold set_index, set_of.
  exact (f_equal (fun m => N.to_nat (N.modulo (hash k) (N.of_nat m))) (eq_sym Hl)).
Qed.
(** Lookups consult only that set, and take changes no other. *)
Theorem C16_lookup_in_its_set_only : forall V hash (C : Block K V) (s : St (AssociativeB hash C)) k, s <> [] ->
  exists c, nth_error s (set_index hash (length s) k) = Some c /\
    contains (AssociativeB hash C) s k = contains C c k /\
    forall s' o, take (AssociativeB hash C) s k = Ok (s', o) ->
      exists c', take C c k = Ok (c', o) /\ nth_error s' (set_index hash (length s) k) = Some c' /\
        forall j, j <> set_index hash (length s) k -> nth_error s' j = nth_error s j.
Proof.
  intros V hash C s k Hne. assert (Hl : 1 <= length s) by (destruct s; cbn; [congruence|lia]).
  pose proof (set_of_lt hash k Hl) as Hlt. change (set_of hash (length s) k) with (set_index hash (length s) k) in Hlt.
  destruct (nth_error s (set_index hash (length s) k)) as [c|] eqn:E; [|apply nth_error_None in E; lia].
  exists c. split; auto. cbn [AssociativeB contains take]. unfold as_contains, as_take.
  rewrite !as_set_ok by auto. cbn [bind]. change (set_of hash (length s) k) with (set_index hash (length s) k).
  rewrite E. cbn [unwrap bind]. split; auto. intros s' o H. destruct (take C c k) as [[c' o']|]; cbn in H; [|discriminate].
  inversion H; subst. exists c'. split; auto. clear - E. revert E. generalize (set_index hash (length s) k) as i.
  induction s as [|x s IH]; intros [|i] E; cbn in *; try discriminate.
  - split; auto. intros [|j] Hj; cbn; auto; congruence.
  - destruct (IH _ E) as [H1 H2]. split; auto. intros [|j] Hj; cbn; auto.
Qed.
Theorem C16_associative_conserves : forall V dup hash n (f : nat -> arch K V) h, used dup (AAssociative hash n f) h ->
  exists s out, run (block (AAssociative hash n f)) (init (AAssociative hash n f)) h = Ok (s, out) /\
    Permutation (out ++ held (AAssociative hash n f) s) (all_given h) /\
    size (block (AAssociative hash n f)) s = list_sum (map (fun c => size (block (f (projT1 c))) (projT2 c)) s) /\
    capacity (block (AAssociative hash n f)) s = list_sum (map (fun i => leaves_capacity (f i)) (seq 0 (S n))).
Proof.
  intros V dup hash n f h Hu. destruct (used_run Hu) as (s & out & H1 & H2 & H3 & H4).
  exists s, out. split; auto. split; auto. split; [reflexivity|rewrite H3; apply init_capacity].
Qed.

(** C17.  pop(0), and pop of at least everything, work. *)
Theorem C17_pop_partial : forall V dup hash n (f : nat -> arch K V) s m, reaches dup (AAssociative hash n f) s ->
  existsb (fun i => has_stopper (f i)) (seq 0 (S n)) = false ->
  m = 0 \/ size (block (AAssociative hash n f)) s <= m ->
  exists s' out, pop (block (AAssociative hash n f)) s m = Ok (s', out) /\
    Permutation (out ++ held (AAssociative hash n f) s') (held (AAssociative hash n f) s) /\
    (m = 0 /\ s' = s \/ size (block (AAssociative hash n f)) s = 0 \/ held (AAssociative hash n f) s' = []).
Proof.
  intros V dup hash n f s m Hre Hst Hm. pose proof (reaches_inv Hre) as [Hd Hi].
  cbn [block AssociativeB pop]. unfold as_pop. set (B := SumB _) in *.
  assert (Htot : forall j (l : list nat), list_sum (map snd (enumerate_from j l)) = list_sum l).
  { intros j l. revert j. induction l as [|x l IH]; intros j; cbn; auto. }
  rewrite Htot. destruct (m =? 0) eqn:Em; cbn [orb].
  { apply Nat.eqb_eq in Em. exists s, []. auto. }
  apply Nat.eqb_neq in Em. destruct Hm as [Hm|Hm]; [lia|].
  destruct (list_sum (map (size B) s) =? 0) eqn:Et; cbn [orb].
  { apply Nat.eqb_eq in Et. exists s, []. split; auto. }
  replace (list_sum (map (size B) s) <=? m) with true by (symmetry; apply Nat.leb_le; exact Hm).
  destruct (law_flush (arch_laws (AAssociative hash n f) Hd) s Hi) as (s' & out & F1 & F2 & F3 & F4 & F5).
  exists s', out. split; [exact F1|]. split; auto. right. right. apply F5. cbn [has_stopper]. rewrite Hst. auto.
Qed.
(** In between, whatever the containers, if every set holds at least as much as there are sets, pop panics:
    the loop takes the size of a set for its index. *)
Theorem C17_pop_in_between_refuted : forall V hash (C : Block K V) (s : St (AssociativeB hash C)) m,
  (forall c, In c s -> length s <= size C c) -> 0 < m -> m < size (AssociativeB hash C) s ->
  pop (AssociativeB hash C) s m = Panic.
Proof.
  intros V hash C s m Hs Hm Hlt. cbn [AssociativeB pop size] in *. unfold as_pop, as_size in *.
  assert (Htot : forall j (l : list nat), list_sum (map snd (enumerate_from j l)) = list_sum l).
  { intros j l. revert j. induction l as [|x l IH]; intros j; cbn; auto. }
  rewrite Htot. replace (m =? 0) with false by (symmetry; apply Nat.eqb_neq; lia).
  replace (_ =? 0) with false by (symmetry; apply Nat.eqb_neq; lia). cbn [orb].
  replace (_ <=? m) with false by (symmetry; apply Nat.leb_gt; lia).
  assert (Hpb : Forall (fun p => length s <= snd p) (enumerate_from 0 (map (size C) s))).
  { apply Forall_forall. intros [j x] Hin. cbn.
    assert (G : forall (l : list nat) i, In (j, x) (enumerate_from i l) -> In x l).
    { clear. induction l as [|y l IH]; intros i; cbn; [tauto|]. intros [H|H]; [inversion H; auto|]. right. eapply IH; eauto. }
    apply G in Hin. apply in_map_iff in Hin as (c & <- & Hc). auto. }
  assert (Ht : forall pb total t pb', Forall (fun p => length s <= snd p) pb -> as_target pb total m = Ok (t, pb') ->
     exists p q, pb' = p :: q /\ length s <= snd p).
  { clear. induction pb as [|[x y] pb IH]; intros total t pb' Hf E; cbn [as_target] in E.
    - destruct (sub_chk total m); cbn in E; discriminate.
    - destruct (sub_chk total m); cbn [bind] in E; [|discriminate]. apply Forall_cons_iff in Hf as [H1 H2].
      destruct (_ <=? x). { inversion E; subst. eexists _, _. split; [reflexivity|]. auto. }
      destruct (sub_chk total x); cbn [bind] in E; [|discriminate].
      destruct (m <? _); [|discriminate]. eapply IH; eauto. }
  destruct (as_target _ _ _) as [[t pb]|] eqn:E; cbn [bind]; auto.
  destruct (Ht _ _ _ _ Hpb E) as ([x y] & q & -> & Hy). cbn in Hy. cbn [as_pop_loop].
  destruct (nth_error s y) eqn:En; cbn; auto. assert (Hl : y < length s) by (apply nth_error_Some; congruence). lia.
Qed.

(** C25: through a Decorator, whatever the decoration, exactly the pushed pairs come back. *)
Theorem C25_decorator_returns_pushed_values : forall V D (F : Factory V D) f0 dup (a : arch K D) h,
  used dup (ADecorator F f0 a) h ->
  exists s out, run (block (ADecorator F f0 a)) (init (ADecorator F f0 a)) h = Ok (s, out) /\
    Permutation (out ++ held (ADecorator F f0 a) s) (all_given h) /\
    keys (held (ADecorator F f0 a) s) = keys (held a (snd s)) /\
    size (block (ADecorator F f0 a)) s = size (block a) (snd s) /\
    capacity (block (ADecorator F f0 a)) s = leaves_capacity a /\
    (forall k, contains (block (ADecorator F f0 a)) s k = contains (block a) (snd s) k).
Proof.
  intros V D F f0 dup a h Hu. destruct (used_run Hu) as (s & out & H1 & H2 & H3 & H4).
  exists s, out. split; auto. split; auto. split; [cbn [held]; apply keys_unwrap|]. split; [reflexivity|].
  split; [rewrite H3; apply (init_capacity (ADecorator F f0 a))|reflexivity].
Qed.

(** C47 *)
Definition not_take_multiple {V} (o : op K V) : Prop := match o with OpTakeMultiple _ => False | _ => True end.
Theorem C47_dyn_same_results : forall V (C : Block K V) (s : St C),
  (forall o, not_take_multiple o -> step (DynB C) s o = step C s o) /\
  (forall k, contains (DynB C) s k = contains C s k) /\
  size (DynB C) s = size C s /\ capacity (DynB C) s = capacity C s.
Proof. intros V C s. repeat split. intros [vs|n|k|ks|] H; [reflexivity|reflexivity|reflexivity|contradiction|reflexivity]. Qed.
Lemma tm_unique_perm {V} (c1 c2 o1 o2 c : list (K * V)) ks :
  NoDup (keys c) -> Permutation (o1 ++ c1) c -> Permutation (o2 ++ c2) c ->
  (forall k, In k (keys o1) <-> In k ks /\ In k (keys c)) ->
  (forall k, In k (keys o2) <-> In k ks /\ In k (keys c)) ->
  Permutation o1 o2 /\ Permutation c1 c2.
Proof.
  intros Hn P1 P2 K1 K2.
  assert (NP : forall o c', Permutation (o ++ c') c -> NoDup o).
  { intros o c' P. apply (nodup_keys_perm (Permutation_sym P)) in Hn. rewrite keys_app in Hn.
    apply NoDup_app_inv in Hn as (N & _). unfold keys in N. apply NoDup_map_inv in N. auto. }
  assert (HI : forall o c' o' c'', Permutation (o ++ c') c -> Permutation (o' ++ c'') c ->
     (forall k, In k (keys o) -> In k (keys o')) -> incl o o').
  { intros o c' o' c'' P P' HK [k v] Hin. assert (Hc : In (k, v) c) by (apply (Permutation_in _ P); apply in_or_app; auto).
    assert (Hk : In k (keys o')) by (apply HK; eapply in_keys; eauto).
    unfold keys in Hk. apply in_map_iff in Hk as ([k2 v2] & E & Hin2). cbn in E. subst k2.
    assert (Hc2 : In (k, v2) c) by (apply (Permutation_in _ P'); apply in_or_app; auto).
    rewrite (keys_unique _ _ _ _ Hn Hc Hc2). auto. }
  assert (PO : Permutation o1 o2).
  { apply NoDup_Permutation; [eapply NP; eauto|eapply NP; eauto|]. intros x. split.
    - apply (HI o1 c1 o2 c2); auto. intros k Hk. apply K2, K1; auto.
    - apply (HI o2 c2 o1 c1); auto. intros k Hk. apply K1, K2; auto. }
  split; auto. apply (Permutation_app_inv_l o1). rewrite P1, PO, P2. auto.
Qed.
Theorem C47_dyn_take_multiple : forall V (a : arch K V) s ks, reaches false a s ->
  exists s1 ks1 o1 s2 o2,
    take_multiple (block a) s ks = Ok (s1, ks1, o1) /\ take_multiple (block (ADyn a)) s ks = Ok (s2, ks, o2) /\
    Permutation o1 o2 /\ Permutation (held a s1) (held a s2).
Proof.
  intros V a s ks Hre. destruct (C06_take_multiple_exact ks Hre) as (s1 & ks1 & o1 & T1 & _ & N1 & K1 & P1 & _).
  pose proof (reaches_inv Hre) as [Hd Hi].
  assert (L : Laws (block (ADyn a)) (ainv false (ADyn a)) (held (ADyn a)) false
                (negb (has_associative (ADyn a))) (negb (has_stopper (ADyn a)))).
  { apply arch_laws. discriminate. }
  destruct (law_take_multiple L s ks Hi) as (s2 & ks2 & o2 & T2 & I2 & _ & _ & P2 & In2 & C2 & _).
  assert (Ek : ks2 = ks).
  { cbn [block DynB take_multiple] in T2. unfold default_take_multiple in T2.
    destruct (take_each _ s ks) as [[s3 o3]|]; cbn in T2; [|discriminate]. inversion T2; auto. }
  subst ks2. exists s1, ks1, o1, s2, o2. split; auto. split; auto.
  apply (@tm_unique_perm V _ _ _ _ (held a s) ks); auto; [apply (reaches_unique Hre)|].
  intros k. split; [|intros [? ?]; apply C2; auto]. intros Hk. split; [apply In2; auto|].
  apply (in_keys_perm k P2). rewrite keys_app. apply in_or_app; auto.
Qed.
End PArch.

(** Witnesses. *)
Definition ar {V} {OV : Ord V} cap : arch nat V := AArray (std_sorter snd) linear_bs cap (fun _ => 1).
(** pop may also succeed and free less than asked: five sets holding one element each; asked for 4, frees 1. *)
Theorem C17_pop_frees_too_little_refuted : exists s s' out,
  let a := AAssociative N.of_nat 4 (fun _ => ar 2) in
  run (block a) (init a) [OpPush [(0, 0); (1, 1); (2, 2); (3, 3); (4, 4)]] = Ok (s, []) /\
  size (block a) s = 5 /\ pop (block a) s 4 = Ok (s', out) /\ size (block a) s' = 4.
Proof. eexists _, _, _. vm_compute. auto. Qed.
Theorem C17_pop_panics_refuted :
  let a := AAssociative N.of_nat 1 (fun _ => ar 4) in
  exists s, run (block a) (init a) [OpPush [(0, 0); (1, 1); (2, 2); (3, 3)]] = Ok (s, []) /\ pop (block a) s 1 = Panic.
Proof. eexists. vm_compute. auto. Qed.

(** A Profiler over a type-erased container panics on duplicate keys: the exception in C19. *)
Theorem C19_profiled_dyn_duplicate_keys_refuted :
  let a := AProfiler (ABatch 2 (fun _ => ADyn (ar 1))) in
  run (block a) (init a) [OpPush [(1, 1); (1, 2)]; OpTakeMultiple [1]] = Panic.
Proof. reflexivity. Qed.

(** A non-trivial architecture and history meeting the hypotheses of the theorems above. *)
Definition tower : arch nat nat :=
  AProfiler (AExclusive linear_bs (ABTree _ 2 (fun _ => 1))
    (ABatch 2 (fun i => if i =? 0 then ADyn (ar 2) else ASequential (ar 3)))).
Definition tower_h : list (op nat nat) :=
  [OpPush [(1, 10); (2, 20); (3, 30)]; OpPush [(4, 5); (5, 50)]; OpTake 2; OpPop 1; OpTakeMultiple [1; 9]; OpPush [(2, 7)]].
(** A checker for the discipline, to exhibit concrete histories. *)
Fixpoint nodupb {K} {OK : Ord K} (l : list K) : bool :=
  match l with [] => true | k :: l' => negb (existsb (fun x => eqb x k) l') && nodupb l' end.
Fixpoint allowedb {K V} {OK : Ord K} (B : Block K V) (ct : St B -> list (K * V)) (dup pops : bool) (s : St B) (h : list (op K V)) : bool :=
  match h with
  | [] => true
  | o :: h' =>
      match o with OpPush vs => dup || nodupb (keys (ct s ++ vs)) | OpPop _ => pops | _ => true end &&
      match step B s o with Ok (s', _) => allowedb B ct dup pops s' h' | Panic => true end
  end.
Lemma nodupb_ok {K} {OK : Ord K} {EK : OrdEq K} (l : list K) : nodupb l = true -> NoDup l.
Proof.
  induction l as [|k l IH]; cbn; intros H; constructor; apply andb_prop in H as [H1 H2]; auto.
  intros Hin. apply negb_true_iff in H1. assert (E : existsb (fun x => eqb x k) l = true).
  { apply existsb_exists. exists k. split; auto. apply eqb_refl. } congruence.
Qed.
Lemma allowedb_ok {K V} {OK : Ord K} {EK : OrdEq K} (B : Block K V) ct dup pops h : forall s,
  allowedb B ct dup pops s h = true -> allowed B ct dup pops s h.
Proof.
  induction h as [|o h IH]; intros s H; cbn [allowed]; auto. cbn [allowedb] in H. apply andb_prop in H as [H1 H2]. split.
  - destruct o; auto. intros E. rewrite E in H1. apply nodupb_ok. exact H1.
  - intros s' r E. rewrite E in H2. auto.
Qed.
Example tower_used : used false tower tower_h.
Proof. split; [discriminate|]. apply allowedb_ok. vm_compute. reflexivity. Qed.
Lemma ok_case {S R : Type} (P : S -> Prop) (r : res (S * R)) :
  match r with Ok (s, _) => P s | Panic => False end -> exists s out, r = Ok (s, out) /\ P s.
Proof. destruct r as [[s out]|]; [eauto|tauto]. Qed.
Example tower_reaches : exists s, reaches false tower s /\ keys (held tower s) = [2; 4; 3; 5] /\ has_stopper tower = false.
Proof.
  assert (R : exists s out, run (block tower) (init tower) tower_h = Ok (s, out) /\ keys (held tower s) = [2; 4; 3; 5]).
  { apply (ok_case (fun s => keys (held tower s) = [2; 4; 3; 5])). vm_compute. reflexivity. }
  destruct R as [s R]. destruct R as [out R]. destruct R as [R1 R2].
  exists s. split; [exists tower_h, out; split; [apply tower_used|exact R1]|]. split; [exact R2|reflexivity].
Qed.
(** A two-level cache: an Array in front of two compressed containers on a server reached through a socket. *)
Definition net_tower : arch nat nat :=
  AExclusive linear_bs (ar 2) (ARemote (ABatch 2 (fun i =>
    ACompressed PCompressed.no_lz PCompressed.duo_codec (std_sorter snd) linear_bs (if i =? 0 then 14 else 30)))).
Definition net_h : list (op nat nat) :=
  [OpPush [(1, 10); (2, 20); (3, 30)]; OpPush [(4, 5); (5, 50); (6, 60)]; OpTake 2; OpPop 1; OpTakeMultiple [1; 9]; OpPush [(2, 7)]].
Example net_used : used false net_tower net_h.
Proof. split; [discriminate|]. apply allowedb_ok. vm_compute. reflexivity. Qed.
Example net_reaches : exists s, reaches false net_tower s /\ keys (held net_tower s) = [4; 2; 5; 3] /\ has_stopper net_tower = false.
Proof.
  assert (R : exists s out, run (block net_tower) (init net_tower) net_h = Ok (s, out) /\ keys (held net_tower s) = [4; 2; 5; 3]).
  { apply (ok_case (fun s => keys (held net_tower s) = [4; 2; 5; 3])). vm_compute. reflexivity. }
  destruct R as [s R]. destruct R as [out R]. destruct R as [R1 R2].
  exists s. split; [exists net_h, out; split; [apply net_used|exact R1]|]. split; [exact R2|reflexivity].
Qed.
Definition assoc_tower : arch nat nat := AAssociative (fun k => N.of_nat (k * 7)) 2 (fun _ => AFlushStopper (ar 2)).
Example assoc_used : used true assoc_tower [OpPush [(1, 1); (1, 2); (4, 4); (5, 5)]; OpFlush; OpTake 4].
Proof. split; [reflexivity|]. apply allowedb_ok. vm_compute. reflexivity. Qed.
Example assoc_pop_hyp : let a := AAssociative N.of_nat 1 (fun _ => ar 4) in
  exists s, run (block a) (init a) [OpPush [(0, 0); (1, 1); (2, 2); (3, 3)]] = Ok (s, []) /\
    (forall c, In c s -> length s <= size (SumB (fun _ => block (@ar nat _ 4))) c) /\ 0 < 3 /\ 3 < size (block a) s.
Proof.
  eexists. split; [vm_compute; reflexivity|]. split; [|vm_compute; lia]. intros c Hc. cbn in Hc.
  destruct Hc as [<-|[<-|[]]]; vm_compute; lia.
Qed.

Print Assumptions C19_laws_for_every_nesting.
Print Assumptions C20_end_to_end.
Print Assumptions C21_size_within_constant_capacity.
Print Assumptions C05_take_agrees.
Print Assumptions C06_take_multiple_exact.
Print Assumptions C16_each_key_in_its_set.
Print Assumptions C17_pop_in_between_refuted.
Print Assumptions C47_dyn_take_multiple.
