(** PLazy.v -- C60: flush empties the container during the call, and its iterator is detached from it. *)
From Coq Require Import NArith.
From Verif Require Import Base Block Cut Array BTree Batch Exclusive Wrappers Associative Stream Compressed Inclusive Arch Spec ArchProof Sim SimProof Lazy PArch.
Set Implicit Arguments.

(** ** What an iterator will yield, whatever its shape *)
Fixpoint good {K X : Type} (i : iter K X) : list X -> Prop :=
  match i in iter _ X return list X -> Prop with
  | IVec l => fun l' => l' = l
  | IBTree m => fun l' => b_drain m = Ok l'
  | IMap f j => fun l' => exists l, good j l /\ l' = map f l
  | IChain (Some a) b => fun l' => exists la lb, good a la /\ good b lb /\ l' = la ++ lb
  | IChain None b => fun l' => good b l'
  | IProf j => fun l' => good j l'
  end.
Lemma good_next {K X} (i : iter K X) : forall l, good i l -> exists i', next i = Ok (i', hd_error l) /\ good i' (tl l).
Proof.
  revert X i. fix IH 2. intros X i. destruct i as [X l0|V m|X Y f j|X [a|] b|X j]; cbn [good next]; intros l H.
  - subst l0. destruct l as [|x l]; eexists; split; try reflexivity.
  - destruct m as [|[k x] m]; cbn [b_drain] in H.
    + injection H as <-. eexists; split; reflexivity.
    + destruct (as_value x (BTree.in_map (snd x) m)) as [v|]; cbn [bind] in H; [|discriminate].
      destruct (b_drain m) as [r|] eqn:E; cbn [bind] in H; [|discriminate]. injection H as <-.
      cbn [bind]. eexists; split; [reflexivity|]. exact E.
  - destruct H as (l0 & H & ->). destruct (IH _ _ _ H) as (j' & E & G). rewrite E. cbn [bind].
    eexists. split; [destruct l0; reflexivity|]. cbn [good]. exists (tl l0). split; auto. destruct l0; reflexivity.
  - destruct H as (la & lb & Ha & Hb & ->). destruct (IH _ _ _ Ha) as (a' & E & G). rewrite E. cbn [bind].
    destruct la as [|x la]; cbn [hd_error app tl] in *.
    + destruct (IH _ _ _ Hb) as (b' & E' & G'). rewrite E'. cbn [bind]. eexists. split; [reflexivity|]. exact G'.
    + eexists. split; [reflexivity|]. cbn [good]. exists la, lb. auto.
  - destruct (IH _ _ _ H) as (b' & E' & G'). rewrite E'. cbn [bind]. eexists. split; [reflexivity|]. exact G'.
  - destruct (IH _ _ _ H) as (b' & E' & G'). rewrite E'. cbn [bind]. eexists. split; [reflexivity|]. exact G'.
Qed.
Lemma good_left {K X} (i : iter K X) : forall l, good i l -> length l = left_in i.
Proof.
  revert X i. fix IH 2. intros X i. destruct i as [X l0|V m|X Y f j|X [a|] b|X j]; cbn [good left_in]; intros l H.
  - subst; auto.
  - revert l H. induction m as [|[k x] m IHm]; cbn [b_drain]; intros l H; [injection H as <-; auto|].
    destruct (as_value x (BTree.in_map (snd x) m)) as [v|]; cbn [bind] in H; [|discriminate].
    destruct (b_drain m) as [r|]; cbn [bind] in H; [|discriminate]. injection H as <-. cbn. f_equal. auto.
  - destruct H as (l0 & H & ->). rewrite map_length. eauto.
  - destruct H as (la & lb & Ha & Hb & ->). rewrite app_length. rewrite (IH _ _ _ Ha), (IH _ _ _ Hb). auto.
  - eauto.
  - eauto.
Qed.
Lemma good_collect_fuel {K X} : forall l (i : iter K X), good i l -> collect_fuel (S (length l)) i = Ok l.
Proof.
  induction l as [|x l IH]; intros i H; destruct (good_next _ _ H) as (i' & E & G).
  - cbn [length collect_fuel]. rewrite E. reflexivity.
  - cbn [length]. remember (S (length l)) as n. cbn [collect_fuel]. rewrite E. cbn [bind hd_error tl] in *. subst n.
    rewrite (IH _ G). reflexivity.
Qed.
Lemma good_collect {K X} (i : iter K X) l : good i l -> collect i = Ok l.
Proof. intros H. unfold collect. rewrite <- (good_left _ _ H). apply good_collect_fuel; auto. Qed.

(** ** Flushes that agree with the model that runs them to their end *)
Section Agree.
Context {K V : Type}.
Definition agree (B : Block K V) (lf : lflush_of B) (R : St B -> St B -> Prop) : Prop :=
  forall s t s' l, R s t -> flush B s = Ok (s', l) -> exists t' i, lf t = Ok (t', i) /\ R s' t' /\ good i l.
End Agree.
Lemma sim_refl {K V} (B : Block K V) : Sim true B B eq.
Proof.
  constructor; intros; subst; auto;
  match goal with |- rel1 _ ?x _ => destruct x as [[? ?]|] | |- rel2 _ ?x _ => destruct x as [[[? ?] ?]|] end; cbn; auto.
Qed.
Lemma rel1_ok {S T O} (R : S -> T -> Prop) x y s (o : O) : rel1 R x y -> x = Ok (s, o) -> exists t, y = Ok (t, o) /\ R s t.
Proof. intros H ->. destruct y as [[t o']|]; cbn in H; [|tauto]. destruct H as [H <-]. eauto. Qed.
Lemma rel2_ok {S T O P} (R : S -> T -> Prop) x y s (o : O) (p : P) : rel2 R x y -> x = Ok (s, o, p) -> exists t, y = Ok (t, o, p) /\ R s t.
Proof. intros H ->. destruct y as [[[t o'] p']|]; cbn in H; [|tauto]. destruct H as (H & <- & <-). eauto. Qed.

Section Each.
Context {K : Type} {OK : Ord K}.
Lemma agree_vec V (B : Block K V) : agree (vec_lflush B) eq.
Proof. intros s t s' l <- E. unfold vec_lflush. rewrite E. cbn [bind]. do 2 eexists. split; [reflexivity|]. cbn. auto. Qed.
Lemma agree_btree V (OV : Ord V) : agree (@btree_lflush K OK V OV) eq.
Proof.
  intros s t s' l <- E. cbn [flush BTreeB] in E. unfold b_flush in E. destruct (b_drain (b_map s)) as [out|] eqn:D; cbn [bind] in E; [|discriminate].
  injection E as <- <-. unfold btree_lflush. do 2 eexists. split; [reflexivity|]. cbn [good]. auto.
Qed.
Lemma agree_stopper V (B : Block K V) R : agree (stopper_lflush B) R.
Proof. intros s t s' l H E. cbn in E. injection E as <- <-. unfold stopper_lflush. do 2 eexists. split; [reflexivity|]. cbn. auto. Qed.
Lemma agree_decorator V D (F : Factory V D) (B : Block K D) (lf : lflush_of B) R : agree lf R ->
  agree (decorator_lflush (F := F) lf) (fun s t => fst s = fst t /\ R (snd s) (snd t)).
Proof.
  intros A s t s' l [H1 H2] E. cbn in E. destruct (flush B (snd s)) as [[c o]|] eqn:EF; cbn [bind] in E; [|discriminate].
  injection E as <- <-. destruct (A _ _ _ _ H2 EF) as (t' & i & El & HR & G). unfold decorator_lflush. rewrite El. cbn [bind].
  do 2 eexists. split; [reflexivity|]. cbn [fst snd]. split; [auto|]. cbn [good]. eauto.
Qed.
Lemma agree_sum V I (C : I -> Block K V) (lf : forall i, lflush_of (C i)) R (Pr : I -> Prop) : (forall i, Pr i -> agree (lf i) (R i)) ->
  agree (sum_lflush (C := C) lf) (sum_rel Pr R).
Proof.
  intros A s t s' l (i & s0 & t0 & Hi & -> & -> & HR) E. cbn [flush SumB projT1 projT2] in E.
  destruct (flush (C i) s0) as [[c o]|] eqn:EF; cbn [bind] in E; [|discriminate]. injection E as <- <-.
  destruct (A i Hi _ _ _ _ HR EF) as (t' & j & El & HR' & G). unfold sum_lflush. cbn [projT1 projT2]. rewrite El. cbn [bind].
  do 2 eexists. split; [reflexivity|]. split; auto. exists i, c, t'. auto.
Qed.
Lemma agree_list V (B : Block K V) (lf : lflush_of B) R : agree lf R ->
  (forall s t s' l, Forall2 R s t -> bt_flush B s = Ok (s', l) -> exists t' i, list_lflush lf t = Ok (t', i) /\ Forall2 R s' t' /\ good i l).
Proof.
  intros A s t s' l H. revert s' l. induction H as [|x y s t H HF IH]; intros s' l E; cbn [bt_flush list_lflush] in *.
  - injection E as <- <-. do 2 eexists. split; [reflexivity|]. cbn. auto.
  - destruct (flush B x) as [[c1 o1]|] eqn:EF; cbn [bind] in E; [|discriminate].
    destruct (bt_flush B s) as [[s2 o2]|] eqn:ES; cbn [bind] in E; [|discriminate]. injection E as <- <-.
    destruct (A _ _ _ _ H EF) as (y' & i & El & HR & G). destruct (IH _ _ eq_refl) as (t' & j & El' & HR' & G').
    rewrite El. cbn [bind]. rewrite El'. cbn [bind]. do 2 eexists. split; [reflexivity|]. split; [constructor; auto|]. cbn [good]. eauto.
Qed.
Lemma as_flush_bt V (B : Block K V) s : as_flush B s = bt_flush B s.
Proof. induction s as [|c s IH]; cbn [as_flush bt_flush]; auto. Qed.
Lemma agree_batch V (B : Block K V) (lf : lflush_of B) R : agree lf R -> agree (batch_lflush lf) (Forall2 R).
Proof. intros A s t s' l H E. exact (agree_list A H E). Qed.
Lemma agree_associative V (hash : K -> N) (B : Block K V) (lf : lflush_of B) R n : agree lf R -> agree (associative_lflush (hash := hash) lf) (@as_rel K V B B R n).
Proof.
  intros A s t s' l [Hn H] E. cbn [flush AssociativeB] in E. pose proof (as_flush_len _ E) as L. rewrite as_flush_bt in E.
  destruct (agree_list A H E) as (t' & i & El & HR & G). do 2 eexists. split; [exact El|]. split; auto. split; auto. congruence.
Qed.
Lemma agree_remote V (B : Block K V) (lf : lflush_of B) R : agree lf R -> agree (B := RemoteB B) (remote_lflush lf) R.
Proof.
  intros A s t s' l H E. destruct (A _ _ _ _ H E) as (t' & i & El & HR & G). unfold remote_lflush. rewrite El. cbn [bind].
  rewrite (good_collect _ _ G). cbn [bind]. do 2 eexists. split; [reflexivity|]. cbn. auto.
Qed.
Lemma agree_exclusive V bs (L R : Block K V) (lfL : lflush_of L) (lfR : lflush_of R) P Q :
  Sim true R R Q -> agree lfL P -> agree lfR Q ->
  agree (exclusive_lflush (bs := bs) lfL lfR) (fun s t => P (fst s) (fst t) /\ Q (snd s) (snd t)).
Proof.
  intros SR AL AR [f b] [f' b'] s' l [H1 H2] E. cbn [fst snd] in *. cbn [flush ExclusiveB] in E. unfold ex_flush in E. cbn [fst snd] in E.
  destruct (flush R b) as [[b1 back]|] eqn:E1; cbn [bind] in E; [|discriminate].
  destruct (flush L f) as [[f1 front]|] eqn:E2; cbn [bind] in E; [|discriminate].
  destruct (push R b1 front) as [[b2 over]|] eqn:E3; cbn [bind] in E; [|discriminate].
  destruct (flush R b2) as [[b3 nb]|] eqn:E4; cbn [bind] in E; [|discriminate]. injection E as <- <-.
  destruct (AR _ _ _ _ H2 E1) as (b1' & i1 & L1 & Q1 & G1).
  destruct (AL _ _ _ _ H1 E2) as (f1' & i2 & L2 & P2 & G2).
  destruct (rel1_ok _ _ (sim_push SR _ _ front Q1) E3) as (b2' & L3 & Q3).
  destruct (AR _ _ _ _ Q3 E4) as (b3' & i4 & L4 & Q4 & G4).
  unfold exclusive_lflush. cbn [fst snd]. rewrite L1. cbn [bind]. rewrite L2. cbn [bind]. rewrite (good_collect _ _ G2). cbn [bind].
  rewrite L3. cbn [bind]. rewrite L4. cbn [bind]. do 2 eexists. split; [reflexivity|]. cbn [fst snd]. split; [auto|].
  cbn [good]. eexists _, _. split; [exact G1|]. split; [|reflexivity]. do 2 eexists. split; [reflexivity|]. split; [exact G4|]. reflexivity.
Qed.

(** The counters of a Profiler but the number of calls of next, which depends on how far iterators were pulled. *)
Definition but_iter (t : stats) : stats :=
  mkStats (s_contains t) (s_take t) (s_pop t) (s_push t) (s_flush t) m_zero (s_get t) (s_get_mut t) (s_hit t) (s_miss t).
Lemma but_iter_eq t t' : but_iter t = but_iter t' -> exists m, t' = mkStats (s_contains t) (s_take t) (s_pop t) (s_push t) (s_flush t) m (s_get t) (s_get_mut t) (s_hit t) (s_miss t).
Proof. destruct t, t'. cbn. intros H. injection H as <- <- <- <- <- <- <- <- <-. eauto. Qed.
Definition prof_rel {C : Type} (R : C -> C -> Prop) (s t : stats * C) : Prop := but_iter (fst s) = but_iter (fst t) /\ R (snd s) (snd t).
Lemma sim_profiler_but V (B : Block K V) R : Sim true B B R -> Sim true (ProfilerB B) (ProfilerB B) (prof_rel R).
Proof.
  intros HS. pose proof HS as [a b c d e f g h]. specialize (e eq_refl).
  constructor; intros; unfold prof_rel in *;
  repeat match goal with s : St (ProfilerB _) |- _ => destruct s as [?st ?s]; cbn [fst snd] in * end;
  repeat match goal with H : _ /\ _ |- _ => destruct H end;
  match goal with H : but_iter _ = but_iter _ |- _ => destruct (but_iter_eq H) as [m ->]; clear H end.
  - cbn. auto.
  - cbn. auto.
  - cbn. auto.
  - cbn. unfold pf_take. cbn [fst snd]. eapply rel1_bind; [apply d; eauto|]. intros s1 t1 o Hq1. cbn. 
    rewrite !(b _ _ Hq1). erewrite b by eassumption. destruct o; auto.
  - cbn. unfold pf_take_multiple. cbn [fst snd]. eapply rel2_bind; [apply e; eauto|]. intros s1 t1 o p Hq1.
    destruct (sub_chk _ _); cbn; auto. rewrite (b _ _ Hq1). erewrite b by eassumption. auto.
  - cbn. unfold pf_pop. cbn [fst snd]. eapply rel1_bind; [apply f; eauto|]. intros s1 t1 o Hq1.
    rewrite (b _ _ Hq1). erewrite b by eassumption. destruct (sub_chk _ _); cbn; auto.
  - cbn. unfold pf_push. cbn [fst snd]. eapply rel1_bind; [apply g; eauto|]. intros s1 t1 o Hq1. cbn. auto.
  - cbn. unfold pf_flush. cbn [fst snd]. eapply rel1_bind; [apply h; eauto|]. intros s1 t1 o Hq1. cbn.
    rewrite (b _ _ Hq1). erewrite b by eassumption. auto.
Qed.
Lemma agree_profiler V (B : Block K V) (lf : lflush_of B) R : Sim true B B R -> agree lf R -> agree (profiler_lflush lf) (prof_rel R).
Proof.
  intros HS A [st s] [st' t] s' l [H1 H2] E. cbn [fst snd] in *. cbn [flush ProfilerB] in E. unfold pf_flush in E. cbn [fst snd] in E.
  destruct (flush B s) as [[c o]|] eqn:EF; cbn [bind] in E; [|discriminate]. injection E as <- <-.
  destruct (A _ _ _ _ H2 EF) as (t' & i & El & HR & G). unfold profiler_lflush. cbn [fst snd]. rewrite El. cbn [bind].
  do 2 eexists. split; [reflexivity|]. split; [|exact G]. split; [|exact HR]. cbn [fst].
  destruct (but_iter_eq H1) as [m ->]. rewrite (sim_size HS _ _ H2), (sim_size HS _ _ HR). reflexivity.
Qed.

Lemma in_resolve_alike V (L : Block K (cell V)) P (HL : Sim true L L P) k kc : forall f f', P f f' -> rel1 P (in_resolve L f k kc) (in_resolve L f' k kc).
Proof.
  intros f f' H. unfold in_resolve. destruct (is_clone kc); [|cbn; auto].
  eapply rel1_bind; [apply (sim_take HL); eauto|]. intros s t [o|] H'; cbn; auto.
Qed.
Lemma in_leave_alike V (L : Block K (cell V)) P (HL : Sim true L L P) l : forall f f', P f f' -> rel1 P (in_leave L f l) (in_leave L f' l).
Proof. intros f f' H. unfold in_leave. eapply rel21_bind; [apply (sim_tm HL); eauto|]. cbn. auto. Qed.
Lemma sim_inclusive V (L R : Block K (cell V)) P Q (HL : Sim true L L P) (HR : Sim true R R Q) :
  Sim true (InclusiveB L R) (InclusiveB L R) (fun s t => P (fst s) (fst t) /\ Q (snd s) (snd t)).
Proof.
  constructor; intros; repeat match goal with H : _ /\ _ |- _ => destruct H end;
  repeat match goal with s : St (InclusiveB _ _) |- _ => destruct s as [?s ?r]; cbn [fst snd] in * end; subst.
  - cbn. unfold in_capacity. cbn. eapply (sim_capacity HR); eauto.
  - cbn. unfold in_size. cbn. eapply (sim_size HR); eauto.
  - cbn. unfold in_contains. cbn. erewrite (sim_contains HL) by eauto. destruct (contains L _ _) as [[]|]; cbn; auto. eapply (sim_contains HR); eauto.
  - cbn. unfold in_take. cbn [fst snd]. eapply rel1_bind; [apply (sim_take HR); eauto|]. intros s1 t1 [o|] Hq1; [|cbn; auto]. cbn beta iota.
    eapply rel1_bind; [apply (in_resolve_alike HL); eauto|]. cbn. auto.
  - cbn. unfold in_take_multiple. cbn [fst snd]. eapply rel2_bind; [apply (sim_tm HR); eauto|]. intros s1 t1 o p Hq1; cbn beta iota.
    eapply rel12_bind; [apply (in_leave_alike HL); eauto|]. cbn. auto.
  - cbn. unfold in_pop. cbn [fst snd]. eapply rel1_bind; [apply (sim_pop HR); eauto|]. intros s1 t1 o Hq1; cbn beta iota.
    eapply rel1_bind with (R := P); [|cbn; auto].
    assert (X : forall o f f', P f f' -> rel1 P (in_resolve_all L f o) (in_resolve_all L f' o)); [|apply X; auto].
    clear - HL. induction o as [|kc o IH]; intros f f' H; cbn [in_resolve_all]; [cbn; auto|].
    eapply rel1_bind; [apply (in_resolve_alike HL); eauto|]. intros f1 f1' x H1. cbn beta iota.
    eapply rel1_bind; [apply IH; eauto|]. cbn. auto.
  - cbn. unfold in_push. cbn [fst snd]. eapply rel1_bind; [apply (sim_push HR); eauto|]. intros s1 t1 o Hq1; cbn beta iota.
    eapply rel1_bind; [apply (in_leave_alike HL); eauto|]. cbn. auto.
  - cbn. unfold in_flush. cbn [fst snd]. eapply rel1_bind; [apply (sim_flush HL); eauto|]. intros s1 t1 o Hq1; cbn beta iota zeta.
    eapply rel21_bind; [apply (sim_tm HR); eauto|]. intros s2 t2 o2 p2 Hq2; cbn beta iota.
    eapply rel1_bind; [apply (sim_push HR); eauto|]. intros s3 t3 [|] Hq3; [|cbn; auto]. cbn beta iota.
    eapply rel1_bind; [apply (sim_flush HR); eauto|]. cbn. auto.
Qed.
Lemma agree_inclusive V (L R : Block K (cell V)) (lfL : lflush_of L) (lfR : lflush_of R) P Q :
  Sim true R R Q -> agree lfL P -> agree lfR Q ->
  agree (inclusive_lflush lfL lfR) (fun s t => P (fst s) (fst t) /\ Q (snd s) (snd t)).
Proof.
  intros SR AL AR [f b] [f' b'] s' l [H1 H2] E. cbn [fst snd] in *. cbn [flush InclusiveB] in E. unfold in_flush in E. cbn [fst snd] in E.
  destruct (flush L f) as [[f1 all]|] eqn:E2; cbn [bind] in E; [|discriminate].
  destruct (take_multiple R b _) as [[[b1 ks1] o1]|] eqn:E1; cbn [bind] in E; [|discriminate].
  destruct (push R b1 _) as [[b2 [|]]|] eqn:E3; cbn [bind] in E; [|discriminate|discriminate].
  destruct (flush R b2) as [[b3 nb]|] eqn:E4; cbn [bind] in E; [|discriminate]. injection E as <- <-.
  destruct (AL _ _ _ _ H1 E2) as (f1' & i2 & L2 & P2 & G2).
  destruct (rel2_ok _ _ (sim_tm SR eq_refl _ _ _ H2) E1) as (b1' & L1 & Q1).
  destruct (rel1_ok _ _ (sim_push SR _ _ _ Q1) E3) as (b2' & L3 & Q3).
  destruct (AR _ _ _ _ Q3 E4) as (b3' & i4 & L4 & Q4 & G4).
  unfold inclusive_lflush. cbn [fst snd]. rewrite L2. cbn [bind]. rewrite (good_collect _ _ G2). cbn [bind]. cbv zeta.
  rewrite L1. cbn [bind]. rewrite L3. cbn [bind]. rewrite L4. cbn [bind].
  do 2 eexists. split; [reflexivity|]. cbn [fst snd]. split; [auto|]. cbn [good]. eauto.
Qed.

(** ** Whole trees *)
Fixpoint alike_but {V : Type} (a : arch K V) : St (block a) -> St (block a) -> Prop :=
  match a return St (block a) -> St (block a) -> Prop with
  | AArray _ _ _ _ => eq
  | ABTree _ _ _ => eq
  | ABatch _ f => Forall2 (sum_rel (C := fun i => block (f i)) (D := fun i => block (f i)) (fun _ => True) (fun i => alike_but (f i)))
  | AExclusive _ l r => fun s t => alike_but l (fst s) (fst t) /\ alike_but r (snd s) (snd t)
  | AFlushStopper a => alike_but a
  | ASequential a => alike_but a
  | ADyn a => alike_but a
  | AProfiler a => prof_rel (alike_but a)
  | ADecorator _ _ a => fun s t => fst s = fst t /\ alike_but a (snd s) (snd t)
  | AAssociative _ n f =>
      as_rel (SumB (fun i => block (f i))) (SumB (fun i => block (f i)))
             (sum_rel (C := fun i => block (f i)) (D := fun i => block (f i)) (fun _ => True) (fun i => alike_but (f i))) (S n)
  | ACompressed _ _ _ _ _ => eq
  | ARemote a => alike_but a
  end.
Lemma alike_ok : forall V (a : arch K V), Sim true (block a) (block a) (alike_but a) /\ agree (lflush a) (alike_but a).
Proof.
  intros V a. induction a as [V OV srt bs cap esz|V OV cap esz|V n f IH|V bs l [IL1 IL2] r [IR1 IR2]|V a [I1 I2]|V a [I1 I2]|V a [I1 I2]|V a [I1 I2]|V D F f0 a [I1 I2]|V hash n f IH|V OV L C srt bs cap|V a [I1 I2]];
    cbn [block alike_but lflush].
  - split; [apply sim_refl|apply agree_vec].
  - split; [apply sim_refl|apply agree_btree].
  - split.
    + apply sim_batch. apply sim_sum. intros i _. apply IH.
    + apply agree_batch. apply agree_sum. intros i _. apply IH.
  - split; [apply sim_exclusive; auto|apply agree_exclusive; auto].
  - split; [apply sim_flush_stopper; auto|apply agree_stopper].
  - split; [apply sim_sequential; auto|exact I2].
  - split; [eapply sim_dyn; eauto|exact I2].
  - split; [apply sim_profiler_but; auto|apply agree_profiler; auto].
  - split; [apply sim_decorator; auto|apply agree_decorator; auto].
  - split.
    + apply sim_associative; auto. apply sim_sum. intros i _. apply IH.
    + apply agree_associative. apply agree_sum. intros i _. apply IH.
  - split; [apply sim_refl|apply agree_vec].
  - split; [apply sim_remote; auto|apply agree_remote; auto].
Qed.
Lemma alike_init : forall V (a : arch K V), alike_but a (init a) (init a).
Proof.
  assert (X : forall V (f : nat -> arch K V) l, (forall i, alike_but (f i) (init (f i)) (init (f i))) ->
    Forall2 (sum_rel (C := fun i => block (f i)) (D := fun i => block (f i)) (fun _ => True) (fun i => alike_but (f i)))
    (map (fun i => existT (fun i => St (block (f i))) i (init (f i))) l) (map (fun i => existT (fun i => St (block (f i))) i (init (f i))) l)).
  { intros V f l H. induction l; constructor; auto. exists a, (init (f a)), (init (f a)). auto. }
  intros V a. induction a; cbn [alike_but init]; auto.
  - split; auto.
  - split; [|apply X; auto]. rewrite map_length, seq_length. auto.
Qed.

(** Watching: the two ways of flushing, from states that are alike, the iterators kept being good for the lists kept. *)
Lemma set_at_F2 {A B} (P : A -> B -> Prop) : forall l l' j x y, Forall2 P l l' -> P x y -> Forall2 P (set_at j x l) (set_at j y l').
Proof. intros l l' j x y H Hx. revert j. induction H as [|a b l l' Hab HF IH]; intros [|j]; cbn [set_at]; auto. Qed.
Lemma F2_nth {A B} (P : A -> B -> Prop) : forall l l' j, Forall2 P l l' ->
  match nth_error l j, nth_error l' j with Some x, Some y => P x y | None, None => True | _, _ => False end.
Proof. intros l l' j H. revert j. induction H; intros [|j]; cbn; auto. apply IHForall2. Qed.
Lemma ask_one_alike V (B : Block K V) R (HS : Sim true B B R) q : forall s t, R s t -> rel1 R (ask_one B s q) (ask_one B t q).
Proof.
  intros s t H. pose proof HS as [a b c d e f g h]. specialize (e eq_refl). destruct q; cbn [ask_one].
  - cbn. rewrite (a _ _ H). auto.
  - cbn. rewrite (b _ _ H). auto.
  - rewrite (c _ _ k H). destruct (contains B t k); cbn; auto.
  - eapply rel1_bind; [apply d; eauto|]. cbn. auto.
  - eapply rel21_bind; [apply e; eauto|]. cbn. auto.
  - eapply rel1_bind; [apply f; eauto|]. cbn. auto.
  - eapply rel1_bind; [apply g; eauto|]. cbn. auto.
  - cbn. auto.
Qed.
Definition shows_panic {V} (l : list (lsaw K V)) : Prop := In (LSaw SawPanic) l.
Lemma watch_alike V (B : Block K V) (lf : lflush_of B) R (HS : Sim true B B R) (HA : agree lf R) : forall h s t its ls,
  R s t -> Forall2 good its ls -> ~ shows_panic (ewatch B s ls h) -> lwatch lf t its h = ewatch B s ls h.
Proof.
  assert (A1 : forall q h s t its ls, (forall s t its ls, R s t -> Forall2 good its ls -> ~ shows_panic (ewatch B s ls h) -> lwatch lf t its h = ewatch B s ls h) ->
     R s t -> Forall2 good its ls ->
     ~ shows_panic (match ask_one B s q with Ok (s', x) => LSaw x :: ewatch B s' ls h | Panic => [LSaw SawPanic] end) ->
     match ask_one B t q with Ok (s', x) => LSaw x :: lwatch lf s' its h | Panic => [LSaw SawPanic] end =
     match ask_one B s q with Ok (s', x) => LSaw x :: ewatch B s' ls h | Panic => [LSaw SawPanic] end).
  { intros q h s t its ls IH H HF NP. pose proof (ask_one_alike HS q _ _ H) as X.
    destruct (ask_one B s q) as [[s' x]|], (ask_one B t q) as [[t' x']|]; cbn [rel1] in X; try tauto.
    destruct X as [X <-]. f_equal. apply IH; auto. intros P. apply NP. right. exact P. }
  induction h as [|e h IH]; intros s t its ls H HF NP; auto.
  destruct e as [q|j].
  - destruct q; try (apply A1; auto; fail).
    cbn [ewatch lwatch] in *. destruct (flush B s) as [[s' l]|] eqn:E.
    + destruct (HA _ _ _ _ H E) as (t' & i & El & HR & G). rewrite El. f_equal. apply IH; auto.
      * apply Forall2_app; auto.
      * intros P. apply NP. right. exact P.
    + exfalso. apply NP. left. reflexivity.
  - cbn [ewatch lwatch] in *. pose proof (F2_nth j HF) as X.
    destruct (nth_error its j) as [i|], (nth_error ls j) as [l|]; try tauto.
    + destruct (good_next _ _ X) as (i' & E & G). rewrite E. f_equal. apply IH; auto.
      * apply set_at_F2; auto.
      * intros P. apply NP. right. exact P.
    + f_equal. apply IH; auto. intros P. apply NP. right. exact P.
Qed.

(** C60.  For every tree of containers, and every sequence of calls on it and of pulls on the iterators its flushes
    returned -- in any order, as many iterators alive as one likes, pulled as far as one likes --: everything seen is
    what would be seen had each flush handed over all its elements at once.  (As long as the latter does not panic;
    see the next theorem.) *)
Theorem C60_iterators_are_detached : forall V (a : arch K V) h,
  ~ shows_panic (ewatch (block a) (init a) [] h) -> lwatch (lflush a) (init a) [] h = ewatch (block a) (init a) [] h.
Proof. intros V a h. destruct (alike_ok a) as [HS HA]. apply (watch_alike HS HA); auto. apply alike_init. Qed.
(** The same of an Inclusive of any two trees. *)
Theorem C60_iterators_of_inclusive_are_detached : forall V (l r : arch K (cell V)) h,
  let B := InclusiveB (block l) (block r) in let s := (init l, init r) in
  ~ shows_panic (ewatch B s [] h) -> lwatch (B := B) (inclusive_lflush (lflush l) (lflush r)) s [] h = ewatch B s [] h.
Proof.
  intros V l r h B s. destruct (alike_ok l) as [SL AL]. destruct (alike_ok r) as [SR AR].
  apply (watch_alike (sim_inclusive SL SR) (agree_inclusive SR AL AR)); auto. split; apply alike_init.
Qed.
End Each.

Section Used.
Context {K : Type} {OK : Ord K} {EK : OrdEq K}.
(** The calls among the events that change the container. *)
Fixpoint ops_of {V} (h : list (levent K V)) : list (op K V) :=
  match h with
  | [] => []
  | LAsk (AskTake k) :: h' => OpTake k :: ops_of h'
  | LAsk (AskTakeMultiple ks) :: h' => OpTakeMultiple ks :: ops_of h'
  | LAsk (AskPop n) :: h' => OpPop n :: ops_of h'
  | LAsk (AskPush vs) :: h' => OpPush vs :: ops_of h'
  | LAsk AskFlush :: h' => OpFlush :: ops_of h'
  | _ :: h' => ops_of h'
  end.
Lemma used_no_panic V dup (a : arch K V) (Hd : dup = true -> any_keys a = true) : forall h s ls, ainv dup a s ->
  allowed (block a) (held a) dup (negb (has_associative a)) s (ops_of h) -> ~ shows_panic (ewatch (block a) s ls h).
Proof.
  pose proof (arch_laws a Hd) as LW.
  induction h as [|e h IH]; intros s ls Hi Ha; [intros []|].
  destruct e as [[| |k|k|ks|n|vs|]|j]; cbn [ewatch ask_one ops_of allowed] in *.
  - intros [E|P]; [discriminate|]. exact (IH _ _ Hi Ha P).
  - intros [E|P]; [discriminate|]. exact (IH _ _ Hi Ha P).
  - rewrite (law_contains LW s k Hi). cbn [bind]. intros [E|P]; [discriminate|]. exact (IH _ _ Hi Ha P).
  - destruct Ha as [_ Ha]. destruct (law_take LW s k Hi) as (s' & o & E & Hi' & _). cbn [step] in Ha. rewrite E in *. cbn [bind] in *.
    intros [E'|P]; [discriminate|]. exact (IH _ _ Hi' (Ha _ _ eq_refl) P).
  - destruct Ha as [_ Ha]. destruct (law_take_multiple LW s ks Hi) as (s' & ks' & o & E & Hi' & _). cbn [step] in Ha. rewrite E in *. cbn [bind] in *.
    intros [E'|P]; [discriminate|]. exact (IH _ _ Hi' (Ha _ _ eq_refl) P).
  - destruct Ha as [Hp Ha]. destruct (law_pop LW Hp s n Hi) as (s' & o & E & Hi' & _). cbn [step] in Ha. rewrite E in *. cbn [bind] in *.
    intros [E'|P]; [discriminate|]. exact (IH _ _ Hi' (Ha _ _ eq_refl) P).
  - destruct Ha as [Hp Ha]. destruct (law_push LW s vs Hi Hp) as (s' & o & E & Hi' & _). cbn [step] in Ha. rewrite E in *. cbn [bind] in *.
    intros [E'|P]; [discriminate|]. exact (IH _ _ Hi' (Ha _ _ eq_refl) P).
  - destruct Ha as [_ Ha]. destruct (law_flush LW s Hi) as (s' & o & E & Hi' & _). cbn [step] in Ha. rewrite E in *.
    intros [E'|P]; [discriminate|]. exact (IH _ _ Hi' (Ha _ _ eq_refl) P).
  - destruct (nth_error ls j); intros [E|P]; try discriminate; exact (IH _ _ Hi Ha P).
Qed.

(** A caller who pushes as the tree demands (see [used]) never meets a panic, so for him the two are the same. *)
Theorem C60_as_if_handed_over_at_once : forall V dup (a : arch K V) h, used dup a (ops_of h) ->
  lwatch (lflush a) (init a) [] h = ewatch (block a) (init a) [] h /\ ~ shows_panic (lwatch (lflush a) (init a) [] h).
Proof.
  intros V dup a h [Hd Ha]. pose proof (used_no_panic a Hd h (init a) [] (proj1 (init_ok dup a)) Ha) as N.
  pose proof (C60_iterators_are_detached a h N) as E. split; auto. rewrite E. exact N.
Qed.

(** The states reached are alike to themselves. *)
Lemma reaches_alike V dup (a : arch K V) s : reaches dup a s -> alike_but a s s.
Proof.
  intros (h & out & _ & Hr). destruct (alike_ok a) as [HS _].
  assert (X : forall h s0 s1 out, alike_but a s0 s0 -> run (block a) s0 h = Ok (s1, out) -> alike_but a s1 s1).
  { clear - HS. induction h as [|o h IH]; intros s0 s1 out H E; cbn [run] in E; [injection E as <- <-; auto|].
    destruct (step (block a) s0 o) as [[s2 r2]|] eqn:E2; cbn [bind] in E; [|discriminate].
    destruct (run (block a) s2 h) as [[s3 r3]|] eqn:E3; cbn [bind] in E; [|discriminate]. injection E as <- <-.
    eapply IH; [|exact E3]. destruct o; cbn [step] in E2.
    - destruct (rel1_ok _ _ (sim_push HS _ _ vs H) E2) as (t & E4 & HR). rewrite E2 in E4. injection E4 as <-. exact HR.
    - destruct (rel1_ok _ _ (sim_pop HS _ _ n H) E2) as (t & E4 & HR). rewrite E2 in E4. injection E4 as <-. exact HR.
    - destruct (take (block a) s0 k) as [[s4 o4]|] eqn:E4; cbn [bind] in E2; [|discriminate]. injection E2 as <- <-.
      destruct (rel1_ok _ _ (sim_take HS _ _ k H) E4) as (t & E5 & HR). rewrite E4 in E5. injection E5 as <-. exact HR.
    - destruct (take_multiple (block a) s0 ks) as [[[s4 k4] o4]|] eqn:E4; cbn [bind] in E2; [|discriminate]. injection E2 as <- <-.
      destruct (rel2_ok _ _ (sim_tm HS eq_refl _ _ ks H) E4) as (t & E5 & HR). rewrite E4 in E5. injection E5 as <-. exact HR.
    - destruct (rel1_ok _ _ (sim_flush HS _ _ H) E2) as (t & E4 & HR). rewrite E2 in E4. injection E4 as <-. exact HR. }
  eapply X; [apply alike_init|exact Hr].
Qed.

(** At the end of the call, before anything is pulled, the container is empty and its capacity is the same; the
    iterator yields exactly the pairs the container held, each once. *)
Theorem C60_empty_at_the_end_of_the_call : forall V dup (a : arch K V) s, reaches dup a s -> has_stopper a = false ->
  exists t i l, lflush a s = Ok (t, i) /\ size (block a) t = 0 /\ capacity (block a) t = capacity (block a) s /\
    (forall k, contains (block a) t k = Ok false) /\ collect i = Ok l /\ Permutation l (held a s).
Proof.
  intros V dup a s H NS. pose proof (reaches_alike H) as HA. apply reaches_inv in H as [Hd Hi]. pose proof (arch_laws a Hd) as LW.
  destruct (law_flush LW s Hi) as (s' & l & E & Hi' & Hc & HP & HE). destruct (alike_ok a) as [HS AG].
  destruct (AG _ _ _ _ HA E) as (t & i & El & HR & G). rewrite NS in HE. specialize (HE eq_refl).
  exists t, i, l. split; [auto|]. rewrite <- (sim_size HS _ _ HR), <- (sim_capacity HS _ _ HR). split; [apply (law_empty LW); auto|].
  split; auto. split.
  { intros k. rewrite <- (sim_contains HS _ _ k HR), (law_contains LW s' k Hi'), HE. reflexivity. }
  split; [apply good_collect; auto|]. rewrite HE, app_nil_r in HP. exact HP.
Qed.

(** [n] pulls give the first [n] elements, then None for ever.  What is not pulled is lost with the iterator: the
    container has given it away. *)
Theorem C60_pulled_and_unpulled : forall V dup (a : arch K V) s, reaches dup a s -> has_stopper a = false ->
  exists t i l, lflush a s = Ok (t, i) /\ Permutation l (held a s) /\
    forall n, exists i', pulls n i = Ok (i', map Some (firstn n l) ++ repeat None (n - length l)).
Proof.
  intros V dup a s H NS. pose proof (reaches_alike H) as HA. apply reaches_inv in H as [Hd Hi]. pose proof (arch_laws a Hd) as LW.
  destruct (law_flush LW s Hi) as (s' & l & E & Hi' & Hc & HP & HE). destruct (alike_ok a) as [HS AG].
  destruct (AG _ _ _ _ HA E) as (t & i & El & HR & G). rewrite NS in HE. specialize (HE eq_refl). rewrite HE, app_nil_r in HP.
  exists t, i, l. split; auto. split; auto. intros n. clear - G. revert i l G.
  induction n as [|n IH]; intros i l G; [cbn; eauto|].
  cbn [pulls]. destruct (good_next _ _ G) as (i' & E & G'). rewrite E. cbn [bind].
  destruct (IH _ _ G') as (j & E'). rewrite E'. cbn [bind]. exists j.
  destruct l as [|x l]; cbn; auto. rewrite firstn_nil, Nat.sub_0_r. reflexivity.
Qed.
End Used.

(** Over a Profiler: each pull adds one to the count of next, whatever it returns, and to nothing else; so an iterator
    run to its end counts one more than the elements (as in C26), and one that is dropped early counts what was pulled. *)
Theorem C60_profiler_counts_pulls : forall K X C n (s s' : stats * C) (i : iter K X) os, pulls_counted n s i = Ok (s', os) ->
  s' = (add_flush_iter (fst s) n 0, snd s) /\ length os = n.
Proof.
  intros K X C. induction n as [|n IH]; intros s s' i os E; cbn [pulls_counted] in E.
  - injection E as <- <-. split; auto. destruct s as [[] c]. unfold add_flush_iter, m_add. cbn. rewrite !Nat.add_0_r. destruct s_flush_iter. auto.
  - unfold pull_counted in E. destruct (next i) as [[i' o]|]; cbn [bind] in E; [|discriminate].
    destruct (pulls_counted n _ i') as [[s2 os']|] eqn:E2; cbn [bind] in E; [|discriminate]. injection E as <- <-.
    destruct (IH _ _ _ _ E2) as [-> <-]. split; auto. cbn [fst snd]. unfold add_flush_iter, m_add. cbn. do 3 f_equal; lia.
Qed.

(** A tree, two flushes whose iterators are alive together, pushed to in between. *)
Example C60_example :
  let h := [LAsk (AskPush [(1, 10); (2, 20); (3, 30)]); LAsk AskFlush; LAsk AskSize; LNext 0;
            LAsk (AskPush [(1, 11)]); LAsk (AskContains 2); LAsk AskFlush; LNext 1; LNext 0; LNext 1; LNext 0; LNext 0; LNext 2] in
  used false tower (ops_of h) /\
  lwatch (lflush tower) (init tower) [] h =
    [LSaw (SawPairs []); LFlushed; LSaw (SawNum 0); LGot (Some (3, 30));
     LSaw (SawPairs []); LSaw (SawBool false); LFlushed; LGot (Some (1, 11)); LGot (Some (1, 10)); LGot None; LGot (Some (2, 20)); LGot None; LNone].
Proof.
  split; [split; [discriminate|]; apply allowedb_ok; vm_compute; reflexivity|]. vm_compute. reflexivity.
Qed.
