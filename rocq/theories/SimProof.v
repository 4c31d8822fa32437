(** SimProof.v -- each container keeps relations between its components: congruence of Sim. *)
From Coq Require Import NArith.
From Verif Require Import Base Block Batch Exclusive Wrappers Associative Sim.
Set Implicit Arguments.

Section Base.
Context {K V : Type}.
Lemma sim_weaken tm (A B : Block K V) R : Sim tm A B R -> Sim false A B R.
Proof. intros [a b c d e f g h]. constructor; auto. discriminate. Qed.

(** A related pair of states answers the same. *)
Lemma sim_same tm (A B : Block K V) R s t : Sim tm A B R -> R s t -> same_answers tm A B s t.
Proof.
  intros HS HR h. revert s t HR.
  induction h as [|a h IH]; intros s t HR HF; auto.
  cbn [forallb] in HF. apply andb_true_iff in HF. destruct HF as [Ha HF].
  destruct a as [| |k|k|ks|n|vs|]; cbn [watch].
  - rewrite (sim_capacity HS _ _ HR). f_equal. auto.
  - rewrite (sim_size HS _ _ HR). f_equal. auto.
  - rewrite (sim_contains HS _ _ k HR). destruct (contains B t k); auto. f_equal. auto.
  - pose proof (sim_take HS _ _ k HR) as X. destruct (take A s k) as [[s' o]|], (take B t k) as [[t' o']|]; cbn in X; try tauto.
    destruct X as [X ->]. f_equal. auto.
  - cbn in Ha. pose proof (sim_tm HS Ha _ _ ks HR) as X.
    destruct (take_multiple A s ks) as [[[s' l] o]|], (take_multiple B t ks) as [[[t' l'] o']|]; cbn in X; try tauto.
    destruct X as (X & -> & ->). f_equal. auto.
  - pose proof (sim_pop HS _ _ n HR) as X. destruct (pop A s n) as [[s' o]|], (pop B t n) as [[t' o']|]; cbn in X; try tauto.
    destruct X as [X ->]. f_equal. auto.
  - pose proof (sim_push HS _ _ vs HR) as X. destruct (push A s vs) as [[s' o]|], (push B t vs) as [[t' o']|]; cbn in X; try tauto.
    destruct X as [X ->]. f_equal. auto.
  - pose proof (sim_flush HS _ _ HR) as X. destruct (flush A s) as [[s' o]|], (flush B t) as [[t' o']|]; cbn in X; try tauto.
    destruct X as [X ->]. f_equal. auto.
Qed.

(** Answering the same is such a relation: containers are deterministic. *)
Lemma same_sim tm (A B : Block K V) : Sim tm A B (same_answers tm A B).
Proof.
  constructor; intros.
  - specialize (H [AskCapacity] eq_refl). cbn in H. congruence.
  - specialize (H [AskSize] eq_refl). cbn in H. congruence.
  - specialize (H [AskContains k] eq_refl). cbn in H. destruct (contains A s k), (contains B t k); congruence.
  - pose proof (H [AskTake k] eq_refl) as X. cbn in X.
    destruct (take A s k) as [[s' o]|] eqn:E, (take B t k) as [[t' o']|] eqn:E'; cbn; try congruence; try tauto.
    split; [|congruence]. intros h Hh. specialize (H (AskTake k :: h) Hh). cbn in H. rewrite E, E' in H. congruence.
  - subst tm. pose proof (H0 [AskTakeMultiple ks] eq_refl) as X. cbn in X.
    destruct (take_multiple A s ks) as [[[s' l] o]|] eqn:E, (take_multiple B t ks) as [[[t' l'] o']|] eqn:E'; cbn; try congruence; try tauto.
    split; [|split; congruence]. intros h Hh. specialize (H0 (AskTakeMultiple ks :: h) Hh). cbn in H0. rewrite E, E' in H0. congruence.
  - pose proof (H [AskPop n] eq_refl) as X. cbn in X.
    destruct (pop A s n) as [[s' o]|] eqn:E, (pop B t n) as [[t' o']|] eqn:E'; cbn; try congruence; try tauto.
    split; [|congruence]. intros h Hh. specialize (H (AskPop n :: h) Hh). cbn in H. rewrite E, E' in H. congruence.
  - pose proof (H [AskPush vs] eq_refl) as X. cbn in X.
    destruct (push A s vs) as [[s' o]|] eqn:E, (push B t vs) as [[t' o']|] eqn:E'; cbn; try congruence; try tauto.
    split; [|congruence]. intros h Hh. specialize (H (AskPush vs :: h) Hh). cbn in H. rewrite E, E' in H. congruence.
  - pose proof (H [AskFlush] eq_refl) as X. cbn in X.
    destruct (flush A s) as [[s' o]|] eqn:E, (flush B t) as [[t' o']|] eqn:E'; cbn; try congruence; try tauto.
    split; [|congruence]. intros h Hh. specialize (H (AskFlush :: h) Hh). cbn in H. rewrite E, E' in H. congruence.
Qed.
Lemma same_refl tm (A : Block K V) s : same_answers tm A A s s.
Proof. intros h _. reflexivity. Qed.
Lemma same_sym tm (A B : Block K V) s t : same_answers tm A B s t -> same_answers tm B A t s.
Proof. intros H h Hh. symmetry. auto. Qed.
Lemma same_trans tm (A B C : Block K V) s t u : same_answers tm A B s t -> same_answers tm B C t u -> same_answers tm A C s u.
Proof. intros H H' h Hh. rewrite H; auto. Qed.
Lemma same_weaken (A B : Block K V) tm s t : same_answers tm A B s t -> same_answers false A B s t.
Proof. intros H h Hh. apply H. destruct tm; auto. clear H. induction h as [|a h IH]; auto. cbn in *. apply andb_true_iff in Hh. destruct Hh as [Ha Hh]. rewrite IH; auto. destruct a; auto. Qed.
End Base.

(** ** Wrappers of one container *)
Section Wrap.
Context {K V : Type}.
Variables (tm : bool) (A B : Block K V) (R : St A -> St B -> Prop).
Hypothesis HS : Sim tm A B R.
Lemma sim_flush_stopper : Sim tm (FlushStopperB A) (FlushStopperB B) R.
Proof. destruct HS as [a b c d e f g h]. constructor; auto. cbn. auto. Qed.
Lemma sim_sequential : Sim tm (SequentialB A) (SequentialB B) R.
Proof. destruct HS as [a b c d e f g h]. constructor; auto. Qed.
Lemma sim_take_each ks s t : R s t -> rel1 R (take_each (take A) s ks) (take_each (take B) t ks).
Proof.
  revert s t. induction ks as [|k ks IH]; intros s t H; cbn [take_each]; [cbn; auto|].
  eapply rel1_bind; [apply (sim_take HS); eauto|]. intros s1 t1 o H1.
  eapply rel1_bind; [apply IH; eauto|]. intros s2 t2 o2 H2. cbn. auto.
Qed.
Lemma sim_dyn tm' : Sim tm' (DynB A) (DynB B) R.
Proof.
  destruct HS as [a b c d e f g h] eqn:E. constructor; auto.
  intros _ s t ks H. cbn [take_multiple DynB]. unfold default_take_multiple.
  eapply rel12_bind; [apply sim_take_each; eauto|]. cbn. auto.
Qed.
Lemma sim_remote : Sim tm (RemoteB A) (RemoteB B) R.
Proof.
  destruct HS as [a b c d e f g h] eqn:E. constructor; auto.
  intros Ht s t ks H. cbn [take_multiple RemoteB].
  eapply rel2_bind; [apply e; auto|]. cbn. auto.
Qed.
Lemma sim_profiler : Sim tm (ProfilerB A) (ProfilerB B) (fun s t => fst s = fst t /\ R (snd s) (snd t)).
Proof.
  destruct HS as [a b c d e f g h] eqn:E.
  constructor; intros; repeat match goal with H : _ /\ _ |- _ => destruct H end;
  repeat match goal with s : St (ProfilerB _) |- _ => destruct s as [?st ?s]; cbn [fst snd] in * end; subst.
  - cbn. auto.
  - cbn. auto.
  - cbn. auto.
  - cbn. unfold pf_take. cbn [fst snd]. eapply rel1_bind; [apply d; eauto|]. intros s1 t1 o Hq1. cbn. split; auto.
    rewrite !(b _ _ Hq1). erewrite b by eassumption. auto.
  - cbn. unfold pf_take_multiple. cbn [fst snd]. eapply rel2_bind; [apply e; eauto|]. intros s1 t1 o p Hq1.
    destruct (sub_chk _ _); cbn; auto. rewrite (b _ _ Hq1). erewrite b by eassumption. auto.
  - cbn. unfold pf_pop. cbn [fst snd]. eapply rel1_bind; [apply f; eauto|]. intros s1 t1 o Hq1.
    rewrite (b _ _ Hq1). erewrite b by eassumption. destruct (sub_chk _ _); cbn; auto.
  - cbn. unfold pf_push. cbn [fst snd]. eapply rel1_bind; [apply g; eauto|]. intros s1 t1 o Hq1. cbn. auto.
  - cbn. unfold pf_flush. cbn [fst snd]. eapply rel1_bind; [apply h; eauto|]. intros s1 t1 o Hq1. cbn. 
    rewrite (b _ _ Hq1). erewrite b by eassumption. auto.
Qed.
End Wrap.
Section Deco.
Context {K V D : Type}.
Variables (tm : bool) (F : Factory V D) (A B : Block K D) (R : St A -> St B -> Prop).
Hypothesis HS : Sim tm A B R.
Lemma sim_decorator : Sim tm (DecoratorB F A) (DecoratorB F B) (fun s t => fst s = fst t /\ R (snd s) (snd t)).
Proof.
  destruct HS as [a b c d e f g h] eqn:E.
  constructor; intros; repeat match goal with H : _ /\ _ |- _ => destruct H end;
  repeat match goal with s : St (DecoratorB _ _) |- _ => destruct s as [?st ?s]; cbn [fst snd] in * end; subst.
  - cbn. auto.
  - cbn. auto.
  - cbn. auto.
  - cbn. eapply rel1_bind; [apply d; eauto|]. cbn. auto.
  - cbn. eapply rel2_bind; [apply e; eauto|]. cbn. auto.
  - cbn. eapply rel1_bind; [apply f; eauto|]. cbn. auto.
  - cbn. destruct (wrap_all _ _ _). eapply rel1_bind; [apply g; eauto|]. cbn. auto.
  - cbn. eapply rel1_bind; [apply h; eauto|]. cbn. auto.
Qed.
End Deco.

(** ** Exclusive *)
Section Excl.
Context {K V : Type} {OK : Ord K}.
Variables (tm : bool) (bs : BSearch K) (L L' R R' : Block K V) (P : St L -> St L' -> Prop) (Q : St R -> St R' -> Prop).
Hypothesis HL : Sim tm L L' P.
Hypothesis HR : Sim tm R R' Q.
Lemma sim_exclusive : Sim tm (ExclusiveB bs L R) (ExclusiveB bs L' R') (fun s t => P (fst s) (fst t) /\ Q (snd s) (snd t)).
Proof.
  constructor; intros; repeat match goal with H : _ /\ _ |- _ => destruct H end;
  repeat match goal with s : St (ExclusiveB _ _ _) |- _ => destruct s as [?s ?r]; cbn [fst snd] in * end; subst.
  - cbn. unfold ex_capacity. cbn. erewrite (sim_capacity HL), (sim_capacity HR); eauto.
  - cbn. unfold ex_size. cbn. erewrite (sim_size HL), (sim_size HR); eauto.
  - cbn. unfold ex_contains. cbn. erewrite (sim_contains HL) by eauto. destruct (contains L' _ _) as [[]|]; cbn; auto. eapply (sim_contains HR); eauto.
  - cbn. unfold ex_take. cbn [fst snd]. eapply rel1_bind; [apply (sim_take HL); eauto|]. intros s1 t1 [o|] Hq1; cbn; auto.
    eapply rel1_bind; [apply (sim_take HR); eauto|]. cbn. auto.
  - cbn. unfold ex_take_multiple. cbn [fst snd]. eapply rel2_bind; [apply (sim_tm HL); eauto|]. intros s1 t1 o p Hq1; cbn beta iota.
    eapply rel2_bind; [apply (sim_tm HR); eauto|]. cbn. auto.
  - cbn. unfold ex_pop. cbn [fst snd]. eapply rel1_bind; [apply (sim_pop HR); eauto|]. intros s1 t1 o Hq1; cbn beta iota.
    erewrite (sim_size HR) by eauto. erewrite (sim_size HR) by eauto. destruct (sub_chk _ _) as [ev|]; cbn [bind]; [|cbn; auto].
    destruct (ev <? n); [|cbn; auto].
    eapply rel1_bind; [apply (sim_pop HL); eauto|]. cbn. auto.
  - cbn. unfold ex_push. cbn [fst snd]. eapply rel1_bind; [apply (sim_push HL); eauto|]. intros s1 t1 o Hq1; cbn beta iota.
    eapply rel1_bind; [apply (sim_push HR); eauto|]. cbn. auto.
  - cbn. unfold ex_flush. cbn [fst snd]. eapply rel1_bind; [apply (sim_flush HR); eauto|]. intros s1 t1 o Hq1; cbn beta iota.
    eapply rel1_bind; [apply (sim_flush HL); eauto|]. intros s2 t2 o2 Hq2; cbn beta iota.
    eapply rel1_bind; [apply (sim_push HR); eauto|]. intros s3 t3 o3 Hq3; cbn beta iota.
    eapply rel1_bind; [apply (sim_flush HR); eauto|]. cbn. auto.
Qed.
End Excl.

(** ** Disjoint union, Batch and Associative *)
Section Sums.
Context {K V : Type}.
Variables (tm : bool) (I : Type) (Pr : I -> Prop) (C D : I -> Block K V) (R : forall i, St (C i) -> St (D i) -> Prop).
Hypothesis HS : forall i, Pr i -> Sim tm (C i) (D i) (@R i).
Definition sum_rel (x : St (SumB C)) (y : St (SumB D)) : Prop :=
  exists i s t, Pr i /\ x = existT _ i s /\ y = existT _ i t /\ @R i s t.
Lemma sim_sum : Sim tm (SumB C) (SumB D) sum_rel.
Proof.
  assert (M : forall i s t, Pr i -> @R i s t -> sum_rel (existT _ i s) (existT _ i t)) by (intros; do 3 eexists; eauto).
  constructor; intros;
   match goal with H : sum_rel _ _ |- _ => destruct H as (i & s0 & t0 & Hi & -> & -> & HR) end; pose proof (HS Hi) as X; cbn.
  - eapply sim_capacity; eauto.
  - eapply sim_size; eauto.
  - eapply sim_contains; eauto.
  - eapply rel1_bind; [eapply sim_take; eauto|]. cbn. auto.
  - eapply rel2_bind; [eapply sim_tm; eauto|]. cbn. auto.
  - eapply rel1_bind; [eapply sim_pop; eauto|]. cbn. auto.
  - eapply rel1_bind; [eapply sim_push; eauto|]. cbn. auto.
  - eapply rel1_bind; [eapply sim_flush; eauto|]. cbn. auto.
Qed.
End Sums.

Section Lists.
Context {K V : Type}.
Variables (tm : bool) (A B : Block K V) (R : St A -> St B -> Prop).
Hypothesis HS : Sim tm A B R.
Notation RL := (Forall2 R).
Lemma rl_rev l l' : RL l l' -> RL (rev l) (rev l').
Proof. induction 1; cbn; auto. apply Forall2_app; auto. Qed.
Lemma rl_sizes l l' : RL l l' -> map (size A) l = map (size B) l'.
Proof. induction 1; cbn; auto. erewrite (sim_size HS) by eauto. congruence. Qed.
Lemma rl_caps l l' : RL l l' -> map (capacity A) l = map (capacity B) l'.
Proof. induction 1; cbn; auto. erewrite (sim_capacity HS) by eauto. congruence. Qed.
Lemma rl_nth l l' i : RL l l' -> match nth_error l i, nth_error l' i with Some x, Some y => R x y | None, None => True | _, _ => False end.
Proof. intros H. revert i. induction H; intros [|i]; cbn; auto. apply IHForall2. Qed.
Lemma rl_replace l l' i x y : RL l l' -> R x y -> RL (replace_nth i x l) (replace_nth i y l').
Proof. intros H HR. revert i. induction H; intros [|i]; cbn; auto. Qed.
Lemma rl_flush_bt l l' : RL l l' -> rel1 RL (bt_flush A l) (bt_flush B l').
Proof.
  induction 1 as [|x y l l' H HF IH]; cbn [bt_flush]; [cbn; auto|].
  eapply rel1_bind; [apply (sim_flush HS); eauto|]. intros s1 t1 o H1; cbn beta iota.
  eapply rel1_bind; [apply IH|]. cbn. auto.
Qed.
Lemma rl_flush_as l l' : RL l l' -> rel1 RL (as_flush A l) (as_flush B l').
Proof.
  induction 1 as [|x y l l' H HF IH]; cbn [as_flush]; [cbn; auto|].
  eapply rel1_bind; [apply (sim_flush HS); eauto|]. intros s1 t1 o H1; cbn beta iota.
  eapply rel1_bind; [apply IH|]. cbn. auto.
Qed.

Lemma rl_pop_loop l l' : RL l l' -> forall n, rel1 RL (bt_pop_loop A l n) (bt_pop_loop B l' n).
Proof.
  induction 1 as [|x y l l' H HF IH]; intros n; cbn [bt_pop_loop]; [cbn; auto|].
  eapply rel1_bind; [apply (sim_pop HS); eauto|]. intros s1 t1 o H1; cbn beta iota.
  rewrite (sim_size HS _ _ H), (sim_size HS _ _ H1). destruct (sub_chk _ _) as [p|]; cbn [bind]; [|cbn; auto].
  destruct (n <=? p); [cbn; auto|].
  eapply rel1_bind; [apply IH|]. cbn. auto.
Qed.
Lemma rl_push_loop l l' : RL l l' -> forall vs,
  match bt_push_loop A l vs, bt_push_loop B l' vs with
  | Ok (v, r, o), Ok (v', r', o') => RL v v' /\ RL r r' /\ o = o'
  | Panic, Panic => True
  | _, _ => False
  end.
Proof.
  induction 1 as [|x y l l' H HF IH]; intros [|p vs]; cbn [bt_push_loop]; auto.
  pose proof (sim_push HS _ _ (p :: vs) H) as X.
  destruct (push A x (p :: vs)) as [[x1 o1]|], (push B y (p :: vs)) as [[y1 o1']|]; cbn [rel1 bind] in *; try tauto.
  destruct X as [X ->]. specialize (IH o1').
  destruct (bt_push_loop A l o1') as [[[v r] o]|], (bt_push_loop B l' o1') as [[[v' r'] o']|]; cbn [bind] in *; try tauto.
  destruct IH as (H1 & H2 & ->). auto.
Qed.
Lemma sim_batch : Sim tm (BatchB A) (BatchB B) RL.
Proof.
  constructor.
  - intros s t H. cbn. unfold bt_capacity. rewrite (rl_caps H). auto.
  - intros s t H. cbn. unfold bt_size. rewrite (rl_sizes H). auto.
  - intros s t k H. cbn. induction H as [|x y l l' H HF IH]; cbn [bt_contains]; auto.
    rewrite (sim_contains HS _ _ k H). destruct (contains B y k) as [[]|]; cbn [bind]; auto.
  - intros s t k H. cbn [take BatchB]. induction H as [|x y l l' H HF IH]; cbn [bt_take]; [cbn; auto|].
    eapply rel1_bind; [apply (sim_take HS); eauto|]. intros s1 t1 [o|] H1; [cbn; auto|].
    eapply rel1_bind; [apply IH|]. cbn. auto.
  - intros Ht s t ks H. cbn [take_multiple BatchB]. revert ks. induction H as [|x y l l' H HF IH]; intros ks; cbn [bt_take_multiple]; [cbn; auto|].
    destruct ks as [|k0 ks]; [cbn; auto|].
    eapply rel2_bind; [apply (sim_tm HS); eauto|]. intros s1 t1 o p H1.
    eapply rel2_bind; [apply IH|]. cbn. auto.
  - intros s t n H. cbn [pop BatchB]. unfold bt_pop. eapply rel1_bind; [apply rl_pop_loop, rl_rev; eauto|].
    intros s1 t1 o H1. cbn. split; auto. apply rl_rev; auto.
  - intros s t vs H. cbn [push BatchB]. unfold bt_push. pose proof (rl_push_loop H vs) as X.
    destruct (bt_push_loop A s vs) as [[[v r] o]|], (bt_push_loop B t vs) as [[[v' r'] o']|]; cbn in *; try tauto.
    destruct X as (H1 & H2 & ->). split; auto. apply Forall2_app; auto.
  - intros s t H. apply rl_flush_bt; auto.
Qed.

(** Associative: the two hash functions need only agree on the set of each key. *)
Variables hash hash' : K -> N.
Variable n : nat.
Hypothesis HH : forall k, N.modulo (hash k) (N.of_nat n) = N.modulo (hash' k) (N.of_nat n).
Definition as_rel (s : list (St A)) (t : list (St B)) : Prop := length s = n /\ RL s t.
Lemma as_rel_len s t : as_rel s t -> length s = n /\ length t = n.
Proof. intros [L F]. split; auto. rewrite <- L. clear L. induction F; cbn; auto. Qed.
Lemma as_rel_set s t k : as_rel s t -> as_set hash A s k = as_set hash' B t k.
Proof. intros H. destruct (as_rel_len H) as [L L']. unfold as_set. rewrite L, L'. generalize (HH k). generalize n. intros [|m] X; auto. rewrite X. auto. Qed.
Lemma as_rel_distribute T (key : T -> K) s t l acc : as_rel s t -> distribute hash A key s l acc = distribute hash' B key t l acc.
Proof.
  intros H. revert acc. induction l as [|x l IH]; intros acc; cbn [distribute]; auto.
  rewrite (as_rel_set (key x) H). destruct (as_set hash' B t (key x)) as [i|]; cbn [bind]; auto.
  destruct (push_at i x acc); cbn [bind]; auto.
Qed.
Lemma as_rel_replace s t i x y : as_rel s t -> R x y -> as_rel (replace_nth i x s) (replace_nth i y t).
Proof.
  intros [L F] H. split; [|apply rl_replace; auto]. rewrite <- L. clear. revert i.
  induction s as [|z s IH]; intros [|i]; cbn; auto.
Qed.
Lemma rel1_len (x : res (list (St A) * list (K * V))) y : rel1 RL x y ->
  (forall s o, x = Ok (s, o) -> length s = n) -> rel1 as_rel x y.
Proof. destruct x as [[s o]|], y as [[t o']|]; cbn; auto. intros [H ->] L. split; auto. split; eauto. Qed.
Lemma as_flush_len s s' o : as_flush A s = Ok (s', o) -> length s' = length s.
Proof.
  revert s' o. induction s as [|c s IH]; cbn [as_flush]; intros s' o H; [injection H as <- <-; auto|].
  destruct (flush A c) as [[c1 o1]|]; cbn [bind] in H; [|discriminate].
  destruct (as_flush A s) as [[s2 o2]|]; cbn [bind] in H; [|discriminate]. injection H as <- <-. cbn. f_equal. eauto.
Qed.
Lemma as_push_len s s' vss o : as_push_loop A s vss = Ok (s', o) -> length s' = length s.
Proof.
  revert s' vss o. induction s as [|c s IH]; intros s' [|vs vss] o H; cbn [as_push_loop] in H; try (injection H as <- <-; auto; fail).
  destruct (push A c vs) as [[c1 o1]|]; cbn [bind] in H; [|discriminate].
  destruct (as_push_loop A s vss) as [[s2 o2]|] eqn:E; cbn [bind] in H; [|discriminate]. injection H as <- <-. cbn. f_equal. eauto.
Qed.
Lemma rl_push_as l l' : RL l l' -> forall vss, rel1 RL (as_push_loop A l vss) (as_push_loop B l' vss).
Proof.
  induction 1 as [|x y l l' H HF IH]; intros [|vs vss]; cbn [as_push_loop]; try (cbn; auto; fail).
  eapply rel1_bind; [apply (sim_push HS); eauto|]. intros s1 t1 o H1; cbn beta iota.
  eapply rel1_bind; [apply IH|]. cbn. auto.
Qed.
Lemma rl_tm_as : tm = true -> forall l l', RL l l' -> forall kss, rel2 RL (as_tm_loop A l kss) (as_tm_loop B l' kss).
Proof.
  intros Ht. induction 1 as [|x y l l' H HF IH]; intros [|ks kss]; cbn [as_tm_loop]; try (cbn; auto; fail).
  eapply rel2_bind with (R := R).
  { destruct ks; [cbn; auto|]. apply (sim_tm HS); auto. }
  intros s1 t1 o p H1; cbn beta iota.
  eapply rel2_bind; [apply IH|]. cbn. auto.
Qed.
Lemma as_tm_len s s' kss kss' o : as_tm_loop A s kss = Ok (s', kss', o) -> length s' = length s.
Proof.
  revert s' kss kss' o. induction s as [|c s IH]; intros s' [|vs vss] kss' o H; cbn [as_tm_loop] in H; try (injection H as <- <- <-; auto; fail).
  destruct (match vs with [] => Ok (c, [], []) | _ => take_multiple A c vs end) as [[[c1 k1] o1]|]; cbn [bind] in H; [|discriminate].
  destruct (as_tm_loop A s vss) as [[[s2 k2] o2]|] eqn:E; cbn [bind] in H; [|discriminate]. injection H as <- <- <-. cbn. f_equal. eauto.
Qed.
Lemma as_pop_rel target pb : forall s t, as_rel s t -> rel1 as_rel (as_pop_loop A s target pb) (as_pop_loop B t target pb).
Proof.
  induction pb as [|[sz i] pb IH]; intros s t H; cbn [as_pop_loop]; [cbn; auto|].
  pose proof (rl_nth i (proj2 H)) as X. destruct (nth_error s i) as [cs|], (nth_error t i) as [ct|]; cbn [unwrap bind]; try tauto.
  destruct (sub_chk sz target) as [q|]; cbn [bind]; [|cbn; auto].
  eapply rel1_bind; [apply (sim_pop HS); eauto|]. intros s1 t1 o H1; cbn beta iota.
  eapply rel1_bind; [apply IH, as_rel_replace; eauto|]. cbn. auto.
Qed.
Lemma sim_associative : Sim tm (AssociativeB hash A) (AssociativeB hash' B) as_rel.
Proof.
  constructor.
  - intros s t [_ H]. cbn. unfold as_capacity. rewrite (rl_caps H). auto.
  - intros s t [_ H]. cbn. unfold as_size. rewrite (rl_sizes H). auto.
  - intros s t k H. cbn. unfold as_contains. rewrite (as_rel_set k H). destruct (as_set hash' B t k) as [i|]; cbn [bind]; auto.
    pose proof (rl_nth i (proj2 H)) as X. destruct (nth_error s i) as [cs|], (nth_error t i) as [ct|]; cbn; try tauto. apply (sim_contains HS); auto.
  - intros s t k H. cbn [take AssociativeB]. unfold as_take. rewrite (as_rel_set k H). destruct (as_set hash' B t k) as [i|]; cbn [bind]; [|cbn; auto].
    pose proof (rl_nth i (proj2 H)) as X. destruct (nth_error s i) as [cs|], (nth_error t i) as [ct|]; cbn [unwrap bind]; try tauto.
    eapply rel1_bind; [apply (sim_take HS); eauto|]. intros s1 t1 o H1. split; auto. apply as_rel_replace; auto.
  - intros Ht s t ks H. cbn [take_multiple AssociativeB]. unfold as_take_multiple. destruct (as_rel_len H) as [L L'].
    rewrite (as_rel_distribute (fun k => k) ks (repeat [] (length s)) H), L, L'.
    destruct (distribute hash' B _ t ks _) as [kss|]; cbn [bind]; [|cbn; auto].
    eapply rel2_bind with (R := as_rel).
    { pose proof (rl_tm_as Ht (proj2 H) kss) as X. pose proof (@as_tm_len s) as Y.
      destruct (as_tm_loop A s kss) as [[[s1 k1] o1]|] eqn:E, (as_tm_loop B t kss) as [[[t1 k1'] o1']|]; cbn in *; try tauto.
      destruct X as (X & -> & ->). split; auto. split; auto. rewrite <- L. eauto. }
    cbn. auto.
  - intros s t m H. cbn [pop AssociativeB]. unfold as_pop. rewrite (rl_sizes (proj2 H)).
    destruct (_ || _); [cbn; auto|]. destruct (_ <=? m).
    + apply rel1_len; [apply rl_flush_as, H|]. intros s' o E. rewrite (as_flush_len _ E). apply H.
    + destruct (as_target _ _ _) as [[tg pb]|]; cbn [bind]; [|cbn; auto]. apply as_pop_rel; auto.
  - intros s t vs H. cbn [push AssociativeB]. unfold as_push. destruct (as_rel_len H) as [L L'].
    rewrite (as_rel_distribute fst vs (repeat [] (length s)) H), L, L'.
    destruct (distribute hash' B fst t vs _) as [vss|]; cbn [bind]; [|cbn; auto].
    apply rel1_len; [apply rl_push_as, H|]. intros s' o E. rewrite (as_push_len _ _ E). apply H.
  - intros s t H. cbn [flush AssociativeB]. apply rel1_len; [apply rl_flush_as, H|]. intros s' o E. rewrite (as_flush_len _ E). apply H.
Qed.
End Lists.
