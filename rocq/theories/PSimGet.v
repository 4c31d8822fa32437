(** PSimGet.v -- property theorems: C51 with the traits Get and GetMut among the calls. *)
From Coq Require Import NArith.
From Verif Require Import Base Block Cut Array BTree Batch Exclusive Wrappers Associative Stream Compressed Arch Get Sim SimProof PSim.

(** The calls of Sim.v, and get ([m = false]) or get_mut ([m = true]) of a key: [f] is what the user does to the
    value while the guard is alive, and the value the guard showed comes back (/repo/src/traits/get.rs). *)
Inductive gask (K V : Type) : Type := Plain (a : ask K V) | AskGet (m : bool) (k : K) (f : V -> V).
Inductive gsaw (K V : Type) : Type := Saw (x : saw K V) | SawValue (o : option V).
Arguments Plain {K V}. Arguments AskGet {K V}. Arguments Saw {K V}. Arguments SawValue {K V}.

Section WatchGet.
Context {K V : Type}.
(** The answers to a sequence of calls, from a state of the container [B] with the getters [g]. *)
Fixpoint watch_get (B : Block K V) (g : bool -> Getter B) (s : St B) (h : list (gask K V)) : list (gsaw K V) :=
  match h with
  | [] => []
  | Plain AskCapacity :: h' => Saw (SawNum (capacity B s)) :: watch_get B g s h'
  | Plain AskSize :: h' => Saw (SawNum (size B s)) :: watch_get B g s h'
  | Plain (AskContains k) :: h' =>
      match contains B s k with Ok b => Saw (SawBool b) :: watch_get B g s h' | Panic => [Saw SawPanic] end
  | Plain (AskTake k) :: h' =>
      match take B s k with Ok (s', o) => Saw (SawOne o) :: watch_get B g s' h' | Panic => [Saw SawPanic] end
  | Plain (AskTakeMultiple ks) :: h' =>
      match take_multiple B s ks with Ok (s', ks', l) => Saw (SawKeys ks' l) :: watch_get B g s' h' | Panic => [Saw SawPanic] end
  | Plain (AskPop n) :: h' =>
      match pop B s n with Ok (s', l) => Saw (SawPairs l) :: watch_get B g s' h' | Panic => [Saw SawPanic] end
  | Plain (AskPush vs) :: h' =>
      match push B s vs with Ok (s', l) => Saw (SawPairs l) :: watch_get B g s' h' | Panic => [Saw SawPanic] end
  | Plain AskFlush :: h' =>
      match flush B s with Ok (s', l) => Saw (SawPairs l) :: watch_get B g s' h' | Panic => [Saw SawPanic] end
  | AskGet m k f :: h' =>
      match g m s k f with Ok (s', o) => SawValue o :: watch_get B g s' h' | Panic => [Saw SawPanic] end
  end.
Definition gasked (tm : bool) (a : gask K V) : bool := match a with Plain a => asked tm a | _ => true end.
Definition same_get (tm : bool) (A B : Block K V) (gA : bool -> Getter A) (gB : bool -> Getter B) (s : St A) (t : St B) : Prop :=
  forall h, forallb (gasked tm) h = true -> watch_get A gA s h = watch_get B gB t h.

(** Getters that keep a relation between states. *)
Definition GR (A B : Block K V) (R : St A -> St B -> Prop) (gA : bool -> Getter A) (gB : bool -> Getter B) : Prop :=
  forall m s t k f, R s t -> rel1 R (gA m s k f) (gB m t k f).

Set Implicit Arguments.
Lemma sim_same_get tm (A B : Block K V) R gA gB s t : Sim tm A B R -> GR A B R gA gB -> R s t -> same_get tm A B gA gB s t.
Proof.
  intros HS HG HR h. revert s t HR.
  induction h as [|a h IH]; intros s t HR HF; auto.
  cbn [forallb] in HF. apply andb_true_iff in HF. destruct HF as [Ha HF].
  destruct a as [[| |k|k|ks|n|vs|]|m k f]; cbn [watch_get].
  - rewrite (sim_capacity HS _ _ HR). f_equal. auto.
  - rewrite (sim_size HS _ _ HR). f_equal. auto.
  - rewrite (sim_contains HS _ _ k HR). destruct (contains B t k); auto. f_equal. auto.
  - pose proof (sim_take HS _ _ k HR) as X. destruct (take A s k) as [[s' o]|], (take B t k) as [[t' o']|]; cbn in X; try tauto.
    destruct X as [X ->]. f_equal. auto.
  - cbn in Ha. pose proof (sim_tm HS Ha _ _ ks HR) as X.
    destruct (take_multiple A s ks) as [[[s' l] o]|], (take_multiple B t ks) as [[[t' l'] o']|]; cbn in X; try tauto.
    destruct X as (X & -> & ->). f_equal. auto.
  - pose proof (sim_pop HS _ _ n HR) as X. destruct (pop A s n) as [[s' o]|], (pop B t n) as [[t' o']|]; cbn in X; try tauto.
    destruct X as [X ->]. f_equal. auto.
  - pose proof (sim_push HS _ _ vs HR) as X. destruct (push A s vs) as [[s' o]|], (push B t vs) as [[t' o']|]; cbn in X; try tauto.
    destruct X as [X ->]. f_equal. auto.
  - pose proof (sim_flush HS _ _ HR) as X. destruct (flush A s) as [[s' o]|], (flush B t) as [[t' o']|]; cbn in X; try tauto.
    destruct X as [X ->]. f_equal. auto.
  - pose proof (HG m _ _ k f HR) as X. destruct (gA m s k f) as [[s' o]|], (gB m t k f) as [[t' o']|]; cbn in X; try tauto.
    destruct X as [X ->]. f_equal. auto.
Qed.

Ltac step H C E E' := intros h Hh; specialize (H (C :: h) Hh); cbn in H; rewrite E, E' in H; congruence.
Lemma get_same_sim tm (A B : Block K V) gA gB : Sim tm A B (same_get tm A B gA gB).
Proof.
  constructor; intros.
  - specialize (H [Plain AskCapacity] eq_refl). cbn in H. congruence.
  - specialize (H [Plain AskSize] eq_refl). cbn in H. congruence.
  - specialize (H [Plain (AskContains k)] eq_refl). cbn in H. destruct (contains A s k), (contains B t k); congruence.
  - pose proof (H [Plain (AskTake k)] eq_refl) as X. cbn in X.
    destruct (take A s k) as [[s' o]|] eqn:E, (take B t k) as [[t' o']|] eqn:E'; cbn; try congruence; try tauto.
    split; [|congruence]. step H (@Plain K V (AskTake k)) E E'.
  - subst tm. pose proof (H0 [Plain (AskTakeMultiple ks)] eq_refl) as X. cbn in X.
    destruct (take_multiple A s ks) as [[[s' l] o]|] eqn:E, (take_multiple B t ks) as [[[t' l'] o']|] eqn:E'; cbn; try congruence; try tauto.
    split; [|split; congruence]. step H0 (@Plain K V (AskTakeMultiple ks)) E E'.
  - pose proof (H [Plain (AskPop n)] eq_refl) as X. cbn in X.
    destruct (pop A s n) as [[s' o]|] eqn:E, (pop B t n) as [[t' o']|] eqn:E'; cbn; try congruence; try tauto.
    split; [|congruence]. step H (@Plain K V (AskPop n)) E E'.
  - pose proof (H [Plain (AskPush vs)] eq_refl) as X. cbn in X.
    destruct (push A s vs) as [[s' o]|] eqn:E, (push B t vs) as [[t' o']|] eqn:E'; cbn; try congruence; try tauto.
    split; [|congruence]. step H (@Plain K V (AskPush vs)) E E'.
  - pose proof (H [Plain AskFlush] eq_refl) as X. cbn in X.
    destruct (flush A s) as [[s' o]|] eqn:E, (flush B t) as [[t' o']|] eqn:E'; cbn; try congruence; try tauto.
    split; [|congruence]. step H (@Plain K V AskFlush) E E'.
Qed.
Lemma get_same_get tm (A B : Block K V) gA gB : GR A B (same_get tm A B gA gB) gA gB.
Proof.
  intros m s t k f H. pose proof (H [AskGet m k f] eq_refl) as X. cbn in X.
  destruct (gA m s k f) as [[s' o]|] eqn:E, (gB m t k f) as [[t' o']|] eqn:E'; cbn; try congruence; try tauto.
  split; [|congruence]. step H (@AskGet K V m k f) E E'.
Qed.
Lemma get_same_refl tm (A : Block K V) g s : same_get tm A A g g s s.
Proof. intros h _. reflexivity. Qed.
Lemma get_same_trans tm (A B C : Block K V) gA gB gC s t u :
  same_get tm A B gA gB s t -> same_get tm B C gB gC t u -> same_get tm A C gA gC s u.
Proof. intros H H' h Hh. rewrite H; auto. Qed.

(** Sequences of calls of Sim.v are sequences of calls without get. *)
Lemma watch_plain (B : Block K V) g h : forall s, watch_get B g s (map Plain h) = map Saw (watch B s h).
Proof.
  induction h as [|a h IH]; intros s; auto. destruct a; cbn [map watch_get watch]; rewrite ?IH; auto.
  - destruct (contains B s k); cbn; rewrite ?IH; auto.
  - destruct (take B s k) as [[]|]; cbn; rewrite ?IH; auto.
  - destruct (take_multiple B s ks) as [[[]]|]; cbn; rewrite ?IH; auto.
  - destruct (pop B s n) as [[]|]; cbn; rewrite ?IH; auto.
  - destruct (push B s vs) as [[]|]; cbn; rewrite ?IH; auto.
  - destruct (flush B s) as [[]|]; cbn; rewrite ?IH; auto.
Qed.
Lemma same_get_same tm (A B : Block K V) gA gB s t : same_get tm A B gA gB s t -> same_answers tm A B s t.
Proof.
  intros H h Hh. specialize (H (map Plain h)). rewrite !watch_plain in H.
  assert (X : map Saw (watch A s h) = map Saw (watch B t h)).
  { apply H. rewrite <- Hh. clear. induction h; cbn; congruence. }
  clear -X. revert X. generalize (watch A s h), (watch B t h).
  intros l. induction l as [|x l IH]; intros [|y l'] E; cbn in E; try discriminate; auto.
  injection E as -> E. f_equal; auto.
Qed.
End WatchGet.

(** ** Each container that offers get keeps relations between getters *)
Section Congr.
Context {K V : Type}.
Lemma gr_profiler (A B : Block K V) R gA gB tm : Sim tm A B R -> GR A B R gA gB ->
  GR (ProfilerB A) (ProfilerB B) (fun s t => fst s = fst t /\ R (snd s) (snd t)) (fun m => pf_get m (gA m)) (fun m => pf_get m (gB m)).
Proof.
  intros HS HG m [st s] [st' t] k f [E HR]. cbn [fst snd] in *. subst st'. unfold pf_get. cbn [fst snd].
  eapply rel1_bind; [apply HG; eauto|]. intros s1 t1 o H1. cbn. auto.
Qed.
Lemma gr_batch (A B : Block K V) R gA gB : GR A B R gA gB ->
  GR (BatchB A) (BatchB B) (Forall2 R) (fun m => bt_get (gA m)) (fun m => bt_get (gB m)).
Proof.
  intros HG m s t k f H. induction H as [|x y l l' H HF IH]; cbn [bt_get]; [cbn; auto|].
  eapply rel1_bind; [apply HG; eauto|]. intros s1 t1 [o|] H1; cbn beta iota; [cbn; auto|].
  eapply rel1_bind; [apply IH|]. cbn. auto.
Qed.
Lemma gr_sum I (Pr : I -> Prop) (C D : I -> Block K V) (R : forall i, St (C i) -> St (D i) -> Prop) gC gD :
  (forall i, Pr i -> GR (C i) (D i) (@R i) (gC i) (gD i)) ->
  GR (SumB C) (SumB D) (@sum_rel K V I Pr C D R) (fun m => @sum_get K V I C (fun i => gC i m)) (fun m => @sum_get K V I D (fun i => gD i m)).
Proof.
  intros HG m s t k f (i & s0 & t0 & Hi & -> & -> & HR). unfold sum_get. cbn [projT1 projT2].
  eapply rel1_bind; [apply HG; eauto|]. intros s1 t1 o H1. cbn. split; auto. exists i, s1, t1. auto.
Qed.
Lemma gr_associative (A B : Block K V) R gA gB hash hash' n : GR A B R gA gB ->
  (forall k, N.modulo (hash k) (N.of_nat n) = N.modulo (hash' k) (N.of_nat n)) ->
  GR (AssociativeB hash A) (AssociativeB hash' B) (@as_rel K V A B R n) (fun m => as_get hash (gA m)) (fun m => as_get hash' (gB m)).
Proof.
  intros HG HH m s t k f H. unfold as_get. erewrite as_rel_set by eauto.
  destruct (as_set hash' B t k) as [i|]; cbn [bind]; [|cbn; auto].
  pose proof (@rl_nth K V A B R s t i (proj2 H)) as X. destruct (nth_error s i) as [cs|], (nth_error t i) as [ct|]; cbn [unwrap bind]; try tauto.
  eapply rel1_bind; [apply HG; eauto|]. intros s1 t1 o H1. cbn. split; auto. apply as_rel_replace; auto.
Qed.
Lemma gr_exclusive {OK : Ord K} tm bs (L L' Rb Rb' : Block K V) P Q gL gL' : Sim tm L L' P -> Sim tm Rb Rb' Q -> GR L L' P gL gL' ->
  GR (ExclusiveB bs L Rb) (ExclusiveB bs L' Rb') (fun s t => P (fst s) (fst t) /\ Q (snd s) (snd t))
     (fun m => @ex_get K V L Rb (gL m)) (fun m => @ex_get K V L' Rb' (gL' m)).
Proof.
  intros HL HR HG m [sl sr] [tl tr] k f [H1 H2]. cbn [fst snd] in *. unfold ex_get. cbn [fst snd].
  rewrite (sim_contains HL _ _ k H1). destruct (contains L' tl k) as [[]|]; cbn [bind]; [| |cbn; auto].
  - eapply rel1_bind; [apply HG; eauto|]. cbn. auto.
  - eapply rel1_bind with (R := fun s t => P (fst s) (fst t) /\ Q (snd s) (snd t)).
    + unfold ex_downgrade. cbn [fst snd]. eapply rel1_bind; [apply (sim_take HR); eauto|]. intros s1 t1 [x|] H3; [|cbn; auto].
      eapply rel1_bind; [apply (sim_push HL); eauto|]. intros s2 t2 [|y o] H4; cbn beta iota; [cbn; auto|].
      eapply rel1_bind; [apply (sim_push HR); eauto|]. intros s3 t3 [|z o3] H5; cbn; auto.
    + intros [s1 s2] [t1 t2] o [H3 H4]. cbn [fst snd] in *. destruct o; [|cbn; auto].
      eapply rel1_bind; [apply HG; eauto|]. cbn. auto.
Qed.
End Congr.
Lemma gr_decorator {K V D} (F : Factory V D) (A B : Block K D) R gA gB : GR A B R gA gB ->
  GR (DecoratorB F A) (DecoratorB F B) (fun s t => fst s = fst t /\ R (snd s) (snd t))
     (fun m => dc_get F (gA m)) (fun m => dc_get F (gB m)).
Proof.
  intros HG m [st s] [st' t] k f [E HR]. cbn [fst snd] in *. subst st'. unfold dc_get. cbn [fst snd].
  eapply rel1_bind; [apply HG; eauto|]. intros s1 t1 o H1. cbn. auto.
Qed.

Section PSimGet.
Context {K : Type} {OK : Ord K}.
(** Two architectures just built answer every sequence of calls, get and get_mut among them, the same ([tm = false]:
    without take_multiple). *)
Definition get_interchangeable (tm : bool) {V} (a b : arch K V) : Prop :=
  same_get tm (block a) (block b) (fun m => aget m a) (fun m => aget m b) (init a) (init b).

(** [get_alike tm a b]: [b] is [a] with some of its components, at any depth, replaced by interchangeable ones.  The
    second container of an Exclusive is never asked get by it: there, what PSim.v asks for is enough.  Containers
    with erased types and socket clients do not implement the traits: none is on the way down. *)
Inductive get_alike (tm : bool) : forall V, arch K V -> arch K V -> Prop :=
| get_alike_replaced : forall V (a b : arch K V), get_interchangeable tm a b -> get_alike tm a b
| get_alike_then : forall V (a b c : arch K V), get_alike tm a b -> get_alike tm b c -> get_alike tm a c
| get_alike_batch : forall V n (f g : nat -> arch K V), (forall i, i < n -> get_alike tm (f i) (g i)) ->
    get_alike tm (ABatch n f) (ABatch n g)
| get_alike_exclusive : forall V bs (l l' r r' : arch K V), get_alike tm l l' -> alike tm r r' ->
    get_alike tm (AExclusive bs l r) (AExclusive bs l' r')
| get_alike_flush_stopper : forall V (a b : arch K V), get_alike tm a b -> get_alike tm (AFlushStopper a) (AFlushStopper b)
| get_alike_sequential : forall V (a b : arch K V), get_alike tm a b -> get_alike tm (ASequential a) (ASequential b)
| get_alike_profiler : forall V (a b : arch K V), get_alike tm a b -> get_alike tm (AProfiler a) (AProfiler b)
| get_alike_decorator : forall V D (F : Factory V D) (f0 : Fst F) (a b : arch K D), get_alike tm a b ->
    get_alike tm (ADecorator F f0 a) (ADecorator F f0 b)
| get_alike_associative : forall V hash hash' n (f g : nat -> arch K V), (forall i, i <= n -> get_alike tm (f i) (g i)) ->
    (forall k, N.modulo (hash k) (N.of_nat (S n)) = N.modulo (hash' k) (N.of_nat (S n))) ->
    get_alike tm (AAssociative hash n f) (AAssociative hash' n g).

Lemma get_init_list V (f g : nat -> arch K V) tm (l : list nat) P : (forall i, In i l -> P i /\ get_interchangeable tm (f i) (g i)) ->
  Forall2 (@sum_rel K V nat P (fun i => block (f i)) (fun i => block (g i))
             (fun i => same_get tm (block (f i)) (block (g i)) (fun m => aget m (f i)) (fun m => aget m (g i))))
    (map (fun i => existT (fun i => St (block (f i))) i (init (f i))) l)
    (map (fun i => existT (fun i => St (block (g i))) i (init (g i))) l).
Proof.
  induction l as [|i l IH]; cbn [map]; intros H; constructor.
  - exists i, (init (f i)), (init (g i)). destruct (H i (or_introl eq_refl)). auto.
  - apply IH. intros j Hj. apply H. right; auto.
Qed.

(** C51.  With get and get_mut among the calls: replacing components by interchangeable ones changes no answer. *)
Theorem C51_components_may_be_replaced_with_gets : forall tm V (a b : arch K V), get_alike tm a b -> get_interchangeable tm a b.
Proof.
  intros tm V a b H. induction H as [V a b H|V a b c H1 I1 H2 I2|V n f g H IH|V bs l l' r r' H1 I1 H2|V a b H IH|V a b H IH
    |V a b H IH|V D F f0 a b H IH|V hash hash' n f g H IH HH]; auto.
  - eapply get_same_trans; eauto.
  - unfold get_interchangeable. eapply sim_same_get.
    + cbn [block]. apply sim_batch. apply sim_sum with (Pr := fun i => i < n). intros i Hi. apply get_same_sim.
    + cbn [block aget]. apply gr_batch.
      apply (@gr_sum K V nat (fun i => i < n) (fun i => block (f i)) (fun i => block (g i)) _ (fun i m => aget m (f i)) (fun i m => aget m (g i))).
      intros i Hi. apply get_same_get.
    + cbn [init]. apply get_init_list. intros i Hi. apply in_seq in Hi. split; [lia|]. apply IH. lia.
  - unfold get_interchangeable. eapply sim_same_get.
    + cbn [block]. apply sim_exclusive; [apply get_same_sim|apply same_sim].
    + cbn [block aget]. eapply gr_exclusive; [apply get_same_sim|apply same_sim|apply get_same_get].
    + cbn [init fst snd]. split; [exact I1|]. apply C51_components_may_be_replaced. auto.
  - unfold get_interchangeable. eapply sim_same_get; [cbn [block]; apply sim_flush_stopper; apply get_same_sim| |exact IH].
    apply (@get_same_get K V tm (block a) (block b)).
  - unfold get_interchangeable. eapply sim_same_get; [cbn [block]; apply sim_sequential; apply get_same_sim| |exact IH].
    apply (@get_same_get K V tm (block a) (block b)).
  - unfold get_interchangeable. eapply sim_same_get; [cbn [block]; apply sim_profiler; apply get_same_sim| |cbn; split; auto; exact IH].
    cbn [block aget]. eapply gr_profiler; [apply get_same_sim|apply get_same_get].
  - unfold get_interchangeable. eapply sim_same_get; [cbn [block]; apply sim_decorator; apply get_same_sim| |cbn; split; auto; exact IH].
    cbn [block aget]. apply gr_decorator. apply get_same_get.
  - unfold get_interchangeable. eapply sim_same_get.
    + cbn [block]. apply sim_associative with (n := S n) (hash := hash) (hash' := hash'); [|exact HH].
      apply sim_sum with (Pr := fun i => i <= n). intros i Hi. apply get_same_sim.
    + cbn [block aget]. apply gr_associative; [|exact HH].
      apply (@gr_sum K V nat (fun i => i <= n) (fun i => block (f i)) (fun i => block (g i)) _ (fun i m => aget m (f i)) (fun i m => aget m (g i))).
      intros i Hi. apply get_same_get.
    + cbn [init]. split; [rewrite map_length, seq_length; auto|]. apply get_init_list. intros i Hi. apply in_seq in Hi. split; [lia|]. apply IH. lia.
Qed.

(** A Sequential and what it wraps (used by one thread), and the same at every level at once. *)
Theorem C51_sequential_is_interchangeable_with_gets : forall V (a : arch K V), get_interchangeable true (ASequential a) a.
Proof.
  intros V a. unfold get_interchangeable.
  apply (@sim_same_get K V _ (block (ASequential a)) (block a) (@eq (St (block a)))); [| |reflexivity].
  - constructor; cbn; intros; subst; auto;
    match goal with |- rel1 _ ?x ?x => destruct x as [[]|]; cbn; auto | |- rel2 _ ?x ?x => destruct x as [[[]]|]; cbn; auto end.
  - intros m s t k f <-. cbn [aget]. destruct (aget m a s k f) as [[]|]; cbn; auto.
Qed.
Theorem C51_sequential_everywhere_with_gets : forall V (a : arch K V),
  get_interchangeable true (wrap_everywhere (fun V => @ASequential _ _ V) a) a.
Proof.
  intros V a. apply C51_components_may_be_replaced_with_gets.
  induction a; cbn [wrap_everywhere]; (eapply get_alike_then; [apply get_alike_replaced, C51_sequential_is_interchangeable_with_gets|]);
  try (apply get_alike_replaced; apply get_same_refl);
  try (first [apply get_alike_batch | apply get_alike_exclusive | apply get_alike_flush_stopper | apply get_alike_sequential
        | apply get_alike_profiler | apply get_alike_decorator | apply get_alike_associative]; auto; fail).
  - apply get_alike_exclusive; auto. apply alike_replaced. apply C51_sequential_everywhere.
  - (* a type-erased container offers no get: its components need only answer the other calls the same *)
    apply get_alike_replaced. unfold get_interchangeable. eapply sim_same_get; [cbn [block]; eapply sim_dyn; apply same_sim| |].
    + intros m s t k f _. cbn. auto.
    + exact (C51_sequential_everywhere a).
  - apply get_alike_replaced. unfold get_interchangeable. eapply sim_same_get; [cbn [block]; apply sim_remote; apply same_sim| |].
    + intros m s t k f _. cbn. auto.
    + exact (C51_sequential_everywhere a).
Qed.

(** Interchangeable with gets is interchangeable. *)
Theorem C51_with_gets_implies : forall tm V (a b : arch K V), get_interchangeable tm a b -> interchangeable tm a b.
Proof. intros tm V a b H. eapply same_get_same. exact H. Qed.
End PSimGet.

(** Being interchangeable with gets is not vacuous: a Batch of two containers and an Exclusive of the same two answer
    these calls the same but for the get of a key in the second container, which Exclusive moves to the first. *)
Definition two_in_batch : arch nat nat := ABatch 2 (fun _ => one_array 1).
Definition two_in_exclusive : arch nat nat := AExclusive linear_bs (one_array 1) (one_array 1).
Definition with_get (g : list (gask nat nat)) : list (gask nat nat) :=
  [Plain (AskPush [(1, 10); (2, 20)])] ++ g ++ [Plain AskSize; Plain (AskPop 1)].
Definition seen (a : arch nat nat) (h : list (gask nat nat)) : list (gsaw nat nat) :=
  watch_get (block a) (fun m => aget m a) (init a) h.
Theorem C51_gets_tell_apart :
  seen two_in_batch (with_get []) = seen two_in_exclusive (with_get []) /\
  seen two_in_batch (with_get [AskGet false 2 (fun v => v)]) <> seen two_in_exclusive (with_get [AskGet false 2 (fun v => v)]) /\
  ~ get_interchangeable false two_in_batch two_in_exclusive.
Proof.
  assert (X : seen two_in_batch (with_get [AskGet false 2 (fun v => v)]) <> seen two_in_exclusive (with_get [AskGet false 2 (fun v => v)])).
  { intros H. vm_compute in H. discriminate. }
  split; [vm_compute; reflexivity|]. split; [exact X|].
  intros H. apply X. apply H. reflexivity.
Qed.
(** A tower to which the theorems apply, and some of what it answers. *)
Definition gets_tower : arch nat nat :=
  AExclusive linear_bs (ABatch 2 (fun j => AProfiler (one_array (S j)))) (AAssociative N.of_nat 1 (fun i => ABatch 2 (fun j => one_array (S j)))).
Definition gets_calls : list (gask nat nat) :=
  [Plain (AskPush [(1, 10); (2, 20); (3, 30)]); Plain (AskPush [(4, 5); (5, 50); (6, 60)]);
   AskGet false 2 (fun v => v); AskGet true 5 S; AskGet true 5 S; AskGet false 9 S; Plain (AskTake 5); Plain AskSize].
Theorem C51_gets_example :
  get_interchangeable true (wrap_everywhere (fun V => @ASequential _ _ V) gets_tower) gets_tower /\
  seen gets_tower gets_calls =
    [Saw (SawPairs []); Saw (SawPairs []); SawValue (Some 20); SawValue (Some 50); SawValue (Some 51); SawValue None;
     Saw (SawOne (Some (5, 52))); Saw (SawNum 5)].
Proof. split; [apply C51_sequential_everywhere_with_gets|]. vm_compute. reflexivity. Qed.

Print Assumptions C51_components_may_be_replaced_with_gets.
Print Assumptions C51_sequential_everywhere_with_gets.
