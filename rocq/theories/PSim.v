(** PSim.v -- property theorems: C51, containers compose by behaviour. *)
From Coq Require Import NArith.
From Verif Require Import Base Block Cut Array BTree Batch Exclusive Wrappers Associative Stream Compressed Arch Sim SimProof.
Set Implicit Arguments.

Section PSim.
Context {K : Type} {OK : Ord K}.

(** Two architectures just built answer every sequence of calls the same ([tm = false]: without take_multiple). *)
Definition interchangeable (tm : bool) {V} (a b : arch K V) : Prop :=
  same_answers tm (block a) (block b) (init a) (init b).

(** [alike tm a b]: [b] is [a] with some of its components, at any depth, replaced by interchangeable ones.  Below
    a type-erased container, whose take_multiple calls take, being interchangeable without take_multiple is enough. *)
Inductive alike : bool -> forall V, arch K V -> arch K V -> Prop :=
| alike_replaced : forall tm V (a b : arch K V), interchangeable tm a b -> alike tm a b
| alike_then : forall tm V (a b c : arch K V), alike tm a b -> alike tm b c -> alike tm a c
| alike_batch : forall tm V n (f g : nat -> arch K V), (forall i, i < n -> alike tm (f i) (g i)) ->
    alike tm (ABatch n f) (ABatch n g)
| alike_exclusive : forall tm V bs (l l' r r' : arch K V), alike tm l l' -> alike tm r r' ->
    alike tm (AExclusive bs l r) (AExclusive bs l' r')
| alike_flush_stopper : forall tm V (a b : arch K V), alike tm a b -> alike tm (AFlushStopper a) (AFlushStopper b)
| alike_sequential : forall tm V (a b : arch K V), alike tm a b -> alike tm (ASequential a) (ASequential b)
| alike_dyn : forall tm V (a b : arch K V), alike false a b -> alike tm (ADyn a) (ADyn b)
| alike_profiler : forall tm V (a b : arch K V), alike tm a b -> alike tm (AProfiler a) (AProfiler b)
| alike_decorator : forall tm V D (F : Factory V D) (f0 : Fst F) (a b : arch K D), alike tm a b ->
    alike tm (ADecorator F f0 a) (ADecorator F f0 b)
| alike_associative : forall tm V hash hash' n (f g : nat -> arch K V), (forall i, i <= n -> alike tm (f i) (g i)) ->
    (forall k, N.modulo (hash k) (N.of_nat (S n)) = N.modulo (hash' k) (N.of_nat (S n))) ->
    alike tm (AAssociative hash n f) (AAssociative hash' n g)
| alike_remote : forall tm V (a b : arch K V), alike tm a b -> alike tm (ARemote a) (ARemote b).

Lemma init_list V (f g : nat -> arch K V) tm (l : list nat) P : (forall i, In i l -> P i /\ interchangeable tm (f i) (g i)) ->
  Forall2 (@sum_rel K V nat P (fun i => block (f i)) (fun i => block (g i)) (fun i => same_answers tm (block (f i)) (block (g i))))
    (map (fun i => existT (fun i => St (block (f i))) i (init (f i))) l)
    (map (fun i => existT (fun i => St (block (g i))) i (init (g i))) l).
Proof.
  induction l as [|i l IH]; cbn [map]; intros H; constructor.
  - exists i, (init (f i)), (init (g i)). destruct (H i (or_introl eq_refl)). auto.
  - apply IH. intros j Hj. apply H. right; auto.
Qed.

(** C51.  In any architecture, replacing components by interchangeable ones changes no answer of the whole, for any
    sequence of calls. *)
Theorem C51_components_may_be_replaced : forall tm V (a b : arch K V), alike tm a b -> interchangeable tm a b.
Proof.
  intros tm V a b H. induction H as [tm V a b H|tm V a b c H1 I1 H2 I2|tm V n f g H IH|tm V bs l l' r r' H1 I1 H2 I2|tm V a b H IH|tm V a b H IH
    |tm V a b H IH|tm V a b H IH|tm V D F f0 a b H IH|tm V hash hash' n f g H IH HH|tm V a b H IH]; auto.
  - eapply same_trans; eauto.
  - unfold interchangeable. eapply sim_same.
    + cbn [block]. apply sim_batch. apply sim_sum with (Pr := fun i => i < n). intros i Hi. apply same_sim.
    + cbn [init]. apply init_list. intros i Hi. apply in_seq in Hi. split; [lia|]. apply IH. lia.
  - unfold interchangeable. eapply sim_same.
    + cbn [block]. apply sim_exclusive; apply same_sim.
    + cbn [init fst snd]. auto.
  - unfold interchangeable. eapply sim_same; [cbn [block]; apply sim_flush_stopper; apply same_sim|]. exact IH.
  - unfold interchangeable. eapply sim_same; [cbn [block]; apply sim_sequential; apply same_sim|]. exact IH.
  - unfold interchangeable. eapply sim_same; [cbn [block]; eapply sim_dyn; apply same_sim|]. exact IH.
  - unfold interchangeable. eapply sim_same; [cbn [block]; apply sim_profiler; apply same_sim|]. cbn. split; auto.
  - unfold interchangeable. eapply sim_same; [cbn [block]; apply sim_decorator; apply same_sim|]. cbn. split; auto.
  - unfold interchangeable. eapply sim_same.
    + cbn [block]. apply sim_associative with (n := S n) (hash := hash) (hash' := hash'); [|exact HH].
      apply sim_sum with (Pr := fun i => i <= n). intros i Hi. apply same_sim.
    + cbn [init]. split; [rewrite map_length, seq_length; auto|]. apply init_list. intros i Hi. apply in_seq in Hi. split; [lia|]. apply IH. lia.
  - unfold interchangeable. eapply sim_same; [cbn [block]; apply sim_remote; apply same_sim|]. exact IH.
Qed.

(** Components that are interchangeable, whatever is inside: a Sequential and what it wraps (used by one thread); a
    type-erased container or a socket client and the container, without take_multiple; the same nested twice. *)
Theorem C51_sequential_is_interchangeable : forall V (a : arch K V), interchangeable true (ASequential a) a.
Proof.
  intros V a. unfold interchangeable. apply (@sim_same K V _ (block (ASequential a)) (block a) (@eq (St (block a)))); [|reflexivity].
  constructor; cbn; intros; subst; auto;
  match goal with |- rel1 _ ?x ?x => destruct x as [[]|]; cbn; auto | |- rel2 _ ?x ?x => destruct x as [[[]]|]; cbn; auto end.
Qed.
Theorem C51_erased_is_interchangeable : forall V (a : arch K V), interchangeable false (ADyn a) a.
Proof.
  intros V a. unfold interchangeable. apply (@sim_same K V _ (block (ADyn a)) (block a) (@eq (St (block a)))); [|reflexivity].
  constructor; cbn; intros; subst; auto; try discriminate;
  match goal with |- rel1 _ ?x ?x => destruct x as [[]|]; cbn; auto end.
Qed.
Theorem C51_remote_is_interchangeable : forall V (a : arch K V), interchangeable false (ARemote a) a.
Proof.
  intros V a. unfold interchangeable. apply (@sim_same K V _ (block (ARemote a)) (block a) (@eq (St (block a)))); [|reflexivity].
  constructor; cbn; intros; subst; auto; try discriminate;
  match goal with |- rel1 _ ?x ?x => destruct x as [[]|]; cbn; auto end.
Qed.
Theorem C51_erased_twice : forall V (a : arch K V), interchangeable true (ADyn (ADyn a)) (ADyn a).
Proof. intros V a. apply C51_components_may_be_replaced. apply alike_dyn, alike_replaced, C51_erased_is_interchangeable. Qed.

(** Erasing the types of all the components of an architecture, and wrapping them in Sequential, at every level. *)
Fixpoint wrap_everywhere {V} (w : forall V, arch K V -> arch K V) (a : arch K V) : arch K V :=
  match a in arch _ V return arch K V with
  | AArray srt bs cap esz => w _ (AArray srt bs cap esz)
  | ABTree OV cap esz => w _ (ABTree OV cap esz)
  | ABatch n f => w _ (ABatch n (fun i => wrap_everywhere w (f i)))
  | AExclusive bs l r => w _ (AExclusive bs (wrap_everywhere w l) (wrap_everywhere w r))
  | AFlushStopper a => w _ (AFlushStopper (wrap_everywhere w a))
  | ASequential a => w _ (ASequential (wrap_everywhere w a))
  | ADyn a => w _ (ADyn (wrap_everywhere w a))
  | AProfiler a => w _ (AProfiler (wrap_everywhere w a))
  | ADecorator F f0 a => w _ (ADecorator F f0 (wrap_everywhere w a))
  | AAssociative h n f => w _ (AAssociative h n (fun i => wrap_everywhere w (f i)))
  | ACompressed L C srt bs cap => w _ (ACompressed L C srt bs cap)
  | ARemote a => w _ (ARemote (wrap_everywhere w a))
  end.
Theorem C51_wrapped_everywhere : forall tm (w : forall V, arch K V -> arch K V),
  (forall V (a : arch K V), interchangeable tm (w V a) a) ->
  forall V (a : arch K V), interchangeable tm (wrap_everywhere w a) a.
Proof.
  intros tm w HW V a. apply C51_components_may_be_replaced.
  induction a; cbn [wrap_everywhere]; (eapply alike_then; [apply alike_replaced, HW|]);
  try (apply alike_replaced; apply same_refl);
  first [apply alike_batch | apply alike_exclusive | apply alike_flush_stopper | apply alike_sequential | apply alike_profiler
        | apply alike_decorator | apply alike_associative | apply alike_remote | apply alike_dyn]; auto.
  destruct tm; auto. apply alike_replaced.
  apply same_weaken with (tm := true). apply C51_components_may_be_replaced. auto.
Qed.
Theorem C51_sequential_everywhere : forall V (a : arch K V), interchangeable true (wrap_everywhere (fun V => @ASequential _ _ V) a) a.
Proof. intros. apply C51_wrapped_everywhere. apply C51_sequential_is_interchangeable. Qed.
Theorem C51_erased_everywhere : forall V (a : arch K V), interchangeable false (wrap_everywhere (fun V => @ADyn _ _ V) a) a.
Proof. intros. apply C51_wrapped_everywhere. apply C51_erased_is_interchangeable. Qed.
End PSim.

(** take_multiple of a type-erased container leaves the caller's vector of keys as it was, where the container it
    erases removes the keys it found: the difference is seen. *)
Definition one_array (cap : nat) : arch nat nat := AArray (std_sorter snd) linear_bs cap (fun _ => 1).
Theorem C51_erased_with_take_multiple_refuted :
  ~ (forall V (a : arch nat V), interchangeable true (ADyn a) a).
Proof.
  intros H. specialize (H nat (one_array 2) [AskPush [(1, 10)]; AskTakeMultiple [1; 3]] eq_refl).
  vm_compute in H. discriminate.
Qed.
(** Being interchangeable is not vacuous: capacities, the wrapper that hides elements from flush, and hash functions
    that choose other sets are all told apart. *)
Theorem C51_told_apart :
  ~ interchangeable false (one_array 1) (one_array 2) /\
  ~ interchangeable false (AFlushStopper (one_array 2)) (one_array 2) /\
  ~ interchangeable false (AAssociative N.of_nat 1 (fun _ => one_array 1)) (AAssociative (fun k => N.of_nat (k / 2)) 1 (fun _ => one_array 1)).
Proof.
  split; [|split]; intros H.
  - specialize (H [AskCapacity] eq_refl). vm_compute in H. discriminate.
  - specialize (H [AskPush [(1, 10)]; AskFlush] eq_refl). vm_compute in H. discriminate.
  - specialize (H [AskPush [(0, 10); (1, 11)]] eq_refl). vm_compute in H. discriminate.
Qed.
(** A tower to which the theorems apply, and some of what it answers. *)
Definition plain_tower : arch nat nat :=
  AExclusive linear_bs (one_array 2) (AAssociative N.of_nat 1 (fun i => ABatch 2 (fun j => one_array (S j)))).
Definition plain_calls : list (ask nat nat) :=
  [AskPush [(1, 10); (2, 20); (3, 30)]; AskPush [(4, 5); (5, 50); (6, 60)]; AskSize; AskTake 2; AskContains 3; AskTakeMultiple [6; 9; 1]; AskFlush].
Theorem C51_example :
  interchangeable true (wrap_everywhere (fun V => @ASequential _ _ V) plain_tower) plain_tower /\
  watch (block plain_tower) (init plain_tower) plain_calls =
    [SawPairs []; SawPairs []; SawNum 6; SawOne (Some (2, 20)); SawBool true; SawKeys [9] [(6, 60); (1, 10)];
     SawPairs [(3, 30); (4, 5); (5, 50)]].
Proof. split; [apply C51_sequential_everywhere|]. vm_compute. reflexivity. Qed.

Print Assumptions C51_components_may_be_replaced.
Print Assumptions C51_wrapped_everywhere.
