(** PGet.v -- property theorems about get and get_mut: C13, C46, and the get part of C05 and C25. *)
From Coq Require Import NArith.
From Verif Require Import Base PermSolve Block Spec LawsProof Cut CutProof Array ArrayProof BTree BTreeProof
  Batch BatchProof Exclusive ExclusiveProof Wrappers WrappersProof Associative AssociativeProof TmLen Arch ArchProof
  Stream Compressed CompressedProof PArch Get GetProof.
From Verif Require PCompressed.
Set Implicit Arguments.

Section PGet.
Context {K : Type} {OK : Ord K} {EK : OrdEq K}.

(** Every element counts for one and no Associative occurs: the default element size of the library. *)
Fixpoint unit_arch {V} (a : arch K V) : Prop :=
  match a with
  | AArray _ _ _ esz => forall kv, esz kv = 1
  | ABTree _ _ esz => forall kv, esz kv = 1
  | ABatch n f => forall i, i < n -> unit_arch (f i)
  | AExclusive _ l r => unit_arch l /\ unit_arch r
  | AFlushStopper a | ASequential a | ADyn a | AProfiler a => unit_arch a
  | ADecorator _ _ a => unit_arch a
  | AAssociative _ _ _ => False
  | ACompressed _ _ _ _ _ => False
  | ARemote a => unit_arch a
  end.

(** The architectures whose get is faithful: it is offered; a BTree has no element of size zero; an
    Exclusive counts elements by one and has a front able to hold one. *)
Fixpoint get_ready {V} (a : arch K V) : Prop :=
  match a with
  | AArray _ _ _ _ => True
  | ABTree _ _ esz => forall kv, 0 < esz kv
  | ABatch n f => forall i, i < n -> get_ready (f i)
  | AExclusive _ l r => unit_arch l /\ unit_arch r /\ 1 <= leaves_capacity l /\ get_ready l
  | AFlushStopper a | ASequential a | AProfiler a => get_ready a
  | ADyn _ => False
  | ADecorator _ _ a => get_ready a
  | AAssociative _ n f => forall i, i < S n -> get_ready (f i)
  | ACompressed _ _ _ _ _ => True
  | ARemote _ => False
  end.

(** What the user does through the guard of get_mut ([m = true]) or get ([m = false]) does not change the size
    of an element.  Through the get of a Compressed, which shows a copy, it changes nothing at all. *)
Fixpoint keeps_size (m : bool) {V} (a : arch K V) : (V -> V) -> Prop :=
  match a in arch _ V return (V -> V) -> Prop with
  | AArray _ _ _ esz => fun g => forall k v, esz (k, g v) = esz (k, v)
  | ABTree _ _ esz => fun g => forall k v, esz (k, g v) = esz (k, v)
  | ABatch n f => fun g => forall i, i < n -> keeps_size m (f i) g
  | AExclusive _ l _ => keeps_size m l
  | AFlushStopper a => keeps_size m a
  | ASequential a => keeps_size m a
  | ADyn a => keeps_size m a
  | AProfiler a => keeps_size m a
  | @ADecorator _ _ _ _ F _ a => fun g => forall st, keeps_size m a (fun d => touched F st d g)
  | AAssociative _ n f => fun g => forall i, i < S n -> keeps_size m (f i) g
  | ACompressed _ C _ _ _ => fun g => if m then forall k v, c_esz C (k, g v) = c_esz C (k, v) else forall v, g v = v
  | ARemote a => keeps_size m a
  end.
Lemma unit_keeps_size m {V} (a : arch K V) : unit_arch a -> forall g, keeps_size m a g.
Proof.
  induction a as [V OV srt bs cap esz|V OV cap esz|V n f IH|V bs l IHl r IHr|V a IH|V a IH|V a IH|V a IH|V D F f0 a IH|V hash n f IH|V OV L C srt bs cap|V a IH];
    cbn [unit_arch keeps_size]; intros H g; auto; try (intros; rewrite !H; auto; fail); try contradiction.
  apply IHl; tauto.
Qed.

Lemma any_keys_batch {V} (f : nat -> arch K V) n i : any_keys (ABatch n f) = true -> i < n -> any_keys (f i) = true.
Proof.
  unfold any_keys. cbn [needs_new_keys profiled_dyn]. intros H Hi. apply andb_prop in H as [H1 H2].
  rewrite (negb_existsb_in (fun i => needs_new_keys (f i)) (seq 0 n) i H1 (in_seq0 Hi)).
  rewrite (negb_existsb_in (fun i => profiled_dyn (f i)) (seq 0 n) i H2 (in_seq0 Hi)). auto.
Qed.
Lemma any_keys_assoc {V} h (f : nat -> arch K V) n i : any_keys (AAssociative h n f) = true -> i < S n -> any_keys (f i) = true.
Proof.
  unfold any_keys. cbn [needs_new_keys profiled_dyn]. intros H Hi. apply andb_prop in H as [H1 H2].
  rewrite (negb_existsb_in (fun i => needs_new_keys (f i)) (seq 0 (S n)) i H1 (in_seq0 Hi)).
  rewrite (negb_existsb_in (fun i => profiled_dyn (f i)) (seq 0 (S n)) i H2 (in_seq0 Hi)). auto.
Qed.
Lemma any_keys_excl {V} bs (l r : arch K V) : any_keys (AExclusive bs l r) = true -> any_keys l = true /\ any_keys r = true.
Proof.
  unfold any_keys. cbn [needs_new_keys profiled_dyn]. rewrite !negb_orb. intros H.
  destruct (needs_new_keys l), (needs_new_keys r), (profiled_dyn l), (profiled_dyn r); cbn in *; auto; discriminate.
Qed.
Lemma any_keys_prof {V} (a : arch K V) : any_keys (AProfiler a) = true -> any_keys a = true.
Proof.
  unfold any_keys. cbn [needs_new_keys profiled_dyn]. rewrite !negb_orb. intros H.
  destruct (needs_new_keys a), (has_dyn a), (profiled_dyn a); cbn in *; auto; discriminate.
Qed.

Theorem arch_unit dup {V} (a : arch K V) : (dup = true -> any_keys a = true) -> unit_arch a ->
  Unit (block a) (ainv dup a) (held a) dup.
Proof.
  induction a as [V OV srt bs cap esz|V OV cap esz|V n f IH|V bs l IHl r IHr|V a IH|V a IH|V a IH|V a IH|V D F f0 a IH|V hash n f IH|V OV L C srt bs cap|V a IH];
    cbn [unit_arch block ainv]; intros Hd Hu.
  - apply array_unit; auto.
  - destruct dup; [specialize (Hd eq_refl); discriminate|]. apply btree_unit; auto.
  - apply (@batch_unit K V OK (SumB (fun i => block (f i))) _ (fun c => held (f (projT1 c)) (projT2 c)) dup (negb (has_associative (ABatch n f))) (negb (has_stopper (ABatch n f)))).
    + apply family_laws. intros i Hi. eapply laws_flags; [apply arch_laws| |].
      * intros E. eapply any_keys_batch; eauto.
      * cbn. intros E. apply (negb_existsb_in (fun i => has_associative (f i)) (seq 0 n) i E (in_seq0 Hi)).
      * cbn. intros E. apply (negb_existsb_in (fun i => has_stopper (f i)) (seq 0 n) i E (in_seq0 Hi)).
    + apply (@sum_unit K V nat (fun i => block (f i))
        (fun i => if i <? n then ainv dup (f i) else fun _ => False) (fun i => held (f i)) dup).
      intros i. destruct (i <? n) eqn:E; [|apply unit_false]. apply Nat.ltb_lt in E.
      apply IH; auto. intros E'. eapply any_keys_batch; eauto.
  - destruct Hu as [Ul Ur].
    assert (Hl : dup = true -> any_keys l = true) by (intros E; destruct (any_keys_excl _ _ _ (Hd E)); auto).
    assert (Hr : dup = true -> any_keys r = true) by (intros E; destruct (any_keys_excl _ _ _ (Hd E)); auto).
    eapply exclusive_unit; [apply laws_cap, (arch_laws l Hl)|apply (arch_laws r Hr)|apply unit_and; auto|auto].
  - specialize (IH Hd Hu). destruct IH; constructor; auto.
  - specialize (IH Hd Hu). destruct IH; constructor; auto.
  - specialize (IH Hd Hu). destruct IH; constructor; auto.
  - apply profiler_unit. apply IH; auto. intros E. apply any_keys_prof; auto.
  - apply decorator_unit. apply IH; auto.
  - contradiction.
  - contradiction.
  - specialize (IH Hd Hu). destruct IH; constructor; auto.
Qed.

Lemma compressed_get_ok m dup {V} {OV : Ord V} (L : Lz) (C : VCodec (K * V)) srt bs cap g s k :
  keeps_size m (ACompressed L C srt bs cap) g -> PCompressed.inv L C dup s ->
  get_ok (CompressedB VecStream L C srt bs) (PCompressed.inv L C dup) (held (ACompressed L C srt bs cap))
    (aget m (ACompressed L C srt bs cap)) s k g.
Proof.
  cbn [keeps_size aget held]. intros Hk [Hi Hn].
  pose proof (PCompressed.rep_of Hi) as R. pose proof (PCompressed.C39_size_exact srt bs Hi) as [Z Zc].
  assert (Ec : forall x, match c_read L C x with Some l => l | None => [] end = c_ct L C x) by (intros; symmetry; apply compressed_held).
  destruct m.
  - destruct (PCompressed.C46_compressed_write (k:=k) g Hi) as (s' & o & E1 & E2 & E3 & E4).
    { intros v rest P. pose proof (c_rep_cap _ _ _ _ R) as Hc. rewrite (vec_size_perm C P) in Hc. cbn [vec_size] in Hc.
      assert (F : Forall (fun x => c_esz C x <> None) (c_ct L C s)).
      { destruct (c_ct L C s) as [|x l] eqn:El; [constructor|]. destruct R as (b & Eb & _). apply (c_some C). eauto. }
      split.
      - rewrite Hk. rewrite Forall_forall in F. apply (F (k, v)). apply (Permutation_in _ (Permutation_sym P)). left. auto.
      - cbn [sum_sz map list_sum fold_right] in *. unfold sum_sz in *. cbn [map list_sum fold_right] in *. unfold c_esz0 in *. rewrite Hk. auto. }
    pose proof (PCompressed.C39_size_exact srt bs E2) as [Z' Zc'].
    exists s', o. cbn. rewrite !Ec. split; auto.
    destruct o as [v|].
    + destruct E4 as (rest & P1 & P2). split; [|split; [|split]]; auto.
      * split; auto. intros Ed. specialize (Hn Ed). apply (NoDup_perm (keys_perm (Permutation_sym P2))).
        apply (NoDup_perm (keys_perm P1)) in Hn. exact Hn.
      * cbn in Z, Z'. rewrite Z, Z'. change (vec_size C (c_ct L C s') = vec_size C (c_ct L C s)). rewrite (vec_size_perm C P1), (vec_size_perm C P2).
        cbn [vec_size]. unfold sum_sz. cbn [map list_sum fold_right]. unfold c_esz0. rewrite Hk. auto.
      * eauto.
    + destruct E4 as [P1 P2]. split; [split; auto; rewrite P2; auto|]. split; auto. split; [cbn in Z, Z'; rewrite Z, Z', P2; auto|].
      split; auto. rewrite P2. auto.
  - pose proof (PCompressed.C05_compressed_get k Hi) as G. exists s, (c_get L C s k). cbn. rewrite !Ec. split; auto. split; [split; auto|].
    split; auto. split; auto. destruct (c_get L C s k) as [v|].
    + apply in_split in G as (l1 & l2 & E). exists (l1 ++ l2). rewrite E, Hk. split; symmetry; apply Permutation_middle.
    + auto.
Qed.
Theorem arch_get m dup {V} (a : arch K V) : forall g s k, (dup = true -> any_keys a = true) -> get_ready a ->
  keeps_size m a g -> ainv dup a s -> get_ok (block a) (ainv dup a) (held a) (aget m a) s k g.
Proof.
  induction a as [V OV srt bs cap esz|V OV cap esz|V n f IH|V bs l IHl r IHr|V a IH|V a IH|V a IH|V a IH|V D F f0 a IH|V hash n f IH|V OV L C srt bs cap|V a IH];
    cbn [get_ready keeps_size block ainv aget]; intros g s k Hd Hr Hk Hi.
  - apply array_get_ok; auto.
  - apply btree_get_ok; auto.
  - apply batch_get_ok; auto. intros c Hc. destruct Hi as [Hi _]. rewrite Forall_forall in Hi. specialize (Hi c Hc).
    apply (@sum_get_ok K V nat (fun i => block (f i)) (fun i => if i <? n then ainv dup (f i) else fun _ => False)
      (fun i => held (f i))). cbn [projT1 projT2] in *.
    destruct (projT1 c <? n) eqn:E; [|contradiction]. apply Nat.ltb_lt in E.
    apply IH; auto. intros E'. eapply any_keys_batch; eauto.
  - destruct Hr as (Ul & Ur & Hc & Hr).
    assert (Hl : dup = true -> any_keys l = true) by (intros E; destruct (any_keys_excl _ _ _ (Hd E)); auto).
    assert (Hr' : dup = true -> any_keys r = true) by (intros E; destruct (any_keys_excl _ _ _ (Hd E)); auto).
    destruct (@ex_get_spec K V OK EK (block l) (block r) _ _ (held l) (held r) dup _ _ _ _
      (laws_cap (capacity (block l) (init l)) (arch_laws l Hl)) (arch_laws r Hr') (unit_and (arch_unit _ Hl Ul) _) (arch_unit _ Hr' Ur)
      (aget m l) s k g) as (s' & o & H1 & H2 & H3 & H4 & H5); auto.
    + intros x [_ ->]. rewrite init_capacity. auto.
    + intros x [Hx Hcx]. destruct (IHl g x k Hl Hr Hk Hx) as (s' & o & H1 & H2 & H3 & H4 & H5).
      exists s', o. repeat split; auto. congruence.
    + exists s', o. repeat split; auto; try apply H2. destruct o; tauto.
  - apply IH; auto.
  - apply IH; auto.
  - contradiction.
  - apply (@profiler_get_ok K V (block a)). apply IH; auto. intros E. apply any_keys_prof; auto.
  - apply decorator_get_ok. apply IH; auto.
  - apply associative_get_ok; auto. intros c Hc. destruct Hi as (_ & Hi & _). rewrite Forall_forall in Hi. specialize (Hi c Hc).
    apply (@sum_get_ok K V nat (fun i => block (f i)) (fun i => if i <? S n then ainv dup (f i) else fun _ => False)
      (fun i => held (f i))). cbn [projT1 projT2] in *.
    destruct (projT1 c <? S n) eqn:E; [|contradiction]. apply Nat.ltb_lt in E.
    apply IH; auto. intros E'. eapply any_keys_assoc; eauto.
  - eapply (@compressed_get_ok m dup V OV L C srt bs cap); auto.
  - contradiction.
Qed.

(** Histories mixing calls, reads and writes through guards, under the caller's discipline. *)
Inductive uses_gets {V} (dup : bool) (a : arch K V) : St (block a) -> Prop :=
| ug_start : uses_gets dup a (init a)
| ug_call : forall s o s' r, uses_gets dup a s ->
    match o with OpPush vs => may_push (block a) (held a) dup s vs | OpPop _ => has_associative a = false | _ => True end ->
    step (block a) s o = Ok (s', r) -> uses_gets dup a s'
| ug_get : forall m s k g s' o, uses_gets dup a s -> keeps_size m a g ->
    aget m a s k g = Ok (s', o) -> uses_gets dup a s'.

Lemma uses_gets_inv {V} dup (a : arch K V) s : (dup = true -> any_keys a = true) -> get_ready a ->
  uses_gets dup a s -> ainv dup a s /\ capacity (block a) s = leaves_capacity a.
Proof.
  intros Hd Hr H. induction H as [|s o s' r H [IH Hcap] Ho E|m s k g s' o H [IH Hcap] Hk E].
  - split; [apply init_ok|apply init_capacity].
  - rewrite <- Hcap. destruct (@step_laws _ _ _ _ _ _ _ _ _ s o (arch_laws a Hd) IH) as (s1 & r1 & H1 & H2 & H3 & _).
    + destruct o; auto. rewrite Ho. auto.
    + rewrite E in H1. injection H1 as <- <-. auto.
  - rewrite <- Hcap. destruct (@arch_get m dup V a g s k Hd Hr Hk IH) as (s1 & o1 & H1 & H2 & H3 & _).
    rewrite E in H1. injection H1 as <- <-. auto.
Qed.

(** C19 and C21 at every state reached with reads and writes too: a permitted call does not panic, loses and
    invents nothing, and the size stays within the constant capacity. *)
Theorem C19_with_gets : forall V dup (a : arch K V) s o, (dup = true -> any_keys a = true) -> get_ready a ->
  uses_gets dup a s ->
  match o with OpPush vs => may_push (block a) (held a) dup s vs | OpPop _ => has_associative a = false | _ => True end ->
  exists s' r, step (block a) s o = Ok (s', r) /\ Permutation (r ++ held a s') (held a s ++ given o).
Proof.
  intros V dup a s o Hd Hr H Ho. destruct (uses_gets_inv Hd Hr H) as [Hi _].
  destruct (@step_laws _ _ _ _ _ _ _ _ _ s o (arch_laws a Hd) Hi) as (s1 & r1 & H1 & H2 & H3 & H4).
  - destruct o; auto. rewrite Ho. auto.
  - eauto.
Qed.
Theorem C21_with_gets : forall V dup (a : arch K V) s, (dup = true -> any_keys a = true) -> get_ready a ->
  uses_gets dup a s -> size (block a) s <= capacity (block a) s /\ capacity (block a) s = leaves_capacity a.
Proof.
  intros V dup a s Hd Hr H. destruct (uses_gets_inv Hd Hr H) as [Hi Hc]. split; auto. apply (law_size (arch_laws a Hd) s Hi).
Qed.

(** C05, get: it shows a value exactly when the key is held, and then one held under that key; with unique
    keys, the one take would return. *)
Theorem C05_get_agrees : forall V dup (a : arch K V) m s k g, (dup = true -> any_keys a = true) -> get_ready a ->
  uses_gets dup a s -> keeps_size m a g ->
  exists s' o s2 o2, aget m a s k g = Ok (s', o) /\ take (block a) s k = Ok (s2, o2) /\
    contains (block a) s k = Ok (match o with Some _ => true | None => false end) /\
    (o = None <-> ~ In k (keys (held a s))) /\ (o2 = None <-> o = None) /\
    (forall v, o = Some v -> In (k, v) (held a s)) /\
    (dup = false -> o2 = option_map (fun v => (k, v)) o).
Proof.
  intros V dup a m s k g Hd Hr H Hk. destruct (uses_gets_inv Hd Hr H) as [Hi _].
  destruct (@arch_get m dup V a g s k Hd Hr Hk Hi) as (s' & o & H1 & H2 & H3 & H4 & H5).
  destruct (law_take (arch_laws a Hd) s k Hi) as (s2 & o2 & T1 & T2 & T3 & T4 & T5).
  pose proof (law_contains (arch_laws a Hd) s k Hi) as Hc.
  exists s', o, s2, o2. split; auto. split; auto.
  assert (Hkeys : In k (keys (held a s)) <-> o <> None).
  { destruct o as [v|].
    - split; [discriminate|]. intros _. destruct H5 as (rest & P & _). eapply (in_keys_perm k (Permutation_sym P)). left; auto.
    - split; [intros Hx; tauto|intros Hx; congruence]. }
  split; [|split; [|split; [|split]]].
  - rewrite Hc. f_equal. destruct o; [apply has_key_in|apply has_key_not_in]; rewrite Hkeys; congruence.
  - rewrite Hkeys. destruct o; split; intros; try congruence; try (exfalso; tauto).
    all: try (intros Hx; congruence). exfalso. apply H0. discriminate.
  - destruct o2 as [[k' v]|].
    + destruct T5 as [-> P]. assert (Hx : In k (keys (held a s))) by (apply (in_keys_perm k P); left; auto).
      apply Hkeys in Hx. split; intros; congruence.
    + destruct T5 as [Hn _]. rewrite Hkeys in Hn. destruct o; split; intros; auto; try congruence.
      exfalso. apply Hn. discriminate.
  - intros v ->. destruct H5 as (rest & P & _). eapply Permutation_in; [symmetry; exact P|left; auto].
  - intros Ed. pose proof (law_unique (arch_laws a Hd) s Hi Ed) as Hu.
    destruct o2 as [[k' v]|], o as [w|]; cbn [option_map].
    + destruct T5 as [-> P]. destruct H5 as (rest & P2 & _). do 2 f_equal. apply (keys_unique (held a s) k); auto.
      * eapply Permutation_in; [exact P|left; auto].
      * eapply Permutation_in; [symmetry; exact P2|left; auto].
    + destruct T5 as [-> P]. exfalso. apply H5. apply (in_keys_perm k P). left; auto.
    + exfalso. apply T5. apply Hkeys. discriminate.
    + auto.
Qed.

(** C46: a write through get_mut (or a read, [g] the identity) rewrites that pair only, and later lookups see
    it; nothing is lost and the size does not move. *)
Theorem C46_write_visible_and_isolated : forall V (a : arch K V) m s k g s' v, get_ready a ->
  uses_gets false a s -> keeps_size m a g -> aget m a s k g = Ok (s', Some v) ->
  In (k, v) (held a s) /\ In (k, g v) (held a s') /\
  (forall k' w, k' <> k -> (In (k', w) (held a s') <-> In (k', w) (held a s))) /\
  Permutation (keys (held a s')) (keys (held a s)) /\
  size (block a) s' = size (block a) s /\ capacity (block a) s' = capacity (block a) s /\
  (exists s2, take (block a) s' k = Ok (s2, Some (k, g v))) /\
  (forall g2, keeps_size m a g2 -> exists s2, aget m a s' k g2 = Ok (s2, Some (g v))).
Proof.
  intros V a m s k g s' v Hr H Hk E. assert (Hd : false = true -> any_keys a = true) by discriminate.
  destruct (uses_gets_inv Hd Hr H) as [Hi _].
  assert (H' : uses_gets false a s') by (eapply ug_get; eauto).
  destruct (uses_gets_inv Hd Hr H') as [Hi' _].
  destruct (@arch_get m false V a g s k Hd Hr Hk Hi) as (s1 & o & H1 & H2 & H3 & H4 & H5). rewrite E in H1. injection H1 as <- <-.
  destruct H5 as (rest & P1 & P2).
  assert (I1 : In (k, v) (held a s)) by (eapply Permutation_in; [symmetry; exact P1|left; auto]).
  assert (I2 : In (k, g v) (held a s')) by (eapply Permutation_in; [symmetry; exact P2|left; auto]).
  pose proof (law_unique (arch_laws a Hd) s' Hi' eq_refl) as Hu.
  assert (Hx : In k (keys (held a s'))) by (eapply in_keys; eauto).
  split; auto. split; auto. split; [|split; [|split; [|split; [|split]]]]; auto.
  - intros k' w Hne. split; intros Hw.
    + apply (Permutation_in _ P2) in Hw. destruct Hw as [Hw|Hw]; [congruence|].
      eapply Permutation_in; [symmetry; exact P1|right; auto].
    + apply (Permutation_in _ P1) in Hw. destruct Hw as [Hw|Hw]; [congruence|].
      eapply Permutation_in; [symmetry; exact P2|right; auto].
  - exact (rewritten_keys P1 P2).
  - destruct (law_take (arch_laws a Hd) s' k Hi') as (s2 & o2 & T1 & T2 & T3 & T4 & T5).
    destruct o2 as [[k' w]|]; [|tauto]. destruct T5 as [-> P]. exists s2. rewrite T1. do 3 f_equal. f_equal.
    apply (keys_unique (held a s') k); auto. eapply Permutation_in; [exact P|left; auto].
  - intros g2 Hk2. destruct (@arch_get m false V a g2 s' k Hd Hr Hk2 Hi') as (s2 & o2 & T1 & T2 & T3 & T4 & T5).
    destruct o2 as [w|]; [|tauto]. destruct T5 as (rest2 & P & _). exists s2. rewrite T1. do 3 f_equal.
    apply (keys_unique (held a s') k); auto. eapply Permutation_in; [symmetry; exact P|left; auto].
Qed.
(** Whatever keys are stored, a guard rewrites one pair and keeps all others; an absent key changes nothing. *)
Theorem C46_any_keys : forall V dup (a : arch K V) m s k g, (dup = true -> any_keys a = true) -> get_ready a ->
  uses_gets dup a s -> keeps_size m a g ->
  exists s' o, aget m a s k g = Ok (s', o) /\ size (block a) s' = size (block a) s /\
    match o with
    | Some v => exists rest, Permutation (held a s) ((k, v) :: rest) /\ Permutation (held a s') ((k, g v) :: rest)
    | None => ~ In k (keys (held a s)) /\ Permutation (held a s') (held a s)
    end.
Proof.
  intros V dup a m s k g Hd Hr H Hk. destruct (uses_gets_inv Hd Hr H) as [Hi _].
  destruct (@arch_get m dup V a g s k Hd Hr Hk Hi) as (s1 & o & H1 & H2 & H3 & H4 & H5). eauto 6.
Qed.
(** The size of an Array stays the exact sum through reads and writes. *)
Theorem C46_array_size_exact : forall V {OV : Ord V} srt bs cap esz dup s,
  uses_gets dup (@AArray K OK V OV srt bs cap esz) s ->
  size (block (AArray srt bs cap esz)) s = sum_sz esz (held (AArray srt bs cap esz) s).
Proof.
  intros V OV srt bs cap esz dup s H. destruct (@uses_gets_inv V dup (AArray srt bs cap esz) s) as [[[[Ht _] HE] _] _]; auto.
  { exact I. } cbn. unfold a_size. rewrite Ht, HE. auto.
Qed.
Theorem C46_btree_size_exact : forall V {OV : Ord V} cap esz s, (forall kv, 0 < esz kv) ->
  uses_gets false (@ABTree K OK V OV cap esz) s ->
  size (block (ABTree OV cap esz)) s = sum_sz esz (held (ABTree OV cap esz) s).
Proof.
  intros V OV cap esz s Hp H. destruct (@uses_gets_inv V false (ABTree OV cap esz) s) as [(_ & _ & Ht & _) _]; auto.
Qed.

(** C13: get and get_mut of an Exclusive of any two architectures counting elements by one, with a front able
    to hold one: a held key shows its value and ends up in the front; nothing else changes; no panic. *)
Theorem C13_exclusive_get : forall V dup bs (l r : arch K V) m s k g,
  (dup = true -> any_keys (AExclusive bs l r) = true) ->
  unit_arch l -> unit_arch r -> 1 <= leaves_capacity l -> get_ready l ->
  uses_gets dup (AExclusive bs l r) s ->
  exists s' o, aget m (AExclusive bs l r) s k g = Ok (s', o) /\
    match o with
    | Some v => In (k, g v) (held l (fst s')) /\
        exists rest, Permutation (held (AExclusive bs l r) s) ((k, v) :: rest) /\
                     Permutation (held (AExclusive bs l r) s') ((k, g v) :: rest)
    | None => ~ In k (keys (held (AExclusive bs l r) s)) /\
        Permutation (held (AExclusive bs l r) s') (held (AExclusive bs l r) s)
    end.
Proof.
  intros V dup bs l r m s k g Hd Ul Ur Hc Hr H.
  assert (Hk : keeps_size m l g) by (apply unit_keeps_size; auto).
  assert (Hl : dup = true -> any_keys l = true) by (intros E; destruct (any_keys_excl _ _ _ (Hd E)); auto).
  assert (Hr' : dup = true -> any_keys r = true) by (intros E; destruct (any_keys_excl _ _ _ (Hd E)); auto).
  destruct (@uses_gets_inv V dup (AExclusive bs l r) s) as [Hi _]; auto. { cbn; auto. }
  destruct (@ex_get_spec K V OK EK (block l) (block r) _ _ (held l) (held r) dup _ _ _ _
      (laws_cap (capacity (block l) (init l)) (arch_laws l Hl)) (arch_laws r Hr') (unit_and (arch_unit _ Hl Ul) _) (arch_unit _ Hr' Ur)
      (aget m l) s k g) as (s' & o & H1 & H2 & H3 & H4 & H5); auto.
  + intros x [_ ->]. rewrite init_capacity. auto.
  + intros x [Hx Hcx]. destruct (@arch_get m dup V l g x k Hl Hr Hk Hx) as (s' & o & H1 & H2 & H3 & H4 & H5).
    exists s', o. repeat split; auto. congruence.
  + exists s', o. split; [exact H1|]. destruct o; [destruct H5; auto|exact H5].
Qed.

(** C25: through a Decorator, get shows the value last written under the key, and what is written is the value
    itself, whatever the decoration does on access. *)
Theorem C25_decorator_get : forall V D (F : Factory V D) f0 dup (a : arch K D) m s k g,
  (dup = true -> any_keys a = true) -> get_ready a -> uses_gets dup (ADecorator F f0 a) s ->
  keeps_size m (ADecorator F f0 a) g ->
  exists s' o, aget m (ADecorator F f0 a) s k g = Ok (s', o) /\
    match o with
    | Some v => exists rest, Permutation (held (ADecorator F f0 a) s) ((k, v) :: rest) /\
                             Permutation (held (ADecorator F f0 a) s') ((k, g v) :: rest)
    | None => ~ In k (keys (held a (snd s))) /\ Permutation (held (ADecorator F f0 a) s') (held (ADecorator F f0 a) s)
    end.
Proof.
  intros V D F f0 dup a m s k g Hd Hr H Hk.
  destruct (@C46_any_keys V dup (ADecorator F f0 a) m s k g Hd Hr H Hk) as (s' & o & H1 & _ & H2).
  exists s', o. split; [exact H1|]. destruct o; auto. destruct H2 as [H2 H3]. split; auto.
  cbn [held] in H2. rewrite keys_unwrap in H2. auto.
Qed.
End PGet.

(** ** Where the English claims are false of the code *)
Definition arr (cap : nat) (esz : nat * nat -> nat) : arch nat nat := AArray (std_sorter snd) linear_bs cap esz.
Definition one : nat * nat -> nat := fun _ => 1.
Definition val : nat * nat -> nat := snd.

(** C13, a front without capacity: the key is held, yet get shows nothing. *)
Theorem C13_front_capacity_0_refuted : let a := AExclusive linear_bs (arr 0 one) (arr 1 one) in
  exists s, run (block a) (init a) [OpPush [(1, 7)]] = Ok (s, []) /\ contains (block a) s 1 = Ok true /\
    exists s', aget false a s 1 (fun v => v) = Ok (s', None).
Proof. cbn zeta. eexists. split; [vm_compute; reflexivity|]. split; [vm_compute; reflexivity|]. eexists. vm_compute. reflexivity. Qed.

(** C13, elements of different sizes (here an element weighs its value): promoting a small element evicts a
    larger one from the front, the back cannot hold it, and get panics. *)
Theorem C13_variable_sizes_refuted : let a := AExclusive linear_bs (arr 2 val) (arr 1 val) in
  exists s, run (block a) (init a) [OpPush [(1, 1)]; OpPush [(2, 2)]] = Ok (s, []) /\
    contains (block a) s 1 = Ok true /\ aget false a s 1 (fun v => v) = Panic.
Proof. cbn zeta. eexists. split; [vm_compute; reflexivity|]. split; vm_compute; reflexivity. Qed.

(** C13, an Associative in the back: the evicted element may go to a full set, and get panics although the
    sizes are all one and the back has room. *)
Theorem C13_associative_back_refuted :
  let a := AExclusive linear_bs (arr 1 one) (AAssociative N.of_nat 1 (fun _ => arr 1 one)) in
  exists s, run (block a) (init a) [OpPush [(0, 0)]; OpPush [(1, 1)]; OpPush [(2, 2)]] = Ok (s, []) /\
    contains (block a) s 1 = Ok true /\ aget false a s 1 (fun v => v) = Panic.
Proof. cbn zeta. eexists. split; [vm_compute; reflexivity|]. split; vm_compute; reflexivity. Qed.

(** C46, a write changing the size of an element of an Array: size() is wrong from then on, and taking the
    element panics on the size underflow. *)
Theorem C46_array_size_change_refuted : let a := arr 10 val in
  exists s s', run (block a) (init a) [OpPush [(1, 1)]] = Ok (s, []) /\
    aget true a s 1 (fun _ => 5) = Ok (s', Some 1) /\ held a s' = [(1, 5)] /\ size (block a) s' = 1 /\
    take (block a) s' 1 = Panic.
Proof. cbn zeta. eexists _, _. split; [vm_compute; reflexivity|]. split; [vm_compute; reflexivity|]. repeat split; vm_compute; reflexivity. Qed.
(** C46, BTree: a write growing an element beyond the room panics when the guard is dropped. *)
Theorem C46_btree_grow_refuted : let a := @ABTree nat _ nat _ 10 val in
  exists s, run (block a) (init a) [OpPush [(1, 1); (2, 6)]] = Ok (s, []) /\ aget true a s 1 (fun _ => 5) = Panic.
Proof. cbn zeta. eexists. split; vm_compute; reflexivity. Qed.
(** C46, BTree with an element of size zero beside one as large as the capacity: reading the latter panics. *)
Theorem C46_btree_size_0_refuted : let a := @ABTree nat _ nat _ 10 val in
  exists s, run (block a) (init a) [OpPush [(1, 10)]; OpPush [(2, 0)]] = Ok (s, []) /\
    aget false a s 1 (fun v => v) = Panic.
Proof. cbn zeta. eexists. split; vm_compute; reflexivity. Qed.

(** ** The hypotheses are met by non-trivial architectures *)
Definition tower : arch nat nat :=
  AProfiler (AExclusive linear_bs (ABatch 2 (fun _ => arr 1 one))
    (AFlushStopper (AExclusive linear_bs (@ABTree nat _ nat _ 2 one) (arr 3 one)))).
Example tower_ready : get_ready tower /\ unit_arch tower /\ leaves_capacity tower = 7.
Proof. cbn. repeat split; auto; try lia; intros; reflexivity. Qed.
Example tower_used : exists s1 s2 s3, run (block tower) (init tower) [OpPush [(1, 10); (2, 20); (3, 30); (4, 40)]] = Ok (s1, []) /\
  uses_gets false tower s1 /\
  aget true tower s1 4 (fun v => v + 1) = Ok (s2, Some 40) /\ uses_gets false tower s2 /\
  aget false tower s2 4 (fun v => v) = Ok (s3, Some 41) /\ In (4, 41) (held (ABatch 2 (fun _ => arr 1 one)) (fst (snd s3))).
Proof.
  eexists _, _, _. split; [vm_compute; reflexivity|].
  split; [eapply (ug_call (OpPush [(1, 10); (2, 20); (3, 30); (4, 40)])); [apply ug_start| |vm_compute; reflexivity]|].
  { intros _. cbn. repeat constructor; cbn; intuition discriminate. }
  split; [vm_compute; reflexivity|].
  split; [|split; [vm_compute; reflexivity|]].
  - eapply (ug_get true 4 (fun v => v + 1)); [eapply (ug_call (OpPush [(1, 10); (2, 20); (3, 30); (4, 40)])); [apply ug_start| |vm_compute; reflexivity]| |vm_compute; reflexivity].
    + intros _. cbn. repeat constructor; cbn; intuition discriminate.
    + apply unit_keeps_size. apply tower_ready.
  - vm_compute. auto.
Qed.

Print Assumptions arch_get.
Print Assumptions C05_get_agrees.
Print Assumptions C46_write_visible_and_isolated.
Print Assumptions C13_exclusive_get.
Print Assumptions C25_decorator_get.

