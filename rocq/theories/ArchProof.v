(** ArchProof.v -- the contract holds for every architecture, by induction on its tree. *)
From Coq Require Import NArith.
From Verif Require Import Base PermSolve Block Spec LawsProof Cut Array ArrayProof BTree BTreeProof
  Batch BatchProof Exclusive ExclusiveProof Wrappers WrappersProof Associative AssociativeProof TmLen Stream Compressed CompressedProof Arch.
From Verif Require PCompressed.
Set Implicit Arguments.

Lemma laws_flags {K V} {OK : Ord K} (B : Block K V) Inv ct d p p' e e' :
  Laws B Inv ct d p e -> (p' = true -> p = true) -> (e' = true -> e = true) -> Laws B Inv ct d p' e'.
Proof.
  intros [H1 H2 H3 H4 H5 H6 H7 H8 H9] Hp He. constructor; auto.
  intros s H. destruct (H9 s H) as (s' & out & G1 & G2 & G3 & G4 & G5). exists s', out. repeat split; auto.
Qed.
Lemma laws_false {K V} {OK : Ord K} (B : Block K V) ct d p e : Laws B (fun _ => False) ct d p e.
Proof. constructor; intros; contradiction. Qed.

Lemma negb_existsb_in (p : nat -> bool) l i : negb (existsb p l) = true -> In i l -> negb (p i) = true.
Proof.
  intros H Hi. apply negb_true_iff in H. apply negb_true_iff. destruct (p i) eqn:E; auto.
  rewrite <- H. symmetry. apply existsb_exists. eauto.
Qed.

Section ArchProof.
Context {K : Type} {OK : Ord K} {EK : OrdEq K}.

(** Reachable states.  [dup = false]: the user respects the discipline, keys are unique. *)
Fixpoint ainv {V : Type} (dup : bool) (a : arch K V) : St (block a) -> Prop :=
  match a in arch _ V return St (block a) -> Prop with
  | AArray srt bs _ esz => inv_u (ArrayB srt bs) (@a_inv_e K _ esz) (@a_vals K _) dup
  | ABTree _ _ esz => b_inv esz
  | ABatch n f =>
      @bt_inv K _ (SumB (fun i => block (f i)))
             (fun c => (if projT1 c <? n then ainv dup (f (projT1 c)) else fun _ => False) (projT2 c))
             (fun c => held (f (projT1 c)) (projT2 c)) dup
  | AExclusive _ l r => @ex_inv K _ (block l) (block r)
      (fun s => ainv dup l s /\ capacity (block l) s = capacity (block l) (init l)) (ainv dup r) (held l) (held r) dup
  | AFlushStopper a => ainv dup a
  | ASequential a => ainv dup a
  | ADyn a => ainv dup a
  | AProfiler a => fun s => ainv dup a (snd s)
  | ADecorator _ _ a => fun s => ainv dup a (snd s)
  | AAssociative hash n f =>
      @as_inv K _ hash (SumB (fun i => block (f i)))
             (fun c => (if projT1 c <? S n then ainv dup (f (projT1 c)) else fun _ => False) (projT2 c))
             (fun c => held (f (projT1 c)) (projT2 c)) dup
  | ACompressed L C _ _ _ => PCompressed.inv L C dup
  | ARemote a => ainv dup a
  end.

Lemma laws_ct {V} (B : Block K V) Inv ct ct' d p e : (forall s, ct s = ct' s) -> Laws B Inv ct d p e -> Laws B Inv ct' d p e.
Proof.
  intros E [H1 H2 H3 H4 H5 H6 H7 H8 H9]. constructor; auto.
  - intros s Hi Ec. apply H2; auto. rewrite E. auto.
  - intros s Hi Ed. rewrite <- E. auto.
  - intros s k Hi. rewrite <- E. auto.
  - intros s k Hi. destruct (H5 s k Hi) as (s' & o & G1 & G2 & G3 & G4 & G5). exists s', o. rewrite <- !E. auto.
  - intros s ks Hi. destruct (H6 s ks Hi) as (s' & ks' & out & G1 & G2 & G3 & G4 & G5 & G6 & G7 & G8). exists s', ks', out.
    rewrite <- !E. repeat split; auto.
  - intros s vs Hi Hm. destruct (H7 s vs Hi) as (s' & out & G1 & G2 & G3 & G4).
    { intros Ed. rewrite E. apply Hm; auto. }
    exists s', out. rewrite <- !E. auto.
  - intros Ep s n Hi. destruct (H8 Ep s n Hi) as (s' & out & G). exists s', out. rewrite <- !E. auto.
  - intros s Hi. destruct (H9 s Hi) as (s' & out & G). exists s', out. rewrite <- !E. auto.
Qed.
Lemma compressed_held {V} (L : Lz) (C : VCodec (K * V)) (s : compressed VecStream) :
  c_ct L C s = match c_read L C s with Some l => l | None => [] end.
Proof.
  unfold c_ct, c_read. rewrite read_bytes_ok. destruct (unlz L (c_w s)) as [[|z b]|]; auto.
Qed.
Lemma compressed_laws {V} {OV : Ord V} (L : Lz) (C : VCodec (K * V)) srt bs :
  Laws (CompressedB VecStream L C srt bs) (PCompressed.inv L C false) (fun s => match c_read L C s with Some l => l | None => [] end)
    false true true.
Proof. refine (@laws_ct V (CompressedB VecStream L C srt bs) _ (c_ct L C) _ _ _ _ (fun s => compressed_held L C s) (PCompressed.C39_laws L C srt bs)). Qed.

(** The family of the components of a Batch or Associative. *)
Lemma family_laws {V} dup p e n (f : nat -> arch K V) :
  (forall i, i < n -> Laws (block (f i)) (ainv dup (f i)) (held (f i)) dup p e) ->
  Laws (SumB (fun i => block (f i)))
       (fun c => (if projT1 c <? n then ainv dup (f (projT1 c)) else fun _ => False) (projT2 c))
       (fun c => held (f (projT1 c)) (projT2 c)) dup p e.
Proof.
  intros H. apply (@sum_laws K V nat OK (fun i => block (f i))
    (fun i => if i <? n then ainv dup (f i) else fun _ => False) (fun i => held (f i)) dup p e).
  intros i. destruct (i <? n) eqn:E; [|apply laws_false]. apply Nat.ltb_lt in E. auto.
Qed.
Lemma family_tm_len {V} dup strict n (f : nat -> arch K V) :
  (forall i, i < n -> tm_len (block (f i)) (ainv dup (f i)) strict) ->
  tm_len (SumB (fun i => block (f i)))
       (fun c => (if projT1 c <? n then ainv dup (f (projT1 c)) else fun _ => False) (projT2 c)) strict.
Proof.
  intros H. apply (@sum_tm_len K V nat (fun i => block (f i))
    (fun i => if i <? n then ainv dup (f i) else fun _ => False) strict).
  intros i. destruct (i <? n) eqn:E; [|intros ? ? ? ? ? []]. apply Nat.ltb_lt in E. auto.
Qed.
Lemma in_seq0 i n : i < n -> In i (seq 0 n). Proof. intros. apply in_seq. lia. Qed.

(** Without type-erased containers, take_multiple uses up one requested key per pair returned. *)
Lemma arch_tm_len dup {V} (a : arch K V) :
  (dup = true -> needs_new_keys a = false) -> has_dyn a = false -> dup = true ->
  tm_len (block a) (ainv dup a) true.
Proof.
  intros Hb Hd Ed. specialize (Hb Ed).
  induction a as [V OV srt bs cap esz|V OV cap esz|V n f IH|V bs l IHl r IHr|V a IH|V a IH|V a IH|V a IH|V D F f0 a IH|V hash n f IH|V OV L C srt bs cap|V a IH];
    cbn [needs_new_keys has_dyn block ainv] in *; try discriminate.
  - intros s ks s' ks' out [[H _] _] E. eapply array_tm_len; eauto.
  - apply batch_tm_len, family_tm_len. intros i Hi. apply IH.
    + apply negb_true_iff. apply (negb_existsb_in (fun i => needs_new_keys (f i)) (seq 0 n)); [rewrite Hb; auto|apply in_seq0; auto].
    + apply negb_true_iff. apply (negb_existsb_in (fun i => has_dyn (f i)) (seq 0 n)); [rewrite Hd; auto|apply in_seq0; auto].
  - apply orb_false_iff in Hb. apply orb_false_iff in Hd. apply exclusive_tm_len; [intros s ks s' ks' out [H _]; apply IHl; tauto|apply IHr; tauto].
  - apply IH; auto.
  - apply IH; auto.
  - apply profiler_tm_len. apply IH; auto.
  - apply (@decorator_tm_len K V D F (block a) (ainv dup a) true). apply IH; auto.
  - apply associative_tm_len, family_tm_len. intros i Hi. apply IH.
    + apply negb_true_iff. apply (negb_existsb_in (fun i => needs_new_keys (f i)) (seq 0 (S n))); [rewrite Hb; auto|apply in_seq0; auto].
    + apply negb_true_iff. apply (negb_existsb_in (fun i => has_dyn (f i)) (seq 0 (S n))); [rewrite Hd; auto|apply in_seq0; auto].
Qed.

Theorem arch_laws dup {V} (a : arch K V) : (dup = true -> any_keys a = true) ->
  Laws (block a) (ainv dup a) (held a) dup (negb (has_associative a)) (negb (has_stopper a)).
Proof.
  unfold any_keys.
  induction a as [V OV srt bs cap esz|V OV cap esz|V n f IH|V bs l IHl r IHr|V a IH|V a IH|V a IH|V a IH|V D F f0 a IH|V hash n f IH|V OV L C srt bs cap|V a IH];
    cbn [needs_new_keys has_associative has_stopper profiled_dyn block ainv]; intros Hd.
  - eapply laws_weaken; [apply array_laws_e| | |]; auto; discriminate.
  - destruct dup; [specialize (Hd eq_refl); discriminate|]. apply btree_laws.
  - apply batch_laws, family_laws. intros i Hi.
    eapply laws_flags; [apply IH| |].
    + intros E. specialize (Hd E). apply andb_prop in Hd. destruct Hd as [Hd1 Hd2].
      rewrite (negb_existsb_in (fun i => needs_new_keys (f i)) (seq 0 n) i Hd1 (in_seq0 Hi)).
      rewrite (negb_existsb_in (fun i => profiled_dyn (f i)) (seq 0 n) i Hd2 (in_seq0 Hi)). auto.
    + intros E. apply (negb_existsb_in (fun i => has_associative (f i)) (seq 0 n) i E (in_seq0 Hi)).
    + intros E. apply (negb_existsb_in (fun i => has_stopper (f i)) (seq 0 n) i E (in_seq0 Hi)).
  - rewrite !negb_orb. apply exclusive_laws; [apply laws_cap, IHl|apply IHr]; intros E; specialize (Hd E);
      rewrite !negb_orb in Hd; repeat (apply andb_prop in Hd; destruct Hd as [Hd ?]);
      repeat match goal with H : _ && _ = true |- _ => apply andb_prop in H; destruct H end; rewrite ?H, ?H0, ?H1, ?Hd; auto.
  - eapply laws_flags; [eapply flush_stopper_laws; apply IH; auto| |]; auto; discriminate.
  - apply sequential_laws. auto.
  - apply dyn_laws. auto.
  - specialize (IH ltac:(intros E; specialize (Hd E); rewrite negb_orb in Hd;
      repeat (apply andb_prop in Hd; destruct Hd as [Hd ?]);
      repeat match goal with H : _ && _ = true |- _ => apply andb_prop in H; destruct H end; rewrite ?H, ?H0, ?H1, ?Hd; auto)).
    apply (profiler_laws IH). destruct dup.
    + eapply tm_len_weak. specialize (Hd eq_refl). rewrite negb_orb in Hd.
      apply andb_prop in Hd. destruct Hd as [Hd1 Hd2]. apply andb_prop in Hd2. destruct Hd2 as [Hd2 Hd3].
      apply arch_tm_len; auto; intros; apply negb_true_iff; auto.
    + eapply unique_tm_len; eauto.
  - apply decorator_laws. auto.
  - assert (FL := @family_laws V dup false (negb (existsb (fun i => has_stopper (f i)) (seq 0 (S n)))) (S n) f).
    eapply laws_flags with (p := false); [refine (associative_laws hash (FL _))|discriminate|auto].
    intros i Hi. eapply laws_flags; [apply IH|discriminate|].
    + intros E. specialize (Hd E). apply andb_prop in Hd. destruct Hd as [Hd1 Hd2].
      rewrite (negb_existsb_in (fun i => needs_new_keys (f i)) (seq 0 (S n)) i Hd1 (in_seq0 Hi)).
      rewrite (negb_existsb_in (fun i => profiled_dyn (f i)) (seq 0 (S n)) i Hd2 (in_seq0 Hi)). auto.
    + intros E. apply (negb_existsb_in (fun i => has_stopper (f i)) (seq 0 (S n)) i E (in_seq0 Hi)).
  - destruct dup; [specialize (Hd eq_refl); discriminate|]. apply compressed_laws.
  - apply remote_laws. auto.
Qed.

Lemma flat_map_map_nil {X Y Z} (g : X -> Y) (h : Y -> list Z) l :
  (forall x, In x l -> h (g x) = []) -> flat_map h (map g l) = [].
Proof.
  induction l as [|x l IH]; cbn; auto. intros H. rewrite H by (left; auto). apply IH. intros; apply H; right; auto.
Qed.

(** A new container is reachable and empty. *)
Lemma init_ok dup {V} (a : arch K V) : ainv dup a (init a) /\ held a (init a) = [].
Proof.
  induction a as [V OV srt bs cap esz|V OV cap esz|V n f IH|V bs l IHl r IHr|V a IH|V a IH|V a IH|V a IH|V D F f0 a IH|V hash n f IH|V OV L C srt bs cap|V a IH];
    cbn [ainv init held]; auto.
  - split; [|reflexivity]. split; [split; [apply array_new_inv|reflexivity]|]. intros _. constructor.
  - apply btree_new_inv.
  - assert (Hh : flat_map (fun c : {i : nat & St (block (f i))} => held (f (projT1 c)) (projT2 c))
        (map (fun i => existT (fun i => St (block (f i))) i (init (f i))) (seq 0 n)) = []).
    { apply flat_map_map_nil. intros i _. apply IH. }
    split; [|exact Hh]. split; [|intros _; match goal with |- NoDup (keys ?l) => replace l with (@nil (K * V)) by (symmetry; exact Hh) end; constructor].
    apply Forall_forall. intros c Hc. apply in_map_iff in Hc. destruct Hc as (i & <- & Hi). apply in_seq in Hi.
    cbn [projT1 projT2]. replace (i <? n) with true by (symmetry; apply Nat.ltb_lt; lia). apply IH.
  - destruct IHl as [L1 L2], IHr as [R1 R2]. cbn [fst snd]. rewrite L2, R2. split; auto.
    unfold ex_inv, ex_ct; cbn [fst snd]. rewrite L2, R2. repeat split; auto. intros _. constructor.
  - destruct IH as [H1 H2]. cbn [snd]. rewrite H2. auto.
  - assert (Hh : flat_map (fun c : {i : nat & St (block (f i))} => held (f (projT1 c)) (projT2 c))
        (map (fun i => existT (fun i => St (block (f i))) i (init (f i))) (seq 0 (S n))) = []).
    { apply flat_map_map_nil. intros i _. apply IH. }
    split; [|exact Hh]. split; [rewrite map_length, seq_length; lia|]. split; [|split].
    + apply Forall_forall. intros c Hc. apply in_map_iff in Hc. destruct Hc as (i & <- & Hi). apply in_seq in Hi.
      cbn [projT1 projT2]. replace (i <? S n) with true by (symmetry; apply Nat.ltb_lt; lia). apply IH.
    + match goal with |- placed ?g _ _ => generalize g end. intros idx.
      generalize (seq 0 (S n)). generalize 0. intros j l. revert j.
      induction l as [|x l IHl]; intros j; cbn [map ckeys placed]; auto. split; [|apply IHl].
      intros k Hk. exfalso. change (In k (keys (held (f x) (init (f x))))) in Hk. rewrite (proj2 (IH x)) in Hk. exact Hk.
    + intros _. match goal with |- NoDup (keys ?l) => replace l with (@nil (K * V)) by (symmetry; exact Hh) end. constructor.
  - split; [apply PCompressed.new_inv|]. rewrite <- compressed_held. apply (@c_rep_ct L K V C _ []). reflexivity.
Qed.
End ArchProof.
