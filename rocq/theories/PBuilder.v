(** PBuilder.v -- property theorems: C52, builders and the configurations made from them agree; and C43 for every
    configuration. *)
From Coq Require Import String ZArith QArith NArith Init.Byte.
From Verif Require Import Base Block Array BTree Batch Exclusive Wrappers Associative Stream IOVec ByteStream Compressed PCompressed PByteStream
  Arch Decorations Hasher PHasher Config PConfig Sim SimProof PSim Builder.
Set Implicit Arguments.
Local Open Scope string_scope.
Local Open Scope list_scope.
Local Open Scope nat_scope.

(** ** Specification *)
(** Two containers that answer every sequence of calls the same ([tm = false]: without take_multiple). *)
Definition alike_machines (tm : bool) {K V} (m m' : machine K V) : Prop :=
  same_answers tm (m_block m) (m_block m') (m_state m) (m_state m').

(** The components of a builder. *)
Inductive component {K} : builder K -> builder K -> Prop :=
| in_self b : component b b
| in_associative b kh sh n b' : component b b' -> component b (BAssociative kh sh n b')
| in_exclusive_front b f r : component b f -> component b (BExclusive f r)
| in_exclusive_back b f r : component b r -> component b (BExclusive f r)
| in_inclusive_front b f r : component b f -> component b (BInclusive f r)
| in_inclusive_back b f r : component b r -> component b (BInclusive f r)
| in_flush_stopper b b' : component b b' -> component b (BFlushStopper b')
| in_profiler b b' : component b b' -> component b (BProfiler b')
| in_sequential b b' : component b b' -> component b (BSequential b')
| in_decorator b d b' : component b b' -> component b (BDecorator d b').
(** Those the configurations do not know: decorators, Inclusive, and clients of invalid addresses. *)
Inductive refused {K} (address_ok : string -> bool) : builder K -> Prop :=
| refused_decorator d b : refused address_ok (BDecorator d b)
| refused_inclusive f r : refused address_ok (BInclusive f r)
| refused_address a : address_ok a = false -> refused address_ok (BSocket a).
Definition no_empty_sets {K} (b : builder K) : Prop := forall kh sh n b', component (BAssociative kh sh n b') b -> 0 < n.

(** Builders the configurations reproduce: no container on byte streams, no decorator and no Inclusive, and every
    Associative made by AssociativeBuilder::new (or into_associative) with the standard hasher and a number of sets
    that is a power of two. *)
Inductive plain {K} (hash : K -> N) (address_ok : string -> bool) : builder K -> Prop :=
| plain_array cap : plain hash address_ok (BArray cap)
| plain_btree cap : plain hash address_ok (BBTree cap)
| plain_socket a : address_ok a = true -> plain hash address_ok (BSocket a)
| plain_associative p b : p < 63 -> plain hash address_ok b -> plain hash address_ok (associative_new b hash (2 ^ p))
| plain_exclusive f r : plain hash address_ok f -> plain hash address_ok r -> plain hash address_ok (BExclusive f r)
| plain_flush_stopper b : plain hash address_ok b -> plain hash address_ok (BFlushStopper b)
| plain_profiler b : plain hash address_ok b -> plain hash address_ok (BProfiler b)
| plain_sequential b : plain hash address_ok b -> plain hash address_ok (BSequential b).

(** The capacity a configuration describes, given those of the servers. *)
Fixpoint capacity_with (served : string -> nat) (c : config) : nat :=
  match c with
  | CArray n | CBTree n | CCompressed _ n | CStream n => n
  | CSocket a => served a
  | CBatch l | CAssociative l => list_sum (map (capacity_with served) l)
  | CExclusive f b => capacity_with served f + capacity_with served b
  | CFlushStopper c | CProfiler c | CSequential c => capacity_with served c
  end.

(** ** Proofs *)
Section Congruence.
Context {K V : Type} {OK : Ord K}.
Implicit Types m : machine K V.
Lemma am_refl tm m : alike_machines tm m m.
Proof. apply same_refl. Qed.
Lemma am_sym tm m m' : alike_machines tm m m' -> alike_machines tm m' m.
Proof. apply same_sym. Qed.
Lemma am_trans tm m m' m'' : alike_machines tm m m' -> alike_machines tm m' m'' -> alike_machines tm m m''.
Proof. apply same_trans. Qed.
Lemma am_weaken tm m m' : alike_machines tm m m' -> alike_machines false m m'.
Proof. apply same_weaken. Qed.
Lemma am_dyn tm m m' : alike_machines false m m' -> alike_machines tm (m_dyn m) (m_dyn m').
Proof. intros H. eapply sim_same; [cbn [m_dyn m_block]; eapply sim_dyn; apply same_sim|]. exact H. Qed.
Lemma am_dyn_id m : alike_machines false (m_dyn m) m.
Proof.
  apply (@sim_same K V _ (DynB (m_block m)) (m_block m) (@eq (St (m_block m)))); [|reflexivity].
  constructor; cbn; intros; subst; auto; try discriminate;
  match goal with |- rel1 _ ?x ?x => destruct x as [[]|]; cbn; auto end.
Qed.
Lemma am_flush_stopper tm m m' : alike_machines tm m m' -> alike_machines tm (m_flush_stopper m) (m_flush_stopper m').
Proof. intros H. eapply sim_same; [cbn [m_flush_stopper m_block]; apply sim_flush_stopper; apply same_sim|]. exact H. Qed.
Lemma am_sequential tm m m' : alike_machines tm m m' -> alike_machines tm (m_sequential m) (m_sequential m').
Proof. intros H. eapply sim_same; [cbn [m_sequential m_block]; apply sim_sequential; apply same_sim|]. exact H. Qed.
Lemma am_profiler tm m m' : alike_machines tm m m' -> alike_machines tm (m_profiler m) (m_profiler m').
Proof. intros H. eapply sim_same; [cbn [m_profiler m_block]; apply sim_profiler; apply same_sim|]. cbn. auto. Qed.
Lemma am_exclusive bs tm (l l' r r' : machine K V) : alike_machines tm l l' -> alike_machines tm r r' ->
  alike_machines tm (m_exclusive bs l r) (m_exclusive bs l' r').
Proof. intros H H'. eapply sim_same; [cbn [m_exclusive m_block]; apply sim_exclusive; apply same_sim|]. cbn. auto. Qed.
Lemma am_many tm (f g : nat -> machine K V) (l : list nat) P : (forall i, In i l -> P i /\ alike_machines tm (f i) (g i)) ->
  Forall2 (@sum_rel K V nat P (fun i => m_block (f i)) (fun i => m_block (g i))
             (fun i => same_answers tm (m_block (f i)) (m_block (g i))))
    (map (fun i => existT (fun i => St (m_block (f i))) i (m_state (f i))) l)
    (map (fun i => existT (fun i => St (m_block (g i))) i (m_state (g i))) l).
Proof.
  induction l as [|i l IH]; cbn [map]; intros H; constructor.
  - exists i, (m_state (f i)), (m_state (g i)). destruct (H i (or_introl eq_refl)). auto.
  - apply IH. intros j Hj. apply H. right; auto.
Qed.
Lemma am_batch tm n (f g : nat -> machine K V) : (forall i, i < n -> alike_machines tm (f i) (g i)) ->
  alike_machines tm (m_batch n f) (m_batch n g).
Proof.
  intros H. eapply sim_same.
  - cbn [m_batch m_block]. apply sim_batch. apply sim_sum with (Pr := fun i => i < n). intros i Hi. apply same_sim.
  - cbn [m_batch m_state]. apply am_many. intros i Hi. apply in_seq in Hi. split; [lia|]. apply H. lia.
Qed.
Lemma am_associative tm n hash hash' (f g : nat -> machine K V) : (forall i, i < n -> alike_machines tm (f i) (g i)) ->
  (forall k, N.modulo (hash k) (N.of_nat n) = N.modulo (hash' k) (N.of_nat n)) ->
  alike_machines tm (m_associative hash n f) (m_associative hash' n g).
Proof.
  intros H HH. eapply sim_same.
  - cbn [m_associative m_block]. apply sim_associative with (n := n) (hash := hash) (hash' := hash'); [|exact HH].
    apply sim_sum with (Pr := fun i => i < n). intros i Hi. apply same_sim.
  - cbn [m_associative m_state]. split; [unfold m_many; rewrite map_length, seq_length; auto|].
    apply am_many. intros i Hi. apply in_seq in Hi. split; [lia|]. apply H. lia.
Qed.
End Congruence.
Lemma am_decorator {K V D} {OK : Ord K} tm (F : Factory V D) f0 (m m' : machine K D) :
  alike_machines tm m m' -> alike_machines tm (m_decorator F f0 m) (m_decorator F f0 m').
Proof. intros H. eapply sim_same; [cbn [m_decorator m_block]; apply sim_decorator; apply same_sim|]. cbn. auto. Qed.

(** *** Acceptance *)
Section Accept.
Context {K : Type}.
Variable address_ok : string -> bool.
Implicit Types b : builder K.
Fixpoint shape b : config :=
  match b with
  | BArray n => CArray n
  | BBTree n => CBTree n
  | BCompressed FVec n => CCompressed None n
  | BCompressed (FTemp f) n => CCompressed (Some f) n
  | BStream _ n => CStream n
  | BSocket a => CSocket a
  | BAssociative _ _ n b => CAssociative (repeat (shape b) n)
  | BExclusive f r | BInclusive f r => CExclusive (shape f) (shape r)
  | BFlushStopper b => CFlushStopper (shape b)
  | BProfiler b => CProfiler (shape b)
  | BSequential b => CSequential (shape b)
  | BDecorator _ b => shape b
  end.
Fixpoint accepts b : bool :=
  match b with
  | BSocket a => address_ok a
  | BAssociative _ _ _ b | BFlushStopper b | BProfiler b | BSequential b => accepts b
  | BExclusive f r => accepts f && accepts r
  | BInclusive _ _ | BDecorator _ _ => false
  | _ => true
  end.
Lemma repeat_forall2 {A B} (R : A -> B -> Prop) x y n : R x y -> Forall2 R (repeat x n) (repeat y n).
Proof. intros H. induction n; cbn; auto. Qed.
Lemma accepts_describes b : accepts b = true -> describes address_ok (as_toml b) (shape b).
Proof.
  induction b as [n|n|[|f] n|[|f] n|a|kh sh n b IH|f IHf r IHr|f IHf r IHr|b IH|b IH|b IH|d b IH]; cbn [accepts as_toml shape]; intros H; try discriminate.
  - apply d_array; reflexivity.
  - apply d_btree; reflexivity.
  - apply d_compressed; reflexivity.
  - apply d_compressed_file; reflexivity.
  - apply d_stream; reflexivity.
  - apply d_stream; reflexivity.
  - apply d_socket; auto; reflexivity.
  - eapply d_associative; [reflexivity|reflexivity|]. apply repeat_forall2. auto.
  - apply andb_prop in H as [H1 H2]. eapply d_exclusive; [reflexivity|reflexivity|auto|reflexivity|auto].
  - eapply d_flush_stopper; [reflexivity|reflexivity|auto].
  - eapply d_profiler; [reflexivity|reflexivity|auto].
  - eapply d_sequential; [reflexivity|reflexivity|auto].
Qed.
Lemma accepts_parse b : accepts b = true -> generic_from_toml address_ok (as_toml b) = Some (shape b).
Proof. intros H. apply C43_accepted_iff_described. apply accepts_describes. auto. Qed.
Lemma accepts_top b : accepts b = true -> builder_from_toml address_ok (as_toml b) = Some (shape b, DNone).
Proof.
  intros E. assert (P := accepts_parse b E). assert (ND : match b with BDecorator _ _ => False | _ => True end) by (destruct b; auto; discriminate).
  assert (Q : exists t, as_toml b = TTable t /\ look "decorator" t = None).
  { destruct b as [n|n|[|f] n|[|f] n|a|kh sh n b|f r|f r|b|b|b|d b]; cbn [as_toml]; try (eexists; split; reflexivity). tauto. }
  destruct Q as (t & Et & Q). rewrite Et in *. unfold builder_from_toml. rewrite Q. cbn [obind]. rewrite P. reflexivity.
Qed.
Lemma refused_false b : accepts b = false <-> exists b', component b' b /\ refused address_ok b'.
Proof.
  induction b as [n|n|f n|f n|a|kh sh n b IH|f IHf r IHr|f IHf r IHr|b IH|b IH|b IH|d b IH]; cbn [accepts].
  1-4: split; [discriminate|]; intros (b' & H & H'); inversion H; subst; inversion H'.
  - split; [intros H; exists (BSocket a); split; constructor; auto|]. intros (b' & H & H'); inversion H; subst; inversion H'; auto.
  - rewrite IH. split; intros (b' & H & H').
    + exists b'. split; auto. constructor. auto.
    + inversion H; subst; [inversion H'|]. eauto.
  - rewrite andb_false_iff, IHf, IHr. split.
    + intros [(b' & H & H')|(b' & H & H')]; exists b'; (split; [|auto]); [apply in_exclusive_front|apply in_exclusive_back]; auto.
    + intros (b' & H & H'). inversion H; subst; [inversion H'|left; eauto|right; eauto].
  - split; auto. intros _. exists (BInclusive f r). split; constructor.
  - rewrite IH. split; intros (b' & H & H').
    + exists b'. split; auto. constructor. auto.
    + inversion H; subst; [inversion H'|]. eauto.
  - rewrite IH. split; intros (b' & H & H').
    + exists b'. split; auto. constructor. auto.
    + inversion H; subst; [inversion H'|]. eauto.
  - rewrite IH. split; intros (b' & H & H').
    + exists b'. split; auto. constructor. auto.
    + inversion H; subst; [inversion H'|]. eauto.
  - split; auto. intros _. exists (BDecorator d b). split; constructor.
Qed.
Lemma none_empty_sub b b' : no_empty_sets b -> (forall x, component x b' -> component x b) -> no_empty_sets b'.
Proof. intros H Hs kh sh n x Hx. eapply H; eauto. Qed.
Lemma rejects b : no_empty_sets b -> accepts b = false -> forall c, ~ describes address_ok (as_toml b) c.
Proof.
  induction b as [n|n|f n|f n|a|kh sh n b IH|f IHf r IHr|f IHf r IHr|b IH|b IH|b IH|d b IH]; cbn [accepts as_toml]; intros NE H c D; try discriminate.
  - inversion D; subst; unfold has_id in *; cbn [look String.eqb Ascii.eqb Bool.eqb] in *; try discriminate. cbn in *. congruence.
  - assert (Hn : 0 < n) by (eapply NE; constructor). destruct n as [|n]; [lia|].
    inversion D; subst; unfold has_id in *; cbn in *; try discriminate.
    match goal with E : Some (TArr _) = Some (TArr _), F : Forall2 _ _ _ |- _ => injection E as <-; inversion F; subst end.
    eapply IH; eauto. eapply none_empty_sub; eauto. intros; constructor; auto.
  - inversion D; subst; unfold has_id in *; cbn in *; try discriminate.
    repeat match goal with E : Some (as_toml _) = Some _ |- _ => injection E as <- end.
    apply andb_false_iff in H. destruct H as [H|H].
    + eapply IHf; eauto. eapply none_empty_sub; eauto. intros; constructor; auto.
    + eapply IHr; eauto. eapply none_empty_sub; eauto. intros; apply in_exclusive_back; auto.
  - inversion D; subst; unfold has_id in *; cbn in *; discriminate.
  - inversion D; subst; unfold has_id in *; cbn in *; try discriminate.
    match goal with E : Some (as_toml _) = Some _ |- _ => injection E as <- end.
    eapply IH; eauto. eapply none_empty_sub; eauto. intros; constructor; auto.
  - inversion D; subst; unfold has_id in *; cbn in *; try discriminate.
    match goal with E : Some (as_toml _) = Some _ |- _ => injection E as <- end.
    eapply IH; eauto. eapply none_empty_sub; eauto. intros; constructor; auto.
  - inversion D; subst; unfold has_id in *; cbn in *; try discriminate.
    match goal with E : Some (as_toml _) = Some _ |- _ => injection E as <- end.
    eapply IH; eauto. eapply none_empty_sub; eauto. intros; constructor; auto.
  - inversion D; subst; unfold has_id in *; cbn in *; discriminate.
Qed.

(** C52, acceptance: ConfigBuilder accepts the configuration of a builder exactly when the builder has no decorator,
    no Inclusive and no client of an invalid address inside; then without decoration. *)
Theorem C52_accepted_iff_partial : forall b, no_empty_sets b ->
  ((exists c d, builder_from_toml address_ok (as_toml b) = Some (c, d)) <-> ~ exists b', component b' b /\ refused address_ok b') /\
  (forall c d, builder_from_toml address_ok (as_toml b) = Some (c, d) -> d = DNone).
Proof.
  intros b NE.
  assert (G : forall c d, builder_from_toml address_ok (as_toml b) = Some (c, d) -> describes address_ok (as_toml b) c).
  { intros c d H. apply (C43_builder_accepts address_ok) in H. tauto. }
  assert (S := accepts_top b).
  split.
  - split.
    + intros (c & d & H) R. apply refused_false in R. eapply rejects; eauto.
    + intros R. destruct (accepts b) eqn:E; [rewrite S by auto; eauto|]. exfalso. apply R. apply refused_false. auto.
  - intros c d H. destruct (accepts b) eqn:E; [rewrite S in H by auto; congruence|]. exfalso. eapply rejects; eauto.
Qed.
(** The configuration of a builder with a decorator or an Inclusive, at any depth, is rejected. *)
Theorem C52_decorators_rejected_refuted : forall d b,
  builder_from_toml address_ok (as_toml (BDecorator d b)) = None /\
  builder_from_toml address_ok (as_toml (BSequential (BDecorator d b))) = None /\
  (forall r, builder_from_toml address_ok (as_toml (BInclusive b r)) = None).
Proof.
  intros d b. split; [destruct d|split]; reflexivity.
Qed.
End Accept.

(** *** Building *)
Lemma map_repeat' {A B} (f : A -> B) x n : map f (repeat x n) = repeat (f x) n.
Proof. induction n; cbn; congruence. Qed.
Lemma pow2_mod (p : nat) (x : N) : (p < 63)%nat ->
  N.modulo (finish (eh_new (N.of_nat (2 ^ p))) x) (N.of_nat (2 ^ p)) = N.modulo x (N.of_nat (2 ^ p)).
Proof.
  intros Hp. assert (E : N.of_nat (2 ^ p) = (2 ^ N.of_nat p)%N).
  { clear Hp. induction p as [|p IH]; auto. rewrite Nat.pow_succ_r', Nat2N.inj_mul, IH, (Nat2N.inj_succ p), N.pow_succ_r'. auto. }
  rewrite E. set (q := N.of_nat p). assert (Hq : (q < 63)%N) by (unfold q; lia).
  assert (B : (2 ^ q < 2 ^ 64)%N) by (apply N.pow_lt_mono_r; lia).
  assert (W : width (2 ^ q) = (q + 1)%N) by (unfold width; rewrite N.log2_pow2; lia).
  rewrite (@finish_bits _ 0%N (2 ^ q)%N x (@eh_new_ok _ B)). unfold bits. rewrite W.
  rewrite N.pow_0_r, N.div_1_r. rewrite N.add_1_r, N.pow_succ_r', N.mul_comm.
  rewrite N.mod_mul_r by (try apply N.pow_nonzero; lia).
  rewrite (N.mul_comm (2 ^ q)%N), N.mod_add by (apply N.pow_nonzero; lia). apply N.mod_mod. apply N.pow_nonzero. lia.
Qed.

Section Agree.
Context {K : Type} {OK : Ord K}.
Variable bs : BSearch K.
Variable srt : forall V (OV : Ord V), Sorter (K * V) V snd.
Variable hash : K -> N.
Variable L : Lz.
Variable disk : string -> list byte.
Variable env_fifo : forall V, env K V -> env K (fifo_cell V).
Variable env_lru : forall V, env K V -> env K (lru_cell V).
Variable clock : nat -> nat.
Variable address_ok : string -> bool.
Notation assemble := (assemble bs srt hash L disk).
Notation b_assemble := (b_assemble bs srt L env_fifo env_lru clock).
Notation config_build := (config_build bs srt hash L disk env_fifo env_lru clock address_ok).

Lemma plain_accepts b : plain hash address_ok b -> accepts address_ok b = true.
Proof. induction 1; cbn [accepts associative_new]; auto. rewrite IHplain1, IHplain2. auto. Qed.
Lemma plain_same b : plain hash address_ok b -> forall V (OV : Ord V) (e : env K V),
  exists m, b_assemble e b = Some m /\ alike_machines true (assemble e (shape b)) (m_dyn m).
Proof.
  assert (D : forall V (x : machine K V) (y : machine K V), alike_machines true x (m_dyn y) -> alike_machines false x y).
  { intros V x y H. eapply am_trans; [eapply am_weaken; exact H|apply am_dyn_id]. }
  induction 1 as [n|n|a Ha|p b Hp Hb IH|f r Hf IHf Hr IHr|b Hb IH|b Hb IH|b Hb IH]; intros V OV e;
  unfold associative_new; cbn [shape]; cbn [Builder.b_assemble Builder.assemble].
  - eexists. split; [reflexivity|]. apply am_refl.
  - eexists. split; [reflexivity|]. apply am_refl.
  - eexists. split; [reflexivity|]. apply am_refl.
  - destruct (IH V OV e) as (m & -> & Hm). eexists. split; [reflexivity|]. apply am_dyn. rewrite repeat_length.
    apply am_associative.
    + intros i Hi. rewrite map_repeat'. rewrite (nth_indep _ _ (assemble e (shape b))) by (rewrite repeat_length; auto).
      rewrite nth_repeat. auto.
    + intros k. symmetry. apply pow2_mod. auto.
  - destruct (IHf V OV e) as (mf & -> & Hmf). destruct (IHr V OV e) as (mr & -> & Hmr). eexists. split; [reflexivity|].
    apply am_dyn. apply am_exclusive; auto.
  - destruct (IH V OV e) as (m & -> & Hm). eexists. split; [reflexivity|]. apply am_dyn. apply am_flush_stopper; auto.
  - destruct (IH V OV e) as (m & -> & Hm). eexists. split; [reflexivity|]. apply am_dyn. apply am_profiler; auto.
  - destruct (IH V OV e) as (m & -> & Hm). eexists. split; [reflexivity|]. apply am_dyn. apply am_sequential; auto.
Qed.

(** C52, behaviour: what ConfigBuilder builds from the configuration of a plain builder answers every sequence of
    calls as the type-erased container the builder builds (so, without take_multiple, as the container itself). *)
Theorem C52_same_container_partial : forall b, plain hash address_ok b -> forall V (OV : Ord V) (e : env K V),
  exists c m, builder_from_toml address_ok (as_toml b) = Some (c, DNone) /\ b_assemble e b = Some m /\
    alike_machines true (assemble e c) (m_dyn m) /\ alike_machines false (assemble e c) m.
Proof.
  intros b Hb V OV e. destruct (plain_same Hb OV e) as (m & E & H). exists (shape b), m.
  split; [|split; [auto|split; [auto|]]].
  - apply accepts_top. apply plain_accepts; auto.
  - eapply am_trans; [eapply am_weaken; exact H|apply am_dyn_id].
Qed.
(** The same through [as_config().build()], where a Fifo or Lru decorator is supported at the top. *)
Theorem C52_as_config_build_partial : forall b, plain hash address_ok b -> forall V (OV : Ord V) (e : env K V),
  (exists mc m, config_build e b = Ok (Some mc) /\ b_assemble e b = Some m /\ alike_machines true mc (m_dyn m)) /\
  (forall d, (d = BFifo \/ d = BLru) ->
   exists mc m, config_build e (BDecorator d b) = Ok (Some mc) /\ b_assemble e (BDecorator d b) = Some m /\
     alike_machines true mc (m_dyn m)).
Proof.
  intros b Hb V OV e. assert (A := accepts_parse address_ok b (plain_accepts Hb)). split.
  - destruct (plain_same Hb OV e) as (m & E & H). exists (assemble e (shape b)), m. split; [|auto].
    destruct Hb; unfold associative_new, Builder.config_build in *; rewrite A; reflexivity.
  - intros d Hd. unfold Builder.config_build. rewrite A. cbn [Builder.b_assemble].
    destruct Hd as [-> | ->]; cbn [decorate obind].
    + destruct (plain_same Hb fifo_ord (env_fifo e)) as (m & E & H). rewrite E. cbn [obind]. do 2 eexists. split; [reflexivity|]. split; [reflexivity|].
      apply am_dyn. apply am_decorator. eapply am_trans; [eapply am_weaken; exact H|apply am_dyn_id].
    + destruct (plain_same Hb lru_ord (env_lru e)) as (m & E & H). rewrite E. cbn [obind]. do 2 eexists. split; [reflexivity|]. split; [reflexivity|].
      apply am_dyn. apply am_decorator. eapply am_trans; [eapply am_weaken; exact H|apply am_dyn_id].
Qed.
(** ... and nowhere else: [as_config().build()] panics when a decorator or an Inclusive is inside. *)
Theorem C52_nested_decorator_panics_refuted : forall b d x V (OV : Ord V) (e : env K V),
  no_empty_sets b -> component x b -> refused address_ok x ->
  config_build e (BFlushStopper b) = Panic /\ config_build e (BProfiler b) = Panic /\ config_build e (BSequential b) = Panic /\
  config_build e (BDecorator d b) = Panic.
Proof.
  intros b d x V OV e NE Hx Rx.
  assert (R : accepts address_ok b = false) by (apply refused_false; eauto).
  assert (G : generic_from_toml address_ok (as_toml b) = None).
  { destruct (generic_from_toml address_ok (as_toml b)) as [c|] eqn:E; auto. exfalso.
    apply C43_accepted_iff_described in E. eapply rejects; eauto. }
  assert (H : forall b' : builder K, accepts address_ok b' = false -> no_empty_sets b' -> generic_from_toml address_ok (as_toml b') = None).
  { intros b' R' N'. destruct (generic_from_toml address_ok (as_toml b')) as [c|] eqn:E; auto. exfalso.
    apply C43_accepted_iff_described in E. eapply rejects; eauto. }
  unfold Builder.config_build. rewrite !H; auto; intros kh sh n b' X; inversion X; subst; eapply NE; eauto.
Qed.

(** C43: every configuration accepted builds a container of the capacity it describes. *)
Lemma many_capacity V (f : nat -> machine K V) (l : list nat) :
  map (capacity (SumB (fun i => m_block (f i)))) (map (fun i => existT (fun i => St (m_block (f i))) i (m_state (f i))) l) =
  map (fun i => capacity (m_block (f i)) (m_state (f i))) l.
Proof. rewrite map_map. reflexivity. Qed.
Theorem C43_capacity_of_every_configuration : forall V (OV : Ord V) (e : env K V) c,
  capacity (m_block (assemble e c)) (m_state (assemble e c)) =
  capacity_with (fun a => capacity (m_block (e_server e a)) (m_state (e_server e a))) c.
Proof.
  intros V OV e c.
  assert (MN : forall l dflt, map (fun i => capacity (m_block (nth i (map (assemble e) l) dflt)) (m_state (nth i (map (assemble e) l) dflt))) (seq 0 (length l)) =
     map (fun c => capacity (m_block (assemble e c)) (m_state (assemble e c))) l).
  { intros l dflt.
    transitivity (map (fun m : machine K V => capacity (m_block m) (m_state m)) (map (fun i => nth i (map (assemble e) l) dflt) (seq 0 (length l)))).
    { rewrite map_map. reflexivity. }
    rewrite <- (map_length (assemble e) l) at 1. rewrite map_nth_seq. rewrite map_map. reflexivity. }
  induction c as [n|n|f n|n|a|l IH|l IH|f b IHf IHb|c IH|c IH|c IH] using config_ind'; cbn [capacity_with];
  try (cbn; reflexivity); try exact IH.
  - cbn [Builder.assemble m_dyn m_batch m_block m_state capacity DynB BatchB]. unfold bt_capacity, m_many. rewrite many_capacity, MN.
    f_equal. apply map_ext_Forall. exact IH.
  - cbn [Builder.assemble m_dyn m_associative m_block m_state capacity DynB AssociativeB]. unfold as_capacity, m_many. rewrite many_capacity, MN.
    f_equal. apply map_ext_Forall. exact IH.
  - cbn [Builder.assemble m_dyn m_exclusive m_block m_state capacity DynB ExclusiveB]. unfold ex_capacity. cbn [fst snd]. rewrite IHf, IHb. reflexivity.
Qed.
(** [assemble] is [Config.build] where the latter is defined. *)
Theorem C43_assemble_is_build : forall V (OV : Ord V) (e : env K V) c (a : arch K V),
  build bs srt hash c = Some a -> alike_machines true (assemble e c) (m_arch a).
Proof.
  intros V OV e c.
  assert (LS : forall l la, Forall (fun c => forall a : arch K V, build bs srt hash c = Some a -> alike_machines true (assemble e c) (m_arch a)) l ->
    all_some (map (build bs srt hash) l) = Some la -> length la = length l /\
    forall i d d', i < length l -> alike_machines true (nth i (map (assemble e) l) d) (m_arch (nth i la d'))).
  { induction l as [|c0 l IHl]; intros la F E.
    - injection E as <-. split; auto. intros i d d' Hi. cbn in Hi. lia.
    - inversion F as [|? ? F1 F2]; subst. cbn [map all_some] in E. apply obind_some in E as (a & E1 & E). apply obind_some in E as (la' & E2 & E).
      injection E as <-. destruct (IHl _ F2 E2) as [X Y]. split; [cbn; auto|]. intros [|i] d d' Hi; cbn [nth map]; [auto|].
      apply Y. cbn in Hi. lia. }
  assert (SD : forall m m' : machine K V, alike_machines true m m' -> alike_machines true (m_dyn m) (m_dyn m')).
  { intros. apply am_dyn. eapply am_weaken; eauto. }
  induction c as [n|n|f n|n|x|l IH|l IH|f b IHf IHb|c IH|c IH|c IH] using config_ind'; cbn [build]; intros a E; try discriminate.
  - injection E as <-. apply am_refl.
  - injection E as <-. apply am_refl.
  - apply obind_some in E as (la & E1 & E). injection E as <-. destruct (LS _ _ IH E1) as [X Y]. cbn [Builder.assemble].
    change (alike_machines true (m_dyn (m_batch (length l) (fun i => nth i (map (assemble e) l) (m_arch (ABTree OV 0 (fun _ => 1))))))
      (m_dyn (m_batch (length la) (fun i => m_arch (nth i la (ABTree OV 0 (fun _ => 1))))))).
    rewrite X. apply SD. apply am_batch. intros i Hi. apply Y. auto.
  - apply obind_some in E as (la & E1 & E). destruct la as [|a0 la]; [discriminate|]. injection E as <-. destruct (LS _ _ IH E1) as [X Y].
    cbn [Builder.assemble].
    change (alike_machines true (m_dyn (m_associative hash (length l) (fun i => nth i (map (assemble e) l) (m_arch (ABTree OV 0 (fun _ => 1))))))
      (m_dyn (m_associative hash (S (length la)) (fun i => m_arch (nth i (a0 :: la) (ABTree OV 0 (fun _ => 1))))))).
    cbn [length] in X. rewrite X. apply SD. apply am_associative; auto.
  - apply obind_some in E as (a1 & E1 & E). apply obind_some in E as (a2 & E2 & E). injection E as <-.
    apply (SD _ (m_exclusive bs (m_arch a1) (m_arch a2))). apply am_exclusive; auto.
  - apply obind_some in E as (a1 & E1 & E). injection E as <-. apply (SD _ (m_flush_stopper (m_arch a1))). apply am_flush_stopper; auto.
  - apply obind_some in E as (a1 & E1 & E). injection E as <-. apply (SD _ (m_profiler (m_arch a1))). apply am_profiler; auto.
  - apply obind_some in E as (a1 & E1 & E). injection E as <-. apply (SD _ (m_sequential (m_arch a1))). apply am_sequential; auto.
Qed.

(** Servers: the configuration of a server is accepted exactly when its address is valid and it describes a
    container; its id, documented as "SocketServerConfig", may be any string. *)
Theorem C43_server_accepted_iff : forall t a c,
  server_from_toml address_ok (TTable t) = Some (a, c) <->
  (exists i, look "id" t = Some (TStr i)) /\ look "address" t = Some (TStr a) /\ address_ok a = true /\
  exists v, look "container" t = Some v /\ describes address_ok v c.
Proof.
  intros t a c. unfold server_from_toml. split.
  - intros H. apply obind_some in H as (i & H1 & H). apply obind_some in H as (s & H2 & H). apply obind_some in H as (x & H3 & H).
    apply obind_some in H as (s' & H4 & H). apply obind_some in H as (v & H5 & H). apply as_string_spec in H2. apply as_string_spec in H4. subst.
    destruct (address_ok s') eqn:Ea; [|discriminate]. apply obind_some in H as (c' & H6 & H). injection H as <- <-.
    split; [eauto|]. split; auto. split; auto. exists v. split; auto. apply C43_accepted_iff_described. auto.
  - intros ((i & H1) & H2 & H3 & v & H4 & H5). rewrite H1, H2, H4. cbn [obind as_string]. rewrite H3.
    apply C43_accepted_iff_described in H5. rewrite H5. reflexivity.
Qed.
Theorem C43_server_id_ignored_refuted : forall a c v, address_ok a = true -> describes address_ok v c ->
  forall i, server_from_toml address_ok (TTable [("id", TStr i); ("address", TStr a); ("container", v)]) = Some (a, c).
Proof. intros a c v Ha Hv i. apply C43_server_accepted_iff. cbn. repeat split; eauto. Qed.
(** C52 for servers. *)
Theorem C52_server_accepted : forall b a, plain hash address_ok b -> address_ok a = true -> exists c,
  server_from_toml address_ok (server_toml a b) = Some (a, c) /\ builder_from_toml address_ok (as_toml b) = Some (c, DNone).
Proof.
  intros b a Hb Ha. assert (A := accepts_describes address_ok b (plain_accepts Hb)). exists (shape b). split.
  - apply C43_server_accepted_iff. cbn. repeat split; eauto.
  - apply accepts_top. apply plain_accepts; auto.
Qed.
End Agree.

(** ** Where they disagree *)
Definition demo_env : env nat nat := mkEnv duo_codec pair_ser pair_de (fun _ => m_arch (one_array 1)).
Definition demo_srt V (OV : Ord V) : Sorter (nat * V) V snd := std_sorter snd.
Definition demo_assemble (c : config) : machine nat nat :=
  assemble linear_bs demo_srt N.of_nat no_lz (fun _ => []) demo_env c.
Definition demo_b_assemble env_fifo env_lru (b : builder nat) : option (machine nat nat) :=
  b_assemble linear_bs demo_srt no_lz env_fifo env_lru (fun n => n) demo_env b.
(** The container made by the builder and the one made from its configuration are told apart by some calls. *)
Definition disagree (b : builder nat) : Prop := forall env_fifo env_lru,
  exists c m, builder_from_toml (fun _ => true) (as_toml b) = Some (c, DNone) /\ demo_b_assemble env_fifo env_lru b = Some m /\
    ~ alike_machines false (demo_assemble c) m.
(** A number of sets that is not a power of two: the builder masks the hash before the remainder, the configuration
    does not. *)
Theorem C52_three_sets_refuted : disagree (associative_new (BArray 1) N.of_nat 3).
Proof.
  intros ef el. do 2 eexists. split; [reflexivity|]. split; [reflexivity|]. intros H.
  specialize (H [AskPush [(1, 10); (4, 40)]] eq_refl). vm_compute in H. discriminate.
Qed.
(** Layers: add_layer gives each layer its own bits of the hash; the configuration uses the same hash in both, so that
    the sets of the inner layers but one are never used. *)
Theorem C52_layers_refuted : exists b, add_layer (associative_new (BArray 1) N.of_nat 2) 2 = Ok b /\ disagree b.
Proof.
  eexists. split; [reflexivity|]. intros ef el. do 2 eexists. split; [reflexivity|]. split; [reflexivity|]. intros H.
  specialize (H [AskPush [(0, 10); (1, 11); (4, 14); (5, 15)]] eq_refl). vm_compute in H. discriminate.
Qed.
(** Another hasher: the configuration has the standard one. *)
Theorem C52_hasher_refuted : disagree (associative_new (BArray 1) (fun k => N.of_nat (k / 2)) 2).
Proof.
  intros ef el. do 2 eexists. split; [reflexivity|]. split; [reflexivity|]. intros H.
  specialize (H [AskPush [(0, 10); (1, 11)]] eq_refl). vm_compute in H. discriminate.
Qed.
(** Compressed and byte stream builders in memory: the configuration puts them in a temporary file, opened for writing
    only, so that the Compressed stores nothing and the byte stream panics at the first lookup. *)
Theorem C52_compressed_refuted : disagree (BCompressed FVec 100).
Proof.
  intros ef el. do 2 eexists. split; [reflexivity|]. split; [reflexivity|]. intros H.
  specialize (H [AskPush [(1, 10)]] eq_refl). vm_compute in H. discriminate.
Qed.
Theorem C52_stream_refuted : disagree (BStream FVec 100).
Proof.
  intros ef el. do 2 eexists. split; [reflexivity|]. split; [reflexivity|]. intros H.
  specialize (H [AskPush [(1, 0)]; AskContains 1] eq_refl). vm_compute in H. discriminate.
Qed.

(** A builder to which the positive theorems apply, and what its container answers. *)
Definition demo_builder : builder nat :=
  BSequential (BExclusive (BArray 2) (BProfiler (associative_new (BFlushStopper (BBTree 1)) N.of_nat 4))).
(** A serializer that refuses every element, to have some for decorated values. *)
Definition no_codec (T : Type) : VCodec T.
Proof.
  refine {| c_esz := fun _ => None; c_ser := fun l => match l with [] => Some (repeat x00 8) | _ => None end; c_de := fun _ => Some [] |}.
  - intros [|] b H; [auto|discriminate].
  - intros [|] b H; [injection H as <-; reflexivity|discriminate].
  - intros [|x l]; split; intros H; eauto; [destruct H; discriminate|]. inversion H; subst. congruence.
Defined.
Definition plain_env {V W} (e : env nat V) : env nat W :=
  mkEnv (no_codec (nat * W)) (fun _ => None) (fun _ => None) (fun a => m_arch (ABatch 0 (fun _ => AArray (std_sorter (O := Build_Ord (fun _ _ : W => true) (fun _ _ => or_introl eq_refl) (fun _ _ _ _ _ => eq_refl)) snd) linear_bs 0 (fun _ => 1)))).
Theorem C52_example : plain N.of_nat (fun _ => true) demo_builder /\ no_empty_sets demo_builder /\
  match demo_b_assemble (fun V => plain_env) (fun V => plain_env) demo_builder with
  | Some m => watch (m_block m) (m_state m)
      [AskCapacity; AskPush [(1, 10); (2, 20); (5, 50); (6, 60)]; AskTake 2; AskPush [(9, 90); (7, 70)]; AskSize; AskFlush; AskContains 7] =
      [SawNum 6; SawPairs []; SawOne (Some (2, 20)); SawPairs [(5, 50)]; SawNum 4; SawPairs [(1, 10)]; SawBool true]
  | None => False
  end.
Proof.
  split; [|split].
  - unfold demo_builder. apply plain_sequential, plain_exclusive; [constructor|]. apply plain_profiler.
    apply (@plain_associative nat N.of_nat (fun _ => true) 2); [lia|]. apply plain_flush_stopper. constructor.
  - unfold no_empty_sets, demo_builder. intros kh sh n b' H.
    repeat match goal with H : component _ _ |- _ => inversion H; clear H; subst; try lia end.
  - vm_compute. reflexivity.
Qed.

Print Assumptions C52_accepted_iff_partial.
Print Assumptions C52_same_container_partial.
Print Assumptions C43_capacity_of_every_configuration.
