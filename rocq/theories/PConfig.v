(** PConfig.v -- property theorems about configurations and conversion to concurrent containers: C43, C47. *)
From Coq Require Import String ZArith QArith NArith.
From Verif Require Import Base Block Array BTree Batch Exclusive Wrappers WrappersProof Associative Arch ArchProof PArch Decorations Config.
Set Implicit Arguments.
Local Open Scope string_scope.
Local Open Scope list_scope.
Local Open Scope nat_scope.

(** ** Specification: what a toml value describes, from the documentation of each configuration
    (/repo/src/<container>/config.rs) *)
Section Describes.
Variable address_ok : string -> bool.
Definition has_id (t : list (string * toml)) (s : string) : Prop := look "id" t = Some (TStr s).
Definition has_capacity (t : list (string * toml)) (n : nat) : Prop := look "capacity" t = Some (TInt (Z.of_nat n)).
Inductive describes : toml -> config -> Prop :=
| d_array t n : has_id t "ArrayConfig" -> has_capacity t n -> describes (TTable t) (CArray n)
| d_btree t n : has_id t "BTreeConfig" -> has_capacity t n -> describes (TTable t) (CBTree n)
| d_stream t n : has_id t "StreamConfig" -> has_capacity t n -> describes (TTable t) (CStream n)
| d_compressed t n : has_id t "CompressedConfig" -> has_capacity t n -> look "filename" t = None ->
    describes (TTable t) (CCompressed None n)
| d_compressed_file t n f : has_id t "CompressedConfig" -> has_capacity t n -> look "filename" t = Some (TStr f) ->
    describes (TTable t) (CCompressed (Some f) n)
| d_socket t a : has_id t "SocketClientConfig" -> look "address" t = Some (TStr a) -> address_ok a = true ->
    describes (TTable t) (CSocket a)
| d_batch t l cs : has_id t "BatchConfig" -> look "container" t = Some (TArr l) -> Forall2 describes l cs ->
    describes (TTable t) (CBatch cs)
| d_associative t l cs : has_id t "AssociativeConfig" -> look "container" t = Some (TArr l) -> Forall2 describes l cs ->
    describes (TTable t) (CAssociative cs)
| d_exclusive t vf vb f b : has_id t "ExclusiveConfig" -> look "front" t = Some vf -> describes vf f ->
    look "back" t = Some vb -> describes vb b -> describes (TTable t) (CExclusive f b)
| d_flush_stopper t v c : has_id t "FlushStopperConfig" -> look "container" t = Some v -> describes v c ->
    describes (TTable t) (CFlushStopper c)
| d_profiler t v c : has_id t "ProfilerConfig" -> look "container" t = Some v -> describes v c ->
    describes (TTable t) (CProfiler c)
| d_sequential t v c : has_id t "SequentialConfig" -> look "container" t = Some v -> describes v c ->
    describes (TTable t) (CSequential c).
End Describes.

(** The capacity a configuration describes. *)
Fixpoint described_capacity (c : config) : nat :=
  match c with
  | CArray n | CBTree n | CCompressed _ n | CStream n => n
  | CSocket _ => 0 (* that of the server: not described *)
  | CBatch l | CAssociative l => list_sum (map described_capacity l)
  | CExclusive f b => described_capacity f + described_capacity b
  | CFlushStopper c | CProfiler c | CSequential c => described_capacity c
  end.
(** The container types described that are concurrent, from the documentation: a Sequential is; an Associative is if
    its children are (config_builder.rs:82-90); a FlushStopper or a Profiler is if the wrapped container is
    (flush_stopper.rs:75-85, profiler.rs:235-245). *)
Fixpoint concurrent_container (c : config) : bool :=
  match c with
  | CSequential _ => true
  | CAssociative l => forallb concurrent_container l
  | CFlushStopper c | CProfiler c => concurrent_container c
  | _ => false
  end.
(** Configurations of the containers of Arch.v. *)
Fixpoint supported (c : config) : bool :=
  match c with
  | CArray _ | CBTree _ => true
  | CCompressed _ _ | CStream _ | CSocket _ => false
  | CBatch l => forallb supported l
  | CAssociative l => negb (match l with [] => true | _ => false end) && forallb supported l
  | CExclusive f b => supported f && supported b
  | CFlushStopper c | CProfiler c | CSequential c => supported c
  end.

(** ** Proofs *)
Lemma toml_ind' (P : toml -> Prop)
  (Hs : forall s, P (TStr s)) (Hi : forall z, P (TInt z)) (Hf : forall q, P (TFloat q)) (Hb : forall b, P (TBool b))
  (Ha : forall l, Forall P l -> P (TArr l)) (Ht : forall t, Forall (fun p => P (snd p)) t -> P (TTable t)) : forall v, P v.
Proof.
  fix IH 1. intros [s|z|q|b|l|t]; [apply Hs|apply Hi|apply Hf|apply Hb|apply Ha|apply Ht].
  - induction l as [|v l IHl]; constructor; [apply IH|exact IHl].
  - induction t as [|[k v] t IHt]; constructor; [apply IH|exact IHt].
Qed.
Lemma config_ind' (P : config -> Prop)
  (H1 : forall n, P (CArray n)) (H2 : forall n, P (CBTree n)) (H3 : forall f n, P (CCompressed f n))
  (H4 : forall n, P (CStream n)) (H5 : forall a, P (CSocket a)) (H6 : forall l, Forall P l -> P (CBatch l))
  (H7 : forall l, Forall P l -> P (CAssociative l)) (H8 : forall f b, P f -> P b -> P (CExclusive f b))
  (H9 : forall c, P c -> P (CFlushStopper c)) (H10 : forall c, P c -> P (CProfiler c)) (H11 : forall c, P c -> P (CSequential c))
  : forall c, P c.
Proof.
  fix IH 1. intros [n|n|f n|n|a|l|l|f b|c|c|c];
    [apply H1|apply H2|apply H3|apply H4|apply H5|apply H6|apply H7|apply H8; apply IH|apply H9; apply IH|apply H10; apply IH|apply H11; apply IH].
  - induction l as [|v l IHl]; constructor; [apply IH|exact IHl].
  - induction l as [|v l IHl]; constructor; [apply IH|exact IHl].
Qed.
Lemma look_map {T U} (g : T -> U) k (t : list (string * T)) :
  look k (map (fun p => (fst p, g (snd p))) t) = option_map g (look k t).
Proof. induction t as [|[k' v] t IH]; cbn; auto. destruct (String.eqb k k'); auto. Qed.
Lemma look_in {T} k (t : list (string * T)) v : look k t = Some v -> In (k, v) t.
Proof. induction t as [|[k' v'] t IH]; cbn; [discriminate|]. destruct (String.eqb k k') eqn:E; auto.
  apply String.eqb_eq in E. subst. intros H. injection H as <-. auto. Qed.
Lemma obind_some {A B} (o : option A) (f : A -> option B) b : obind o f = Some b <-> exists a, o = Some a /\ f a = Some b.
Proof. destruct o; cbn; split; [eauto| |discriminate|]; intros (x & H & H'); [injection H as <-; auto|discriminate]. Qed.
Lemma all_some_spec {A} (l : list (option A)) l' : all_some l = Some l' <-> l = map Some l'.
Proof.
  revert l'. induction l as [|o l IH]; intros l'; cbn [all_some].
  - split; [intros H; injection H as <-; auto|]. destruct l'; [auto|discriminate].
  - rewrite obind_some. split.
    + intros (a & -> & H). apply obind_some in H as (l2 & H & E). injection E as <-. apply IH in H. subst. auto.
    + destruct l' as [|a l2]; [discriminate|]. intros H. injection H as -> H. exists a. split; auto.
      apply obind_some. exists l2. split; auto. apply IH; auto.
Qed.
Lemma as_usize_spec v n : as_usize v = Some n <-> v = TInt (Z.of_nat n).
Proof.
  split.
  - destruct v; cbn; try discriminate. destruct (0 <=? z)%Z eqn:E; [|discriminate]. intros H; injection H as <-.
    apply Z.leb_le in E. rewrite Z2Nat.id; auto.
  - intros ->. cbn. replace (0 <=? Z.of_nat n)%Z with true by (symmetry; apply Z.leb_le; lia). rewrite Nat2Z.id. auto.
Qed.
Lemma as_string_spec v s : as_string v = Some s <-> v = TStr s.
Proof. destruct v; cbn; split; try discriminate; intros H; injection H as <-; auto. Qed.
Lemma map_forall2 {A B} (f : A -> option B) (R : A -> B -> Prop) l l' :
  Forall (fun a => forall b, f a = Some b <-> R a b) l -> (map f l = map Some l' <-> Forall2 R l l').
Proof.
  intros H. revert l'. induction H as [|a l Ha _ IH]; intros l'; cbn [map].
  - destruct l'; cbn; split; auto; try discriminate. intros H; inversion H.
  - destruct l' as [|b l']; cbn [map]; split; try discriminate; try (intros H; inversion H; fail).
    + intros H. injection H as H1 H2. constructor; [apply Ha; auto|apply IH; auto].
    + intros H. inversion H; subst. f_equal; [apply Ha; auto|apply IH; auto].
Qed.

Section Parse.
Variable address_ok : string -> bool.
Notation parse := (parse address_ok).
Notation describes := (describes address_ok).
Lemma parse_spec v : (forall c, fst (parse v) = Some c <-> describes v c) /\
  (forall l, v = TArr l -> Forall (fun v => forall c, fst (parse v) = Some c <-> describes v c) l).
Proof.
  induction v as [s|z|q|b|l IH|t IH] using toml_ind'; (split; [intros c; split; [|try (inversion 1; fail)]|]); try discriminate.
  - intros l' E. injection E as <-. eapply Forall_impl; [|exact IH]. cbn. tauto.
  - cbn [Config.parse fst]. unfold table_config.
    assert (Hc : forall name f, obind (look name (map (fun p => (fst p, (snd p, parse (snd p)))) t)) (fun p => obind (fst (snd p)) f) = Some c ->
       exists v c', look name t = Some v /\ describes v c' /\ f c' = Some c).
    { intros name f H. rewrite (look_map (fun v => (v, parse v))) in H. destruct (look name t) as [v|] eqn:E; [|discriminate]. cbn [option_map obind fst snd] in H.
      apply obind_some in H as (c' & H1 & H2). exists v, c'. split; auto. split; auto.
      apply look_in in E. rewrite Forall_forall in IH. apply (proj1 (IH _ E)). auto. }
    assert (Hcap : forall f, obind (look "capacity" (map (fun p => (fst p, (snd p, parse (snd p)))) t)) (fun p => obind (as_usize (fst p)) f) = Some c ->
       exists n, has_capacity t n /\ f n = Some c).
    { intros f H. rewrite (look_map (fun v => (v, parse v))) in H. destruct (look "capacity" t) as [v|] eqn:E; [|discriminate]. cbn [option_map obind fst snd] in H.
      apply obind_some in H as (n & H1 & H2). apply as_usize_spec in H1. subst. exists n. split; auto. }
    assert (Hch : forall f, obind (look "container" (map (fun p => (fst p, (snd p, parse (snd p)))) t))
        (fun p => match fst p with TArr _ => obind (all_some (snd (snd p))) f | _ => None end) = Some c ->
       exists l cs, look "container" t = Some (TArr l) /\ Forall2 describes l cs /\ f cs = Some c).
    { intros f H. rewrite (look_map (fun v => (v, parse v))) in H. destruct (look "container" t) as [v|] eqn:E; [|discriminate]. cbn [option_map obind fst snd] in H.
      destruct v as [| | | |l|]; try discriminate. apply obind_some in H as (cs & H1 & H2). apply all_some_spec in H1.
      exists l, cs. split; auto. split; auto. apply look_in in E. rewrite Forall_forall in IH.
      pose proof (proj2 (IH _ E) l eq_refl) as F. cbn [Config.parse snd] in H1. exact (proj1 (@map_forall2 _ _ (fun v => fst (parse v)) describes l cs F) H1). }
    intros H. apply obind_some in H as ((v & pv) & H1 & H). rewrite (look_map (fun v => (v, parse v))) in H1.
    destruct (look "id" t) as [v'|] eqn:Eid; [|discriminate]. injection H1 as -> <-. cbn [fst] in H.
    apply obind_some in H as (id & H1 & H). apply as_string_spec in H1. subst v.
    repeat match type of H with (if String.eqb id ?x then _ else _) = _ =>
      let E := fresh "E" in destruct (String.eqb id x) eqn:E; [apply String.eqb_eq in E; subst id|clear E] end; try discriminate.
    + apply Hcap in H as (n & H1 & H2). injection H2 as <-. constructor; auto.
    + apply Hch in H as (l & cs & H1 & H2 & H3). injection H3 as <-. econstructor; eauto.
    + apply Hch in H as (l & cs & H1 & H2 & H3). injection H3 as <-. econstructor; eauto.
    + apply Hcap in H as (n & H1 & H2). injection H2 as <-. constructor; auto.
    + apply Hcap in H as (n & H1 & H2). rewrite (look_map (fun v => (v, parse v))) in H2. destruct (look "filename" t) as [v|] eqn:Ef.
      * cbn [option_map] in H2. apply obind_some in H2 as (f & H2 & H3). apply as_string_spec in H2. cbn [fst] in H2. subst v. injection H3 as <-.
        apply d_compressed_file; auto.
      * injection H2 as <-. apply d_compressed; auto.
    + apply Hc in H as (v & f & H1 & H2 & H). apply Hc in H as (v' & b & H3 & H4 & H). injection H as <-. econstructor; eauto.
    + apply Hc in H as (v & f & H1 & H2 & H). injection H as <-. econstructor; eauto.
    + apply Hc in H as (v & f & H1 & H2 & H). injection H as <-. econstructor; eauto.
    + apply Hc in H as (v & f & H1 & H2 & H). injection H as <-. econstructor; eauto.
    + rewrite (look_map (fun v => (v, parse v))) in H. destruct (look "address" t) as [v|] eqn:E; [|discriminate]. cbn [option_map obind fst] in H.
      apply obind_some in H as (a & H1 & H). apply as_string_spec in H1. subst v. destruct (address_ok a) eqn:Ea; [|discriminate].
      injection H as <-. econstructor; eauto.
    + apply Hcap in H as (n & H1 & H2). injection H2 as <-. constructor; auto.
  - cbn [Config.parse fst]. unfold table_config. rewrite !(look_map (fun v => (v, parse v))).
    assert (Hl : forall k v, look k t = Some v -> (forall c, fst (parse v) = Some c <-> describes v c) /\
       (forall l, v = TArr l -> Forall (fun v => forall c, fst (parse v) = Some c <-> describes v c) l)).
    { intros k v E. apply look_in in E. rewrite Forall_forall in IH. apply (IH _ E). }
    assert (Hch : forall l cs, look "container" t = Some (TArr l) -> Forall2 describes l cs -> all_some (snd (parse (TArr l))) = Some cs).
    { intros l cs E F2. pose proof (proj2 (Hl _ _ E) _ eq_refl) as F. apply all_some_spec. cbn [Config.parse snd].
      apply (@map_forall2 _ _ (fun v => fst (parse v)) describes _ _ F). auto. }
    assert (Hc : forall k v c, look k t = Some v -> describes v c -> fst (parse v) = Some c).
    { intros k v c' E D. apply (proj1 (Hl _ _ E)). auto. }
    intros H. destruct c; inversion H as [? ? E0 E1|? ? E0 E1|? ? E0 E1|? ? E0 E1 E2|? ? ? E0 E1 E2|? ? E0 E1 E2|? ? ? E0 E1 E2|? ? ? E0 E1 E2|? ? ? ? ? E0 E1 E2 E3 E4|? ? ? E0 E1 E2|? ? ? E0 E1 E2|? ? ? E0 E1 E2]; subst;
      unfold has_id, has_capacity in *; rewrite E0; cbn [option_map obind fst snd as_string];
      repeat match goal with |- context [String.eqb ?a ?b] => let r := eval vm_compute in (String.eqb a b) in change (String.eqb a b) with r end;
      cbv iota; rewrite E1; cbn [option_map obind fst snd as_string]; rewrite ?(proj2 (as_usize_spec _ _) eq_refl); cbn [obind];
      try rewrite E2; try reflexivity.
    + rewrite (Hch _ _ E1 E2). reflexivity.
    + rewrite (Hch _ _ E1 E2). reflexivity.
    + rewrite (Hc _ _ _ E1 E2). cbn [obind]. rewrite E3. cbn [option_map obind fst snd]. rewrite (Hc _ _ _ E3 E4). reflexivity.
    + rewrite (Hc _ _ _ E1 E2). reflexivity.
    + rewrite (Hc _ _ _ E1 E2). reflexivity.
    + rewrite (Hc _ _ _ E1 E2). reflexivity.
Qed.

(** C43, acceptance: exactly the described configurations are accepted, and read as what they describe. *)
Theorem C43_accepted_iff_described : forall v c, generic_from_toml address_ok v = Some c <-> describes v c.
Proof. intros v c. apply parse_spec. Qed.
(** At the top, also the decorator attribute. *)
Theorem C43_builder_accepts : forall v c d,
  builder_from_toml address_ok v = Some (c, d) ->
  describes v c /\ exists t, v = TTable t /\
    match d with
    | DNone => look "decorator" t = None \/ exists dt, look "decorator" t = Some (TTable dt) /\ look "kind" dt = None
    | DFifo => exists dt, look "decorator" t = Some (TTable dt) /\ look "kind" dt = Some (TStr "Fifo")
    | DLru => exists dt, look "decorator" t = Some (TTable dt) /\ look "kind" dt = Some (TStr "Lru")
    | DLrfu e => exists dt, look "decorator" t = Some (TTable dt) /\ look "kind" dt = Some (TStr "Lrfu") /\
                  (e = 1%Q \/ look "decorator.Lrfu.exponent" t = Some (TFloat e))
    end.
Proof.
  intros v c d H. unfold builder_from_toml in H. destruct v as [| | | | |t]; try discriminate.
  apply obind_some in H as (d' & H1 & H). apply obind_some in H as (c' & H2 & H). injection H as -> ->.
  split; [apply C43_accepted_iff_described; auto|]. exists t. split; auto.
  destruct (look "decorator" t) as [[| | | | |dt]|]; try discriminate; [|injection H1 as <-; auto].
  destruct (look "kind" dt) as [[s| | | | |]|] eqn:Ek; try discriminate; [|injection H1 as <-; eauto].
  destruct (String.eqb s "Fifo") eqn:E1; [apply String.eqb_eq in E1; subst; injection H1 as <-; eauto|].
  destruct (String.eqb s "Lru") eqn:E2; [apply String.eqb_eq in E2; subst; injection H1 as <-; eauto|].
  destruct (String.eqb s "Lrfu") eqn:E3; [|discriminate]. apply String.eqb_eq in E3; subst.
  destruct (look "decorator.Lrfu.exponent" t) as [[| |q| | |]|]; try discriminate; injection H1 as <-; exists dt; auto.
Qed.
(** The documented attribute [decorator.exponent] (config_builder.rs:110-111) is not read: whatever it is, the
    exponent is 1. *)
Theorem C43_exponent_ignored_refuted : forall t dt q c,
  describes (TTable t) c -> look "decorator" t = Some (TTable dt) -> look "kind" dt = Some (TStr "Lrfu") ->
  look "exponent" dt = Some (TFloat q) -> look "decorator.Lrfu.exponent" t = None ->
  builder_from_toml address_ok (TTable t) = Some (c, DLrfu 1).
Proof.
  intros t dt q c H1 H2 H3 H4 H5. apply C43_accepted_iff_described in H1. unfold builder_from_toml. rewrite H1, H2, H3, H5. reflexivity.
Qed.
End Parse.

(** C43, the container built: every supported configuration builds, with the capacity described. *)
Section Build.
Context {K : Type} {OK : Ord K} {EK : OrdEq K}.
Variable bs : BSearch K.
Variable srt : forall V (OV : Ord V), Sorter (K * V) V snd.
Variable hash : K -> N.
Lemma all_some_capacity {V} {OV : Ord V} l la :
  Forall (fun c => forall a, build bs srt hash c = Some a -> leaves_capacity (a : arch K V) = described_capacity c) l ->
  map (build bs srt hash) l = map Some la ->
  list_sum (map (fun a : arch K V => leaves_capacity a) la) = list_sum (map described_capacity l).
Proof.
  intros H. revert la. induction H as [|c l Hc _ IH]; intros la E; destruct la as [|a la]; cbn [map] in E; try discriminate; auto.
  injection E as E1 E2. cbn [map]. unfold list_sum in *. cbn [fold_right]. rewrite (Hc _ E1), (IH _ E2). auto.
Qed.
Lemma map_nth_seq {T} (d : T) l : map (fun i => nth i l d) (seq 0 (length l)) = l.
Proof.
  induction l as [|x l IH]; cbn [length seq map nth]; auto. f_equal. rewrite <- seq_shift, map_map. apply IH.
Qed.
Lemma build_capacity {V} {OV : Ord V} c : forall a : arch K V, build bs srt hash c = Some a -> leaves_capacity a = described_capacity c.
Proof.
  induction c as [n|n|f n|n|x|l IH|l IH|f b IHf IHb|c IH|c IH|c IH] using config_ind'; cbn [build described_capacity]; intros a E; try discriminate.
  - injection E as <-. auto.
  - injection E as <-. auto.
  - apply obind_some in E as (la & E1 & E2). apply all_some_spec in E1. injection E2 as <-. cbn [leaves_capacity].
    rewrite <- (all_some_capacity la IH E1). f_equal.
    rewrite <- (map_map (fun i => nth i la (ABTree OV 0 (fun _ => 1))) (fun a => leaves_capacity a)). rewrite map_nth_seq. auto.
  - apply obind_some in E as (la & E1 & E2). apply all_some_spec in E1. destruct la as [|a0 la]; [discriminate|]. injection E2 as <-. cbn [leaves_capacity].
    rewrite <- (all_some_capacity (a0 :: la) IH E1). f_equal. change (S (length la)) with (length (a0 :: la)).
    rewrite <- (map_map (fun i => nth i (a0 :: la) (ABTree OV 0 (fun _ => 1))) (fun a => leaves_capacity a)). rewrite map_nth_seq. auto.
  - apply obind_some in E as (a1 & E1 & E). apply obind_some in E as (a2 & E2 & E). injection E as <-. cbn [leaves_capacity].
    rewrite (IHf _ E1), (IHb _ E2). auto.
  - apply obind_some in E as (a1 & E1 & E). injection E as <-. cbn [leaves_capacity]. auto.
  - apply obind_some in E as (a1 & E1 & E). injection E as <-. cbn [leaves_capacity]. auto.
  - apply obind_some in E as (a1 & E1 & E). injection E as <-. cbn [leaves_capacity]. auto.
Qed.
Lemma all_some_build {V} {OV : Ord V} l :
  Forall (fun c => supported c = true -> exists a : arch K V, build bs srt hash c = Some a) l ->
  forallb supported l = true -> exists la : list (arch K V), all_some (map (build bs srt hash) l) = Some la /\ length la = length l.
Proof.
  induction 1 as [|c l Hc _ IH]; cbn [forallb map all_some]; intros H; [eauto|].
  apply andb_prop in H as [H1 H2]. destruct (Hc H1) as (a & ->). destruct (IH H2) as (la & -> & L). cbn. eexists. split; eauto. cbn. auto.
Qed.
Theorem C43_supported_builds : forall V (OV : Ord V) c, supported c = true -> exists a : arch K V, build bs srt hash c = Some a.
Proof.
  intros V OV c. induction c as [n|n|f n|n|x|l IH|l IH|f b IHf IHb|c IH|c IH|c IH] using config_ind'; cbn [supported build]; intros H; try discriminate; eauto.
  - destruct (all_some_build IH H) as (la & -> & _). cbn. eauto.
  - apply andb_prop in H as [H1 H2]. destruct (all_some_build IH H2) as (la & -> & L). cbn.
    destruct la; [destruct l; [discriminate|discriminate L]|]. eauto.
  - apply andb_prop in H as [H1 H2]. destruct (IHf H1) as (a1 & ->). destruct (IHb H2) as (a2 & ->). cbn. eauto.
  - destruct (IH H) as (a & ->). cbn. eauto.
  - destruct (IH H) as (a & ->). cbn. eauto.
  - destruct (IH H) as (a & ->). cbn. eauto.
Qed.
Theorem C43_capacity_is_described : forall V (OV : Ord V) clock c d (a : arch K V),
  builder_build bs srt hash clock (c, d) = Some a ->
  capacity (block a) (init a) = described_capacity c /\ size (block a) (init a) = 0 /\ held a (init a) = [].
Proof.
  intros V OV clock c d a H.
  assert (Hl : leaves_capacity a = described_capacity c).
  { destruct d; cbn [builder_build snd fst] in H.
    - exact (build_capacity _ H).
    - apply obind_some in H as (a1 & H1 & H). injection H as <-. cbn [leaves_capacity]. exact (build_capacity _ H1).
    - apply obind_some in H as (a1 & H1 & H). injection H as <-. cbn [leaves_capacity]. exact (build_capacity _ H1).
    - discriminate. }
  split; [rewrite init_capacity; auto|]. destruct (init_ok false a) as [I1 I2]. split; auto.
  assert (L := arch_laws a (dup := false) (fun E => False_ind _ (Bool.diff_false_true E))).
  apply (Spec.law_empty L _ I1 I2).
Qed.
(** An AssociativeConfig without containers is accepted; every use of a key on what it builds panics. *)
Theorem C43_empty_associative : forall V (C : Block K V) (k : K) (v : V) address_ok,
  generic_from_toml address_ok (TTable [("id", TStr "AssociativeConfig"); ("container", TArr [])]) = Some (CAssociative []) /\
  push (AssociativeB hash C) [] [(k, v)] = Panic /\ take (AssociativeB hash C) [] k = Panic /\
  contains (AssociativeB hash C) [] k = Panic.
Proof. intros. repeat split; reflexivity. Qed.
End Build.

(** C43, concurrency flag: never set on a container that is not concurrent... *)
Theorem C43_flag_only_if_concurrent : forall c d, builder_flag (c, d) = true -> concurrent_container c = true.
Proof.
  intros c d H. assert (H' : is_concurrent c = true).
  { unfold builder_flag in H. destruct d; cbn [fst snd] in H; auto. destruct c; cbn in *; auto; discriminate. }
  clear H. destruct c as [| | | | | |l| | | |]; cbn [is_concurrent] in H'; try discriminate; auto.
  cbn. destruct l; [auto|discriminate].
Qed.
(** ... but set exactly for Sequential at the top (or an empty Associative), so not for the other concurrent containers. *)
Theorem C43_flag_exactly : forall c d, builder_flag (c, d) = true <-> (exists c', c = CSequential c') \/ c = CAssociative [].
Proof.
  intros c d. split.
  - intros H. assert (H' : is_concurrent c = true).
    { unfold builder_flag in H. destruct d; cbn [fst snd] in H; auto. destruct c; cbn in *; auto; discriminate. }
    clear H. destruct c as [| | | | | |l| | | |]; cbn [is_concurrent] in H'; try discriminate; eauto.
    destruct l; [auto|discriminate].
  - intros [(c' & ->)| ->]; destruct d; reflexivity.
Qed.
Theorem C43_concurrent_not_flagged_refuted : forall c d, concurrent_container c = true ->
  builder_flag (CFlushStopper c, d) = false /\ builder_flag (CProfiler c, d) = false /\
  builder_flag (CAssociative [c], d) = false /\
  concurrent_container (CFlushStopper c) = true /\ concurrent_container (CProfiler c) = true /\
  concurrent_container (CAssociative [c]) = true.
Proof. intros c d H. cbn [concurrent_container forallb]. rewrite H. destruct d; repeat split; reflexivity. Qed.

(** C47, into_concurrent: Ok exactly when built as concurrent, and the container itself in both cases. *)
Theorem C47_into_concurrent : forall (C : Type) (c : C) flag,
  (flag = true -> into_concurrent (c, flag) = inl c) /\ (flag = false -> into_concurrent (c, flag) = inr (c, false)).
Proof. intros C c flag. split; intros ->; reflexivity. Qed.
(** The types that implement the trait [Concurrent] (/repo/src/traits/concurrent.rs), as a user meets them in the
    documentation: a Sequential, and any number of Associative, Profiler and Decorator around one; nothing else. *)
Inductive shareable : shape -> Prop :=
| shr_sequential : forall s, shareable (ShSequential s)
| shr_associative : forall s, shareable s -> shareable (ShAssociative s)
| shr_profiler : forall s, shareable s -> shareable (ShProfiler s)
| shr_decorator : forall s, shareable s -> shareable (ShDecorator s).
Theorem C47_concurrent_trait : forall s, impl_concurrent s = true <-> shareable s.
Proof.
  intros s. split.
  - induction s; cbn; intros H; try discriminate; constructor; auto.
  - induction 1; cbn; auto.
Qed.
(** The flag of [DynBuildingBlock::from]: set on concurrent containers and FlushStoppers of them, and on Stream,
    which is not concurrent. *)
Theorem C47_from_flag : forall s, from_flag s = Some true <->
  s = ShStream \/ (impl_concurrent s = true /\ forall s', s <> ShDecorator s') \/
  exists s', s = ShFlushStopper s' /\ impl_concurrent s' = true.
Proof.
  intros s. split.
  - destruct s; cbn; try discriminate; auto; try (destruct (impl_concurrent s) eqn:E; [|discriminate]); intros _; right; eauto;
      left; (split; [auto|intros s' H; discriminate H]).
  - intros [->|[(H & H')|(s' & -> & H)]]; [reflexivity| |cbn; rewrite H; auto].
    destruct s; cbn in *; try discriminate; try rewrite H; auto. exfalso. eapply H'; reflexivity.
Qed.
Theorem C47_stream_flagged_refuted : from_flag ShStream = Some true /\ impl_concurrent ShStream = false.
Proof. split; reflexivity. Qed.

(** The configuration of the documentation (config_builder.rs:118-131), with a decorator and an exponent. *)
Definition array_toml (n : Z) : toml := TTable [("capacity", TInt n); ("id", TStr "ArrayConfig")].
Definition config_ex (kind : string) : toml :=
  TTable [("id", TStr "SequentialConfig");
          ("decorator", TTable [("exponent", TFloat 2); ("kind", TStr kind)]);
          ("container", TTable [("id", TStr "ExclusiveConfig"); ("front", array_toml 10000); ("back", array_toml 1000000)])].
Definition config_ex_c : config := CSequential (CExclusive (CArray (Z.to_nat 10000)) (CArray (Z.to_nat 1000000))).
Example config_ex_accepted : describes (fun _ => true) (config_ex "Lru") config_ex_c /\
  builder_from_toml (fun _ => true) (config_ex "Lru") = Some (config_ex_c, DLru) /\
  builder_from_toml (fun _ => true) (config_ex "Lrfu") = Some (config_ex_c, DLrfu 1) /\
  builder_from_toml (fun _ => true) (config_ex "Mru") = None /\ builder_flag (config_ex_c, DLru) = true /\
  supported config_ex_c = true.
Proof.
  unfold config_ex_c. split; [|repeat split; reflexivity].
  eapply d_sequential; [reflexivity|reflexivity|]. eapply d_exclusive; [reflexivity|reflexivity| |reflexivity|].
  - unfold array_toml. apply d_array; [reflexivity|]. unfold has_capacity. rewrite Z2Nat.id by lia. reflexivity.
  - unfold array_toml. apply d_array; [reflexivity|]. unfold has_capacity. rewrite Z2Nat.id by lia. reflexivity.
Qed.
Example config_bad : generic_from_toml (fun _ => true) (TTable [("id", TStr "ArrayConfig"); ("capacity", TInt (-1))]) = None /\
  generic_from_toml (fun _ => true) (TTable [("capacity", TInt 3)]) = None /\
  generic_from_toml (fun _ => true) (TTable [("id", TStr "InclusiveConfig"); ("front", array_toml 1); ("back", array_toml 2)]) = None.
Proof. repeat split; reflexivity. Qed.
Print Assumptions C43_accepted_iff_described.
Print Assumptions C43_capacity_is_described.
Print Assumptions C43_flag_exactly.
Print Assumptions C47_from_flag.
