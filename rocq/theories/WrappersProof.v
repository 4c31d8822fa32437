(** WrappersProof.v -- the wrappers of Wrappers.v preserve the contract. *)
From Verif Require Import Base PermSolve Block Spec LawsProof Wrappers.
Set Implicit Arguments.

(** Bounds on what take_multiple returns, counted against the requested keys.  [strict]: every pair
    returned used up one requested key.  Only needed by Profiler when keys may be duplicated. *)
Definition tm_len {K V} (B : Block K V) (Inv : St B -> Prop) (strict : bool) : Prop :=
  forall s ks s' ks' out, Inv s -> take_multiple B s ks = Ok (s', ks', out) ->
    length out + (if strict then length ks' else 0) <= length ks.

Lemma tm_len_weak {K V} (B : Block K V) Inv strict : tm_len B Inv strict -> tm_len B Inv false.
Proof. intros H s ks s' ks' out H1 H2. specialize (H _ _ _ _ _ H1 H2). destruct strict; lia. Qed.

Section One.
Context {K V : Type} {OK : Ord K} {EK : OrdEq K}.
Variable C : Block K V.
Variable Inv : St C -> Prop.
Variable ct : St C -> list (K * V).
Variables dup pops empties : bool.
Hypothesis L : Laws C Inv ct dup pops empties.

Lemma flush_stopper_laws : Laws (FlushStopperB C) Inv ct dup pops false.
Proof.
  constructor; cbn.
  - apply (law_size L).
  - apply (law_empty L).
  - apply (law_unique L).
  - apply (law_contains L).
  - apply (law_take L).
  - apply (law_take_multiple L).
  - apply (law_push L).
  - apply (law_pop L).
  - intros s H. exists s, []. repeat split; auto. discriminate.
Qed.

Lemma sequential_laws : Laws (SequentialB C) Inv ct dup pops empties.
Proof. destruct L; constructor; auto. Qed.

Lemma dyn_laws : Laws (DynB C) Inv ct dup pops empties.
Proof.
  constructor; cbn.
  - apply (law_size L).
  - apply (law_empty L).
  - apply (law_unique L).
  - apply (law_contains L).
  - apply (law_take L).
  - intros s ks H.
    destruct (@default_tm_ok _ _ _ _ C Inv ct (law_take L) s ks H) as (s' & out & H1 & H2 & H3 & H4 & H5 & H6 & H7 & H8).
    exists s', ks, out. repeat split; auto. exists []. split; auto. intros x [].
  - apply (law_push L).
  - apply (law_pop L).
  - apply (law_flush L).
Qed.

Lemma remote_laws : Laws (RemoteB C) Inv ct dup pops empties.
Proof.
  constructor; cbn.
  - apply (law_size L).
  - apply (law_empty L).
  - apply (law_unique L).
  - apply (law_contains L).
  - apply (law_take L).
  - intros s ks H. destruct (law_take_multiple L s ks H) as (s' & ks' & out & H1 & H2 & H3 & H4 & H5 & H6 & H7 & H8).
    exists s', ks, out. cbn. rewrite H1. cbn. repeat split; auto. exists []. split; auto. intros x [].
  - apply (law_push L).
  - apply (law_pop L).
  - apply (law_flush L).
Qed.

Lemma dyn_tm_len : tm_len (DynB C) Inv false.
Proof.
  intros s ks s' ks' out H E.
  destruct (@default_tm_ok _ _ _ _ C Inv ct (law_take L) s ks H) as (s1 & out1 & H1 & H2 & H3 & H4 & H5 & H6 & H7 & H8).
  cbn in E. rewrite H1 in E. inversion E; subst. lia.
Qed.

(** With unique keys, take_multiple is bounded by the number of requested keys. *)
Lemma unique_tm_len : dup = false -> tm_len C Inv false.
Proof.
  intros E s ks s' ks' out H Et. rewrite Nat.add_0_r.
  destruct (law_take_multiple L s ks H) as (s1 & ks1 & out1 & H1 & H2 & H3 & H4 & H5 & H6 & _).
  rewrite Et in H1. injection H1 as <- <- <-.
  pose proof (law_unique L s H E) as Hu. apply keys_perm in H5. rewrite keys_app in H5.
  apply (Permutation_NoDup (Permutation_sym H5)) in Hu. apply NoDup_app_inv in Hu.
  destruct Hu as (Hu & _). apply (NoDup_incl_length Hu) in H6. unfold keys in H6. rewrite map_length in H6. auto.
Qed.

Definition pf_inv (s : stats * St C) : Prop := Inv (snd s).
Definition pf_ct (s : stats * St C) : list (K * V) := ct (snd s).

Lemma profiler_laws : tm_len C Inv false -> Laws (ProfilerB C) pf_inv pf_ct dup pops empties.
Proof.
  intros Hb. constructor; unfold pf_inv, pf_ct.
  - intros [t s]; apply (law_size L).
  - intros [t s]; apply (law_empty L).
  - intros [t s]; apply (law_unique L).
  - intros [t s] k; apply (law_contains L).
  - intros [t s] k H. destruct (law_take L s k H) as (s' & o & H1 & H2 & H3 & H4 & H5).
    unfold take_ok; cbn [take ProfilerB capacity size snd]. unfold pf_take; cbn [snd]. rewrite H1. cbn [bind].
    eexists (_, s'), o. split; [reflexivity|]. cbn [snd]. auto.
  - intros [t s] ks H. destruct (law_take_multiple L s ks H) as (s' & ks' & out & H1 & H2).
    unfold take_multiple_ok; cbn [take_multiple ProfilerB capacity size snd]. unfold pf_take_multiple; cbn [snd].
    rewrite H1. cbn [bind]. unfold sub_chk. specialize (Hb s ks s' ks' out H H1). cbn in Hb.
    replace (length out <=? length ks) with true by (symmetry; apply Nat.leb_le; lia). cbn [bind].
    eexists (_, s'), ks', out. split; [reflexivity|]. cbn [snd]. auto.
  - intros [t s] vs H Hm. destruct (law_push L s vs H Hm) as (s' & out & H1 & H2).
    unfold push_ok; cbn [push ProfilerB capacity size snd]. unfold pf_push; cbn [snd]. rewrite H1. cbn [bind].
    eexists (_, s'), out. split; [reflexivity|]. cbn [snd]. auto.
  - intros Hp [t s] n H. destruct (law_pop L Hp s n H) as (s' & out & H1 & H2 & H3 & H4 & H5 & H6).
    unfold pop_ok; cbn [pop ProfilerB capacity size snd]. unfold pf_pop; cbn [snd]. rewrite H1. cbn [bind].
    unfold sub_chk. replace (size C s' <=? size C s) with true by (symmetry; apply Nat.leb_le; auto). cbn [bind].
    eexists (_, s'), out. split; [reflexivity|]. cbn [snd]. auto.
  - intros [t s] H. destruct (law_flush L s H) as (s' & out & H1 & H2).
    unfold flush_ok; cbn [flush ProfilerB capacity size snd]. unfold pf_flush; cbn [snd]. rewrite H1. cbn [bind].
    eexists (_, s'), out. split; [reflexivity|]. cbn [snd]. auto.
Qed.

Lemma profiler_tm_len strict : tm_len C Inv strict -> tm_len (ProfilerB C) pf_inv strict.
Proof.
  intros Hb [t s] ks [t' s'] ks' out H E. cbn in E. unfold pf_take_multiple in E. cbn [snd] in E.
  destruct (take_multiple C s ks) as [[[s1 ks1] o1]|] eqn:E1; cbn in E; [|discriminate].
  unfold sub_chk in E. destruct (length o1 <=? length ks); cbn in E; [|discriminate].
  inversion E; subst. eapply Hb; eauto.
Qed.
End One.

Section SumProof.
Context {K V I : Type} {OK : Ord K} {EK : OrdEq K}.
Variable C : I -> Block K V.
Variable Inv : forall i, St (C i) -> Prop.
Variable ct : forall i, St (C i) -> list (K * V).
Variables dup pops empties : bool.
Hypothesis L : forall i, Laws (C i) (Inv i) (ct i) dup pops empties.

Definition sum_inv (s : St (SumB C)) : Prop := Inv (projT1 s) (projT2 s).
Definition sum_ct (s : St (SumB C)) : list (K * V) := ct (projT1 s) (projT2 s).

Lemma sum_laws : Laws (SumB C) sum_inv sum_ct dup pops empties.
Proof.
  constructor; unfold sum_inv, sum_ct.
  - intros [i s]; apply (law_size (L i)).
  - intros [i s]; apply (law_empty (L i)).
  - intros [i s]; apply (law_unique (L i)).
  - intros [i s] k; apply (law_contains (L i)).
  - intros [i s] k H. destruct (law_take (L i) s k H) as (s' & o & H1 & H2).
    exists (existT _ i s'), o. cbn. rewrite H1. split; [reflexivity|]. auto.
  - intros [i s] ks H. destruct (law_take_multiple (L i) s ks H) as (s' & ks' & out & H1 & H2).
    exists (existT _ i s'), ks', out. cbn. rewrite H1. split; [reflexivity|]. auto.
  - intros [i s] vs H Hm. destruct (law_push (L i) s vs H Hm) as (s' & out & H1 & H2).
    exists (existT _ i s'), out. cbn. rewrite H1. split; [reflexivity|]. auto.
  - intros Hp [i s] n H. destruct (law_pop (L i) Hp s n H) as (s' & out & H1 & H2).
    exists (existT _ i s'), out. cbn. rewrite H1. split; [reflexivity|]. auto.
  - intros [i s] H. destruct (law_flush (L i) s H) as (s' & out & H1 & H2).
    exists (existT _ i s'), out. cbn. rewrite H1. split; [reflexivity|]. auto.
Qed.

Lemma sum_tm_len strict : (forall i, tm_len (C i) (Inv i) strict) -> tm_len (SumB C) sum_inv strict.
Proof.
  intros Hb [i s] ks s'' ks' out H E. cbn in E.
  destruct (take_multiple (C i) s ks) as [[[s1 ks1] o1]|] eqn:E1; cbn in E; [|discriminate].
  inversion E; subst. eapply Hb; eauto.
Qed.
End SumProof.

Section DecoratorProof.
Context {K V D : Type} {OK : Ord K} {EK : OrdEq K}.
Variable F : Factory V D.
Variable C : Block K D.
Variable Inv : St C -> Prop.
Variable ct : St C -> list (K * D).
Variables dup pops empties : bool.
Hypothesis L : Laws C Inv ct dup pops empties.

Definition dc_inv (s : St (DecoratorB F C)) : Prop := Inv (snd s).
Definition dc_ct (s : St (DecoratorB F C)) : list (K * V) := map (unwrap_kv F) (ct (snd s)).

Lemma keys_unwrap (l : list (K * D)) : keys (map (unwrap_kv F) l) = keys l.
Proof. unfold keys. rewrite map_map. apply map_ext. intros []; auto. Qed.
Lemma unwrap_wrap_all (vs : list (K * V)) : forall f, map (unwrap_kv F) (snd (wrap_all F f vs)) = vs.
Proof.
  induction vs as [|[k v] vs IH]; intros f; cbn; auto.
  destruct (wrap F f v) as [f1 d] eqn:E. specialize (IH f1). destruct (wrap_all F f1 vs) as [f2 ds]. cbn in *.
  rewrite IH. unfold unwrap_kv; cbn. pose proof (unwrap_wrap F f v) as H. rewrite E in H. cbn in H. rewrite H. auto.
Qed.
Lemma map_nil_inv {X Y} (f : X -> Y) l : map f l = [] -> l = [].
Proof. destruct l; cbn; congruence. Qed.

Lemma decorator_laws : Laws (DecoratorB F C) dc_inv dc_ct dup pops empties.
Proof.
  constructor; unfold dc_inv, dc_ct.
  - intros [f s]; apply (law_size L).
  - intros [f s] H E. apply (law_empty L); auto. apply map_nil_inv in E; auto.
  - intros [f s] H E. rewrite keys_unwrap. apply (law_unique L); auto.
  - intros [f s] k H. cbn. rewrite (law_contains L s k H). f_equal.
    destruct (has_key k (ct s)) eqn:E; symmetry.
    + apply has_key_in. rewrite keys_unwrap. apply has_key_in; auto.
    + apply has_key_not_in. rewrite keys_unwrap. apply has_key_not_in; auto.
  - intros [f s] k H. destruct (law_take L s k H) as (s' & o & H1 & H2 & H3 & H4 & H5).
    exists (f, s'), (option_map (unwrap_kv F) o). cbn [DecoratorB take snd fst capacity size]. rewrite H1. cbn [bind].
    repeat split; auto. destruct o as [[k' d]|]; cbn [option_map unwrap_kv fst snd].
    + destruct H5 as [-> P]. split; auto. apply (Permutation_map (unwrap_kv F)) in P. exact P.
    + destruct H5 as [Hn P]. rewrite keys_unwrap. split; auto. apply Permutation_map; auto.
  - intros [f s] ks H.
    destruct (law_take_multiple L s ks H) as (s' & ks' & out & H1 & H2 & H3 & H4 & H5 & H6 & H7 & H8).
    exists (f, s'), ks', (map (unwrap_kv F) out).
    cbn [DecoratorB take_multiple snd fst capacity size]. rewrite H1. cbn [bind].
    rewrite <- map_app, !keys_unwrap. repeat split; auto. apply Permutation_map; auto.
  - intros [f s] vs H Hm. unfold may_push in Hm. cbn [snd] in Hm.
    destruct (wrap_all F f vs) as [f' ds] eqn:E.
    assert (Ev : vs = map (unwrap_kv F) ds) by (rewrite <- (unwrap_wrap_all vs f), E; auto).
    destruct (law_push L s ds H) as (s' & out & H1 & H2 & H3 & H4).
    { intros Ed. specialize (Hm Ed). rewrite Ev, <- map_app, keys_unwrap in Hm. auto. }
    exists (f', s'), (map (unwrap_kv F) out). cbn [DecoratorB push snd fst capacity size]. rewrite E, H1. cbn [bind].
    repeat split; auto. rewrite Ev, <- !map_app. apply Permutation_map; auto.
  - intros Hp [f s] n H. destruct (law_pop L Hp s n H) as (s' & out & H1 & H2 & H3 & H4 & H5 & H6).
    exists (f, s'), (map (unwrap_kv F) out). cbn [DecoratorB pop snd fst capacity size]. rewrite H1. cbn [bind].
    rewrite <- map_app. repeat split; auto.
    + apply Permutation_map; auto.
    + destruct H5 as [|H5]; auto. rewrite H5; auto.
  - intros [f s] H. destruct (law_flush L s H) as (s' & out & H1 & H2 & H3 & H4 & H5).
    exists (f, s'), (map (unwrap_kv F) out). cbn [DecoratorB flush snd fst capacity size]. rewrite H1. cbn [bind].
    rewrite <- map_app. repeat split; auto.
    + apply Permutation_map; auto.
    + intros E. rewrite H5; auto.
Qed.

Lemma decorator_tm_len strict : tm_len C Inv strict -> tm_len (DecoratorB F C) dc_inv strict.
Proof.
  intros Hb [f s] ks [f' s'] ks' out H E. cbn in E.
  destruct (take_multiple C s ks) as [[[s1 ks1] o1]|] eqn:E1; cbn in E; [|discriminate].
  inversion E; subst. rewrite map_length. eapply Hb; eauto.
Qed.
End DecoratorProof.
