(** PRepr.v -- C61: what a cache holds, evicts and answers depends on its policy only, not on the containers it is
    made of. *)
From Coq Require Import NArith.
From Verif Require Import Base PermSolve Block Spec LawsProof Cut Array ArrayProof BTree BTreeProof
  Batch BatchProof Exclusive ExclusiveProof Wrappers WrappersProof Associative AssociativeProof Sim SimProof Arch ArchProof
  Decorations Repr ReprProof Minus Alike PArch.
Set Implicit Arguments.

Section PRepr.
Context {K : Type} {OK : Ord K} {EK : OrdEq K}.

(** *** Disjoint unions *)
Section Sums.
Context {V : Type} {O : Ord V}.
Variables (n : nat) (f g : nat -> arch K V).
Notation fam f := (fun c => (if projT1 c <? n then ainv false (f (projT1 c)) else fun _ => False) (projT2 c)).
Notation famct f := (fun c => held (f (projT1 c)) (projT2 c)).
Variable L : forall i, St (block (f i)) -> St (block (g i)) -> Prop.
Hypothesis X : forall i, i < n -> Alike (block (f i)) (block (g i)) (ainv false (f i)) (ainv false (g i)) (held (f i)) (held (g i)) (minus (f i)) (minus (g i)) (@L i).
Definition sum_like (x : St (SumB (fun i => block (f i)))) (y : St (SumB (fun i => block (g i)))) : Prop :=
  exists i s t, i < n /\ x = existT _ i s /\ y = existT _ i t /\ @L i s t.
Lemma sum_alike : Alike (SumB (fun i => block (f i))) (SumB (fun i => block (g i))) (fam f) (fam g) (famct f) (famct g)
  (@sum_minus K V (fun i => block (f i)) (fun i => minus (f i))) (@sum_minus K V (fun i => block (g i)) (fun i => minus (g i))) sum_like.
Proof.
  assert (Hn : forall i, i < n -> (i <? n) = true) by (intros i Hi; apply Nat.ltb_lt; auto).
  assert (M : forall i s t, i < n -> @L i s t -> sum_like (existT _ i s) (existT _ i t)) by (intros; do 3 eexists; eauto).
  constructor.
  - intros x y (i & s & t & Hi & -> & -> & HR). cbn [projT1 projT2]. rewrite (Hn i Hi). apply (al_inv (X Hi) _ _ HR).
  - intros x y (i & s & t & Hi & -> & -> & HR). apply (al_ct (X Hi) _ _ HR).
  - intros x y (i & s & t & Hi & -> & -> & HR). apply (al_cap (X Hi) _ _ HR).
  - intros x y (i & s & t & Hi & -> & -> & HR). apply (al_size (X Hi) _ _ HR).
  - intros P x y x' y' (i & s & t & Hi & -> & -> & HR) (i1 & s1 & s' & E1 & -> & G1) (i2 & t1 & t' & E2 & -> & G2) I1 I2.
    assert (Ei := f_equal (@projT1 _ _) E1). cbn in Ei. subst i1. apply (Eqdep_dec.inj_pair2_eq_dec _ Nat.eq_dec) in E1. subst s1.
    assert (Ei := f_equal (@projT1 _ _) E2). cbn in Ei. subst i2. apply (Eqdep_dec.inj_pair2_eq_dec _ Nat.eq_dec) in E2. subst t1.
    cbn [projT1 projT2] in I1, I2. rewrite (Hn i Hi) in I1, I2. apply M; auto. eapply (al_rm (X Hi)); eauto.
  - intros x y m (i & s & t & Hi & -> & -> & HR). cbn.
    destruct (al_pop (X Hi) _ _ m HR) as [[G1 G2]|(s' & t' & o & o' & G1 & G2 & G3 & G4)].
    + left. rewrite G1, G2. auto.
    + right. rewrite G1, G2. cbn. eexists _, _, o, o'. split; [reflexivity|]. split; [reflexivity|]. split; [apply M; auto|]. exact G4.
  - intros x y vs vs' (i & s & t & Hi & -> & -> & HR) P Ha. cbn.
    destruct (al_push (X Hi) _ _ HR P Ha) as (s' & t' & o & o' & G1 & G2 & G3 & G4).
    rewrite G1, G2. cbn. eexists _, _, o, o'. split; [reflexivity|]. split; [reflexivity|]. split; [apply M; auto|]. exact G4.
  - intros x y (i & s & t & Hi & -> & -> & HR). cbn.
    destruct (al_flush (X Hi) _ _ HR) as (s' & t' & o & o' & G1 & G2 & G3 & G4).
    rewrite G1, G2. cbn. eexists _, _, o, o'. split; [reflexivity|]. split; [reflexivity|]. split; [apply M; auto|]. exact G4.
Qed.
Lemma sum_init : (forall i, i < n -> @L i (init (f i)) (init (g i))) ->
  Forall2 sum_like (map (fun i => existT (fun i => St (block (f i))) i (init (f i))) (seq 0 n))
                   (map (fun i => existT (fun i => St (block (g i))) i (init (g i))) (seq 0 n)).
Proof.
  intros H. assert (G : forall i, In i (seq 0 n) -> i < n) by (intros i Hi; apply in_seq in Hi; lia).
  induction (seq 0 n) as [|i l IH]; cbn; constructor.
  - exists i, (init (f i)), (init (g i)). repeat split; auto. apply G. left; auto. apply H, G. left; auto.
  - apply IH. intros j Hj. apply G. right; auto.
Qed.
End Sums.

Lemma init_empty V (a : arch K V) : held a (init a) = [].
Proof. apply (init_ok false a). Qed.
Notation likea a b := (likest (block a) (block b) (ainv false a) (ainv false b) (held a) (held b) (minus a) (minus b)).
Lemma leaf_of_leaf V (O : Ord V) cap esz (a : arch K V) : (forall e, 1 <= esz e) -> leaf_of O cap esz a ->
  Leaf esz (block a) (ainv false a) (held a) /\ minus a = leaf_minus (block a) (held a) /\ capacity (block a) (init a) = cap.
Proof.
  intros Hp [srt bs|].
  - split; [apply array_leaf; auto|]. split; reflexivity.
  - split; [apply btree_leaf; auto|]. split; reflexivity.
Qed.
Lemma ainv_new V (a : arch K V) : ainv false a (init a).
Proof. apply (init_ok false a). Qed.
Lemma minus_cap V (a : arch K V) c : Minus (block a) (fun s => ainv false a s /\ capacity (block a) s = c) (held a) (minus a).
Proof.
  destruct (minus_ok a) as [H1 H2 H3 H4 H5 H6]. constructor; auto.
  - intros s k s' o [Hi _]. apply H5; auto.
  - intros s ks s' l0 o [Hi _]. apply H6; auto.
Qed.
Lemma minus_sum V n (f : nat -> arch K V) : Minus (SumB (fun i => block (f i)))
  (fun c => (if projT1 c <? n then ainv false (f (projT1 c)) else fun _ => False) (projT2 c))
  (fun c => held (f (projT1 c)) (projT2 c)) (@sum_minus K V (fun i => block (f i)) (fun i => minus (f i))).
Proof.
  apply (@sum_minus_ok K OK V (fun i => block (f i)) _ (fun i => ainv false (f i)) (fun i => held (f i)) (fun i => minus (f i))).
  - intros i. apply minus_ok.
  - intros i s. cbn [projT1 projT2]. destruct (i <? n); tauto.
Qed.
Theorem same_policy_alike V (O : Ord V) (a b : arch K V) : same_policy O a b -> likea a b (init a) (init b).
Proof.
  induction 1 as [cap esz a b Hp La Lb|n f g Hs IH|bs bs' l r l' r' Hl IHl Hr IHr|hash n f g Hst Hs IH|a b H IH|a a' b W H IH|a b b' W H IH].
  - destruct (leaf_of_leaf Hp La) as (A1 & A2 & A3), (leaf_of_leaf Hp Lb) as (B1 & B2 & B3). rewrite A2, B2.
    eexists. split; [exact (leaf_alike A1 B1)|]. unfold leaf_like. rewrite !init_empty.
    split; [apply ainv_new|]. split; [apply ainv_new|]. split; [apply apart_nil|]. split; auto. congruence.
  - eexists. split; [exact (batch_alike (sum_alike f g (fun i => likea (f i) (g i)) (fun i _ => likest_ok _ _ _ _ _ _ _ _)) (minus_sum n f))|].
    split; [apply sum_init; exact IH|]. 
    match goal with |- apart ?l => change l with (held (ABatch n f) (init (ABatch n f))) end. rewrite init_empty. apply apart_nil.
  - destruct IHl as (R & XR & HR), IHr as (Q & XQ & HQ).
    eexists. split; [exact (exclusive_alike bs bs' (alike_cap (capacity (block l) (init l)) (capacity (block l') (init l')) XR) XQ
      (minus_cap l _) (minus_ok r))|].
    split; [split; auto|]. split; [exact HQ|]. cbn [fst snd init]. rewrite !init_empty. apply apart_nil.
  - assert (LA : Laws (SumB (fun i => block (f i))) (fun c => (if projT1 c <? S n then ainv false (f (projT1 c)) else fun _ => False) (projT2 c))
       (fun c => held (f (projT1 c)) (projT2 c)) false false true).
    { apply family_laws. intros i Hi. eapply laws_flags; [apply laws_of|discriminate|]. intros _. rewrite (Hst i Hi). auto. }
    eexists. split; [exact (associative_alike (sum_alike f g (fun i => likea (f i) (g i)) (fun i _ => likest_ok _ _ _ _ _ _ _ _)) (minus_sum (S n) f) hash LA (family_of (S n) g))|].
    split; [apply sum_init; exact IH|]. split.
    + match goal with |- apart ?l => change l with (held (AAssociative hash n f) (init (AAssociative hash n f))) end. rewrite init_empty. apply apart_nil.
    + split; [exact (ainv_new (AAssociative hash n f))|exact (ainv_new (AAssociative hash n g))].
  - destruct IH as (R & X & HR). exists R. split; [exact (alike_stopper X)|exact HR].
  - destruct IH as (R & X & HR). destruct W.
    + exists R. split; [exact (alike_sequential_l X)|exact HR].
    + exists R. split; [exact (alike_dyn_l X)|exact HR].
    + eexists. split; [exact (alike_profiler_l X)|exact HR].
    + exists R. split; [exact (alike_remote_l X)|exact HR].
  - destruct IH as (R & X & HR). destruct W.
    + exists R. split; [exact (alike_sequential_r X)|exact HR].
    + exists R. split; [exact (alike_dyn_r X)|exact HR].
    + eexists. split; [exact (alike_profiler_r X)|exact HR].
    + exists R. split; [exact (alike_remote_r X)|exact HR].
Qed.

(** *** The conversations *)
Lemma keys_nodup_fun V (k : K) (v v' : V) l : NoDup (keys l) -> In (k, v) l -> In (k, v') l -> v = v'.
Proof.
  induction l as [|[x y] l IH]; cbn [keys map]; intros Hn H1 H2; [destruct H1|]. inversion Hn as [|? ? N1 N2]; subst.
  destruct H1 as [E1|H1], H2 as [E2|H2].
  - congruence.
  - inversion E1; subst. exfalso. apply N1. apply in_keys in H2; auto.
  - inversion E2; subst. exfalso. apply N1. apply in_keys in H1; auto.
  - auto.
Qed.
Lemma one_of V (k : K) (c c1 c1' : list (K * V)) o o' : NoDup (keys c) ->
  match o with Some (k', v) => k' = k /\ Permutation ((k, v) :: c1) c | None => ~ In k (keys c) /\ Permutation c1 c end ->
  match o' with Some (k', v) => k' = k /\ Permutation ((k, v) :: c1') c | None => ~ In k (keys c) /\ Permutation c1' c end -> o = o'.
Proof.
  intros Hn H1 H2. destruct o as [[k1 v1]|], o' as [[k2 v2]|]; auto.
  - destruct H1 as [-> P1], H2 as [-> P2]. do 2 f_equal. eapply keys_nodup_fun; [exact Hn| |].
    + rewrite <- P1. left; auto.
    + rewrite <- P2. left; auto.
  - destruct H1 as [-> P1], H2 as [N _]. exfalso. apply N. rewrite <- (keys_perm P1). left; auto.
  - destruct H2 as [-> P1], H1 as [N _]. exfalso. apply N. rewrite <- (keys_perm P1). left; auto.
Qed.
Lemma has_key_perm V (k : K) (l l' : list (K * V)) : Permutation l l' -> has_key k l = has_key k l'.
Proof.
  intros P. destruct (has_key k l) eqn:E1, (has_key k l') eqn:E2; auto; exfalso.
  - apply has_key_in in E1. rewrite (keys_perm P) in E1. apply has_key_in in E1. congruence.
  - apply has_key_in in E2. rewrite <- (keys_perm P) in E2. apply has_key_in in E2. congruence.
Qed.
Lemma likea_watch V (O : Ord V) (a b : arch K V) : forall h s t, likea a b s t -> tells_apart a s h ->
  Forall2 alike_saw (watch (block a) s h) (watch (block b) t h).
Proof.
  pose proof (likest_ok (block a) (block b) (ainv false a) (ainv false b) (held a) (held b) (minus a) (minus b)) as X.
  induction h as [|q h IH]; intros s t HR HT; [constructor|].
  destruct (al_inv X _ _ HR) as [I J], (al_ct X _ _ HR) as [Ha P].
  destruct q as [| |k|k|ks|m|vs|]; unfold tells_apart in HT; cbn [watch pushes_are] in *.
  - constructor; auto. cbn. apply (al_cap X _ _ HR).
  - constructor; auto. cbn. apply (al_size X _ _ HR).
  - rewrite (law_contains (laws_of a) s k I), (law_contains (laws_of b) t k J). constructor; auto. cbn. apply has_key_perm. auto.
  - destruct (law_take (laws_of a) s k I) as (s' & o & E1 & I1 & _ & _ & H1).
    destruct (law_take (laws_of b) t k J) as (t' & o' & E2 & J1 & _ & _ & H2). rewrite E1, E2. constructor.
    + cbn. eapply one_of with (k := k) (c := held a s); [apply Ha|exact H1|].
      destruct o' as [[k' v]|]; rewrite (Permutation_sym P) in H2 || idtac.
      * destruct H2 as [-> H2]. split; auto. rewrite H2. symmetry; auto.
      * destruct H2 as [N H2]. split; [rewrite (keys_perm P); auto|]. rewrite H2. symmetry; auto.
    + apply IH; [|apply (HT _ _ E1)]. eapply (al_rm X); eauto; [apply (mi_take (minus_ok a) I E1)|apply (mi_take (minus_ok b) J E2)].
  - destruct (law_take_multiple (laws_of a) s ks I) as (s' & l & o & E1 & I1 & _ & _ & P1 & _).
    destruct (law_take_multiple (laws_of b) t ks J) as (t' & l' & o' & E2 & J1 & _ & _ & P2 & _). rewrite E1, E2. constructor.
    + cbn. pose proof (mi_ct (minus_ok a) (mi_tm (minus_ok a) I E1)) as Q1. pose proof (mi_ct (minus_ok b) (mi_tm (minus_ok b) J E2)) as Q2.
      apply Permutation_app_inv_r with (l := held a s'). rewrite P1, P, <- P2. apply Permutation_app_head.
      rewrite Q2, Q1. apply without_perm. symmetry; auto.
    + apply IH; [|apply (HT _ _ _ E1)]. eapply (al_rm X); eauto; [apply (mi_tm (minus_ok a) I E1)|apply (mi_tm (minus_ok b) J E2)].
  - destruct (al_pop X _ _ m HR) as [[E1 E2]|(s' & t' & o & o' & E1 & E2 & HR' & Po & _)]; rewrite E1, E2.
    + constructor; cbn; auto.
    + constructor; auto. apply IH; auto. apply (HT _ _ E1).
  - destruct HT as [HA HT]. destruct (al_push X _ _ HR (Permutation_refl vs) HA) as (s' & t' & o & o' & E1 & E2 & HR' & Po & _). rewrite E1, E2.
    constructor; auto. apply IH; auto. apply (HT _ _ E1).
  - destruct (al_flush X _ _ HR) as (s' & t' & o & o' & E1 & E2 & HR' & Po & _). rewrite E1, E2.
    constructor; auto. apply IH; auto. apply (HT _ _ E1).
Qed.

(** C61.  Two caches built to the same policy give the same answers to every conversation in which the pairs pushed
    can be told apart from one another and from what the cache holds. *)
Theorem C61_same_answers : forall V (O : Ord V) (a b : arch K V) h,
  same_policy O a b -> tells_apart a (init a) h ->
  Forall2 alike_saw (watch (block a) (init a) h) (watch (block b) (init b) h).
Proof. intros V O a b h S T. apply likea_watch with (O := O); auto. apply same_policy_alike; auto. Qed.

(** It is enough that all the pairs of the conversation can be told apart. *)
Lemma all_apart V (O : Ord V) (a b : arch K V) : forall h s t, likea a b s t -> apart (held a s ++ asked_in h) -> tells_apart a s h.
Proof.
  pose proof (likest_ok (block a) (block b) (ainv false a) (ainv false b) (held a) (held b) (minus a) (minus b)) as X.
  assert (Y : forall c c' r : list (K * V), apart (c ++ r) -> (exists o, Permutation (o ++ c') c) -> apart (c' ++ r)).
  { intros c c' r H (o & P). apply (@apart_app_r K V O o). rewrite app_assoc. eapply apart_perm; [|exact H]. apply Permutation_app_tail. symmetry; auto. }
  induction h as [|q h IH]; intros s t HR HA; [exact Logic.I|].
  destruct (al_inv X _ _ HR) as [Hi Hj].
  destruct q as [| |k|k|ks|m|vs|]; unfold tells_apart; cbn [pushes_are] in *; try (eapply IH; [exact HR|exact HA]).
  - intros s' o E1. destruct (law_take (laws_of b) t k Hj) as (t' & o' & E2 & J1 & _).
    destruct (law_take (laws_of a) s k Hi) as (s1 & o1 & E1' & I1 & _ & _ & H1). rewrite E1 in E1'. inversion E1'; subst s1 o1.
    eapply IH with (t := t').
    + eapply (al_rm X); eauto; [apply (mi_take (minus_ok a) Hi E1)|apply (mi_take (minus_ok b) Hj E2)].
    + eapply Y; [exact HA|]. destruct o as [[k' v]|]; [exists [(k, v)]|exists []]; apply H1.
  - intros s' l o E1. destruct (law_take_multiple (laws_of b) t ks Hj) as (t' & l' & o' & E2 & J1 & _).
    destruct (law_take_multiple (laws_of a) s ks Hi) as (s1 & l1 & o1 & E1' & I1 & _ & _ & P1 & _). rewrite E1 in E1'. inversion E1'; subst s1 l1 o1.
    eapply IH with (t := t').
    + eapply (al_rm X); eauto; [apply (mi_tm (minus_ok a) Hi E1)|apply (mi_tm (minus_ok b) Hj E2)].
    + eapply Y; [exact HA|]. exists o; auto.
  - intros s' o E1. destruct (al_pop X _ _ m HR) as [[E1' E2]|(s1 & t' & o1 & o' & E1' & E2 & HR' & Po & Pc & _)]; rewrite E1 in E1'; [discriminate|].
    inversion E1'; subst s1 o1. eapply IH; [exact HR'|]. eapply Y; [exact HA|]. exists o; auto.
  - cbn [asked_in flat_map] in HA. rewrite app_assoc in HA. pose proof (apart_app_l _ _ HA) as HP. split; auto. intros s' o E1.
    destruct (al_push X _ _ HR (Permutation_refl vs) HP) as (s1 & t' & o1 & o' & E1' & E2 & HR' & Po & Pc & _). rewrite E1 in E1'.
    inversion E1'; subst s1 o1. eapply IH; [exact HR'|]. eapply Y; [exact HA|]. exists o; auto.
  - intros s' o E1. destruct (al_flush X _ _ HR) as (s1 & t' & o1 & o' & E1' & E2 & HR' & Po & Pc & _). rewrite E1 in E1'.
    inversion E1'; subst s1 o1. eapply IH; [exact HR'|]. eapply Y; [exact HA|]. exists o; auto.
Qed.
Theorem C61_same_answers_to_distinct_pairs : forall V (O : Ord V) (a b : arch K V) h,
  same_policy O a b -> apart (asked_in h) ->
  Forall2 alike_saw (watch (block a) (init a) h) (watch (block b) (init b) h).
Proof.
  intros V O a b h S T. apply C61_same_answers with (O := O); auto. eapply all_apart; [apply same_policy_alike; exact S|].
  rewrite init_empty. auto.
Qed.

(** *** Decorated caches: the stamps tell the pairs apart *)
Section Stamped.
Context {V D : Type}.
Variables (F : Factory V D) (stamp : D -> nat) (bound : Fst F -> nat).
Hypothesis stamps : forall f v, bound f <= stamp (snd (wrap F f v)) < bound (fst (wrap F f v)).
Fixpoint wrap_asks (f : Fst F) (h : list (ask K V)) : list (ask K D) :=
  match h with
  | [] => []
  | AskCapacity :: h' => AskCapacity :: wrap_asks f h'
  | AskSize :: h' => AskSize :: wrap_asks f h'
  | AskContains k :: h' => AskContains k :: wrap_asks f h'
  | AskTake k :: h' => AskTake k :: wrap_asks f h'
  | AskTakeMultiple ks :: h' => AskTakeMultiple ks :: wrap_asks f h'
  | AskPop n :: h' => AskPop n :: wrap_asks f h'
  | AskPush vs :: h' => AskPush (snd (wrap_all F f vs)) :: wrap_asks (fst (wrap_all F f vs)) h'
  | AskFlush :: h' => AskFlush :: wrap_asks f h'
  end.
Definition unwrap_saw (x : saw K D) : saw K V :=
  match x with
  | SawNum n => SawNum n | SawBool b => SawBool b | SawOne o => SawOne (option_map (unwrap_kv F) o)
  | SawPairs l => SawPairs (map (unwrap_kv F) l) | SawKeys ks l => SawKeys ks (map (unwrap_kv F) l) | SawPanic => SawPanic
  end.
Lemma watch_deco (C : Block K D) : forall h f s, watch (DecoratorB F C) (f, s) h = map unwrap_saw (watch C s (wrap_asks f h)).
Proof.
  induction h as [|q h IH]; intros f s; auto. destruct q as [| |k|k|ks|m|vs|]; cbn [watch wrap_asks map].
  - rewrite IH. auto.
  - rewrite IH. auto.
  - cbn [contains DecoratorB snd]. destruct (contains C s k); cbn; auto. rewrite IH. auto.
  - cbn [take DecoratorB fst snd]. destruct (take C s k) as [[s' o]|]; cbn; auto. rewrite IH. auto.
  - cbn [take_multiple DecoratorB fst snd]. destruct (take_multiple C s ks) as [[[s' l] o]|]; cbn; auto. rewrite IH. auto.
  - cbn [pop DecoratorB fst snd]. destruct (pop C s m) as [[s' o]|]; cbn; auto. rewrite IH. auto.
  - cbn [push DecoratorB fst snd]. destruct (wrap_all F f vs) as [f' ds]. cbn [fst snd].
    destruct (push C s ds) as [[s' o]|]; cbn; auto. rewrite IH. auto.
  - cbn [flush DecoratorB fst snd]. destruct (flush C s) as [[s' o]|]; cbn; auto. rewrite IH. auto.
Qed.
Lemma unwrap_alike x y : alike_saw x y -> alike_saw (unwrap_saw x) (unwrap_saw y).
Proof. destruct x, y; cbn; auto; try congruence; apply Permutation_map. Qed.

Lemma stamps_all : forall (vs : list (K * V)) f, bound f <= bound (fst (wrap_all F f vs)) /\ keys (snd (wrap_all F f vs)) = keys vs /\
  (forall p : K * D, In p (snd (wrap_all F f vs)) -> bound f <= stamp (snd p) < bound (fst (wrap_all F f vs))) /\
  (forall p q : K * D, In p (snd (wrap_all F f vs)) -> In q (snd (wrap_all F f vs)) -> stamp (snd p) = stamp (snd q) -> p = q).
Proof.
  induction vs as [|[k v] vs IH]; intros f; cbn [wrap_all].
  - cbn. split; [lia|]. split; [auto|]. split; intros p; [|intros q]; intros [].
  - pose proof (stamps f v) as B. destruct (wrap F f v) as [f1 d]. cbn [fst snd] in B. destruct (IH f1) as (H1 & H2 & H3 & H4).
    destruct (wrap_all F f1 vs) as [f2 ds]. cbn [fst snd] in *. split; [lia|]. split; [change (k :: keys ds = k :: keys vs); congruence|]. split.
    + intros p [<-|Hp]; cbn; [lia|]. specialize (H3 p Hp). lia.
    + intros p q [<-|Hp] [<-|Hq] E; auto.
      * specialize (H3 q Hq). cbn in E. lia.
      * specialize (H3 p Hp). cbn in E. lia.
Qed.
Lemma deco_tells f0 (a b : arch K D) : forall h f s t,
  @likest K D (later_first stamp) (block a) (block b) (ainv false a) (ainv false b) (held a) (held b) (minus a) (minus b) s t ->
  (forall p : K * D, In p (held a s) -> stamp (snd p) < bound f) ->
  new_keys (ADecorator F f0 a) (f, s) h -> @tells_apart K OK D (later_first stamp) a s (wrap_asks f h).
Proof.
  pose proof (@likest_ok K D (later_first stamp) (block a) (block b) (ainv false a) (ainv false b) (held a) (held b) (minus a) (minus b)) as X.
  assert (Y : forall f (c c' : list (K * D)) o, Permutation (o ++ c') c -> (forall p : K * D, In p c -> stamp (snd p) < bound f) -> forall p : K * D, In p c' -> stamp (snd p) < bound f).
  { intros f c c' o P H p Hp. apply H. rewrite <- P. apply in_or_app. auto. }
  induction h as [|q h IH]; intros f s t HR HB HN; [exact Logic.I|].
  destruct (al_inv X _ _ HR) as [Hi Hj], (al_ct X _ _ HR) as [Ha P]. unfold new_keys in HN.
  destruct q as [| |k|k|ks|m|vs|]; unfold tells_apart; cbn [pushes_are wrap_asks] in *; try (eapply IH; eauto; fail).
  - intros s' o E1. destruct (law_take (laws_of b) t k Hj) as (t' & o' & E2 & J1 & _).
    destruct (law_take (laws_of a) s k Hi) as (s1 & o1 & E1' & I1 & _ & _ & H1). rewrite E1 in E1'. inversion E1'; subst s1 o1.
    eapply IH with (t := t').
    + eapply (al_rm X); eauto; [apply (mi_take (minus_ok a) Hi E1)|apply (mi_take (minus_ok b) Hj E2)].
    + destruct o as [[k' v]|]; [eapply (Y f _ _ [(k, v)])|eapply (Y f _ _ [])]; try apply H1; auto.
    + eapply HN. cbn [block take DecoratorB fst snd]. rewrite E1. reflexivity.
  - intros s' l o E1. destruct (law_take_multiple (laws_of b) t ks Hj) as (t' & l' & o' & E2 & J1 & _).
    destruct (law_take_multiple (laws_of a) s ks Hi) as (s1 & l1 & o1 & E1' & I1 & _ & _ & P1 & _). rewrite E1 in E1'. inversion E1'; subst s1 l1 o1.
    eapply IH with (t := t').
    + eapply (al_rm X); eauto; [apply (mi_tm (minus_ok a) Hi E1)|apply (mi_tm (minus_ok b) Hj E2)].
    + eapply (Y f); eauto.
    + eapply HN. cbn [block take_multiple DecoratorB fst snd]. rewrite E1. reflexivity.
  - intros s' o E1. destruct (al_pop X _ _ m HR) as [[E1' E2]|(s1 & t' & o1 & o' & E1' & E2 & HR' & Po & Pc & _)]; rewrite E1 in E1'; [discriminate|].
    inversion E1'; subst s1 o1. eapply IH; [exact HR'|eapply (Y f); eauto|]. eapply HN. cbn [block pop DecoratorB fst snd]. rewrite E1. reflexivity.
  - destruct HN as [HK HN]. pose proof (stamps_all vs f) as (B1 & B2 & B3 & B4).
    assert (HP : @apart K D (later_first stamp) (held a s ++ snd (wrap_all F f vs))).
    { split.
      - rewrite keys_app, B2. cbn [held] in HK. cbn [snd] in HK. rewrite keys_app in HK. unfold keys in HK at 1. rewrite map_map in HK. exact HK.
      - intros p q Hp Hq E. assert (Es : stamp (snd p) = stamp (snd q)).
        { unfold eqb in E. cbn in E. apply andb_prop in E. destruct E as [E1 E2]. apply Nat.leb_le in E1, E2. lia. }
        apply in_app_or in Hp, Hq. destruct Hp as [Hp|Hp], Hq as [Hq|Hq].
        + apply Ha; auto.
        + specialize (HB p Hp). specialize (B3 q Hq). lia.
        + specialize (HB q Hq). specialize (B3 p Hp). lia.
        + auto. }
    split; [exact HP|]. intros s' o E1.
    destruct (al_push X _ _ HR (Permutation_refl _) HP) as (s1 & t' & o1 & o' & E1' & E2 & HR' & Po & Pc & _). rewrite E1 in E1'.
    inversion E1'; subst s1 o1. eapply IH; [exact HR'| |].
    + eapply (Y (fst (wrap_all F f vs))); [exact Pc|]. intros p Hp. apply in_app_or in Hp. destruct Hp as [Hp|Hp].
      * specialize (HB p Hp). lia.
      * apply B3; auto.
    + eapply HN. cbn [block push DecoratorB fst snd]. destruct (wrap_all F f vs) as [f' ds]. cbn [fst snd] in *. rewrite E1. reflexivity.
  - intros s' o E1. destruct (al_flush X _ _ HR) as (s1 & t' & o1 & o' & E1' & E2 & HR' & Po & Pc & _). rewrite E1 in E1'.
    inversion E1'; subst s1 o1. eapply IH; [exact HR'|eapply (Y f); eauto|]. eapply HN. cbn [block flush DecoratorB fst snd]. rewrite E1. reflexivity.
Qed.
Theorem decorated_same f0 (a b : arch K D) h :
  same_policy (later_first stamp) a b -> new_keys (ADecorator F f0 a) (init (ADecorator F f0 a)) h ->
  Forall2 alike_saw (watch (block (ADecorator F f0 a)) (init (ADecorator F f0 a)) h) (watch (block (ADecorator F f0 b)) (init (ADecorator F f0 b)) h).
Proof.
  intros S N. cbn [block init]. rewrite !watch_deco. apply same_policy_alike in S.
  assert (G : Forall2 alike_saw (watch (block a) (init a) (wrap_asks f0 h)) (watch (block b) (init b) (wrap_asks f0 h))).
  { apply likea_watch with (O := later_first stamp); auto. eapply deco_tells; eauto. intros p. rewrite init_empty. intros []. }
  induction G; cbn; constructor; auto. apply unwrap_alike; auto.
Qed.
End Stamped.

(** C61.  With a Fifo decorator, or an Lru decorator over a clock that advances between any two readings, different
    keys are enough. *)
Theorem C61_fifo_same_answers : forall V (f0 : Fst Fifo) (a b : arch K (fifo_cell V)) h,
  same_policy fifo_ord a b -> new_keys (ADecorator Fifo f0 a) (init (ADecorator Fifo f0 a)) h ->
  Forall2 alike_saw (watch (block (ADecorator Fifo f0 a)) (init (ADecorator Fifo f0 a)) h)
                    (watch (block (ADecorator Fifo f0 b)) (init (ADecorator Fifo f0 b)) h).
Proof. intros V f0 a b h. apply (@decorated_same V _ Fifo (@fifo_counter V) (fun n => n)). intros f v. cbn. lia. Qed.
Theorem C61_lru_same_answers : forall V (clock : nat -> nat) (f0 : nat) (a b : arch K (lru_cell V)) h,
  (forall n, clock n < clock (S n)) ->
  same_policy lru_ord a b -> new_keys (ADecorator (Lru clock) f0 a) (init (ADecorator (Lru clock) f0 a)) h ->
  Forall2 alike_saw (watch (block (ADecorator (Lru clock) f0 a)) (init (ADecorator (Lru clock) f0 a)) h)
                    (watch (block (ADecorator (Lru clock) f0 b)) (init (ADecorator (Lru clock) f0 b)) h).
Proof.
  intros V clock f0 a b h Hc. apply (@decorated_same V _ (Lru clock) (@lru_stamp V) clock). intros f v. cbn. specialize (Hc f). lia.
Qed.
End PRepr.

(** *** Examples *)
Definition in_array (cap : nat) : arch nat nat := AArray (std_sorter snd) linear_bs cap (fun p => S (fst p mod 2)).
Definition in_btree (cap : nat) : arch nat nat := ABTree _ cap (fun p => S (fst p mod 2)).
(** A small container in front of two sets of two containers each: made of Arrays only, and, the second time, of
    BTrees, Arrays, a type-erased container, a profiler and a socket. *)
Definition all_arrays : arch nat nat :=
  AExclusive linear_bs (in_array 3) (AAssociative N.of_nat 1 (fun _ => ABatch 2 (fun j => in_array (S j)))).
Definition a_mixture : arch nat nat :=
  AProfiler (AExclusive linear_bs (in_btree 3)
    (ARemote (AAssociative N.of_nat 1 (fun _ => ABatch 2 (fun j => if j =? 0 then in_btree (S j) else ADyn (in_array (S j))))))).
Definition some_calls : list (ask nat nat) :=
  [AskPush [(1, 70); (2, 20); (3, 30); (4, 65)]; AskSize; AskPush [(6, 5); (5, 50); (8, 60)]; AskPush [(10, 15); (12, 25)];
   AskSize; AskTake 2; AskContains 1; AskTakeMultiple [6; 9; 1; 8]; AskPop 3; AskFlush].
Lemma leaves_alike cap : leaf_of Ord_nat cap (fun p => S (fst p mod 2)) (in_array cap) /\ leaf_of Ord_nat cap (fun p => S (fst p mod 2)) (in_btree cap).
Proof. split; constructor. Qed.
Lemma mixture_policy : same_policy Ord_nat all_arrays a_mixture.
Proof.
  assert (P : forall p : nat * nat, 1 <= S (fst p mod 2)) by (intros; lia).
  unfold a_mixture. eapply SPRight; [constructor|]. apply SPExclusive.
  - eapply SPLeaf; [exact P|apply leaves_alike|apply leaves_alike].
  - eapply SPRight; [constructor|]. apply SPAssociative; [reflexivity|]. intros _ _. apply SPBatch. intros j _. destruct (j =? 0).
    + eapply SPLeaf; [exact P|apply leaves_alike|apply leaves_alike].
    + eapply SPRight; [constructor|]. eapply SPLeaf; [exact P|apply leaves_alike|apply leaves_alike].
Qed.
Lemma apart_nat (l : list (nat * nat)) : NoDup (map fst l) -> NoDup (map snd l) -> apart l.
Proof.
  intros H1 H2. split; auto. intros [k v] [k' v'] Hp Hq E. apply eqb_eq in E. cbn in E. subst v'.
  clear H1. induction l as [|[x y] l IH]; [destruct Hp|]. cbn in H2. inversion H2 as [|? ? N1 N2]; subst.
  destruct Hp as [Ep|Hp], Hq as [Eq|Hq].
  - congruence.
  - inversion Ep; subst. exfalso. apply N1. apply (List.in_map snd _ _ Hq).
  - inversion Eq; subst. exfalso. apply N1. apply (List.in_map snd _ _ Hp).
  - apply IH; auto.
Qed.
Theorem C61_example :
  same_policy Ord_nat all_arrays a_mixture /\ apart (asked_in some_calls) /\
  watch (block all_arrays) (init all_arrays) some_calls =
    [SawPairs []; SawNum 6; SawPairs [(1, 70)]; SawPairs [(3, 30)]; SawNum 8; SawOne (Some (2, 20)); SawBool false;
     SawKeys [1; 9] [(6, 5); (8, 60)]; SawPairs [(4, 65); (5, 50)]; SawPairs [(10, 15); (12, 25)]] /\
  watch (block a_mixture) (init a_mixture) some_calls =
    [SawPairs []; SawNum 6; SawPairs [(1, 70)]; SawPairs [(3, 30)]; SawNum 8; SawOne (Some (2, 20)); SawBool false;
     SawKeys [1; 9] [(6, 5); (8, 60)]; SawPairs [(4, 65); (5, 50)]; SawPairs [(10, 15); (12, 25)]].
Proof.
  split; [exact mixture_policy|]. split; [|split; vm_compute; reflexivity].
  apply apart_nat; cbn; repeat constructor; cbn; intuition lia.
Qed.

(** Equal values are a tie that an Array and a BTree break differently. *)
Theorem C61_equal_values_refuted :
  ~ (forall (a b : arch nat nat) h, same_policy Ord_nat a b -> new_keys a (init a) h ->
     Forall2 alike_saw (watch (block a) (init a) h) (watch (block b) (init b) h)).
Proof.
  intros H. specialize (H (in_array 6) (in_btree 6) [AskPush [(2, 5); (4, 5); (0, 5)]; AskPop 1]).
  assert (P : same_policy Ord_nat (in_array 6) (in_btree 6)).
  { eapply SPLeaf; [|apply leaves_alike|apply leaves_alike]. intros; apply le_n_S, Nat.le_0_l. }
  specialize (H P). assert (N : new_keys (in_array 6) (init (in_array 6)) [AskPush [(2, 5); (4, 5); (0, 5)]; AskPop 1]).
  { split; [|intros s o _ s' o' _; exact Logic.I]. cbn. repeat constructor; cbn; intuition lia. }
  specialize (H N). vm_compute in H. inversion H as [|? ? ? ? _ H2]; subst. inversion H2 as [|? ? ? ? H3 _]; subst.
  apply Permutation_length_1 in H3. discriminate.
Qed.
(** Elements of size 0 are kept by one and evicted by the other. *)
Theorem C61_zero_sizes_refuted :
  ~ (forall (esz : nat * nat -> nat) cap h, let a : arch nat nat := AArray (std_sorter snd) linear_bs cap esz in let b : arch nat nat := ABTree _ cap esz in
     apart (asked_in h) -> Forall2 alike_saw (watch (block a) (init a) h) (watch (block b) (init b) h)).
Proof.
  intros H. specialize (H (fun p => fst p mod 2) 0 [AskPush [(8, 4); (7, 5)]]). cbv zeta in H.
  assert (A : apart (asked_in [AskPush [(8, 4); (7, 5)]])) by (apply apart_nat; cbn; repeat constructor; cbn; intuition lia).
  specialize (H A). vm_compute in H. inversion H as [|? ? ? ? H3 _]; subst. apply Permutation_length in H3. discriminate.
Qed.

(** A checker for the discipline, to exhibit concrete conversations. *)
Fixpoint pushes_areb {K V} {OK : Ord K} (good : list (K * V) -> bool) (a : arch K V) (s : St (block a)) (h : list (ask K V)) : bool :=
  match h with
  | [] => true
  | q :: h' =>
      match q with
      | AskTake k => match take (block a) s k with Ok (s', o) => pushes_areb good a s' h' | Panic => true end
      | AskTakeMultiple ks => match take_multiple (block a) s ks with Ok (s', _, _) => pushes_areb good a s' h' | Panic => true end
      | AskPop n => match pop (block a) s n with Ok (s', o) => pushes_areb good a s' h' | Panic => true end
      | AskPush vs => good (held a s ++ vs) && match push (block a) s vs with Ok (s', o) => pushes_areb good a s' h' | Panic => true end
      | AskFlush => match flush (block a) s with Ok (s', o) => pushes_areb good a s' h' | Panic => true end
      | _ => pushes_areb good a s h'
      end
  end.
Lemma pushes_areb_ok {K V} {OK : Ord K} (good : list (K * V) -> Prop) (goodb : list (K * V) -> bool) (a : arch K V) :
  (forall l, goodb l = true -> good l) -> forall h s, pushes_areb goodb a s h = true -> pushes_are good a s h.
Proof.
  intros G. induction h as [|q h IH]; intros s E; [exact Logic.I|].
  destruct q as [| |k|k|ks|m|vs|]; cbn [pushes_areb pushes_are] in *; auto.
  - intros s' o E1. rewrite E1 in E. auto.
  - intros s' l o E1. rewrite E1 in E. auto.
  - intros s' o E1. rewrite E1 in E. auto.
  - apply andb_prop in E. destruct E as [E0 E]. split; auto. intros s' o E1. rewrite E1 in E. auto.
  - intros s' o E1. rewrite E1 in E. auto.
Qed.
Definition fifo_array : arch nat nat := ADecorator Fifo fifo_new (@AArray nat _ _ fifo_ord (std_sorter snd) linear_bs 3 (fun _ => 1)).
Definition fifo_btree : arch nat nat := ADecorator Fifo fifo_new (AProfiler (ABTree fifo_ord 3 (fun _ => 1))).
Definition fifo_calls : list (ask nat nat) :=
  [AskPush [(1, 7); (2, 7)]; AskPush [(3, 7)]; AskTake 1; AskPush [(1, 7)]; AskPop 1; AskPush [(4, 7); (5, 7)]; AskFlush].
Theorem C61_fifo_example :
  same_policy fifo_ord (@AArray nat _ _ (@fifo_ord nat) (std_sorter snd) linear_bs 3 (fun _ => 1)) (AProfiler (ABTree fifo_ord 3 (fun _ => 1))) /\
  new_keys fifo_array (init fifo_array) fifo_calls /\
  watch (block fifo_array) (init fifo_array) fifo_calls =
    [SawPairs []; SawPairs []; SawOne (Some (1, 7)); SawPairs []; SawPairs [(2, 7)]; SawPairs [(3, 7)];
     SawPairs [(1, 7); (4, 7); (5, 7)]] /\
  watch (block fifo_btree) (init fifo_btree) fifo_calls =
    [SawPairs []; SawPairs []; SawOne (Some (1, 7)); SawPairs []; SawPairs [(2, 7)]; SawPairs [(3, 7)];
     SawPairs [(1, 7); (4, 7); (5, 7)]].
Proof.
  split; [eapply SPRight; [apply WProfiler|]; apply SPLeaf with (cap := 3) (esz := fun _ => 1); [intros; auto|constructor|constructor]|]. split.
  - apply pushes_areb_ok with (goodb := fun l => PArch.nodupb (keys l)); [|vm_compute; reflexivity].
    intros l. apply PArch.nodupb_ok.
  - split; vm_compute; reflexivity.
Qed.

Print Assumptions C61_same_answers.
Print Assumptions C61_same_answers_to_distinct_pairs.
Print Assumptions C61_fifo_same_answers.
Print Assumptions C61_lru_same_answers.
