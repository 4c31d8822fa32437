(** PReprGet.v -- C61 with get and get_mut: what a cache holds, evicts and answers depends on its policy only, also when
    its elements are read and written in place, which is what makes an Lru cache one. *)
From Coq Require Import NArith.
From Verif Require Import Base PermSolve Block Spec LawsProof Cut Array ArrayProof BTree BTreeProof
  Batch BatchProof Exclusive ExclusiveProof Wrappers WrappersProof Associative AssociativeProof Sim SimProof Arch ArchProof Get GetProof
  PGet Decorations Repr ReprProof Minus Alike PRepr ReprGet GetAlike PArch.
Set Implicit Arguments.

Section PReprGet.
Context {K : Type} {OK : Ord K} {EK : OrdEq K}.

Section Node.
Context {V : Type} {O : Ord V}.
Definition both (a b : arch K V) (R : St (block a) -> St (block b) -> Prop) : Prop :=
  Alike (block a) (block b) (ainv false a) (ainv false b) (held a) (held b) (minus a) (minus b) R /\
  GAlike (block a) (block b) (held a) R (fun m => aget m a) (fun m => aget m b) (fun m => keeps_size m a).
Definition glike (a b : arch K V) (s : St (block a)) (t : St (block b)) : Prop := exists R, both a b R /\ R s t.
Lemma glike_ok a b : both a b (@glike a b).
Proof.
  split.
  - constructor; unfold glike.
    + intros s t (R & [H _] & HR). apply (al_inv H _ _ HR).
    + intros s t (R & [H _] & HR). apply (al_ct H _ _ HR).
    + intros s t (R & [H _] & HR). apply (al_cap H _ _ HR).
    + intros s t (R & [H _] & HR). apply (al_size H _ _ HR).
    + intros P s t s' t' (R & HH & HR) H1 H2 H3 H4. exists R. split; auto. eapply (al_rm (proj1 HH)); eauto.
    + intros s t n (R & HH & HR). destruct (al_pop (proj1 HH) _ _ n HR) as [G|(s' & t' & o & o' & G1 & G2 & G3 & G4)]; auto.
      right. exists s', t', o, o'. repeat split; eauto; apply G4.
    + intros s t vs vs' (R & HH & HR) P Ha. destruct (al_push (proj1 HH) _ _ HR P Ha) as (s' & t' & o & o' & G1 & G2 & G3 & G4).
      exists s', t', o, o'. repeat split; eauto; apply G4.
    + intros s t (R & HH & HR). destruct (al_flush (proj1 HH) _ _ HR) as (s' & t' & o & o' & G1 & G2 & G3 & G4).
      exists s', t', o, o'. repeat split; eauto; apply G4.
  - intros s t m k f (R & HH & HR) Hok W. destruct (proj2 HH s t m k f HR Hok W) as [G|(s' & t' & o & G1 & G2 & G3 & G4)]; auto.
    right. exists s', t', o. split; auto. split; auto. split; [exists R; auto|auto].
Qed.
Lemma sum_galike n (f g : nat -> arch K V) :
  GAlike (SumB (fun i => block (f i))) (SumB (fun i => block (g i))) (fun c => held (f (projT1 c)) (projT2 c)) (sum_like n f g (fun i => @glike (f i) (g i)))
    (fun m => @sum_get K _ nat (fun i => block (f i)) (fun i => aget m (f i))) (fun m => @sum_get K _ nat (fun i => block (g i)) (fun i => aget m (g i)))
    (fun m w => forall i, i < n -> keeps_size m (f i) w).
Proof.
  intros x y m k w (i & s & t & Hi & -> & -> & HR) Hok W. cbn [projT1 projT2] in *.
  destruct (proj2 (glike_ok (f i) (g i)) s t m k w HR (Hok i Hi) W) as [[G1 G2]|(s' & t' & o & G1 & G2 & G3 & G4)]; unfold sum_get; cbn [projT1 projT2].
  - left. rewrite G1, G2. auto.
  - right. rewrite G1, G2. cbn. eexists _, _, o. split; [reflexivity|]. split; [reflexivity|]. split; [|exact G4].
    exists i, s', t'. auto.
Qed.
End Node.

Lemma leaf_gets V (O : Ord V) cap esz (a : arch K V) : (forall e, 1 <= esz e) -> leaf_of O cap esz a ->
  forall s m k f, ainv false a s -> keeps_size m a f -> get_ok (block a) (ainv false a) (held a) (aget m a) s k f.
Proof.
  intros Hp [srt bs|] s m k f Hi Hk.
  - apply array_get_ok; auto.
  - apply btree_get_ok; auto.
Qed.
Lemma leaf_size V (O : Ord V) cap esz (a : arch K V) m f : leaf_of O cap esz a -> (keeps_size m a f <-> forall k v, esz (k, f v) = esz (k, v)).
Proof. intros [srt bs|]; cbn; tauto. Qed.
Theorem same_policy_glike V (O : Ord V) (a b : arch K V) : same_policy O a b -> readable a -> readable b -> glike a b (init a) (init b).
Proof.
  induction 1 as [cap esz a b Hp La Lb|n f g Hs IH|bs bs' l r l' r' Hl IHl Hr IHr|hash n f g Hst Hs IH|a b H IH|a a' b W H IH|a b b' W H IH];
    cbn [readable]; intros Ra Rb.
  - destruct (leaf_of_leaf Hp La) as (A1 & A2 & A3), (leaf_of_leaf Hp Lb) as (B1 & B2 & B3).
    exists (leaf_like (block a) (block b) (ainv false a) (ainv false b) (held a) (held b)). split; [split|].
    + rewrite A2, B2. exact (leaf_alike A1 B1).
    + apply leaf_get.
      * intros s m k w Hi Hk. eapply leaf_gets; eauto.
      * intros s m k w Hi Hk. apply (leaf_gets Hp Lb); auto. apply (proj2 (leaf_size m w Lb)). apply (proj1 (leaf_size m w La)). exact Hk.
    + unfold leaf_like. rewrite !init_empty.
      split; [apply ainv_new|]. split; [apply ainv_new|]. split; [apply apart_nil|]. split; auto. congruence.
  - pose proof (sum_alike f g (fun i => @glike V O (f i) (g i)) (fun i (_ : i < n) => proj1 (glike_ok (f i) (g i)))) as X.
    eexists. split; [split|].
    + exact (batch_alike X (minus_sum n f)).
    + exact (batch_get (@sum_galike V O n f g)).
    + split; [apply sum_init; auto|].
      match goal with |- apart ?l => change l with (held (ABatch n f) (init (ABatch n f))) end. rewrite init_empty. apply apart_nil.
  - destruct (IHl Ra Rb) as (R & [XR GR] & HR). pose proof (same_policy_alike Hr) as (Q & XQ & HQ).
    pose proof (alike_cap (capacity (block l) (init l)) (capacity (block l') (init l')) XR) as XC.
    pose proof (galike_cap (capacity (block l) (init l)) (capacity (block l') (init l')) XR GR) as GC.
    eexists. split; [split|].
    + exact (exclusive_alike bs bs' XC XQ (minus_cap l _) (minus_ok r)).
    + exact (excl_get bs bs' XC XQ (minus_ok r) (minus_ok r')
        (laws_cap (capacity (block l) (init l)) (laws_of l)) (laws_cap (capacity (block l') (init l')) (laws_of l')) (laws_of r) (laws_of r') GC).
    + split; [split; auto|]. split; [exact HQ|]. cbn [fst snd init]. rewrite !init_empty. apply apart_nil.
  - assert (LA : Laws (SumB (fun i => block (f i))) (fun c => (if projT1 c <? S n then ainv false (f (projT1 c)) else fun _ => False) (projT2 c))
       (fun c => held (f (projT1 c)) (projT2 c)) false false true).
    { apply family_laws. intros i Hi. eapply laws_flags; [apply laws_of|discriminate|]. intros _. rewrite (Hst i Hi). auto. }
    pose proof (sum_alike f g (fun i => @glike V O (f i) (g i)) (fun i (_ : i < S n) => proj1 (glike_ok (f i) (g i)))) as X.
    eexists. split; [split|].
    + exact (associative_alike X (minus_sum (S n) f) hash LA (family_of (S n) g)).
    + exact (assoc_get X (@sum_galike V O (S n) f g) hash).
    + split; [apply sum_init; auto|]. split.
      * match goal with |- apart ?l => change l with (held (AAssociative hash n f) (init (AAssociative hash n f))) end. rewrite init_empty. apply apart_nil.
      * split; [exact (ainv_new (AAssociative hash n f))|exact (ainv_new (AAssociative hash n g))].
  - destruct (IH Ra Rb) as (R & [X G] & HR). exists R. split; [split|]; [exact (alike_stopper X)|exact G|exact HR].
  - destruct W; cbn [readable] in Ra; try contradiction.
    + destruct (IH Ra Rb) as (R & [X G] & HR). exists R. split; [split|]; [exact (alike_sequential_l X)|exact G|exact HR].
    + destruct (IH Ra Rb) as (R & [X G] & HR). eexists. split; [split|]; [exact (alike_profiler_l X)| |exact HR].
      intros [c s] t m k w Hst Hok Wr. cbn [aget snd] in *. unfold pf_get. cbn [snd fst]. destruct (G s t m k w Hst Hok Wr) as [[G1 G2]|(s' & t' & o & G1 & G2 & G3 & G4)].
      * left. cbv beta in G1, G2. rewrite G1, G2. auto.
      * right. cbv beta in G1, G2. rewrite G1, G2. cbn [bind]. eexists _, _, o. split; [reflexivity|]. split; [reflexivity|]. auto.
  - destruct W; cbn [readable] in Rb; try contradiction.
    + destruct (IH Ra Rb) as (R & [X G] & HR). exists R. split; [split|]; [exact (alike_sequential_r X)|exact G|exact HR].
    + destruct (IH Ra Rb) as (R & [X G] & HR). eexists. split; [split|]; [exact (alike_profiler_r X)| |exact HR].
      intros s [c t] m k w Hst Hok Wr. cbn [aget snd] in *. unfold pf_get. cbn [snd fst]. destruct (G s t m k w Hst Hok Wr) as [[G1 G2]|(s' & t' & o & G1 & G2 & G3 & G4)].
      * left. cbv beta in G1, G2. rewrite G1, G2. auto.
      * right. cbv beta in G1, G2. rewrite G1, G2. cbn [bind]. eexists _, _, o. split; [reflexivity|]. split; [reflexivity|]. auto.
Qed.

(** *** The conversations *)
Definition sizes_kept V (a : arch K V) (h : list (gask K V)) : Prop := forall m k f, In (AskGet m k f) h -> keeps_size m a f.
Lemma kept_cons V (a : arch K V) q h : sizes_kept a (q :: h) -> sizes_kept a h.
Proof. intros H m k f Hi. eapply H. right; eauto. Qed.
Lemma glike_watch V (O : Ord V) (a b : arch K V) : forall h s t, glike a b s t -> sizes_kept a h -> writes_are apart a s h ->
  Forall2 galike (gwatch a s h) (gwatch b t h).
Proof.
  destruct (glike_ok (O := O) a b) as [X GX].
  induction h as [|q h IH]; intros s t HR HK HT; [constructor|]. pose proof (kept_cons HK) as HK'.
  destruct (al_inv X _ _ HR) as [I J], (al_ct X _ _ HR) as [Ha P].
  destruct q as [q|m k f]; [destruct q as [| |k|k|ks|m|vs|]|]; cbn [gwatch writes_are] in *.
  - constructor; auto. cbn. apply (al_cap X _ _ HR).
  - constructor; auto. cbn. apply (al_size X _ _ HR).
  - rewrite (law_contains (laws_of a) s k I), (law_contains (laws_of b) t k J). constructor; auto. cbn. apply has_key_perm. auto.
  - destruct (law_take (laws_of a) s k I) as (s' & o & E1 & I1 & _ & _ & H1).
    destruct (law_take (laws_of b) t k J) as (t' & o' & E2 & J1 & _ & _ & H2). rewrite E1, E2. constructor.
    + cbn. eapply one_of with (k := k) (c := held a s); [apply Ha|exact H1|].
      destruct o' as [[k' v]|].
      * destruct H2 as [-> H2]. split; auto. rewrite H2. symmetry; auto.
      * destruct H2 as [N H2]. split; [rewrite (keys_perm P); auto|]. rewrite H2. symmetry; auto.
    + apply IH; auto; [|apply (HT _ _ E1)]. eapply (al_rm X); eauto; [apply (mi_take (minus_ok a) I E1)|apply (mi_take (minus_ok b) J E2)].
  - destruct (law_take_multiple (laws_of a) s ks I) as (s' & l & o & E1 & I1 & _ & _ & P1 & _).
    destruct (law_take_multiple (laws_of b) t ks J) as (t' & l' & o' & E2 & J1 & _ & _ & P2 & _). rewrite E1, E2. constructor.
    + cbn. pose proof (mi_ct (minus_ok a) (mi_tm (minus_ok a) I E1)) as Q1. pose proof (mi_ct (minus_ok b) (mi_tm (minus_ok b) J E2)) as Q2.
      apply Permutation_app_inv_r with (l := held a s'). rewrite P1, P, <- P2. apply Permutation_app_head.
      rewrite Q2, Q1. apply without_perm. symmetry; auto.
    + apply IH; auto; [|apply (HT _ _ _ E1)]. eapply (al_rm X); eauto; [apply (mi_tm (minus_ok a) I E1)|apply (mi_tm (minus_ok b) J E2)].
  - destruct (al_pop X _ _ m HR) as [[E1 E2]|(s' & t' & o & o' & E1 & E2 & HR' & Po & _)]; rewrite E1, E2.
    + constructor; cbn; auto.
    + constructor; auto. apply IH; auto. apply (HT _ _ E1).
  - destruct HT as [HA HT]. destruct (al_push X _ _ HR (Permutation_refl vs) HA) as (s' & t' & o & o' & E1 & E2 & HR' & Po & _). rewrite E1, E2.
    constructor; auto. apply IH; auto. apply (HT _ _ E1).
  - destruct (al_flush X _ _ HR) as (s' & t' & o & o' & E1 & E2 & HR' & Po & _). rewrite E1, E2.
    constructor; auto. apply IH; auto. apply (HT _ _ E1).
  - destruct HT as [HA HT]. destruct (GX s t m k f HR (HK m k f (or_introl eq_refl)) HA) as [[E1 E2]|(s' & t' & o & E1 & E2 & HR' & _)]; rewrite E1, E2.
    + constructor; cbn; auto.
    + constructor; cbn; auto. apply IH; auto. apply (HT _ _ E1).
Qed.
(** C61.  The same with get and get_mut among the calls, as long as they are offered, do not change the size of an
    element, and leave pairs that can be told apart. *)
Theorem C61_same_answers_with_gets : forall V (O : Ord V) (a b : arch K V) h,
  same_policy O a b -> readable a -> readable b -> sizes_kept a h -> writes_are apart a (init a) h ->
  Forall2 galike (gwatch a (init a) h) (gwatch b (init b) h).
Proof. intros V O a b h S Ra Rb HK T. apply glike_watch with (O := O); auto. apply same_policy_glike; auto. Qed.

(** *** Decorated caches *)
Section Stamped.
Context {V D : Type}.
Variables (F : Factory V D) (stamp : D -> nat) (bound : Fst F -> nat).
Hypothesis stamps : forall f v, bound f <= stamp (snd (wrap F f v)) < bound (fst (wrap F f v)).
Hypothesis touches : (forall f d g, stamp (touched F f d g) = stamp d /\ bound f <= bound (tick F f)) \/
  (forall f d g, bound f <= stamp (touched F f d g) < bound (tick F f)).
Definition below (f : Fst F) (c : list (K * D)) : Prop := forall p : K * D, In p c -> stamp (snd p) < bound f.
Lemma below_sub f (c c' o : list (K * D)) : Permutation (o ++ c') c -> below f c -> below f c'.
Proof. intros P H p Hp. apply H. rewrite <- P. apply in_or_app. auto. Qed.
Lemma stamp_eqb (p q : K * D) : @eqb D (later_first stamp) (snd p) (snd q) = true -> stamp (snd p) = stamp (snd q).
Proof. intros E. unfold eqb in E. cbn in E. apply andb_prop in E. destruct E as [E1 E2]. apply Nat.leb_le in E1, E2. lia. Qed.
Lemma stamp_differ (c : list (K * D)) p q : @apart K D (later_first stamp) c -> In p c -> In q c -> stamp (snd p) = stamp (snd q) -> p = q.
Proof.
  intros [_ H] Hp Hq E. apply H; auto. unfold eqb. cbn. apply andb_true_intro. split; apply Nat.leb_le; lia.
Qed.
Lemma pushed_apart f (c : list (K * D)) vs : @apart K D (later_first stamp) c -> below f c -> NoDup (keys c ++ keys vs) ->
  @apart K D (later_first stamp) (c ++ snd (wrap_all F f vs)) /\ below (fst (wrap_all F f vs)) (c ++ snd (wrap_all F f vs)).
Proof.
  intros Ha HB HK. pose proof (stamps_all F stamp bound stamps vs f) as (B1 & B2 & B3 & B4). split.
  - split; [rewrite keys_app, B2; auto|].
    intros p q Hp Hq E. apply stamp_eqb in E. apply in_app_or in Hp, Hq. destruct Hp as [Hp|Hp], Hq as [Hq|Hq].
    + apply stamp_differ with (c := c); auto.
    + specialize (HB p Hp). specialize (B3 q Hq). lia.
    + specialize (HB q Hq). specialize (B3 p Hp). lia.
    + auto.
  - intros p Hp. apply in_app_or in Hp. destruct Hp as [Hp|Hp]; [|apply B3; auto]. specialize (HB p Hp). lia.
Qed.
Lemma touched_apart f (c : list (K * D)) k w : @apart K D (later_first stamp) c -> below f c ->
  @may_write K D (later_first stamp) k (fun d => touched F f d w) c.
Proof.
  intros Ha HB d rest P.
  assert (Ka : NoDup (k :: keys rest)) by (change (NoDup (keys ((k, d) :: rest))); rewrite <- (keys_perm P); apply Ha).
  assert (Hd : In (k, d) c) by (rewrite P; left; auto).
  assert (Hr : forall q, In q rest -> In q c) by (intros q Hq; rewrite P; right; auto).
  assert (X : forall q, In q rest -> stamp (touched F f d w) = stamp (snd q) -> False).
  { intros q Hq E. destruct touches as [T|T].
    - destruct (T f d w) as [T1 _]. rewrite T1 in E.
      assert (Eq : (k, d) = q) by (apply (stamp_differ (c := c)); auto). subst q.
      inversion Ka as [|? ? N _]; subst. apply N. apply (List.in_map fst _ _ Hq).
    - specialize (T f d w). specialize (HB q (Hr q Hq)). lia. }
  split; [exact Ka|]. intros p q Hp Hq E. apply stamp_eqb in E. destruct Hp as [<-|Hp], Hq as [<-|Hq]; auto.
  - cbn [snd] in E. destruct (X q Hq E).
  - cbn [snd] in E. symmetry in E. destruct (X p Hp E).
  - apply stamp_differ with (c := c); auto.
Qed.
Lemma touched_below f (c c' : list (K * D)) k w o : below f c -> wrote k (fun d => touched F f d w) c c' o ->
  below (match o with Some _ => tick F f | None => f end) c'.
Proof.
  intros HB H. destruct o as [d|]; cbn [wrote] in H.
  - destruct H as (rest & P1 & P2). intros p Hp. rewrite P2 in Hp. destruct Hp as [<-|Hp].
    + cbn [snd]. assert (Hd : stamp d < bound f) by (apply (HB (k, d)); rewrite P1; left; auto).
      destruct touches as [T|T]; specialize (T f d w); [|lia]. destruct T as [-> T]. lia.
    + assert (Hd : stamp (snd p) < bound f) by (apply (HB p); rewrite P1; right; auto).
      destruct touches as [T|T]; specialize (T f d w); lia.
  - intros p Hp. rewrite H in Hp. apply HB; auto.
Qed.
Lemma map_saw_perm (l l' : list (K * D)) : Permutation l l' -> Permutation (map (unwrap_kv F) l) (map (unwrap_kv F) l').
Proof. apply Permutation_map. Qed.
Lemma decorated_watch f0 (a b : arch K D) : forall h f s t,
  @glike D (later_first stamp) a b s t -> below f (held a s) -> sizes_kept (ADecorator F f0 a) h ->
  writes_are (fun l => NoDup (keys l)) (ADecorator F f0 a) (f, s) h ->
  Forall2 galike (gwatch (ADecorator F f0 a) (f, s) h) (gwatch (ADecorator F f0 b) (f, t) h).
Proof.
  destruct (@glike_ok D (later_first stamp) a b) as [X GX].
  induction h as [|q h IH]; intros f s t HR HB HK HT; [constructor|]. pose proof (kept_cons HK) as HK'.
  destruct (al_inv X _ _ HR) as [I J], (al_ct X _ _ HR) as [Ha P].
  destruct q as [q|m k w]; [destruct q as [| |k|k|ks|m|vs|]|]; cbn [gwatch writes_are] in *.
  - constructor; auto. cbn. apply (al_cap X _ _ HR).
  - constructor; auto. cbn. apply (al_size X _ _ HR).
  - cbn [block contains DecoratorB snd]. rewrite (law_contains (laws_of a) s k I), (law_contains (laws_of b) t k J). constructor; auto. cbn. apply has_key_perm. auto.
  - destruct (law_take (laws_of a) s k I) as (s' & o & E1 & I1 & _ & _ & H1).
    destruct (law_take (laws_of b) t k J) as (t' & o' & E2 & J1 & _ & _ & H2).
    assert (o = o') as <-.
    { eapply one_of with (k := k) (c := held a s); [apply Ha|exact H1|].
      destruct o' as [[k' v]|].
      * destruct H2 as [-> H2]. split; auto. rewrite H2. symmetry; auto.
      * destruct H2 as [N H2]. split; [rewrite (keys_perm P); auto|]. rewrite H2. symmetry; auto. }
    cbn [block take DecoratorB fst snd] in *. rewrite E1 in *. rewrite E2. cbn [bind] in *. constructor; [cbn; auto|].
    apply IH; auto; [| |apply (HT _ _ eq_refl)].
    + eapply (al_rm X); eauto; [apply (mi_take (minus_ok a) I E1)|apply (mi_take (minus_ok b) J E2)].
    + destruct o as [[k' v]|]; [eapply (@below_sub f _ _ [(k, v)])|eapply (@below_sub f _ _ [])]; try apply H1; auto.
  - destruct (law_take_multiple (laws_of a) s ks I) as (s' & l & o & E1 & I1 & _ & _ & P1 & _).
    destruct (law_take_multiple (laws_of b) t ks J) as (t' & l' & o' & E2 & J1 & _ & _ & P2 & _).
    cbn [block take_multiple DecoratorB fst snd] in *. rewrite E1 in *. rewrite E2. cbn [bind] in *. constructor.
    + cbn. apply Permutation_map. pose proof (mi_ct (minus_ok a) (mi_tm (minus_ok a) I E1)) as Q1. pose proof (mi_ct (minus_ok b) (mi_tm (minus_ok b) J E2)) as Q2.
      apply Permutation_app_inv_r with (l := held a s'). rewrite P1, P, <- P2. apply Permutation_app_head.
      rewrite Q2, Q1. apply without_perm. symmetry; auto.
    + apply IH; auto; [| |apply (HT _ _ _ eq_refl)].
      * eapply (al_rm X); eauto; [apply (mi_tm (minus_ok a) I E1)|apply (mi_tm (minus_ok b) J E2)].
      * eapply below_sub; eauto.
  - cbn [block pop DecoratorB fst snd] in *.
    destruct (al_pop X _ _ m HR) as [[E1 E2]|(s' & t' & o & o' & E1 & E2 & HR' & Po & Pc & _)]; rewrite E1 in *; rewrite E2; cbn [bind] in *.
    + constructor; cbn; auto.
    + constructor; [cbn; apply Permutation_map; auto|]. apply IH; auto; [|apply (HT _ _ eq_refl)]. eapply below_sub; eauto.
  - destruct HT as [HA HT].
    assert (HN : NoDup (keys (held a s) ++ keys vs)).
    { cbn [held snd] in HA. rewrite keys_app in HA. unfold keys in HA at 1. rewrite map_map in HA. exact HA. }
    destruct (pushed_apart vs Ha HB HN) as [A1 B1].
    destruct (al_push X _ _ HR (Permutation_refl _) A1) as (s' & t' & o & o' & E1 & E2 & HR' & Po & Pc & _).
    cbn [block push DecoratorB fst snd] in *. destruct (wrap_all F f vs) as [f' ds]. cbn [fst snd] in *. rewrite E1 in *. rewrite E2. cbn [bind] in *.
    constructor; [cbn; apply Permutation_map; auto|]. apply IH; auto; [|apply (HT _ _ eq_refl)]. eapply below_sub; eauto.
  - destruct (al_flush X _ _ HR) as (s' & t' & o & o' & E1 & E2 & HR' & Po & Pc & _).
    cbn [block flush DecoratorB fst snd] in *. rewrite E1 in *. rewrite E2. cbn [bind] in *.
    constructor; [cbn; apply Permutation_map; auto|]. apply IH; auto; [|apply (HT _ _ eq_refl)]. eapply below_sub; eauto.
  - destruct HT as [_ HT].
    assert (W : may_write k (fun d => touched F f d w) (held a s)) by (apply touched_apart; auto). pose proof (HK m k w (or_introl eq_refl) f) as Hok.
    destruct (GX s t m k _ HR Hok W) as [[E1 E2]|(s' & t' & o & E1 & E2 & HR' & _ & Wr)];
      cbn [aget] in *; unfold dc_get in *; cbn [fst snd] in *; rewrite E1 in *; rewrite E2; cbn [bind] in *.
    + constructor; cbn; auto.
    + constructor; [cbn; auto|]. apply IH; auto; [|apply (HT _ _ eq_refl)]. eapply touched_below; eauto.
Qed.
Theorem decorated_gets f0 (a b : arch K D) h :
  same_policy (later_first stamp) a b -> readable a -> readable b -> sizes_kept (ADecorator F f0 a) h ->
  writes_are (fun l => NoDup (keys l)) (ADecorator F f0 a) (init (ADecorator F f0 a)) h ->
  Forall2 galike (gwatch (ADecorator F f0 a) (init (ADecorator F f0 a)) h) (gwatch (ADecorator F f0 b) (init (ADecorator F f0 b)) h).
Proof.
  intros S Ra Rb HK HT. cbn [init]. apply decorated_watch; auto.
  - apply same_policy_glike; auto.
  - intros p. rewrite init_empty. intros [].
Qed.
End Stamped.

(** C61.  With a Fifo decorator, or an Lru decorator over a clock that advances between any two readings, different
    keys are enough; the reads and writes count as uses for the Lru. *)
Theorem C61_fifo_same_answers_with_gets : forall V (f0 : Fst Fifo) (a b : arch K (fifo_cell V)) h,
  same_policy fifo_ord a b -> readable a -> readable b -> sizes_kept (ADecorator Fifo f0 a) h ->
  writes_are (fun l => NoDup (keys l)) (ADecorator Fifo f0 a) (init (ADecorator Fifo f0 a)) h ->
  Forall2 galike (gwatch (ADecorator Fifo f0 a) (init (ADecorator Fifo f0 a)) h)
                 (gwatch (ADecorator Fifo f0 b) (init (ADecorator Fifo f0 b)) h).
Proof.
  intros V f0 a b h. apply (@decorated_gets V _ Fifo (@fifo_counter V) (fun n => n)).
  - intros f v. cbn. lia.
  - left. intros f d g. cbn. lia.
Qed.
Theorem C61_lru_same_answers_with_gets : forall V (clock : nat -> nat) (f0 : nat) (a b : arch K (lru_cell V)) h,
  (forall n, clock n < clock (S n)) ->
  same_policy lru_ord a b -> readable a -> readable b -> sizes_kept (ADecorator (Lru clock) f0 a) h ->
  writes_are (fun l => NoDup (keys l)) (ADecorator (Lru clock) f0 a) (init (ADecorator (Lru clock) f0 a)) h ->
  Forall2 galike (gwatch (ADecorator (Lru clock) f0 a) (init (ADecorator (Lru clock) f0 a)) h)
                 (gwatch (ADecorator (Lru clock) f0 b) (init (ADecorator (Lru clock) f0 b)) h).
Proof.
  intros V clock f0 a b h Hc. apply (@decorated_gets V _ (Lru clock) (@lru_stamp V) clock).
  - intros f v. cbn. specialize (Hc f). lia.
  - right. intros f d g. cbn. specialize (Hc f). lia.
Qed.
End PReprGet.

(** *** Examples *)
Fixpoint new_keysb {K V} {OK : Ord K} {EK : OrdEq K} (a : arch K V) (s : St (block a)) (h : list (gask K V)) : bool :=
  match h with
  | [] => true
  | AskGet m k f :: h' => nodupb (keys (held a s)) && match aget m a s k f with Ok (s', _) => new_keysb a s' h' | Panic => true end
  | Ask q :: h' =>
      match q with
      | AskTake k => match take (block a) s k with Ok (s', o) => new_keysb a s' h' | Panic => true end
      | AskTakeMultiple ks => match take_multiple (block a) s ks with Ok (s', _, _) => new_keysb a s' h' | Panic => true end
      | AskPop n => match pop (block a) s n with Ok (s', o) => new_keysb a s' h' | Panic => true end
      | AskPush vs => nodupb (keys (held a s ++ vs)) && match push (block a) s vs with Ok (s', o) => new_keysb a s' h' | Panic => true end
      | AskFlush => match flush (block a) s with Ok (s', o) => new_keysb a s' h' | Panic => true end
      | _ => new_keysb a s h'
      end
  end.
Lemma new_keysb_ok {K V} {OK : Ord K} {EK : OrdEq K} (a : arch K V) : forall h s, new_keysb a s h = true -> writes_are (fun l => NoDup (keys l)) a s h.
Proof.
  induction h as [|q h IH]; intros s E; [exact Logic.I|].
  destruct q as [q|m k w]; [destruct q as [| |k|k|ks|m|vs|]|]; cbn [new_keysb writes_are] in *; auto.
  - intros s' o E1. rewrite E1 in E. auto.
  - intros s' l o E1. rewrite E1 in E. auto.
  - intros s' o E1. rewrite E1 in E. auto.
  - apply andb_prop in E. destruct E as [E0 E]. split; [apply nodupb_ok; auto|]. intros s' o E1. rewrite E1 in E. auto.
  - intros s' o E1. rewrite E1 in E. auto.
  - apply andb_prop in E. destruct E as [E0 E]. split.
    + intros v rest P. apply nodupb_ok in E0. rewrite (keys_perm P) in E0. exact E0.
    + intros s' o E1. rewrite E1 in E. auto.
Qed.
(** An Lru cache of three elements: 1 is the oldest, but it is read, and 2 written, so it is 3 that makes room. *)
Definition lru_inner_array : arch nat (lru_cell nat) := @AArray nat _ _ lru_ord (std_sorter snd) linear_bs 3 (fun _ => 1).
Definition lru_inner_btree : arch nat (lru_cell nat) := AProfiler (ABTree lru_ord 3 (fun _ => 1)).
Definition lru_array : arch nat nat := ADecorator (Lru (fun n => n)) 0 lru_inner_array.
Definition lru_btree : arch nat nat := ADecorator (Lru (fun n => n)) 0 lru_inner_btree.
Definition lru_calls : list (gask nat nat) :=
  [Ask (AskPush [(1, 7); (2, 7); (3, 7)]); AskGet false 1 (fun v => v); AskGet true 2 (fun v => v + 1); AskGet false 9 (fun v => v);
   Ask (AskPush [(4, 7)]); Ask (AskPop 1); Ask (AskContains 3); AskGet false 2 (fun v => v); Ask AskFlush].
Theorem C61_lru_example :
  same_policy lru_ord lru_inner_array lru_inner_btree /\ readable lru_inner_array /\ readable lru_inner_btree /\
  sizes_kept lru_array lru_calls /\ writes_are (fun l => NoDup (keys l)) lru_array (init lru_array) lru_calls /\
  gwatch lru_array (init lru_array) lru_calls =
    [Saw (SawPairs []); SawValue (Some 7); SawValue (Some 7); SawValue None; Saw (SawPairs [(3, 7)]); Saw (SawPairs [(1, 7)]);
     Saw (SawBool false); SawValue (Some 8); Saw (SawPairs [(4, 7); (2, 8)])] /\
  gwatch lru_btree (init lru_btree) lru_calls =
    [Saw (SawPairs []); SawValue (Some 7); SawValue (Some 7); SawValue None; Saw (SawPairs [(3, 7)]); Saw (SawPairs [(1, 7)]);
     Saw (SawBool false); SawValue (Some 8); Saw (SawPairs [(2, 8); (4, 7)])].
Proof.
  split; [eapply SPRight; [apply WProfiler|]; apply SPLeaf with (cap := 3) (esz := fun _ => 1); [intros; auto|constructor|constructor]|].
  split; [exact Logic.I|]. split; [exact Logic.I|]. split; [intros m k f _ st j v; reflexivity|].
  split; [apply new_keysb_ok; vm_compute; reflexivity|]. split; vm_compute; reflexivity.
Qed.

Print Assumptions C61_same_answers_with_gets.
Print Assumptions C61_fifo_same_answers_with_gets.
Print Assumptions C61_lru_same_answers_with_gets.
