(** PDeco.v -- property theorems about decorations: Fifo (C22), Lru (C23), Lrfu (C24). *)
From Coq Require Import NArith QArith Qabs.
From Verif Require Import Base PermSolve Block Spec LawsProof Cut Array ArrayProof BTree BTreeProof
  Batch Exclusive Wrappers WrappersProof Associative Arch ArchProof PArch Get GetProof PGet OrderProof Decorations Stream Compressed PCompressed.
Set Implicit Arguments.
Local Open Scope nat_scope.

(** ** Specification: histories, and who was used last *)
Section Spec.
Context {K V : Type}.
(** A call on a container, or an access to a key through get ([m = false]) or get_mut ([m = true]), [g] being
    what is written through the guard. *)
Inductive event : Type :=
| Call (o : op K V)
| Access (m : bool) (k : K) (g : V -> V).
(** The keys pushed, and the keys used (pushed or accessed), oldest first. *)
Definition pushes (h : list event) : list K :=
  flat_map (fun e => match e with Call o => keys (given o) | Access _ _ _ => [] end) h.
Definition uses (h : list event) : list K :=
  flat_map (fun e => match e with Call o => keys (given o) | Access _ k _ => [k] end) h.
(** [k'] occurs at a point of the list from which on [k] does not. *)
Definition after (l : list K) (k k' : K) : Prop :=
  exists l1 l2, l = l1 ++ k' :: l2 /\ ~ In k (k' :: l2).
End Spec.
Arguments event K V : clear implicits.

Section Plays.
Context {K : Type} {OK : Ord K}.
(** Histories of a container since its creation; with [dup = false], pushed keys are new. *)
Inductive plays {V} (dup : bool) (a : arch K V) : list (event K V) -> St (block a) -> Prop :=
| plays_start : plays dup a [] (init a)
| plays_call : forall h s o s' r, plays dup a h s ->
    match o with OpPush vs => may_push (block a) (held a) dup s vs | OpPop _ => has_associative a = false | _ => True end ->
    step (block a) s o = Ok (s', r) -> plays dup a (h ++ [Call o]) s'
| plays_access : forall h s m k g s' r, plays dup a h s -> keeps_size m a g ->
    aget m a s k g = Ok (s', r) -> plays dup a (h ++ [Access m k g]) s'.
Lemma plays_uses {V} dup (a : arch K V) h s : plays dup a h s -> uses_gets dup a s.
Proof. induction 1; [apply ug_start|eapply ug_call; eauto|eapply ug_get; eauto]. Qed.
End Plays.

Lemma pushes_app {K V} (h1 h2 : list (event K V)) : pushes (h1 ++ h2) = pushes h1 ++ pushes h2.
Proof. apply flat_map_app. Qed.
Lemma uses_app {K V} (h1 h2 : list (event K V)) : uses (h1 ++ h2) = uses h1 ++ uses h2.
Proof. apply flat_map_app. Qed.

Lemma after_app {K} (l l2 : list K) k k' : after l k k' -> ~ In k l2 -> after (l ++ l2) k k'.
Proof.
  intros (a & b & -> & H) H2. exists a, (b ++ l2). rewrite <- app_assoc. split; auto.
  change (k' :: b ++ l2) with ((k' :: b) ++ l2). intros Hi. apply in_app_or in Hi. tauto.
Qed.
Lemma after_new {K} (l l2 : list K) k k' : In k' l2 -> ~ In k l2 -> after (l ++ l2) k k'.
Proof.
  intros H H2. apply in_split in H as (a & b & ->). exists (l ++ a), b. rewrite <- app_assoc. split; auto.
  intros Hi. apply H2. apply in_or_app. auto.
Qed.
Lemma after_irrefl {K} (l : list K) k : ~ after l k k.
Proof. intros (a & b & _ & H). apply H. left; auto. Qed.

(** ** The two time-stamping decorations, at once *)
(** [acc] : accesses renew the stamp. *)
Record Stamped {V D} (F : Factory V D) (stamp : D -> nat) (acc : bool) : Type := {
  now : Fst F -> nat;
  wrap_stamp : forall f v, stamp (snd (wrap F f v)) = now f;
  wrap_now : forall f v, now f < now (fst (wrap F f v));
  touch_stamp : forall f d g, stamp (touched F f d g) = if acc then now f else stamp d;
  tick_now : forall f, now f <= now (tick F f);
  tick_now_acc : acc = true -> forall f, now f < now (tick F f)
}.
Definition fifo_stamped {V} : Stamped (@Fifo V) (@fifo_counter V) false.
Proof. refine {| now := fun f : Fst Fifo => f : nat |}; cbn; intros; auto; discriminate. Defined.
Definition lru_stamped {V} (clock : nat -> nat) : (forall n, clock n < clock (S n)) ->
  Stamped (@Lru V clock) (@lru_stamp V) true.
Proof. intros H. refine {| now := fun f : Fst (Lru clock) => clock f |}; cbn; intros; auto. apply Nat.lt_le_incl; auto. Defined.

Section Deco.
Context {K : Type} {OK : Ord K} {EK : OrdEq K}.
Context {V D : Type} (F : Factory V D) (stamp : D -> nat) (acc : bool) (SF : Stamped F stamp acc).

Definition hist_of (h : list (event K V)) : list K := if acc then uses h else pushes h.

Lemma wrap_all_spec (vs : list (K * V)) : forall f, let (f', ds) := wrap_all F f vs in
  map (unwrap_kv F) ds = vs /\ now SF f <= now SF f' /\
  (forall p, In p ds -> now SF f <= stamp (snd p) < now SF f') /\
  (forall p q, In p ds -> In q ds -> stamp (snd p) < stamp (snd q) -> fst p <> fst q ->
     NoDup (keys ds) -> after (keys ds) (fst p) (fst q)) /\
  (forall p q, In p ds -> In q ds -> stamp (snd p) = stamp (snd q) -> p = q) /\
  NoDup (map (fun p => stamp (snd p)) ds).
Proof.
  induction vs as [|[k v] vs IH]; intros f; cbn [wrap_all].
  - repeat split; auto; try (intros; contradiction). constructor.
  - pose proof (wrap_stamp SF f v) as W1. pose proof (wrap_now SF f v) as W2. pose proof (unwrap_wrap F f v) as W3.
    destruct (wrap F f v) as [f1 d]. cbn in W1, W2, W3. specialize (IH f1).
    destruct (wrap_all F f1 vs) as [f2 ds]. destruct IH as (I1 & I2 & I3 & I4 & I5 & I6).
    split; [cbn; unfold unwrap_kv at 1; cbn; congruence|]. split; [lia|]. split; [|split; [|split]].
    + intros p [<-|Hp]; cbn; [lia|]. specialize (I3 p Hp). lia.
    + intros p q [<-|Hp] [<-|Hq] L Hne N; cbn in *; try congruence.
      * change (after ([k] ++ keys ds) k (fst q)). apply after_new; [apply List.in_map; auto|].
        inversion N; auto.
      * specialize (I3 p Hp). lia.
      * inversion N as [|? ? N1 N2]; subst. destruct (I4 p q Hp Hq L Hne N2) as (a & b & E & Hn).
        exists (k :: a), b. unfold keys in *. rewrite E. auto.
    + intros p q [<-|Hp] [<-|Hq] L; cbn in *; auto.
      * specialize (I3 q Hq). lia.
      * specialize (I3 p Hp). lia.
    + cbn. constructor; auto. intros Hin. apply in_map_iff in Hin as (p & E & Hp). specialize (I3 p Hp). lia.
Qed.

(** Stamps of what is held are in the order of the history. *)
Definition timed (h : list (event K V)) (f : Fst F) (c : list (K * D)) : Prop :=
  (forall p, In p c -> stamp (snd p) < now SF f) /\
  (forall p q, In p c -> In q c -> stamp (snd p) < stamp (snd q) -> after (hist_of h) (fst p) (fst q)) /\
  (forall p q, In p c -> In q c -> stamp (snd p) = stamp (snd q) -> fst p = fst q).

Lemma timed_incl h f c c' : incl c' c -> timed h f c -> timed h f c'.
Proof. intros Hi (H1 & H2 & H3). split; [|split]; intros; [apply H1|apply H2|apply H3]; auto. Qed.
Lemma timed_same h h' f c : hist_of h' = hist_of h -> timed h f c -> timed h' f c.
Proof. intros E (H1 & H2 & H3). split; [|split]; intros; [|rewrite E|]; auto. Qed.
Lemma hist_of_app h1 h2 : hist_of (h1 ++ h2) = hist_of h1 ++ hist_of h2.
Proof. unfold hist_of. destruct acc; [apply uses_app|apply pushes_app]. Qed.
Lemma hist_of_push vs : hist_of [Call (OpPush vs)] = keys vs.
Proof. unfold hist_of. destruct acc; cbn; apply app_nil_r. Qed.
Lemma hist_of_call o : (forall vs, o <> OpPush vs) -> hist_of [Call o] = [].
Proof. unfold hist_of. intros H. destruct acc, o; cbn; auto; exfalso; eapply H; eauto. Qed.

Lemma timed_push h f c vs : timed h f c -> NoDup (keys (c ++ snd (wrap_all F f vs))) ->
  timed (h ++ [Call (OpPush vs)]) (fst (wrap_all F f vs)) (c ++ snd (wrap_all F f vs)).
Proof.
  intros (H1 & H2 & H3) N. pose proof (wrap_all_spec vs f) as W. destruct (wrap_all F f vs) as [f' ds]. cbn [fst snd] in *.
  destruct W as (W1 & W2 & W3 & W4 & W5 & _). rewrite keys_app in N. apply NoDup_app_inv in N as (N1 & N2 & N3).
  assert (Ek : keys vs = keys ds).
  { rewrite <- W1. unfold keys. rewrite map_map. auto. }
  assert (Hold : forall p, In p c -> ~ In (fst p) (keys ds)).
  { intros p Hp Hk. apply (N3 (fst p)); auto. apply List.in_map; auto. }
  assert (Hkey : forall p, In p ds -> In (fst p) (keys ds)) by (intros; apply List.in_map; auto).
  split; [|split].
  - intros p Hp. apply in_app_or in Hp. destruct Hp as [Hp|Hp]; [specialize (H1 p Hp); lia|apply W3; auto].
  - intros p q Hp Hq L. rewrite hist_of_app, hist_of_push, Ek.
    apply in_app_or in Hp. apply in_app_or in Hq. destruct Hp as [Hp|Hp], Hq as [Hq|Hq].
    + apply after_app; auto.
    + apply after_new; auto.
    + specialize (H1 q Hq). specialize (W3 p Hp). lia.
    + assert (Hne : fst p <> fst q).
      { intros E. assert (p = q); [|subst; lia]. destruct p as [k d], q as [k' d']. cbn in E. subst k'.
        f_equal. eapply keys_unique; [exact N2| |]; eauto. }
      specialize (W4 p q Hp Hq L Hne N2). destruct W4 as (a & b & E & Hn). exists (hist_of h ++ a), b.
      rewrite E, <- app_assoc. auto.
  - intros p q Hp Hq E. apply in_app_or in Hp. apply in_app_or in Hq. destruct Hp as [Hp|Hp], Hq as [Hq|Hq].
    + auto.
    + specialize (H1 p Hp). specialize (W3 q Hq). lia.
    + specialize (H1 q Hq). specialize (W3 p Hp). lia.
    + f_equal. auto.
Qed.
Lemma timed_access h f c c' m k g d rest : timed h f c -> NoDup (keys c) ->
  Permutation c ((k, d) :: rest) -> Permutation c' ((k, touched F f d g) :: rest) ->
  timed (h ++ [Access m k g]) (tick F f) c'.
Proof.
  intros (H1 & H2 & H3) N P P'.
  assert (N' : NoDup (k :: keys rest)) by exact (NoDup_perm (keys_perm P) N). inversion N' as [|? ? Nk Nr]; subst.
  assert (Hr : forall p, In p rest -> In p c) by (intros; eapply Permutation_in; [symmetry; exact P|right; auto]).
  assert (Hd : In (k, d) c) by (eapply Permutation_in; [symmetry; exact P|left; auto]).
  assert (Hkr : forall p, In p rest -> fst p <> k) by (intros p Hp <-; apply Nk, List.in_map; auto).
  assert (Hc : forall p, In p c' -> p = (k, touched F f d g) \/ In p rest).
  { intros p Hp. apply (Permutation_in _ P') in Hp. destruct Hp; auto. }
  assert (Hh : hist_of (h ++ [Access m k g]) = hist_of h ++ if acc then [k] else []).
  { rewrite hist_of_app. reflexivity. }
  pose proof (tick_now SF f) as T1. pose proof (touch_stamp SF f d g) as T2.
  split; [|split].
  - intros p Hp. destruct (Hc p Hp) as [->|Hp']; [|specialize (H1 p (Hr p Hp')); lia].
    cbn [snd]. rewrite T2. pose proof (tick_now_acc SF) as T3. destruct acc; [apply T3; auto|].
    specialize (H1 _ Hd). cbn in H1. lia.
  - intros p q Hp Hq L. rewrite Hh. destruct (Hc p Hp) as [->|Hp'], (Hc q Hq) as [->|Hq']; cbn [fst snd] in *; try lia.
    + rewrite T2 in L. destruct acc; [specialize (H1 q (Hr q Hq')); lia|]. rewrite app_nil_r. apply (H2 (k, d) q); auto.
    + rewrite T2 in L. destruct acc.
      * apply after_new; [left; auto|]. intros [E|[]]. apply (Hkr p); auto.
      * rewrite app_nil_r. apply (H2 p (k, d)); auto.
    + apply after_app; [apply H2; auto|]. destruct acc; [|auto]. intros [E|[]]. apply (Hkr p); auto.
  - intros p q Hp Hq E. destruct (Hc p Hp) as [->|Hp'], (Hc q Hq) as [->|Hq']; cbn [fst snd] in *; auto.
    + rewrite T2 in E. destruct acc; [specialize (H1 q (Hr q Hq')); lia|]. apply (H3 (k, d) q); auto.
    + rewrite T2 in E. destruct acc; [specialize (H1 p (Hr p Hp')); lia|]. apply (H3 p (k, d)); auto.
Qed.
Lemma timed_access_absent h f c c' m k g : timed h f c -> ~ In k (keys c) -> Permutation c' c ->
  timed (h ++ [Access m k g]) f c'.
Proof.
  intros (H1 & H2 & H3) Nk P.
  assert (Hc : forall p, In p c' -> In p c) by (intros p Hp; eapply Permutation_in; eauto).
  assert (Hh : hist_of (h ++ [Access m k g]) = hist_of h ++ if acc then [k] else []).
  { rewrite hist_of_app. reflexivity. }
  split; [|split]; auto. intros p q Hp Hq L. rewrite Hh. apply after_app; auto.
  destruct acc; auto. intros [E|[]]. apply Nk. rewrite E. apply List.in_map; auto.
Qed.

Variable f0 : Fst F.
Variable a : arch K D.
Notation A := (ADecorator F f0 a).

Lemma nodisc : false = true -> any_keys a = true. Proof. discriminate. Qed.

Lemma deco_keys (s : St (block A)) vs : may_push (block A) (held A) false s vs ->
  NoDup (keys (held a (snd s) ++ snd (wrap_all F (fst s) vs))).
Proof.
  intros H. specialize (H eq_refl). pose proof (wrap_all_spec vs (fst s)) as W.
  destruct (wrap_all F (fst s) vs) as [f' ds]. destruct W as (W1 & _). cbn [snd].
  cbn [held] in H. rewrite <- W1, <- map_app in H. rewrite keys_unwrap in H. auto.
Qed.

Theorem plays_timed : get_ready a -> forall h s, plays false A h s -> timed h (fst s) (held a (snd s)).
Proof.
  intros Hr h s H.
  induction H as [|h s o s' r H IH Ho E|h s m k g s' r H IH Hk E].
  - cbn [init fst snd]. rewrite (proj2 (init_ok false a)). repeat split; intros; contradiction.
  - assert (Hi : ainv false a (snd s)).
    { destruct (@uses_gets_inv K OK EK V false A s) as [Hi _]; auto; [discriminate|apply (plays_uses H)]. }
    destruct s as [fs cs]; cbn [fst snd] in *.
    destruct o as [vs|n|k|ks|]; cbn [step block DecoratorB push pop take take_multiple flush fst snd] in E.
    + pose proof (deco_keys Ho) as N. pose proof (timed_push vs IH N) as T.
      pose proof (law_push (arch_laws a nodisc) cs (snd (wrap_all F fs vs)) Hi (fun _ => N)) as (s1 & o1 & L1 & _ & _ & L2).
      destruct (wrap_all F fs vs) as [f ds]. cbn [fst snd] in *. rewrite L1 in E. cbn [bind] in E. injection E as <- <-.
      cbn [fst snd]. eapply timed_incl; [|exact T]. intros p Hp. eapply Permutation_in; [exact L2|apply in_or_app; auto].
    + destruct (law_pop (arch_laws a nodisc) (ltac:(cbn in Ho; rewrite Ho; auto)) cs n Hi) as (s1 & o1 & L1 & _ & _ & L2 & _).
      rewrite L1 in E. cbn [bind] in E. injection E as <- <-. cbn [fst snd].
      eapply timed_same; [|eapply timed_incl; [|exact IH]].
      * rewrite hist_of_app, hist_of_call, app_nil_r; auto. discriminate.
      * intros p Hp. eapply Permutation_in; [exact L2|apply in_or_app; auto].
    + destruct (law_take (arch_laws a nodisc) cs k Hi) as (s1 & o1 & L1 & _ & _ & _ & L2).
      rewrite L1 in E. cbn [bind] in E. injection E as <- <-. cbn [fst snd].
      eapply timed_same; [|eapply timed_incl; [|exact IH]].
      * rewrite hist_of_app, hist_of_call, app_nil_r; auto. discriminate.
      * intros p Hp. destruct o1 as [[k' v]|].
        -- destruct L2 as [_ L2]. eapply Permutation_in; [exact L2|right; auto].
        -- destruct L2 as [_ L2]. eapply Permutation_in; [exact L2|auto].
    + destruct (law_take_multiple (arch_laws a nodisc) cs ks Hi) as (s1 & ks1 & o1 & L1 & _ & _ & _ & L2 & _).
      rewrite L1 in E. cbn [bind] in E. injection E as <- <-. cbn [fst snd].
      eapply timed_same; [|eapply timed_incl; [|exact IH]].
      * rewrite hist_of_app, hist_of_call, app_nil_r; auto. discriminate.
      * intros p Hp. eapply Permutation_in; [exact L2|apply in_or_app; auto].
    + destruct (law_flush (arch_laws a nodisc) cs Hi) as (s1 & o1 & L1 & _ & _ & L2 & _).
      rewrite L1 in E. cbn [bind] in E. injection E as <- <-. cbn [fst snd].
      eapply timed_same; [|eapply timed_incl; [|exact IH]].
      * rewrite hist_of_app, hist_of_call, app_nil_r; auto. discriminate.
      * intros p Hp. eapply Permutation_in; [exact L2|apply in_or_app; auto].
  - assert (Hi : ainv false a (snd s)).
    { destruct (@uses_gets_inv K OK EK V false A s) as [Hi _]; auto; [discriminate|apply (plays_uses H)]. }
    destruct s as [fs cs]; cbn [fst snd] in *.
    destruct (@arch_get K OK EK m false D a (fun d => touched F fs d g) cs k nodisc Hr (Hk fs) Hi)
      as (s1 & o & L1 & _ & _ & _ & L2).
    cbn [aget] in E. unfold dc_get in E. cbn [fst snd] in E. rewrite L1 in E. cbn [bind] in E. injection E as <- <-. cbn [fst snd].
    pose proof (law_unique (arch_laws a nodisc) cs Hi eq_refl) as N.
    destruct o as [d|].
    + destruct L2 as (rest & P & P'). eapply timed_access; eauto.
    + destruct L2 as [Nk P]. eapply timed_access_absent; eauto.
Qed.

Lemma timed_sep h f c kept out : timed h f c -> Permutation (out ++ kept) c -> NoDup (keys c) ->
  sep (later_first stamp) kept out ->
  forall k d k' d', In (k, d) out -> In (k', d') kept -> after (hist_of h) k k'.
Proof.
  intros (H1 & H2 & H3) P N Hs k d k' d' Ho Hk.
  assert (I1 : In (k, d) c) by (eapply Permutation_in; [exact P|apply in_or_app; auto]).
  assert (I2 : In (k', d') c) by (eapply Permutation_in; [exact P|apply in_or_app; auto]).
  specialize (Hs _ _ Hk Ho). cbn in Hs. apply Nat.leb_le in Hs.
  destruct (Nat.eq_dec (stamp d) (stamp d')) as [E|E].
  - exfalso. apply (NoDup_perm (keys_perm (Permutation_sym P))) in N. rewrite keys_app in N.
    apply NoDup_app_inv in N as (_ & _ & N). apply (N k).
    + exact (List.in_map fst _ _ Ho).
    + pose proof (H3 _ _ I1 I2 E) as E2. cbn in E2. rewrite E2. exact (List.in_map fst _ _ Hk).
  - exact (H2 (k, d) (k', d') I1 I2 (ltac:(cbn; lia))).
Qed.

(** Eviction by pop and by push is in the order of the history. *)
Theorem stamped_pop : get_ready a -> has_associative a = false -> ordered_by a (later_first stamp) ->
  forall h s n, plays false A h s ->
  exists s' out, pop (block A) s n = Ok (s', out) /\ Permutation (out ++ held A s') (held A s) /\
    forall k v k' v', In (k, v) out -> In (k', v') (held A s') -> after (hist_of h) k k'.
Proof.
  intros Hr Ha Ho h s n H. pose proof (plays_timed Hr H) as T.
  assert (Hi : ainv false a (snd s)).
  { destruct (@uses_gets_inv K OK EK V false A s) as [Hi _]; auto; [discriminate|apply (plays_uses H)]. }
  destruct (law_pop (arch_laws a nodisc) (ltac:(rewrite Ha; auto)) (snd s) n Hi) as (s1 & o1 & L1 & _ & _ & L2 & _).
  destruct s as [fs cs]. cbn [block DecoratorB pop fst snd] in *. rewrite L1. cbn [bind]. eexists _, _. split; [reflexivity|]. cbn [held snd].
  rewrite <- map_app. split; [apply Permutation_map; auto|].
  intros k v k' v' I1 I2. apply in_map_iff in I1 as ([k1 d1] & E1 & I1). apply in_map_iff in I2 as ([k2 d2] & E2 & I2).
  unfold unwrap_kv in E1, E2. cbn in E1, E2. injection E1 as <- _. injection E2 as <- _.
  eapply timed_sep; eauto.
  - apply (law_unique (arch_laws a nodisc) cs Hi eq_refl).
  - eapply ordered_pop; eauto.
Qed.
Theorem stamped_push : get_ready a -> has_associative a = false -> ordered_by a (later_first stamp) ->
  forall h s vs, plays false A h s -> may_push (block A) (held A) false s vs ->
  exists s' out, push (block A) s vs = Ok (s', out) /\ Permutation (out ++ held A s') (held A s ++ vs) /\
    forall k v k' v', In (k, v) out -> In (k', v') (held A s') -> after (hist_of (h ++ [Call (OpPush vs)])) k k'.
Proof.
  intros Hr Ha Ho h s vs H Hm. pose proof (plays_timed Hr H) as T.
  assert (Hi : ainv false a (snd s)).
  { destruct (@uses_gets_inv K OK EK V false A s) as [Hi _]; auto; [discriminate|apply (plays_uses H)]. }
  pose proof (deco_keys Hm) as N. pose proof (timed_push vs T N) as T2. pose proof (wrap_all_spec vs (fst s)) as W.
  pose proof (law_push (arch_laws a nodisc) (snd s) (snd (wrap_all F (fst s) vs)) Hi (fun _ => N)) as (s1 & o1 & L1 & _ & _ & L2).
  destruct s as [fs cs]. cbn [block DecoratorB push fst snd] in *. destruct (wrap_all F fs vs) as [f ds]. cbn [fst snd] in *. rewrite L1. cbn [bind].
  destruct W as (W1 & W2 & W3 & _).
  eexists _, _. split; [reflexivity|]. cbn [held snd].
  rewrite <- map_app. split; [rewrite <- W1, <- map_app; apply Permutation_map; auto|].
  intros k v k' v' I1 I2. apply in_map_iff in I1 as ([k1 d1] & E1 & I1). apply in_map_iff in I2 as ([k2 d2] & E2 & I2).
  unfold unwrap_kv in E1, E2. cbn in E1, E2. injection E1 as <- _. injection E2 as <- _.
  eapply timed_sep; [exact T2|exact L2|exact N| |exact I1|exact I2].
  eapply (@ordered_push K OK EK false D a (later_first stamp) Ho nodisc cs ds); eauto.
  - intros _. exact N.
  - intros x y Hx Hy. cbn. apply Nat.leb_le. destruct T as (T1 & _). specialize (T1 y Hy). specialize (W3 x Hx). lia.
Qed.
End Deco.

(** ** Births: first in, first out, whatever the keys *)
Section Births.
Context {K : Type} {OK : Ord K} {EK : OrdEq K}.
Context {V D : Type} (F : Factory V D) (stamp : D -> nat) (SF : Stamped F stamp false).
(** Any mark on values that pushes hand out in increasing order and writes keep. *)
Variable birth : V -> nat.
Definition births (h : list (event K V)) : list nat :=
  flat_map (fun e => match e with Call o => map (fun p => birth (snd p)) (given o) | Access _ _ _ => [] end) h.
Definition marked (h : list (event K V)) : Prop :=
  StronglySorted lt (births h) /\
  Forall (fun e => match e with Access _ _ g => forall v, birth (g v) = birth v | _ => True end) h.
Lemma births_app h1 h2 : births (h1 ++ h2) = births h1 ++ births h2.
Proof. apply flat_map_app. Qed.
Lemma ss_app (l1 l2 : list nat) : StronglySorted lt (l1 ++ l2) ->
  StronglySorted lt l1 /\ StronglySorted lt l2 /\ forall x y, In x l1 -> In y l2 -> x < y.
Proof.
  induction l1 as [|x l1 IH]; cbn; intros H.
  - repeat split; auto; [constructor|]. intros ? ? [].
  - inversion H as [|? ? H1 H2]; subst. destruct (IH H1) as (I1 & I2 & I3). rewrite Forall_app in H2. destruct H2 as [H2 H3].
    split; [constructor; auto|]. split; auto. intros a b [->|Ha] Hb; auto. rewrite Forall_forall in H3. auto.
Qed.
Lemma marked_app h1 h2 : marked (h1 ++ h2) -> marked h1 /\ marked h2.
Proof.
  intros [H1 H2]. rewrite births_app in H1. apply ss_app in H1 as (I1 & I2 & _). apply Forall_app in H2 as [J1 J2].
  repeat split; auto.
Qed.
Notation bd p := (birth (unwrap_deco F (snd p))).
Notation st p := (stamp (snd p)).

Lemma wrap_all_births (vs : list (K * V)) : forall f, StronglySorted lt (map (fun p => birth (snd p)) vs) ->
  let ds := snd (wrap_all F f vs) in
  (forall p q, In p ds -> In q ds -> st p < st q -> bd p < bd q) /\
  (forall p, In p ds -> In (bd p) (map (fun p => birth (snd p)) vs)) /\ NoDup (map (fun p => st p) ds).
Proof.
  intros f Hs. pose proof (wrap_all_spec SF vs f) as W. revert f Hs W.
  induction vs as [|[k v] vs IH]; intros f Hs W; cbn [wrap_all] in *.
  - cbn. repeat split; try (intros; contradiction). constructor.
  - pose proof (wrap_stamp SF f v) as W1. pose proof (wrap_now SF f v) as W2. pose proof (unwrap_wrap F f v) as W3.
    destruct (wrap F f v) as [f1 d]. cbn [fst snd] in *. pose proof (wrap_all_spec SF vs f1) as W'.
    cbn [map] in Hs. inversion Hs as [|? ? Hs1 Hs2]; subst. specialize (IH f1 Hs1 W').
    destruct (wrap_all F f1 vs) as [f2 ds]. cbn [snd] in *. destruct IH as (I1 & I2 & I3).
    destruct W' as (_ & _ & W' & _). destruct W as (_ & _ & _ & _ & _ & W). split; [|split]; auto.
    + intros p q [<-|Hp] [<-|Hq] L; cbn in *; auto; try lia.
      * rewrite Forall_forall in Hs2. apply Hs2. auto.
      * specialize (W' p Hp). lia.
    + intros p [<-|Hp]; cbn; auto.
Qed.

Definition born (h : list (event K V)) (f : Fst F) (c : list (K * D)) : Prop :=
  (forall p, In p c -> st p < now SF f) /\ (forall p q, In p c -> In q c -> st p < st q -> bd p < bd q) /\
  NoDup (map (fun p => st p) c) /\ (forall p, In p c -> In (bd p) (births h)).

Lemma born_sub h f c r c' : Permutation (r ++ c') c -> born h f c -> born h f c'.
Proof.
  intros P (H1 & H2 & H3 & H4).
  assert (I : incl c' c) by (intros p Hp; eapply Permutation_in; [exact P|apply in_or_app; auto]).
  split; [|split; [|split]]; auto.
  apply (Permutation_map (fun p => st p)) in P. symmetry in P. apply (NoDup_perm P) in H3. rewrite map_app in H3.
  apply NoDup_app_inv in H3. apply H3.
Qed.
Lemma born_same h h' f f' c : births h' = births h -> now SF f <= now SF f' -> born h f c -> born h' f' c.
Proof.
  intros E L (H1 & H2 & H3 & H4). split; [|split; [|split]]; auto.
  - intros p Hp. specialize (H1 p Hp). lia.
  - intros p Hp. rewrite E. auto.
Qed.
Lemma born_push h f c vs : marked (h ++ [Call (OpPush vs)]) -> born h f c ->
  born (h ++ [Call (OpPush vs)]) (fst (wrap_all F f vs)) (c ++ snd (wrap_all F f vs)).
Proof.
  intros [Hs _] (H1 & H2 & H3 & H4). rewrite births_app in Hs. apply ss_app in Hs as (_ & S2 & S3).
  cbn [births flat_map given] in S2, S3. rewrite app_nil_r in S2, S3.
  destruct (@wrap_all_births vs f S2) as (B1 & B2 & B3). pose proof (wrap_all_spec SF vs f) as W.
  destruct (wrap_all F f vs) as [f' ds]. cbn [fst snd] in *. destruct W as (_ & W2 & W3 & _).
  split; [|split; [|split]].
  - intros p Hp. apply in_app_or in Hp. destruct Hp as [Hp|Hp]; [specialize (H1 p Hp); lia|apply W3; auto].
  - intros p q Hp Hq L. apply in_app_or in Hp. apply in_app_or in Hq. destruct Hp as [Hp|Hp], Hq as [Hq|Hq]; auto.
    specialize (H1 q Hq). specialize (W3 p Hp). lia.
  - rewrite map_app. apply NoDup_app_inv. split; [|split]; auto. intros x Hx Hy.
    apply in_map_iff in Hx as (p & <- & Hp). apply in_map_iff in Hy as (q & E & Hq).
    specialize (H1 p Hp). specialize (W3 q Hq). lia.
  - intros p Hp. rewrite births_app. apply in_or_app. apply in_app_or in Hp. destruct Hp as [Hp|Hp]; auto.
    right. cbn [births flat_map given]. rewrite app_nil_r. auto.
Qed.

Variable f0 : Fst F.
Variable a : arch K D.
Notation A := (ADecorator F f0 a).

Theorem plays_born dup : (dup = true -> any_keys a = true) -> get_ready a ->
  forall h s, plays dup A h s -> marked h -> born h (fst s) (held a (snd s)).
Proof.
  intros Hd Hr h s H.
  induction H as [|h s o s' r H IH Ho E|h s m k g s' r H IH Hk E]; intros Hm.
  - cbn [init fst snd]. rewrite (proj2 (init_ok dup a)). repeat split; try (intros; contradiction). constructor.
  - pose proof (marked_app _ _ Hm) as [Hm1 _]. specialize (IH Hm1).
    assert (Hi : ainv dup a (snd s)).
    { destruct (@uses_gets_inv K OK EK V dup A s) as [Hi _]; auto; apply (plays_uses H). }
    destruct s as [fs cs]; cbn [fst snd] in *.
    destruct o as [vs|n|k|ks|]; cbn [step block DecoratorB push pop take take_multiple flush fst snd] in E.
    + pose proof (@born_push h fs (held a cs) vs Hm IH) as T.
      assert (N : may_push (block a) (held a) dup cs (snd (wrap_all F fs vs))).
      { intros Ed. specialize (Ho Ed). pose proof (wrap_all_spec SF vs fs) as W. destruct (wrap_all F fs vs) as [f' ds].
        destruct W as (W1 & _). cbn [held fst snd] in *. rewrite <- W1, <- map_app, keys_unwrap in Ho. auto. }
      pose proof (law_push (arch_laws a Hd) cs (snd (wrap_all F fs vs)) Hi N) as (s1 & o1 & L1 & _ & _ & L2).
      destruct (wrap_all F fs vs) as [f ds]. cbn [fst snd] in *. rewrite L1 in E. cbn [bind] in E. injection E as <- <-.
      cbn [fst snd]. eapply born_sub; eauto.
    + destruct (law_pop (arch_laws a Hd) (ltac:(cbn in Ho; rewrite Ho; auto)) cs n Hi) as (s1 & o1 & L1 & _ & _ & L2 & _).
      rewrite L1 in E. cbn [bind] in E. injection E as <- <-. cbn [fst snd].
      eapply born_same; [|reflexivity|eapply born_sub; eauto]. rewrite births_app. apply app_nil_r.
    + destruct (law_take (arch_laws a Hd) cs k Hi) as (s1 & o1 & L1 & _ & _ & _ & L2).
      rewrite L1 in E. cbn [bind] in E. injection E as <- <-. cbn [fst snd].
      eapply born_same; [rewrite births_app; apply app_nil_r|reflexivity|].
      destruct o1 as [[k' v]|].
      * destruct L2 as [_ L2]. eapply (born_sub [_]); [exact L2|auto].
      * destruct L2 as [_ L2]. eapply (born_sub []); [exact L2|auto].
    + destruct (law_take_multiple (arch_laws a Hd) cs ks Hi) as (s1 & ks1 & o1 & L1 & _ & _ & _ & L2 & _).
      rewrite L1 in E. cbn [bind] in E. injection E as <- <-. cbn [fst snd].
      eapply born_same; [|reflexivity|eapply born_sub; eauto]. rewrite births_app. apply app_nil_r.
    + destruct (law_flush (arch_laws a Hd) cs Hi) as (s1 & o1 & L1 & _ & _ & L2 & _).
      rewrite L1 in E. cbn [bind] in E. injection E as <- <-. cbn [fst snd].
      eapply born_same; [|reflexivity|eapply born_sub; eauto]. rewrite births_app. apply app_nil_r.
  - pose proof (marked_app _ _ Hm) as [Hm1 [_ Hm2]]. specialize (IH Hm1).
    assert (Hg : forall v, birth (g v) = birth v) by (inversion Hm2; auto).
    assert (Hi : ainv dup a (snd s)).
    { destruct (@uses_gets_inv K OK EK V dup A s) as [Hi _]; auto; apply (plays_uses H). }
    destruct s as [fs cs]; cbn [fst snd] in *.
    destruct (@arch_get K OK EK m dup D a (fun d => touched F fs d g) cs k Hd Hr (Hk fs) Hi)
      as (s1 & o & L1 & _ & _ & _ & L2).
    cbn [aget] in E. unfold dc_get in E. cbn [fst snd] in E. rewrite L1 in E. cbn [bind] in E. injection E as <- <-. cbn [fst snd].
    assert (Eb : births (h ++ [Access m k g]) = births h) by (rewrite births_app; apply app_nil_r).
    destruct o as [d|].
    + destruct L2 as (rest & P & P'). eapply born_same; [exact Eb|apply tick_now|].
      destruct IH as (H1 & H2 & H3 & H4).
      assert (C1 : forall p, In p (held a s1) -> exists p', In p' (held a cs) /\ st p = st p' /\ bd p = bd p').
      { intros p Hp. apply (Permutation_in _ P') in Hp. destruct Hp as [<-|Hp].
        - exists (k, d). split; [eapply Permutation_in; [symmetry; exact P|left; auto]|]. cbn [snd].
          rewrite (touch_stamp SF), (unwrap_touched F), Hg. auto.
        - exists p. split; auto. eapply Permutation_in; [symmetry; exact P|right; auto]. }
      split; [|split; [|split]].
      * intros p Hp. destruct (C1 p Hp) as (p' & I1 & -> & _). auto.
      * intros p q Hp Hq. destruct (C1 p Hp) as (p' & I1 & -> & ->). destruct (C1 q Hq) as (q' & I2 & -> & ->). auto.
      * apply (Permutation_map (fun p => st p)) in P. apply (Permutation_map (fun p => st p)) in P'.
        cbn [map snd] in P, P'. rewrite (touch_stamp SF) in P'. eapply NoDup_perm; [symmetry; exact P'|].
        eapply NoDup_perm; [exact P|auto].
      * intros p Hp. destruct (C1 p Hp) as (p' & I1 & _ & ->). auto.
    + destruct L2 as [_ P]. eapply born_same; [exact Eb|reflexivity|]. eapply (born_sub []); eauto.
Qed.

Theorem born_pop dup : (dup = true -> any_keys a = true) -> get_ready a -> has_associative a = false ->
  ordered_by a (later_first stamp) ->
  forall h s n, plays dup A h s -> marked h ->
  exists s' out, pop (block A) s n = Ok (s', out) /\ Permutation (out ++ held A s') (held A s) /\
    forall p q, In p out -> In q (held A s') -> birth (snd p) < birth (snd q).
Proof.
  intros Hd Hr Ha Ho h s n H Hm. pose proof (plays_born Hd Hr H Hm) as (H1 & H2 & H3 & H4).
  assert (Hi : ainv dup a (snd s)).
  { destruct (@uses_gets_inv K OK EK V dup A s) as [Hi _]; auto; apply (plays_uses H). }
  destruct (law_pop (arch_laws a Hd) (ltac:(rewrite Ha; auto)) (snd s) n Hi) as (s1 & o1 & L1 & _ & _ & L2 & _).
  destruct s as [fs cs]. cbn [block DecoratorB pop fst snd] in *. rewrite L1. cbn [bind]. eexists _, _. split; [reflexivity|]. cbn [held snd].
  rewrite <- map_app. split; [apply Permutation_map; auto|].
  intros p q I1 I2. apply in_map_iff in I1 as (p1 & <- & I1). apply in_map_iff in I2 as (q1 & <- & I2). cbn [unwrap_kv snd].
  assert (J1 : In p1 (held a cs)) by (eapply Permutation_in; [exact L2|apply in_or_app; auto]).
  assert (J2 : In q1 (held a cs)) by (eapply Permutation_in; [exact L2|apply in_or_app; auto]).
  pose proof (@ordered_pop K OK EK dup D a _ Ho cs n s1 o1 Hi L1 _ _ I2 I1) as L. cbn in L. apply Nat.leb_le in L.
  apply H2; auto. destruct (Nat.eq_dec (st p1) (st q1)) as [E|E]; [|lia]. exfalso.
  apply (Permutation_map (fun p => st p)) in L2. symmetry in L2. apply (NoDup_perm L2) in H3. rewrite map_app in H3.
  apply NoDup_app_inv in H3 as (_ & _ & H3). apply (H3 (st p1)).
  - exact (List.in_map (fun p => st p) _ _ I1).
  - rewrite E. exact (List.in_map (fun p => st p) _ _ I2).
Qed.
End Births.

(** ** The properties *)
Section Props.
Context {K : Type} {OK : Ord K} {EK : OrdEq K}.

Lemma ordered_no_assoc {D} (a : arch K D) O : ordered_by a O -> has_associative a = false.
Proof. induction a; cbn; intros; auto; try contradiction; eauto. Qed.

(** C22, pop and push: every evicted pair was pushed before every kept one, after any history of calls, reads
    and writes; pushed keys are not held already. *)
Theorem C22_fifo_pop : forall V (a : arch K (fifo_cell V)) h s n, get_ready a -> ordered_by a fifo_ord ->
  plays false (ADecorator Fifo fifo_new a) h s ->
  exists s' out, pop (block (ADecorator Fifo fifo_new a)) s n = Ok (s', out) /\
    Permutation (out ++ held (ADecorator Fifo fifo_new a) s') (held (ADecorator Fifo fifo_new a) s) /\
    forall k v k' v', In (k, v) out -> In (k', v') (held (ADecorator Fifo fifo_new a) s') -> after (pushes h) k k'.
Proof. intros V a h s n Hr Ho H. exact (stamped_pop fifo_stamped Hr (ordered_no_assoc _ _ Ho) Ho n H). Qed.
Theorem C22_fifo_push : forall V (a : arch K (fifo_cell V)) h s vs, get_ready a -> ordered_by a fifo_ord ->
  plays false (ADecorator Fifo fifo_new a) h s ->
  NoDup (keys (held (ADecorator Fifo fifo_new a) s ++ vs)) ->
  exists s' out, push (block (ADecorator Fifo fifo_new a)) s vs = Ok (s', out) /\
    Permutation (out ++ held (ADecorator Fifo fifo_new a) s') (held (ADecorator Fifo fifo_new a) s ++ vs) /\
    forall k v k' v', In (k, v) out -> In (k', v') (held (ADecorator Fifo fifo_new a) s') ->
      after (pushes h ++ keys vs) k k'.
Proof.
  intros V a h s vs Hr Ho H N.
  destruct (stamped_push fifo_stamped Hr (ordered_no_assoc _ _ Ho) Ho H (fun _ => N)) as (s' & out & H1 & H2 & H3).
  exists s', out. split; [exact H1|]. split; [exact H2|]. intros k v k' v' I1 I2. specialize (H3 k v k' v' I1 I2).
  unfold hist_of in H3. rewrite pushes_app in H3. cbn [pushes flat_map given] in H3. rewrite app_nil_r in H3. auto.
Qed.
(** C22 with keys pushed any number of times (where the containers allow it): whatever mark the values carry,
    if it increases from push to push and writes keep it, evicted marks are smaller than kept ones. *)
Theorem C22_fifo_any_keys : forall V (a : arch K (fifo_cell V)) dup (birth : V -> nat) h s n,
  (dup = true -> any_keys a = true) -> get_ready a -> ordered_by a fifo_ord ->
  plays dup (ADecorator Fifo fifo_new a) h s -> marked birth h ->
  exists s' out, pop (block (ADecorator Fifo fifo_new a)) s n = Ok (s', out) /\
    Permutation (out ++ held (ADecorator Fifo fifo_new a) s') (held (ADecorator Fifo fifo_new a) s) /\
    forall p q, In p out -> In q (held (ADecorator Fifo fifo_new a) s') -> birth (snd p) < birth (snd q).
Proof. intros V a dup birth h s n Hd Hr Ho H Hm. exact (born_pop fifo_stamped Hd Hr (ordered_no_assoc _ _ Ho) Ho n H Hm). Qed.

(** C23, for any strictly increasing clock: every evicted pair was last used before every kept one. *)
Theorem C23_lru_pop : forall V (clock : nat -> nat) n0 (a : arch K (lru_cell V)) h s n,
  (forall i, clock i < clock (S i)) -> get_ready a -> ordered_by a lru_ord ->
  plays false (ADecorator (Lru clock) n0 a) h s ->
  exists s' out, pop (block (ADecorator (Lru clock) n0 a)) s n = Ok (s', out) /\
    Permutation (out ++ held (ADecorator (Lru clock) n0 a) s') (held (ADecorator (Lru clock) n0 a) s) /\
    forall k v k' v', In (k, v) out -> In (k', v') (held (ADecorator (Lru clock) n0 a) s') -> after (uses h) k k'.
Proof. intros V clock n0 a h s n Hc Hr Ho H. exact (stamped_pop (lru_stamped clock Hc) Hr (ordered_no_assoc _ _ Ho) Ho n H). Qed.
Theorem C23_lru_push : forall V (clock : nat -> nat) n0 (a : arch K (lru_cell V)) h s vs,
  (forall i, clock i < clock (S i)) -> get_ready a -> ordered_by a lru_ord ->
  plays false (ADecorator (Lru clock) n0 a) h s ->
  NoDup (keys (held (ADecorator (Lru clock) n0 a) s ++ vs)) ->
  exists s' out, push (block (ADecorator (Lru clock) n0 a)) s vs = Ok (s', out) /\
    Permutation (out ++ held (ADecorator (Lru clock) n0 a) s') (held (ADecorator (Lru clock) n0 a) s ++ vs) /\
    forall k v k' v', In (k, v) out -> In (k', v') (held (ADecorator (Lru clock) n0 a) s') ->
      after (uses h ++ keys vs) k k'.
Proof.
  intros V clock n0 a h s vs Hc Hr Ho H N.
  destruct (stamped_push (lru_stamped clock Hc) Hr (ordered_no_assoc _ _ Ho) Ho H (fun _ => N)) as (s' & out & H1 & H2 & H3).
  exists s', out. split; [exact H1|]. split; [exact H2|]. intros k v k' v' I1 I2. specialize (H3 k v k' v' I1 I2).
  unfold hist_of in H3. rewrite uses_app in H3. cbn [uses flat_map given] in H3. rewrite app_nil_r in H3. auto.
Qed.
End Props.

(** A clone of a Fifo decorator counts on its own from the value it was cloned at: with two handles on one
    container, a pair pushed second through a stale handle leaves before one pushed first.  (C22 speaks of one
    handle.) *)
Definition fifo_arr (cap : nat) : arch nat (fifo_cell nat) := @AArray nat _ _ fifo_ord (@std_sorter _ _ fifo_ord snd) linear_bs cap (fun _ => 1).
Theorem C22_cloned_handles_refuted : let A := ADecorator Fifo fifo_new (fifo_arr 3) in
  exists f1 c1 f2 c2 f3 c3 s4,
    push (block A) (init A) [(1, 10); (2, 20)] = Ok ((f1, c1), []) /\
    (* the handle cloned before that push *)
    push (block A) (fifo_clone fifo_new, c1) [(3, 30)] = Ok ((f2, c2), []) /\
    take (block A) (f1, c2) 1 = Ok ((f3, c3), Some (1, 10)) /\
    pop (block A) (f3, c3) 1 = Ok (s4, [(3, 30)]) /\ held A s4 = [(2, 20)].
Proof.
  cbn zeta. exists 2. eexists. exists 1. eexists. exists 2. eexists _, _.
  split; [vm_compute; reflexivity|]. split; [vm_compute; reflexivity|]. split; [vm_compute; reflexivity|].
  split; vm_compute; reflexivity.
Qed.

(** Non-vacuity: a Fifo over a profiled Array and a Lru over a BTree, with accesses and evictions. *)
Definition fifo_ex : arch nat nat := ADecorator Fifo fifo_new (AProfiler (fifo_arr 3)).
Definition lru_ex : arch nat nat := ADecorator (Lru (fun i => 10 + 2 * i)) 0 (@ABTree nat _ _ (@lru_ord nat) 3 (fun _ => 1)).
Definition deco_h : list (event nat nat) :=
  [Call (OpPush [(1, 10); (2, 20)]); Access true 1 (fun v => v + 1); Call (OpPush [(3, 5)])].
Lemma ok_ok {S R} (r : res (S * R)) (P : S -> R -> Prop) :
  (exists s o, r = Ok (s, o) /\ P s o) -> match r with Ok (s, o) => P s o | Panic => False end.
Proof. intros (s & o & -> & H). auto. Qed.
Ltac play_deco_h :=
  unfold deco_h; change [Call (OpPush [(1, 10); (2, 20)]); Access true 1 (fun v => v + 1); Call (OpPush [(3, 5)])]
    with ((([] ++ [Call (OpPush [(1, 10); (2, 20)])]) ++ [Access true 1 (fun v => v + 1)]) ++ [Call (OpPush [(3, 5)])] : list (event nat nat));
  eapply plays_call; [eapply plays_access; [eapply plays_call; [apply plays_start| |vm_compute; reflexivity]| |vm_compute; reflexivity]| |vm_compute; reflexivity].
Example fifo_ex_plays : exists s s' out, plays false fifo_ex deco_h s /\ get_ready (AProfiler (fifo_arr 3)) /\
  ordered_by (AProfiler (fifo_arr 3)) fifo_ord /\ pop (block fifo_ex) s 1 = Ok (s', out) /\
  out = [(1, 11)] /\ Permutation (held fifo_ex s') [(3, 5); (2, 20)].
Proof.
  eexists _, _, _. split.
  { play_deco_h.
    - intros _. vm_compute. repeat constructor; cbn; intuition discriminate.
    - cbn. auto.
    - intros _. vm_compute. repeat constructor; cbn; intuition discriminate. }
  split; [exact I|]. split; [reflexivity|]. split; [vm_compute; reflexivity|]. split; vm_compute; auto using perm_swap.
Qed.
Example lru_ex_plays : exists s s' out, plays false lru_ex deco_h s /\
  get_ready (@ABTree nat _ _ (@lru_ord nat) 3 (fun _ => 1)) /\ (forall i, 10 + 2 * i < 10 + 2 * S i) /\
  pop (block lru_ex) s 1 = Ok (s', out) /\ out = [(2, 20)] /\ Permutation (held lru_ex s') [(1, 11); (3, 5)].
Proof.
  eexists _, _, _. split.
  { play_deco_h.
    - intros _. vm_compute. repeat constructor; cbn; intuition discriminate.
    - cbn. auto.
    - intros _. vm_compute. repeat constructor; cbn; intuition discriminate. }
  split; [cbn; intros; lia|]. split; [intros; lia|]. split; [vm_compute; reflexivity|]. split; vm_compute; auto using perm_swap.
Qed.

(** The same key pushed twice (values carry the push number as their mark). *)
Example fifo_dup_plays : exists s s' out,
  plays true fifo_ex [Call (OpPush [(1, 10); (2, 20)]); Call (OpPush [(1, 30)])] s /\
  marked (fun v : nat => v) [Call (OpPush [(1, 10); (2, 20)]); Call (OpPush [(1, 30)])] /\
  pop (block fifo_ex) s 1 = Ok (s', out) /\ out = [(1, 10)] /\ Permutation (held fifo_ex s') [(1, 30); (2, 20)].
Proof.
  eexists _, _, _. split.
  { change [Call (OpPush [(1, 10); (2, 20)]); Call (OpPush [(1, 30)])]
      with (([] ++ [Call (OpPush [(1, 10); (2, 20)])]) ++ [Call (OpPush [(1, 30)])] : list (event nat nat)).
    eapply plays_call; [eapply plays_call; [apply plays_start| |vm_compute; reflexivity]| |vm_compute; reflexivity];
      intros E; discriminate E. }
  split. { split; cbn; repeat constructor; lia. }
  split; [vm_compute; reflexivity|]. split; vm_compute; auto using perm_swap.
Qed.

(** ** Lru over a Compressed *)
(** The get of a Compressed shows a copy: whatever the state, the access recorded in the copy is lost, so the
    container does not know that the element was used (C23 is stated of containers whose get gives the element). *)
Theorem C23_compressed_get_changes_nothing :
  forall K (OK : Ord K) V clock n0 (L : Lz) (C : VCodec (K * lru_cell V)) O srt bs cap f c k g s' r,
  aget false (ADecorator (Lru clock) n0 (@ACompressed K _ _ O L C srt bs cap)) (f, c) k g = Ok (s', r) -> snd s' = c.
Proof.
  intros until r. cbn [aget]. unfold dc_get. cbn [fst snd aget]. intros [= <- _]. reflexivity.
Qed.
(** For instance (unit values, so that a cell is its stamp): 1 and 2 are pushed, 1 is read, and the pop evicts 1. *)
Definition unit_lru : VCodec (nat * lru_cell unit).
Proof.
  refine (codec_via duo_codec (fun p : nat * lru_cell unit => (fst p, lru_stamp (snd p))) (fun q => (fst q, mkLru tt (snd q))) _).
  intros [k [[] n]]. reflexivity.
Defined.
Definition lru_compressed : arch nat unit :=
  ADecorator (Lru (fun i => i)) 0 (@ACompressed nat _ _ lru_ord no_lz unit_lru (@std_sorter _ _ lru_ord snd) linear_bs 40).
Theorem C23_compressed_read_not_recorded_refuted :
  exists s1 s2, push (block lru_compressed) (init lru_compressed) [(1, tt); (2, tt)] = Ok (s1, []) /\
    aget false lru_compressed s1 1 (fun v => v) = Ok (s2, Some tt) /\
    exists s3, pop (block lru_compressed) s2 1 = Ok (s3, [(1, tt)]).
Proof.
  eexists _, _. split; [vm_compute; reflexivity|]. split; [vm_compute; reflexivity|]. eexists. vm_compute. reflexivity.
Qed.
Print Assumptions C22_fifo_pop.
Print Assumptions C22_fifo_any_keys.
Print Assumptions C23_lru_push.
