(** Alike.v -- proof side of Repr.v: a relation between the states of two containers of the same policy, kept by
    every call, and its closure under the containers of the library. *)
From Coq Require Import NArith.
From Verif Require Import Base PermSolve Block Spec LawsProof Cut Array ArrayProof BTree BTreeProof
  Batch BatchProof Exclusive ExclusiveProof Wrappers WrappersProof Associative AssociativeProof Sim SimProof Arch ArchProof Repr ReprProof Minus.
Set Implicit Arguments.

Lemma perm_split_apart {K V} {O : Ord V} (o c l : list (K * V)) : Permutation (o ++ c) l -> apart l -> apart o /\ apart c.
Proof. intros P H. apply (apart_perm (Permutation_sym P)) in H. split; [eapply apart_app_l|eapply apart_app_r]; eauto. Qed.

Section Alike.
Context {K : Type} {OK : Ord K} {EK : OrdEq K} {V : Type} {O : Ord V}.

Record Alike (A B : Block K V) (IA : St A -> Prop) (IB : St B -> Prop) (cA : St A -> list (K * V)) (cB : St B -> list (K * V))
    (MA : (K -> bool) -> St A -> St A -> Prop) (MB : (K -> bool) -> St B -> St B -> Prop) (R : St A -> St B -> Prop) : Prop := {
  al_inv : forall s t, R s t -> IA s /\ IB t;
  al_ct : forall s t, R s t -> apart (cA s) /\ Permutation (cA s) (cB t);
  al_cap : forall s t, R s t -> capacity A s = capacity B t;
  al_size : forall s t, R s t -> size A s = size B t;
  al_rm : forall P s t s' t', R s t -> MA P s s' -> MB P t t' -> IA s' -> IB t' -> R s' t';
  al_pop : forall s t n, R s t -> (pop A s n = Panic /\ pop B t n = Panic) \/
    exists s' t' o o', pop A s n = Ok (s', o) /\ pop B t n = Ok (t', o') /\ R s' t' /\ Permutation o o' /\
      Permutation (o ++ cA s') (cA s) /\ size A s' <= size A s /\ capacity A s' = capacity A s;
  al_push : forall s t vs vs', R s t -> Permutation vs vs' -> apart (cA s ++ vs) ->
    exists s' t' o o', push A s vs = Ok (s', o) /\ push B t vs' = Ok (t', o') /\ R s' t' /\ Permutation o o' /\
      Permutation (o ++ cA s') (cA s ++ vs) /\ capacity A s' = capacity A s;
  al_flush : forall s t, R s t ->
    exists s' t' o o', flush A s = Ok (s', o) /\ flush B t = Ok (t', o') /\ R s' t' /\ Permutation o o' /\
      Permutation (o ++ cA s') (cA s) /\ capacity A s' = capacity A s
}.

(** The union of all such relations is one. *)
Definition likest A B IA IB cA cB MA MB (s : St A) (t : St B) : Prop := exists R, Alike A B IA IB cA cB MA MB R /\ R s t.
Lemma likest_ok A B IA IB cA cB MA MB : Alike A B IA IB cA cB MA MB (likest A B IA IB cA cB MA MB).
Proof.
  constructor; unfold likest.
  - intros s t (R & H & HR). apply (al_inv H _ _ HR).
  - intros s t (R & H & HR). apply (al_ct H _ _ HR).
  - intros s t (R & H & HR). apply (al_cap H _ _ HR).
  - intros s t (R & H & HR). apply (al_size H _ _ HR).
  - intros P s t s' t' (R & H & HR) H1 H2 H3 H4. exists R. split; auto. eapply (al_rm H); eauto.
  - intros s t n (R & H & HR). destruct (al_pop H _ _ n HR) as [G|(s' & t' & o & o' & G1 & G2 & G3 & G4)]; auto.
    right. exists s', t', o, o'. repeat split; eauto; apply G4.
  - intros s t vs vs' (R & H & HR) P Ha. destruct (al_push H _ _ HR P Ha) as (s' & t' & o & o' & G1 & G2 & G3 & G4).
    exists s', t', o, o'. repeat split; eauto; apply G4.
  - intros s t (R & H & HR). destruct (al_flush H _ _ HR) as (s' & t' & o & o' & G1 & G2 & G3 & G4).
    exists s', t', o, o'. repeat split; eauto; apply G4.
Qed.

(** *** Leaves *)
Section Leaves.
Variable esz : K * V -> nat.
Variables (A B : Block K V) (IA : St A -> Prop) (IB : St B -> Prop) (cA : St A -> list (K * V)) (cB : St B -> list (K * V)).
Hypothesis LA : Leaf esz A IA cA.
Hypothesis LB : Leaf esz B IB cB.
Definition leaf_like (s : St A) (t : St B) : Prop :=
  IA s /\ IB t /\ apart (cA s) /\ Permutation (cA s) (cB t) /\ capacity A s = capacity B t.
Lemma leaf_alike : Alike A B IA IB cA cB (leaf_minus A cA) (leaf_minus B cB) leaf_like.
Proof.
  constructor; unfold leaf_like.
  - tauto.
  - tauto.
  - tauto.
  - intros s t (H1 & H2 & H3 & H4 & H5). rewrite (lf_size LA s H1), (lf_size LB t H2). apply sum_sz_perm; auto.
  - intros P s t s' t' (H1 & H2 & H3 & H4 & H5) [G1 G2] [G3 G4] G5 G6. repeat split; auto; try congruence.
    + eapply nodup_keys_perm; [symmetry; exact G2|]. eapply nodup_keys_sub with (out := filter (fun p => P (fst p)) (cA s)) (c := cA s); [|apply H3].
      clear. unfold without. induction (cA s) as [|x l IH]; cbn; auto. destruct (P (fst x)); cbn; auto. apply Permutation_sym, Permutation_cons_app, Permutation_sym. auto.
    + intros p q Hp Hq E. rewrite G2 in Hp, Hq. apply filter_In in Hp. apply filter_In in Hq. apply (proj2 H3); tauto.
    + rewrite G2, G4. apply without_perm; auto.
  - intros s t n (H1 & H2 & H3 & H4 & H5). right.
    destruct (lf_pop LA s n H1 H3) as (s' & o & E & Hi & Hc & Po & Pk).
    destruct (lf_pop LB t n H2 (apart_perm H4 H3)) as (t' & o' & E' & Hi' & Hc' & Po' & Pk').
    assert (P1 : Permutation (o ++ cA s') (cA s)) by (rewrite Po, Pk; apply keep_evict).
    exists s', t', o, o'. split; auto. split; auto. split; [|split; [|split; [|split]]]; auto.
    + split; auto. split; auto. split; [apply (perm_split_apart _ _ P1 H3)|]. split; [|congruence].
      rewrite Pk, Pk'. apply keep_perm; auto.
    + rewrite Po, Po'. apply evict_perm; auto.
    + rewrite (lf_size LA _ Hi), (lf_size LA _ H1), <- (sum_sz_perm esz P1), sum_sz_app. lia.
  - intros s t vs vs' (H1 & H2 & H3 & H4 & H5) P Ha.
    assert (Ha' : apart (cB t ++ vs')) by (eapply apart_perm; [|exact Ha]; apply Permutation_app; auto).
    destruct (lf_push LA s vs H1 Ha) as (s' & o & E & Hi & Hc & Po & Pk).
    destruct (lf_push LB t vs' H2 Ha') as (t' & o' & E' & Hi' & Hc' & Po' & Pk').
    assert (P1 : Permutation (o ++ cA s') (cA s ++ vs)).
    { rewrite Po, Pk. unfold push_evict, push_keep. destruct (_ <=? _); auto. destruct (_ =? _); auto. destruct (_ <? _).
      - rewrite <- app_assoc. apply Permutation_app_head, keep_evict.
      - rewrite app_assoc. apply Permutation_app_tail, keep_evict. }
    exists s', t', o, o'. split; auto. split; auto. split; [|split; [|split]]; auto.
    + split; auto. split; auto. split; [apply (perm_split_apart _ _ P1 Ha)|]. split; [|congruence].
      rewrite Pk, Pk', <- H5. apply push_keep_perm; auto.
    + rewrite Po, Po', <- H5. apply push_evict_perm; auto.
  - intros s t (H1 & H2 & H3 & H4 & H5).
    destruct (lf_flush LA s H1) as (s' & o & E & Hi & Hc & Po & Pk).
    destruct (lf_flush LB t H2) as (t' & o' & E' & Hi' & Hc' & Po' & Pk').
    exists s', t', o, o'. split; auto. split; auto. rewrite Pk, Pk', app_nil_r. split; [|split; [|split]]; auto.
    + repeat split; auto using apart_nil; try congruence; [constructor|intros p q []].
    + rewrite Po, Po'. auto.
Qed.
End Leaves.

(** *** Restricting by capacity *)
Lemma alike_cap A B IA IB cA cB MA MB R c c' : Alike A B IA IB cA cB MA MB R ->
  Alike A B (fun s => IA s /\ capacity A s = c) (fun t => IB t /\ capacity B t = c') cA cB MA MB
    (fun s t => R s t /\ capacity A s = c /\ capacity B t = c').
Proof.
  intros H. constructor.
  - intros s t (HR & H1 & H2). destruct (al_inv H _ _ HR). auto.
  - intros s t (HR & _). apply (al_ct H _ _ HR).
  - intros s t (HR & _). apply (al_cap H _ _ HR).
  - intros s t (HR & _). apply (al_size H _ _ HR).
  - intros P s t s' t' (HR & H1 & H2) G1 G2 [G3 G4] [G5 G6]. split; auto. eapply (al_rm H); eauto.
  - intros s t n (HR & H1 & H2). destruct (al_pop H _ _ n HR) as [G|(s' & t' & o & o' & G1 & G2 & G3 & G4 & G5 & G6 & G7)]; auto.
    right. exists s', t', o, o'. pose proof (al_cap H _ _ G3). pose proof (al_cap H _ _ HR). repeat split; auto; congruence.
  - intros s t vs vs' (HR & H1 & H2) P Ha. destruct (al_push H _ _ HR P Ha) as (s' & t' & o & o' & G1 & G2 & G3 & G4 & G5 & G7).
    exists s', t', o, o'. pose proof (al_cap H _ _ G3). pose proof (al_cap H _ _ HR). repeat split; auto; congruence.
  - intros s t (HR & H1 & H2). destruct (al_flush H _ _ HR) as (s' & t' & o & o' & G1 & G2 & G3 & G4 & G5 & G7).
    exists s', t', o, o'. pose proof (al_cap H _ _ G3). pose proof (al_cap H _ _ HR). repeat split; auto; congruence.
Qed.

(** *** Wrappers *)
Section Wrap.
Variables (A B : Block K V) (IA : St A -> Prop) (IB : St B -> Prop) (cA : St A -> list (K * V)) (cB : St B -> list (K * V)).
Variables (MA : (K -> bool) -> St A -> St A -> Prop) (MB : (K -> bool) -> St B -> St B -> Prop) (R : St A -> St B -> Prop).
Hypothesis H : Alike A B IA IB cA cB MA MB R.
Lemma alike_stopper : Alike (FlushStopperB A) (FlushStopperB B) IA IB cA cB MA MB R.
Proof.
  destruct H as [H1 H2 H3 H4 H5 H6 H7 H8]. constructor; auto.
  intros s t HR. exists s, t, [], []. cbn. repeat split; auto.
Qed.
Lemma alike_sequential_l : Alike (SequentialB A) B IA IB cA cB MA MB R.
Proof. destruct H. constructor; auto. Qed.
Lemma alike_dyn_l : Alike (DynB A) B IA IB cA cB MA MB R.
Proof. destruct H. constructor; auto. Qed.
Lemma alike_remote_l : Alike (RemoteB A) B IA IB cA cB MA MB R.
Proof. destruct H. constructor; auto. Qed.
Lemma alike_sequential_r : Alike A (SequentialB B) IA IB cA cB MA MB R.
Proof. destruct H. constructor; auto. Qed.
Lemma alike_dyn_r : Alike A (DynB B) IA IB cA cB MA MB R.
Proof. destruct H. constructor; auto. Qed.
Lemma alike_remote_r : Alike A (RemoteB B) IA IB cA cB MA MB R.
Proof. destruct H. constructor; auto. Qed.
Lemma alike_profiler_l : Alike (ProfilerB A) B (fun s => IA (snd s)) IB (fun s => cA (snd s)) cB
  (fun P s s' => MA P (snd s) (snd s')) MB (fun s t => R (snd s) t).
Proof.
  constructor; cbn.
  - intros s t HR. apply (al_inv H _ _ HR).
  - intros s t HR. apply (al_ct H _ _ HR).
  - intros s t HR. apply (al_cap H _ _ HR).
  - intros s t HR. apply (al_size H _ _ HR).
  - intros P s t s' t' HR H1 H2 H3 H4. eapply (al_rm H); eauto.
  - intros s t n HR. unfold pf_pop. destruct (al_pop H _ _ n HR) as [[G1 G2]|(s' & t' & o & o' & G1 & G2 & G3 & G4 & G5 & G6 & G7)].
    + left. rewrite G1. auto.
    + right. rewrite G1. cbn [bind]. unfold sub_chk. replace (size A s' <=? size A (snd s)) with true by (symmetry; apply Nat.leb_le; auto).
      cbn [bind]. eexists _, t', o, o'. split; [reflexivity|]. cbn. auto 10.
  - intros s t vs vs' HR P Ha. unfold pf_push. destruct (al_push H _ _ HR P Ha) as (s' & t' & o & o' & G1 & G2 & G3 & G4 & G5 & G7).
    rewrite G1. cbn [bind]. eexists _, t', o, o'. split; [reflexivity|]. cbn. auto 10.
  - intros s t HR. unfold pf_flush. destruct (al_flush H _ _ HR) as (s' & t' & o & o' & G1 & G2 & G3 & G4 & G5 & G7).
    rewrite G1. cbn [bind]. eexists _, t', o, o'. split; [reflexivity|]. cbn. auto 10.
Qed.
Lemma alike_profiler_r : Alike A (ProfilerB B) IA (fun s => IB (snd s)) cA (fun s => cB (snd s))
  MA (fun P s s' => MB P (snd s) (snd s')) (fun s t => R s (snd t)).
Proof.
  constructor; cbn.
  - intros s t HR. apply (al_inv H _ _ HR).
  - intros s t HR. apply (al_ct H _ _ HR).
  - intros s t HR. apply (al_cap H _ _ HR).
  - intros s t HR. apply (al_size H _ _ HR).
  - intros P s t s' t' HR H1 H2 H3 H4. eapply (al_rm H); eauto.
  - intros s t n HR. unfold pf_pop. destruct (al_pop H _ _ n HR) as [[G1 G2]|(s' & t' & o & o' & G1 & G2 & G3 & G4 & G5 & G6 & G7)].
    + left. rewrite G2. auto.
    + right. rewrite G2. cbn [bind]. unfold sub_chk. rewrite <- (al_size H _ _ G3), <- (al_size H _ _ HR).
      replace (size A s' <=? size A s) with true by (symmetry; apply Nat.leb_le; auto).
      cbn [bind]. eexists s', _, o, o'. split; [auto|]. split; [reflexivity|]. cbn. auto 10.
  - intros s t vs vs' HR P Ha. unfold pf_push. destruct (al_push H _ _ HR P Ha) as (s' & t' & o & o' & G1 & G2 & G3 & G4 & G5 & G7).
    rewrite G2. cbn [bind]. eexists s', _, o, o'. split; [auto|]. split; [reflexivity|]. cbn. auto 10.
  - intros s t HR. unfold pf_flush. destruct (al_flush H _ _ HR) as (s' & t' & o & o' & G1 & G2 & G3 & G4 & G5 & G7).
    rewrite G2. cbn [bind]. eexists s', _, o, o'. split; [auto|]. split; [reflexivity|]. cbn. auto 10.
Qed.
End Wrap.

(** *** Exclusive *)
Section Excl.
Variables (bs bs' : BSearch K) (A B A' B' : Block K V).
Variables (IA : St A -> Prop) (IB : St B -> Prop) (cA : St A -> list (K * V)) (cB : St B -> list (K * V)).
Variables (IA' : St A' -> Prop) (IB' : St B' -> Prop) (cA' : St A' -> list (K * V)) (cB' : St B' -> list (K * V)).
Variables (MA : (K -> bool) -> St A -> St A -> Prop) (MB : (K -> bool) -> St B -> St B -> Prop).
Variables (MA' : (K -> bool) -> St A' -> St A' -> Prop) (MB' : (K -> bool) -> St B' -> St B' -> Prop).
Variables (R : St A -> St A' -> Prop) (Q : St B -> St B' -> Prop).
Hypothesis HR : Alike A A' IA IA' cA cA' MA MA' R.
Hypothesis HQ : Alike B B' IB IB' cB cB' MB MB' Q.
Hypothesis UA : Minus A IA cA MA.
Hypothesis UB : Minus B IB cB MB.
Definition ex_like (s : St A * St B) (t : St A' * St B') : Prop :=
  R (fst s) (fst t) /\ Q (snd s) (snd t) /\ apart (cA (fst s) ++ cB (snd s)).
Lemma without_apart P (l : list (K * V)) : apart l -> apart (without P l).
Proof.
  intros H. apply (apart_sub H); [intros x Hx; apply filter_In in Hx; tauto|].
  eapply nodup_keys_sub with (out := filter (fun p => P (fst p)) l) (c := l); [|apply H].
  clear. unfold without. induction l as [|x l IH]; cbn; auto. destruct (P (fst x)); cbn; auto. apply Permutation_sym, Permutation_cons_app, Permutation_sym. auto.
Qed.
Lemma exclusive_alike : Alike (ExclusiveB bs A B) (ExclusiveB bs' A' B')
  (@ex_inv K V A B IA IB cA cB false) (@ex_inv K V A' B' IA' IB' cA' cB' false)
  (@ex_ct K V A B cA cB) (@ex_ct K V A' B' cA' cB')
  (fun P s s' => MA P (fst s) (fst s') /\ MB P (snd s) (snd s')) (fun P s s' => MA' P (fst s) (fst s') /\ MB' P (snd s) (snd s')) ex_like.
Proof.
  constructor; unfold ex_like, ex_ct.
  - intros s t (H1 & H2 & H3). destruct (al_inv HR _ _ H1), (al_inv HQ _ _ H2). unfold ex_inv, ex_ct. repeat split; auto.
    + intros _. apply H3.
    + intros _. destruct (al_ct HR _ _ H1) as [_ P1], (al_ct HQ _ _ H2) as [_ P2].
      eapply nodup_keys_perm; [apply Permutation_app; eauto|]. apply H3.
  - intros s t (H1 & H2 & H3). split; auto. apply Permutation_app; [apply (al_ct HR _ _ H1)|apply (al_ct HQ _ _ H2)].
  - intros s t (H1 & H2 & H3). cbn. unfold ex_capacity. rewrite (al_cap HR _ _ H1), (al_cap HQ _ _ H2). auto.
  - intros s t (H1 & H2 & H3). cbn. unfold ex_size. rewrite (al_size HR _ _ H1), (al_size HQ _ _ H2). auto.
  - intros P s t s' t' (H1 & H2 & H3) [G1 G2] [G3 G4] (I1 & I2 & _) (I3 & I4 & _). split; [|split].
    + eapply (al_rm HR); eauto.
    + eapply (al_rm HQ); eauto.
    + eapply apart_perm; [|apply (without_apart P H3)]. rewrite without_app. symmetry.
      apply Permutation_app; [apply (mi_ct UA G1)|apply (mi_ct UB G2)].
  - intros [f b] [f' b'] n (H1 & H2 & H3). cbn in *. unfold ex_pop. cbn [fst snd].
    destruct (al_pop HQ _ _ n H2) as [[G1 G2]|(b1 & b1' & o & o' & G1 & G2 & G3 & G4 & G5 & G6 & G7)].
    + left. rewrite G1, G2. auto.
    + rewrite G1, G2. cbn [bind]. rewrite <- (al_size HQ _ _ G3), <- (al_size HQ _ _ H2).
      unfold sub_chk. replace (size B b1 <=? size B b) with true by (symmetry; apply Nat.leb_le; auto). cbn [bind].
      destruct (size B b - size B b1 <? n) eqn:L.
      * destruct (al_pop HR _ _ (n - (size B b - size B b1)) H1) as [[F1 F2]|(f1 & f1' & q & q' & F1 & F2 & F3 & F4 & F5 & F6 & F7)].
        -- left. rewrite F1, F2. auto.
        -- right. rewrite F1, F2. cbn [bind]. exists (f1, b1), (f1', b1'), (o ++ q), (o' ++ q'). cbn [fst snd].
           assert (Pc : Permutation ((o ++ q) ++ cA f1 ++ cB b1) (cA f ++ cB b)).
           { rewrite <- F5, <- G5. rewrite <- !app_assoc. rewrite (Permutation_app_swap_app o q). apply Permutation_app_head.
             rewrite (Permutation_app_swap_app o (cA f1)). auto. }
           repeat split; auto; try (apply (perm_split_apart _ _ Pc H3)).
           ++ apply Permutation_app; auto.
           ++ unfold ex_size; cbn. lia.
           ++ unfold ex_capacity; cbn. lia.
      * right. exists (f, b1), (f', b1'), o, o'. cbn [fst snd].
        assert (Pc : Permutation (o ++ cA f ++ cB b1) (cA f ++ cB b)).
        { rewrite <- G5. rewrite (Permutation_app_swap_app o (cA f)). auto. }
        repeat split; auto; try (apply (perm_split_apart _ _ Pc H3)).
        -- unfold ex_size; cbn. lia.
        -- unfold ex_capacity; cbn. lia.
  - intros [f b] [f' b'] vs vs' (H1 & H2 & H3) P Ha. cbn in *. unfold ex_push. cbn [fst snd].
    destruct (@al_push _ _ _ _ _ _ _ _ _ HR f f' vs vs' H1 P) as (f1 & f1' & o & o' & G1 & G2 & G3 & G4 & G5 & G6).
    { eapply apart_app_r. eapply apart_perm; [|exact Ha]. rewrite (Permutation_app_comm (cA f) (cB b)), <- app_assoc. auto. }
    rewrite G1, G2. cbn [bind].
    assert (Pc1 : Permutation (cA f1 ++ (cB b ++ o)) ((cA f ++ cB b) ++ vs)).
    { rewrite (Permutation_app_comm (cA f) (cB b)), <- app_assoc, <- G5, (Permutation_app_comm (cA f1)), <- app_assoc. auto. }
    destruct (@al_push _ _ _ _ _ _ _ _ _ HQ b b' o o' H2 G4) as (b1 & b1' & q & q' & F1 & F2 & F3 & F4 & F5 & F6).
    { apply (perm_split_apart _ _ Pc1 Ha). }
    rewrite F1, F2. cbn [bind]. exists (f1, b1), (f1', b1'), q, q'. cbn [fst snd].
    assert (Pc : Permutation (q ++ cA f1 ++ cB b1) ((cA f ++ cB b) ++ vs)).
    { rewrite <- Pc1, <- F5. apply Permutation_app_swap_app. }
    repeat split; auto; try (apply (perm_split_apart _ _ Pc Ha)). unfold ex_capacity; cbn. lia.
  - intros [f b] [f' b'] (H1 & H2 & H3). cbn in *. unfold ex_flush. cbn [fst snd].
    destruct (al_flush HQ _ _ H2) as (b1 & b1' & o & o' & G1 & G2 & G3 & G4 & G5 & G6). rewrite G1, G2. cbn [bind].
    destruct (al_flush HR _ _ H1) as (f1 & f1' & q & q' & F1 & F2 & F3 & F4 & F5 & F6). rewrite F1, F2. cbn [bind].
    assert (Pc1 : Permutation ((o ++ cA f1) ++ (cB b1 ++ q)) (cA f ++ cB b)).
    { rewrite <- F5, <- G5. rewrite (Permutation_app_comm (o ++ cA f1)), <- app_assoc.
      rewrite (Permutation_app_swap_app (cB b1) q), <- app_assoc. apply Permutation_app_head.
      rewrite (Permutation_app_comm o (cA f1)), (Permutation_app_comm o (cB b1)). apply Permutation_app_swap_app. }
    destruct (@al_push _ _ _ _ _ _ _ _ _ HQ b1 b1' q q' G3 F4) as (b2 & b2' & p & p' & E1 & E2 & E3 & E4 & E5 & E6).
    { apply (perm_split_apart _ _ Pc1 H3). }
    rewrite E1, E2. cbn [bind].
    destruct (al_flush HQ _ _ E3) as (b3 & b3' & z & z' & D1 & D2 & D3 & D4 & D5 & D6). rewrite D1, D2. cbn [bind].
    exists (f1, b3), (f1', b3'), (o ++ p ++ z), (o' ++ p' ++ z'). cbn [fst snd].
    assert (Pc : Permutation ((o ++ p ++ z) ++ cA f1 ++ cB b3) (cA f ++ cB b)).
    { rewrite <- Pc1, <- E5, <- D5. rewrite <- !app_assoc. apply Permutation_app_head.
      rewrite (Permutation_app_swap_app (cA f1) p). apply Permutation_app_head. apply Permutation_app_swap_app. }
    repeat split; auto; try (apply (perm_split_apart _ _ Pc H3)).
    + repeat apply Permutation_app; auto.
    + unfold ex_capacity; cbn. lia.
Qed.
End Excl.

(** *** Lists of containers: Batch and Associative *)
Section Lists.
Variables (A B : Block K V) (IA : St A -> Prop) (IB : St B -> Prop) (cA : St A -> list (K * V)) (cB : St B -> list (K * V)).
Variables (MA : (K -> bool) -> St A -> St A -> Prop) (MB : (K -> bool) -> St B -> St B -> Prop) (R : St A -> St B -> Prop).
Hypothesis H : Alike A B IA IB cA cB MA MB R.
Hypothesis UA : Minus A IA cA MA.
Hypothesis UB : Minus B IB cB MB.
Notation RL := (Forall2 R).
Notation fA := (flat_map cA).
Notation fB := (flat_map cB).
Definition bt_like (s : list (St A)) (t : list (St B)) : Prop := RL s t /\ apart (fA s).
Lemma rl_inv s t : RL s t -> Forall IA s /\ Forall IB t.
Proof. induction 1 as [|x y s t HR F IH]; split; constructor; try apply (al_inv H _ _ HR); apply IH. Qed.
Lemma rl_ct s t : RL s t -> Permutation (fA s) (fB t).
Proof. induction 1 as [|x y s t HR F IH]; cbn; auto. apply Permutation_app; auto. apply (al_ct H _ _ HR). Qed.
Lemma rl_cap s t : RL s t -> map (capacity A) s = map (capacity B) t.
Proof. induction 1 as [|x y s t HR F IH]; cbn; auto. rewrite (al_cap H _ _ HR), IH. auto. Qed.
Lemma rl_size s t : RL s t -> map (size A) s = map (size B) t.
Proof. induction 1 as [|x y s t HR F IH]; cbn; auto. rewrite (al_size H _ _ HR), IH. auto. Qed.
Lemma rl_rm P s t : RL s t -> forall s' t', Forall2 (MA P) s s' -> Forall2 (MB P) t t' -> Forall IA s' -> Forall IB t' -> RL s' t'.
Proof.
  induction 1 as [|x y s t HR F IH]; intros s' t' G1 G2 G3 G4; inversion G1; subst; inversion G2; subst; constructor.
  - inversion G3; inversion G4; subst. eapply (al_rm H); eauto.
  - inversion G3; inversion G4; subst. apply IH; auto.
Qed.
Definition sums (s : list (St A)) : nat := list_sum (map (size A) s).
Definition caps (s : list (St A)) : nat := list_sum (map (capacity A) s).
Lemma sums_cons c s : sums (c :: s) = size A c + sums s. Proof. reflexivity. Qed.
Lemma caps_cons c s : caps (c :: s) = capacity A c + caps s. Proof. reflexivity. Qed.
Lemma sums_app s t : sums (s ++ t) = sums s + sums t. Proof. unfold sums. rewrite map_app, list_sum_app. auto. Qed.
Lemma caps_app s t : caps (s ++ t) = caps s + caps t. Proof. unfold caps. rewrite map_app, list_sum_app. auto. Qed.
Lemma sums_rev s : sums (rev s) = sums s.
Proof. induction s as [|c s IH]; auto. cbn [rev]. rewrite sums_app, IH, !sums_cons. change (sums []) with 0. lia. Qed.
Lemma caps_rev s : caps (rev s) = caps s.
Proof. induction s as [|c s IH]; auto. cbn [rev]. rewrite caps_app, IH, !caps_cons. change (caps []) with 0. lia. Qed.
Lemma fA_rev s : Permutation (fA (rev s)) (fA s).
Proof. induction s as [|c s IH]; auto. cbn [rev]. rewrite flat_map_app. cbn. rewrite app_nil_r, IH. apply Permutation_app_comm. Qed.
Lemma rl_rev s t : RL s t -> RL (rev s) (rev t).
Proof. induction 1; cbn; auto. apply Forall2_app; auto. Qed.

Lemma rl_flush s t : RL s t -> exists s' t' o o', bt_flush A s = Ok (s', o) /\ bt_flush B t = Ok (t', o') /\ RL s' t' /\ Permutation o o' /\
  Permutation (o ++ fA s') (fA s) /\ caps s' = caps s.
Proof.
  induction 1 as [|x y s t HR F IH].
  - exists [], [], [], []. cbn. auto 10.
  - destruct IH as (s' & t' & o & o' & E1 & E2 & E3 & E4 & E5 & E6).
    destruct (al_flush H _ _ HR) as (x' & y' & q & q' & G1 & G2 & G3 & G4 & G5 & G6).
    cbn [bt_flush]. rewrite G1, G2. cbn [bind]. rewrite E1, E2. cbn [bind].
    exists (x' :: s'), (y' :: t'), (q ++ o), (q' ++ o'). repeat split; auto.
    + apply Permutation_app; auto.
    + cbn [flat_map]. rewrite <- E5, <- G5, <- !app_assoc. apply Permutation_app_head. apply Permutation_app_swap_app.
    + rewrite !caps_cons. lia.
Qed.
Lemma rl_pop s t : RL s t -> forall n, (bt_pop_loop A s n = Panic /\ bt_pop_loop B t n = Panic) \/
  exists s' t' o o', bt_pop_loop A s n = Ok (s', o) /\ bt_pop_loop B t n = Ok (t', o') /\ RL s' t' /\ Permutation o o' /\
    Permutation (o ++ fA s') (fA s) /\ sums s' <= sums s /\ caps s' = caps s.
Proof.
  induction 1 as [|x y s t HR F IH]; intros n.
  - right. exists [], [], [], []. cbn. auto 10.
  - cbn [bt_pop_loop]. destruct (al_pop H _ _ n HR) as [[G1 G2]|(x' & y' & q & q' & G1 & G2 & G3 & G4 & G5 & G6 & G7)].
    { left. rewrite G1, G2. auto. }
    rewrite G1, G2. cbn [bind]. rewrite <- (al_size H _ _ G3), <- (al_size H _ _ HR).
    unfold sub_chk. replace (size A x' <=? size A x) with true by (symmetry; apply Nat.leb_le; auto). cbn [bind].
    destruct (n <=? size A x - size A x') eqn:L.
    + right. exists (x' :: s), (y' :: t), q, q'. repeat split; auto.
      * cbn [flat_map]. rewrite app_assoc, G5. auto.
      * rewrite !sums_cons. lia.
      * rewrite !caps_cons. lia.
    + destruct (IH (n - (size A x - size A x'))) as [[E1 E2]|(s' & t' & o & o' & E1 & E2 & E3 & E4 & E5 & E6 & E7)].
      * left. rewrite E1, E2. auto.
      * right. rewrite E1, E2. cbn [bind]. exists (x' :: s'), (y' :: t'), (q ++ o), (q' ++ o'). repeat split; auto.
        -- apply Permutation_app; auto.
        -- cbn [flat_map]. rewrite <- E5, <- G5, <- !app_assoc. apply Permutation_app_head. apply Permutation_app_swap_app.
        -- rewrite !sums_cons. lia.
        -- rewrite !caps_cons. lia.
Qed.
Lemma perm_nil_iff {T} (l l' : list T) : Permutation l l' -> (l = [] /\ l' = []) \/ (exists x r y r', l = x :: r /\ l' = y :: r').
Proof.
  intros P. destruct l as [|x r], l' as [|y r']; auto; [apply Permutation_nil in P|symmetry in P; apply Permutation_nil in P|]; try discriminate.
  right. eauto 10.
Qed.
Lemma rl_push s t : RL s t -> forall vs vs', Permutation vs vs' -> apart (fA s ++ vs) ->
  exists v r v' r' o o', bt_push_loop A s vs = Ok (v, r, o) /\ bt_push_loop B t vs' = Ok (v', r', o') /\ RL v v' /\ RL r r' /\ Permutation o o' /\
    Permutation (o ++ fA r ++ fA v) (fA s ++ vs) /\ caps r + caps v = caps s.
Proof.
  induction 1 as [|x y s t HR F IH]; intros vs vs' P Ha; destruct (perm_nil_iff P) as [[-> ->]|(e & l & e' & l' & Ev & Ev')].
  - exists [], [], [], [], [], []. cbn. auto 10.
  - subst vs vs'. exists [], [], [], [], (e :: l), (e' :: l'). cbn. rewrite app_nil_r. auto 10.
  - exists [], (x :: s), [], (y :: t), [], []. cbn [bt_push_loop]. repeat split; auto.
  - assert (Ea : bt_push_loop A (x :: s) vs = let* (c1, v1) := push A x vs in let* (v, r, o) := bt_push_loop A s v1 in Ok (c1 :: v, r, o)) by (subst; reflexivity).
    assert (Eb : bt_push_loop B (y :: t) vs' = let* (c1, v1) := push B y vs' in let* (v, r, o) := bt_push_loop B t v1 in Ok (c1 :: v, r, o)) by (subst; reflexivity).
    rewrite Ea, Eb. clear Ea Eb Ev Ev' e l e' l'. cbn [flat_map] in Ha.
    destruct (@al_push _ _ _ _ _ _ _ _ _ H x y vs vs' HR P) as (x' & y' & q & q' & G1 & G2 & G3 & G4 & G5 & G6).
    { eapply apart_app_r. eapply apart_perm; [|exact Ha]. rewrite (Permutation_app_comm (cA x)), <- app_assoc. auto. }
    rewrite G1, G2. cbn [bind].
    assert (Pc : Permutation (cA x' ++ (fA s ++ q)) ((cA x ++ fA s) ++ vs)).
    { rewrite (Permutation_app_comm (cA x)), <- !app_assoc, <- G5, (Permutation_app_comm (cA x')), <- app_assoc. auto. }
    destruct (IH q q' G4) as (v & r & v' & r' & o & o' & E1 & E2 & E3 & E4 & E5 & E6 & E7).
    { apply (perm_split_apart _ _ Pc Ha). }
    rewrite E1, E2. cbn [bind]. exists (x' :: v), r, (y' :: v'), r', o, o'. repeat split; auto.
    + cbn [flat_map]. rewrite <- Pc, <- E6. rewrite (Permutation_app_swap_app (cA x') o). apply Permutation_app_head. apply Permutation_app_swap_app.
    + rewrite !caps_cons. lia.
Qed.
Lemma without_fA P s s' : Forall2 (MA P) s s' -> apart (fA s) -> apart (fA s').
Proof. intros F Ha. eapply apart_perm; [symmetry; apply (list_ct UA F)|]. apply without_apart. auto. Qed.
Lemma batch_alike : Alike (BatchB A) (BatchB B) (bt_inv IA cA false) (bt_inv IB cB false) fA fB
  (fun P => Forall2 (MA P)) (fun P => Forall2 (MB P)) bt_like.
Proof.
  constructor; unfold bt_like.
  - intros s t [F Ha]. destruct (rl_inv F). split; split; auto; intros _; [apply Ha|].
    eapply nodup_keys_perm; [apply (rl_ct F)|]. apply Ha.
  - intros s t [F Ha]. split; auto. apply rl_ct; auto.
  - intros s t [F Ha]. cbn. unfold bt_capacity. rewrite (rl_cap F). auto.
  - intros s t [F Ha]. cbn. unfold bt_size. rewrite (rl_size F). auto.
  - intros P s t s' t' [F Ha] G1 G2 [I1 _] [I2 _]. split; [eapply rl_rm; eauto|]. eapply without_fA; eauto.
  - intros s t n [F Ha]. cbn. unfold bt_pop. destruct (rl_pop (rl_rev F) n) as [[E1 E2]|(s' & t' & o & o' & E1 & E2 & E3 & E4 & E5 & E6 & E7)].
    + left. rewrite E1, E2. auto.
    + right. rewrite E1, E2. cbn [bind]. exists (rev s'), (rev t'), o, o'.
      assert (Pc : Permutation (o ++ fA (rev s')) (fA s)) by (rewrite fA_rev, E5, fA_rev; auto).
      split; auto. split; auto. split; [split; [apply rl_rev; auto|apply (perm_split_apart _ _ Pc Ha)]|].
      split; auto. split; auto. split.
      * fold (sums s). fold (sums (rev s')). rewrite sums_rev. rewrite sums_rev in E6. auto.
      * fold (caps s). fold (caps (rev s')). rewrite caps_rev. rewrite caps_rev in E7. auto.
  - intros s t vs vs' [F Ha] P Hp. cbn. unfold bt_push.
    destruct (rl_push F P Hp) as (v & r & v' & r' & o & o' & E1 & E2 & E3 & E4 & E5 & E6 & E7).
    rewrite E1, E2. cbn [bind]. exists (r ++ v), (r' ++ v'), o, o'.
    assert (Pc : Permutation (o ++ fA (r ++ v)) (fA s ++ vs)) by (rewrite flat_map_app; auto).
    split; auto. split; auto. split; [split; [apply Forall2_app; auto|apply (perm_split_apart _ _ Pc Hp)]|].
    split; auto. split; auto. fold (caps s). fold (caps (r ++ v)). rewrite caps_app. auto.
  - intros s t [F Ha]. cbn. destruct (rl_flush F) as (s' & t' & o & o' & E1 & E2 & E3 & E4 & E5 & E6).
    exists s', t', o, o'. split; auto. split; auto. split; [split; auto; apply (perm_split_apart _ _ E5 Ha)|auto].
Qed.

(** Associative *)
Variable hash : K -> N.
Definition as_like (s : list (St A)) (t : list (St B)) : Prop :=
  RL s t /\ apart (fA s) /\ as_inv hash IA cA false s /\ as_inv hash IB cB false t.
Lemma rl_len s t : RL s t -> length s = length t.
Proof. induction 1; cbn; auto. Qed.
Lemma rl_replace i x y s t : RL s t -> R x y -> RL (replace_nth i x s) (replace_nth i y t).
Proof. intros F. revert i. induction F as [|x0 y0 s t HR F IH]; intros [|i] Hxy; cbn; constructor; auto. Qed.
Lemma rl_nth s t i : RL s t -> (nth_error s i = None /\ nth_error t i = None) \/
  exists x y, nth_error s i = Some x /\ nth_error t i = Some y /\ R x y.
Proof.
  intros F. revert i. induction F as [|x0 y0 s t HR F IH]; intros [|i]; cbn; auto. right. eauto 10.
Qed.
Lemma as_flush_bt (C : Block K V) s : as_flush C s = bt_flush C s.
Proof. induction s as [|c s IH]; cbn; auto. Qed.
Lemma replace_mid {T} (a : list T) c c' b : replace_nth (length a) c' (a ++ c :: b) = a ++ c' :: b.
Proof. induction a; cbn; congruence. Qed.
Lemma rl_as_pop target pb : forall s t, RL s t -> (as_pop_loop A s target pb = Panic /\ as_pop_loop B t target pb = Panic) \/
  exists s' t' o o', as_pop_loop A s target pb = Ok (s', o) /\ as_pop_loop B t target pb = Ok (t', o') /\ RL s' t' /\ Permutation o o' /\
    Permutation (o ++ fA s') (fA s) /\ sums s' <= sums s /\ caps s' = caps s /\
    Forall2 (@incl K) (ckeys cA s') (ckeys cA s).
Proof.
  induction pb as [|[bz bi] pb IH]; intros s t F; cbn [as_pop_loop].
  - right. exists s, t, [], []. repeat split; auto using Forall2_incl_refl.
  - destruct (rl_nth bi F) as [[E1 E2]|(x & y & E1 & E2 & HR)]; rewrite E1, E2; cbn [unwrap bind]; [left; auto|].
    destruct (sub_chk bz target) as [ps|]; cbn [bind]; [|left; auto].
    destruct (al_pop H _ _ ps HR) as [[G1 G2]|(x' & y' & q & q' & G1 & G2 & G3 & G4 & G5 & G6 & G7)].
    { left. rewrite G1, G2. auto. }
    rewrite G1, G2. cbn [bind].
    destruct (IH _ _ (rl_replace bi F G3)) as [[D1 D2]|(s' & t' & o & o' & D1 & D2 & D3 & D4 & D5 & D6 & D7 & D8)].
    { left. rewrite D1, D2. auto. }
    right. rewrite D1, D2. cbn [bind]. exists s', t', (q ++ o), (q' ++ o').
    destruct (nth_error_split _ _ E1) as (a & b & Es & Ea). subst s bi. rewrite replace_mid in *.
    rewrite flat_map_app in *. cbn [flat_map] in *. rewrite sums_app, sums_cons in *. rewrite caps_app, caps_cons in *.
    repeat split; auto; try lia.
    + apply Permutation_app; auto.
    + rewrite <- app_assoc, D5, <- G5, <- !app_assoc. rewrite (Permutation_app_swap_app q (fA a)). apply Permutation_app_head. auto.
    + assert (T : Forall2 (@incl K) (ckeys cA (a ++ x' :: b)) (ckeys cA (a ++ x :: b))).
      { unfold ckeys. rewrite !map_app. cbn. apply Forall2_app; [apply Forall2_incl_refl|constructor; [|apply Forall2_incl_refl]].
        eapply incl_keys_sub; eauto. }
      clear - D8 T. revert T. generalize (ckeys cA (a ++ x :: b)). induction D8 as [|l1 l2 L1 L2 Hi F IH]; intros l T; inversion T; subst; constructor.
      * eapply incl_tran; eauto.
      * auto.
Qed.
Lemma rl_as_push s t : RL s t -> forall vss vss', Forall2 (@Permutation _) vss vss' -> length vss = length s -> apart (fA s ++ concat vss) ->
  exists s' t' o o', as_push_loop A s vss = Ok (s', o) /\ as_push_loop B t vss' = Ok (t', o') /\ RL s' t' /\ Permutation o o' /\
    Permutation (o ++ fA s') (fA s ++ concat vss) /\ caps s' = caps s.
Proof.
  induction 1 as [|x y s t HR F IH]; intros vss vss' P Hl Ha.
  - destruct vss; [|discriminate]. inversion P; subst. exists [], [], [], []. cbn. auto 10.
  - inversion P as [|vs vs' vss1 vss1' Pv P' E1 E2]; subst; [discriminate|]. cbn [flat_map concat] in Ha. cbn [as_push_loop].
    destruct (@al_push _ _ _ _ _ _ _ _ _ H x y vs vs' HR Pv) as (x' & y' & q & q' & G1 & G2 & G3 & G4 & G5 & G6).
    { eapply apart_app_r with (a := fA s ++ concat vss1). eapply apart_perm; [|exact Ha].
      rewrite (Permutation_app_comm (cA x)), <- !app_assoc. apply Permutation_app_head. rewrite app_assoc. apply Permutation_app_comm. }
    destruct (IH _ _ P') as (s' & t' & o & o' & D1 & D2 & D3 & D4 & D5 & D6); [cbn in Hl; lia| |].
    { eapply apart_app_r with (a := cA x ++ vs). eapply apart_perm; [|exact Ha].
      rewrite <- !app_assoc. apply Permutation_app_head. apply Permutation_app_swap_app. }
    rewrite G1, G2. cbn [bind]. rewrite D1, D2. cbn [bind]. exists (x' :: s'), (y' :: t'), (q ++ o), (q' ++ o'). repeat split; auto.
    + apply Permutation_app; auto.
    + cbn [flat_map concat]. rewrite <- !app_assoc. rewrite (Permutation_app_swap_app (fA s) vs).
      rewrite (Permutation_app_swap_app o (cA x')), D5, app_assoc, G5, <- !app_assoc. auto.
    + rewrite !caps_cons. lia.
Qed.

(** Elements that hash to the same set, whatever the order they come in. *)
Lemma placed_perm {T} (key : T -> K) idx : forall r r' i, length r = length r' -> placed idx i (map (map key) r) -> placed idx i (map (map key) r') ->
  Permutation (concat r) (concat r') -> Forall2 (@Permutation T) r r'.
Proof.
  induction r as [|l r IH]; intros r' i Hl P1 P2 P; destruct r' as [|l' r']; try discriminate; constructor.
  - apply (filter_perm (fun x => idx (key x) =? i)) in P. cbn [concat] in P. rewrite !filter_app in P.
    assert (Y : forall (l : list T), (forall k, In k (map key l) -> idx k = i) -> filter (fun x => idx (key x) =? i) l = l).
    { clear. induction l as [|x l IH]; intros Hk; cbn; auto. rewrite (Hk (key x)) by (left; auto). rewrite Nat.eqb_refl, IH; auto. intros k G; apply Hk; right; auto. }
    assert (Z : forall r : list (list T), placed idx (S i) (map (map key) r) -> filter (fun x => idx (key x) =? i) (concat r) = []).
    { clear. intros r Hp. assert (G : forall x, In x (concat r) -> (idx (key x) =? i) = false).
      { intros x Hx. apply Nat.eqb_neq. pose proof (placed_range idx _ (S i) (key x) Hp) as Hr.
        assert (In (key x) (concat (map (map key) r))) by (rewrite <- concat_map; apply List.in_map; auto). specialize (Hr H). lia. }
      induction (concat r) as [|x l IH]; cbn; auto. rewrite (G x) by (left; auto). apply IH. intros z Hz; apply G; right; auto. }
    destruct P1 as [P1 P1'], P2 as [P2 P2']. rewrite (Y l P1), (Y l' P2), (Z r P1'), (Z r' P2'), !app_nil_r in P. auto.
  - destruct P1 as [P1 P1'], P2 as [P2 P2']. apply (IH r' (S i)); auto.
    apply (filter_perm (fun x => negb (idx (key x) =? i))) in P. cbn [concat] in P. rewrite !filter_app in P.
    assert (Y : forall (l : list T), (forall k, In k (map key l) -> idx k = i) -> filter (fun x => negb (idx (key x) =? i)) l = []).
    { clear. induction l as [|x l IH]; intros Hk; cbn; auto. rewrite (Hk (key x)) by (left; auto). rewrite Nat.eqb_refl. cbn. apply IH; auto. intros k G; apply Hk; right; auto. }
    assert (Z : forall r : list (list T), placed idx (S i) (map (map key) r) -> filter (fun x => negb (idx (key x) =? i)) (concat r) = concat r).
    { clear. intros r Hp. assert (G : forall x, In x (concat r) -> (idx (key x) =? i) = false).
      { intros x Hx. apply Nat.eqb_neq. pose proof (placed_range idx _ (S i) (key x) Hp) as Hr.
        assert (In (key x) (concat (map (map key) r))) by (rewrite <- concat_map; apply List.in_map; auto). specialize (Hr H). lia. }
      induction (concat r) as [|x l IH]; cbn; auto. rewrite (G x) by (left; auto). cbn. rewrite IH; auto. intros z Hz; apply G; right; auto. }
    rewrite (Y l P1), (Y l' P2), (Z r P1'), (Z r' P2') in P. auto.
Qed.
Lemma associative_alike p p' e' : Laws A IA cA false p true -> Laws B IB cB false p' e' ->
  Alike (AssociativeB hash A) (AssociativeB hash B) (as_inv hash IA cA false) (as_inv hash IB cB false) fA fB
  (fun P => Forall2 (MA P)) (fun P => Forall2 (MB P)) as_like.
Proof.
  intros LA LB. constructor; unfold as_like.
  - tauto.
  - intros s t (F & Ha & _). split; auto. apply rl_ct; auto.
  - intros s t (F & Ha & _). cbn. unfold as_capacity. rewrite (rl_cap F). auto.
  - intros s t (F & Ha & _). cbn. unfold as_size. rewrite (rl_size F). auto.
  - intros P s t s' t' (F & Ha & _) G1 G2 I1 I2. split; [eapply rl_rm; eauto; [apply I1|apply I2]|]. split; auto. eapply without_fA; eauto.
  - intros s t n (F & Ha & Hi & Hj). cbn. unfold as_pop. rewrite <- (rl_size F).
    assert (Fin : forall s' t' o o', RL s' t' -> Permutation o o' -> Permutation (o ++ fA s') (fA s) -> length s' = length s ->
      Forall2 (@incl K) (ckeys cA s') (ckeys cA s) -> as_inv hash IA cA false s' /\ as_inv hash IB cB false t').
    { intros s' t' o o' F' P' Pc Hl Hin. destruct (rl_inv F') as [V1 V2]. pose proof (perm_split_apart _ _ Pc Ha) as [_ A'].
      assert (S1 : as_inv hash IA cA false s').
      { destruct Hi as (N1 & N2 & N3 & N4). split; [rewrite Hl; auto|]. split; auto. split; [|intros _; apply A'].
        rewrite Hl. eapply placed_incl; eauto. }
      split; auto. destruct S1 as (N1 & N2 & N3 & N4). rewrite (rl_len F') in *. split; auto. split; auto. split.
      - eapply placed_incl; [|exact N3]. clear - F' H. unfold ckeys. induction F' as [|x y s t HR F IH]; cbn; constructor; auto.
        intros k Hk. destruct (al_ct H _ _ HR) as [_ P]. rewrite (keys_perm P). auto.
      - intros _. eapply nodup_keys_perm; [apply (rl_ct F')|]. apply A'. }
    destruct (_ || _).
    { right. exists s, t, [], []. split; [reflexivity|]. split; [reflexivity|]. split; [auto|]. cbn. auto. }
    destruct (_ <=? n).
    + right. rewrite !as_flush_bt. destruct (rl_flush F) as (s' & t' & o & o' & E1 & E2 & E3 & E4 & E5 & E6).
      exists s', t', o, o'. split; auto. split; auto.
      destruct (law_flush (@associative_laws K V OK EK hash A IA cA false p true LA) s Hi) as (s1 & o1 & X1 & X2 & X3 & X4 & X5).
      destruct (law_flush (@associative_laws K V OK EK hash B IB cB false p' e' LB) t Hj) as (t1 & q1 & Y1 & Y2 & Y3 & Y4 & Y5).
      cbn in X1, Y1. rewrite as_flush_bt in X1, Y1. rewrite E1 in X1. rewrite E2 in Y1. inversion X1; inversion Y1; subst s1 o1 t1 q1.
      split; [split; auto; split; [apply (perm_split_apart _ _ E5 Ha)|auto]|]. split; [auto|]. split; [auto|].
      split; [|exact E6]. specialize (X5 eq_refl). change (sums s' <= sums s).
      assert (Z : sums s' = 0) by (apply (law_empty (@associative_laws K V OK EK hash A IA cA false p true LA) s' X2); exact X5). lia.
    + destruct (as_target _ _ _) as [[target pb]|]; cbn [bind]; [|left; auto].
      destruct (rl_as_pop target pb F) as [[E1 E2]|(s' & t' & o & o' & E1 & E2 & E3 & E4 & E5 & E6 & E7 & E8)].
      * left. auto.
      * right. exists s', t', o, o'. split; auto. split; auto.
        assert (Hl : length s' = length s).
        { clear - E8. unfold ckeys in E8. remember (map _ s') as l eqn:El. remember (map _ s) as l' eqn:El'. apply (f_equal (@length _)) in El. apply (f_equal (@length _)) in El'.
          rewrite map_length in El, El'. rewrite <- El, <- El'. clear El El'. induction E8; cbn; auto. }
        destruct (Fin _ _ _ _ E3 E4 E5 Hl E8) as [V1 V2].
        split; [split; [exact E3|]; split; [apply (perm_split_apart _ _ E5 Ha)|]; split; auto|]. auto.
  - intros s t vs vs' (F & Ha & Hi & Hj) P Hp. cbn. unfold as_push.
    destruct (distribute_spec hash (@fst K V) s (proj1 Hi) vs (repeat [] (length s))) as (r & D1 & D2 & D3 & D4).
    { apply repeat_length. } { rewrite map_repeat. apply placed_repeat. }
    destruct (distribute_spec hash (@fst K V) t (proj1 Hj) vs' (repeat [] (length t))) as (r' & D1' & D2' & D3' & D4').
    { apply repeat_length. } { rewrite map_repeat. apply placed_repeat. }
    rewrite concat_repeat_nil in D4, D4'. cbn in D4, D4'.
    pose proof (law_push (@associative_laws K V OK EK hash A IA cA false p true LA) s vs Hi (fun _ => proj1 Hp)) as (s1 & o1 & X1 & X2 & _).
    assert (Hp' : NoDup (keys (fB t ++ vs'))) by (eapply nodup_keys_perm; [apply Permutation_app; [apply (rl_ct F)|exact P]|apply Hp]).
    pose proof (law_push (@associative_laws K V OK EK hash B IB cB false p' e' LB) t vs' Hj (fun _ => Hp')) as (t1 & q1 & Y1 & Y2 & _).
    cbn in X1, Y1. unfold as_push in X1, Y1. rewrite D1 in *. rewrite D1' in *. cbn [bind] in *.
    pose proof (rl_len F) as Hlen. rewrite <- Hlen in D3', D2'.
    assert (F2 : Forall2 (@Permutation (K * V)) r r').
    { eapply placed_perm; [congruence|exact D3|exact D3'|]. rewrite D4, D4'. auto. }
    destruct (rl_as_push F F2 D2) as (s' & t' & o & o' & E1 & E2 & E3 & E4 & E5 & E6).
    { eapply apart_perm; [|exact Hp]. apply Permutation_app_head. symmetry. auto. }
    rewrite E1 in X1. rewrite E2 in Y1. inversion X1; inversion Y1; subst s1 o1 t1 q1.
    assert (Pc : Permutation (o ++ fA s') (fA s ++ vs)) by (rewrite E5, D4; auto).
    exists s', t', o, o'. split; auto. split; auto. split; [split; auto; split; [apply (perm_split_apart _ _ Pc Hp)|auto]|]. auto.
  - intros s t (F & Ha & Hi & Hj). cbn. rewrite !as_flush_bt. destruct (rl_flush F) as (s' & t' & o & o' & E1 & E2 & E3 & E4 & E5 & E6).
    exists s', t', o, o'. split; auto. split; auto.
    destruct (law_flush (@associative_laws K V OK EK hash A IA cA false p true LA) s Hi) as (s1 & o1 & X1 & X2 & X3 & X4 & X5).
    destruct (law_flush (@associative_laws K V OK EK hash B IB cB false p' e' LB) t Hj) as (t1 & q1 & Y1 & Y2 & Y3 & Y4 & Y5).
    cbn in X1, Y1. rewrite as_flush_bt in X1, Y1. rewrite E1 in X1. rewrite E2 in Y1. inversion X1; inversion Y1; subst s1 o1 t1 q1.
    split; [split; auto; split; [apply (perm_split_apart _ _ E5 Ha)|auto]|]. auto.
Qed.
End Lists.
End Alike.
