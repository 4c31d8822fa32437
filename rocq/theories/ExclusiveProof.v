(** ExclusiveProof.v -- an Exclusive of two lawful containers is a lawful container. *)
From Verif Require Import Base PermSolve Block Spec LawsProof Exclusive.
Set Implicit Arguments.

Lemma remove_found_spec {K V} {OK : Ord K} (bs : BSearch K) : forall (found : list (K * V)) ks,
  exists removed, Permutation ks (removed ++ remove_found bs ks found) /\ incl removed (keys found).
Proof.
  induction found as [|[k v] found IH]; intros ks; cbn.
  - exists []. split; auto. intros x [].
  - destruct (bs ks k) as [i|] eqn:E.
    + apply bs_sound in E. apply remove_nth_perm in E.
      destruct (IH (remove_nth i ks)) as (r & P & I). exists (k :: r). split.
      * perm2 E P.
      * intros x [<-|Hx]; [left; auto | right; apply I; auto].
    + destruct (IH ks) as (r & P & I). exists r. split; auto. intros x Hx. right. apply I; auto.
Qed.

Section ExclusiveProof.
Context {K V : Type} {OK : Ord K} {EK : OrdEq K}.
Variable bs : BSearch K.
Variables L R : Block K V.
Variable InvL : St L -> Prop.
Variable InvR : St R -> Prop.
Variable ctL : St L -> list (K * V).
Variable ctR : St R -> list (K * V).
Variables dup pL pR eL eR : bool.
Hypothesis HL : Laws L InvL ctL dup pL eL.
Hypothesis HR : Laws R InvR ctR dup pR eR.

Definition ex_ct (s : exclusive L R) : list (K * V) := ctL (fst s) ++ ctR (snd s).
Definition ex_inv (s : exclusive L R) : Prop :=
  InvL (fst s) /\ InvR (snd s) /\ (dup = false -> NoDup (keys (ex_ct s))).

Lemma exclusive_laws : Laws (ExclusiveB bs L R) ex_inv ex_ct dup (pL && pR) (eL && eR).
Proof.
  constructor; unfold ex_inv, ex_ct.
  - intros [f b] (H1 & H2 & _). cbn in *. unfold ex_size, ex_capacity; cbn.
    pose proof (law_size HL f H1). pose proof (law_size HR b H2). lia.
  - intros [f b] (H1 & H2 & _) E. cbn in *. apply app_eq_nil in E. destruct E as [E1 E2].
    unfold ex_size; cbn. rewrite (law_empty HL f H1 E1), (law_empty HR b H2 E2). auto.
  - intros s (_ & _ & H); auto.
  - intros [f b] k (H1 & H2 & _). cbn in *. unfold ex_contains; cbn.
    rewrite (law_contains HL f k H1). cbn [bind]. rewrite has_key_app.
    destruct (has_key k (ctL f)); cbn; auto. apply (law_contains HR); auto.
  - intros [f b] k (H1 & H2 & Hu). cbn [fst snd] in *.
    destruct (law_take HL f k H1) as (f1 & o & T1 & T2 & T3 & T4 & T5).
    destruct o as [[k' v]|].
    + exists (f1, b), (Some (k', v)). cbn. unfold ex_take, ex_capacity, ex_size; cbn. rewrite T1. cbn [bind].
      destruct T5 as [-> P].
      assert (Q : Permutation ((k, v) :: ctL f1 ++ ctR b) (ctL f ++ ctR b)) by perm1 P.
      repeat split; auto; try lia. intros E. apply (nodup_keys_sub [(k, v)] _ Q); auto.
    + destruct (law_take HR b k H2) as (b1 & o & U1 & U2 & U3 & U4 & U5).
      exists (f1, b1), o. cbn. unfold ex_take, ex_capacity, ex_size; cbn. rewrite T1. cbn [bind]. rewrite U1. cbn [bind].
      destruct T5 as [Hn P]. destruct o as [[k' v]|].
      * destruct U5 as [-> P2].
        assert (Q : Permutation ((k, v) :: ctL f1 ++ ctR b1) (ctL f ++ ctR b)) by perm2 P P2.
        repeat split; auto; try lia. intros E. apply (nodup_keys_sub [(k, v)] _ Q); auto.
      * destruct U5 as [Hn2 P2].
        assert (Q : Permutation (ctL f1 ++ ctR b1) (ctL f ++ ctR b)) by perm2 P P2.
        repeat split; auto; try lia.
        -- intros E. eapply nodup_keys_perm; [symmetry; exact Q|auto].
        -- rewrite keys_app, in_app_iff. tauto.
  - intros [f b] ks (H1 & H2 & Hu). cbn [fst snd] in *. set (ks0 := sort_keys ks).
    assert (K0 : Permutation ks ks0) by (symmetry; apply stable_sort_perm).
    destruct (law_take_multiple HL f ks0 H1) as (f1 & ks1 & o1 & T1 & T2 & T3 & T4 & T5 & T6 & T7 & (r1 & T8 & T9)).
    destruct (remove_found_spec bs o1 ks1) as (r2 & F1 & F2). set (ks2 := remove_found bs ks1 o1) in *.
    destruct (law_take_multiple HR b ks2 H2) as (b1 & ks3 & o2 & U1 & U2 & U3 & U4 & U5 & U6 & U7 & (r3 & U8 & U9)).
    destruct (remove_found_spec bs o2 ks3) as (r4 & G1 & G2). set (ks4 := remove_found bs ks3 o2) in *.
    exists (f1, b1), ks4, (o1 ++ o2). cbn. unfold ex_take_multiple, ex_capacity, ex_size; cbn.
    fold ks0. rewrite T1. cbn [bind]. fold ks2. rewrite U1. cbn [bind]. fold ks4.
    assert (Q : Permutation ((o1 ++ o2) ++ ctL f1 ++ ctR b1) (ctL f ++ ctR b)) by perm2 T5 U5.
    assert (K2 : Permutation ks ((r1 ++ r2) ++ ks2)) by perm3 K0 T8 F1.
    repeat split; auto; try lia.
    + intros E. eapply nodup_keys_sub; [exact Q|auto].
    + rewrite keys_app. intros x Hx. apply in_app_or in Hx. rewrite K2.
      destruct Hx as [Hx|Hx].
      * apply T6 in Hx. rewrite <- K0, K2 in Hx. auto.
      * apply U6 in Hx. apply in_or_app; auto.
    + intros k Hk Hc. rewrite keys_app in *. apply in_app_or in Hc. apply in_or_app.
      destruct Hc as [Hc|Hc].
      * left. apply T7; auto. rewrite <- K0; auto.
      * rewrite K2 in Hk. apply in_app_or in Hk. destruct Hk as [Hk|Hk]; [|right; auto].
        left. apply in_app_or in Hk. destruct Hk; auto.
    + exists ((r1 ++ r2) ++ (r3 ++ r4)). split; [perm3 K2 U8 G1|].
      rewrite keys_app. repeat apply incl_app; [apply incl_appl|apply incl_appl|apply incl_appr|apply incl_appr]; auto.
  - intros [f b] vs (H1 & H2 & Hu) Hm. cbn [fst snd] in *. unfold may_push in Hm; cbn in Hm.
    destruct (law_push HL f vs H1) as (f1 & o1 & P1 & P2 & P3 & P4).
    { intros E. specialize (Hm E). eapply (nodup_keys_sub (ctR b)); [|exact Hm]. perm0. }
    destruct (law_push HR b o1 H2) as (b1 & o2 & Q1 & Q2 & Q3 & Q4).
    { intros E. specialize (Hm E). eapply (nodup_keys_sub (ctL f1)); [|exact Hm]. perm1 P4. }
    exists (f1, b1), o2. cbn. unfold ex_push, ex_capacity; cbn. rewrite P1. cbn [bind]. rewrite Q1. cbn [bind].
    assert (Q : Permutation (o2 ++ ctL f1 ++ ctR b1) ((ctL f ++ ctR b) ++ vs)) by perm2 P4 Q4.
    repeat split; auto; try lia. intros E. eapply nodup_keys_sub; [exact Q|auto].
  - intros Hp [f b] n (H1 & H2 & Hu). apply andb_prop in Hp. destruct Hp as [Hp1 Hp2]. cbn [fst snd] in *.
    destruct (law_pop HR Hp2 b n H2) as (b1 & o1 & P1 & P2 & P3 & P4 & P5 & P6).
    unfold pop_ok. cbn -[Nat.ltb]. unfold ex_pop, ex_capacity, ex_size; cbn -[Nat.ltb]. rewrite P1. cbn [bind].
    unfold sub_chk. replace (size R b1 <=? size R b) with true by (symmetry; apply Nat.leb_le; auto). cbn [bind].
    destruct (size R b - size R b1 <? n) eqn:E.
    + apply Nat.ltb_lt in E. destruct P5 as [P5|P5]; [lia|].
      destruct (law_pop HL Hp1 f (n - (size R b - size R b1)) H1) as (f1 & o2 & Q1 & Q2 & Q3 & Q4 & Q5 & Q6).
      rewrite Q1. cbn [bind]. exists (f1, b1), (o1 ++ o2). cbn.
      assert (Q : Permutation ((o1 ++ o2) ++ ctL f1 ++ ctR b1) (ctL f ++ ctR b)) by perm2 P4 Q4.
      pose proof (law_size HR b1 P2).
      split; [reflexivity|]. split; [repeat split; auto; intros E'; eapply nodup_keys_sub; [exact Q|auto]|].
      split; [lia|]. split; [exact Q|]. split; [|lia].
      * pose proof (law_empty HR b1 P2 P5). destruct Q5 as [Q5|Q5]; [left; lia|right]. rewrite P5, Q5; auto.
    + apply Nat.ltb_ge in E. exists (f, b1), o1. cbn.
      assert (Q : Permutation (o1 ++ ctL f ++ ctR b1) (ctL f ++ ctR b)) by perm1 P4.
      repeat split; auto; try lia. intros E'. eapply nodup_keys_sub; [exact Q|auto].
  - intros [f b] (H1 & H2 & Hu). cbn [fst snd] in *.
    destruct (law_flush HR b H2) as (b1 & o1 & P1 & P2 & P3 & P4 & P5).
    destruct (law_flush HL f H1) as (f1 & o2 & Q1 & Q2 & Q3 & Q4 & Q5).
    destruct (law_push HR b1 o2 P2) as (b2 & o3 & R1 & R2 & R3 & R4).
    { intros E. specialize (Hu E). eapply (nodup_keys_sub (o1 ++ ctL f1)); [|exact Hu]. perm2 P4 Q4. }
    destruct (law_flush HR b2 R2) as (b3 & o4 & S1 & S2 & S3 & S4 & S5).
    exists (f1, b3), (o1 ++ o3 ++ o4). cbn. unfold ex_flush, ex_capacity; cbn.
    rewrite P1. cbn [bind]. rewrite Q1. cbn [bind]. rewrite R1. cbn [bind]. rewrite S1. cbn [bind].
    assert (Q : Permutation ((o1 ++ o3 ++ o4) ++ ctL f1 ++ ctR b3) (ctL f ++ ctR b)) by perm4 P4 Q4 R4 S4.
    repeat split; auto; try lia.
    + intros E'. eapply nodup_keys_sub; [exact Q|auto].
    + intros E. apply andb_prop in E. destruct E as [E1 E2]. rewrite Q5, S5; auto.
Qed.
End ExclusiveProof.
