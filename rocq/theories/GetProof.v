(** GetProof.v -- get and get_mut keep the contents, container by container. *)
From Coq Require Import NArith.
From Verif Require Import Base PermSolve Block Spec LawsProof Cut CutProof Array ArrayProof BTree BTreeProof
  Batch BatchProof Exclusive ExclusiveProof Wrappers WrappersProof Associative AssociativeProof Arch Get.
Set Implicit Arguments.

Lemma rewritten_keys {K V} (c c' : list (K * V)) k v w rest :
  Permutation c ((k, v) :: rest) -> Permutation c' ((k, w) :: rest) -> Permutation (keys c') (keys c).
Proof. intros H1 H2. apply keys_perm in H1, H2. cbn in *. rewrite H1, H2. auto. Qed.

(** ** Array *)
Lemma update_first_find {T} (p : T -> bool) (g : T -> T) l :
  match find p l with
  | Some x => p x = true /\ exists l1 l2, l = l1 ++ x :: l2 /\ update_first p g l = l1 ++ g x :: l2
  | None => update_first p g l = l /\ forall x, In x l -> p x = false
  end.
Proof.
  induction l as [|y l IH]; cbn; [split; [auto|intros x []]|].
  destruct (p y) eqn:E.
  - split; auto. exists [], l. auto.
  - destruct (find p l) as [x|].
    + destruct IH as (Hp & l1 & l2 & -> & ->). split; auto. exists (y :: l1), l2. auto.
    + destruct IH as [-> H]. split; auto. intros x [<-|Hx]; auto.
Qed.

Lemma array_get_ok {K V} {OK : Ord K} {EK : OrdEq K} {OV : Ord V} (srt : Sorter (K * V) V snd) (bs : BSearch K)
  E dup s k (f : V -> V) : (forall k v, E (k, f v) = E (k, v)) ->
  inv_u (ArrayB srt bs) (a_inv_e E) (@a_vals K V) dup s ->
  get_ok (ArrayB srt bs) (inv_u (ArrayB srt bs) (a_inv_e E) (@a_vals K V) dup) (@a_vals K V) (fun s => a_get s) s k f.
Proof.
  intros Hf [[[Ht Hc] HE] Hu]. unfold get_ok, a_get.
  pose proof (update_first_find (fun p : K * V => eqb (fst p) k) (fun p => (fst p, f (snd p))) (a_vals s)) as H.
  destruct (find (fun p : K * V => eqb (fst p) k) (a_vals s)) as [[k' v]|] eqn:Ef.
  - destruct H as (He & l1 & l2 & H1 & H2). cbn in He. apply eqb_eq in He. subst k'.
    eexists _, _. split; [reflexivity|]. cbn [option_map snd]. rewrite H2. cbn [fst snd].
    assert (P1 : Permutation (a_vals s) ((k, v) :: l1 ++ l2)) by (rewrite H1; symmetry; apply Permutation_middle).
    assert (P2 : Permutation (l1 ++ (k, f v) :: l2) ((k, f v) :: l1 ++ l2)) by (symmetry; apply Permutation_middle).
    split; [|cbn; split; [auto|split; [auto|exists (l1 ++ l2); auto]]].
    split; [split; [split|]|]; cbn [a_total a_esz a_vals a_cap]; auto.
    + rewrite Ht, HE. rewrite (sum_sz_perm _ P1), (sum_sz_perm _ P2), !sum_sz_cons, Hf. auto.
    + intros E'. specialize (Hu E'). eapply Permutation_NoDup; [symmetry; exact (rewritten_keys P1 P2)|auto].
  - destruct H as [H1 H2]. eexists _, _. split; [reflexivity|]. cbn [option_map]. rewrite H1.
    split; [repeat split; auto|]. cbn. repeat split; auto.
    intros Hk. unfold keys in Hk. apply in_map_iff in Hk as (x & <- & Hx). specialize (H2 x Hx). cbn in H2.
    rewrite eqb_refl in H2. discriminate.
Qed.

(** ** BTree *)
Lemma btree_get_ok {K V} {OK : Ord K} {EK : OrdEq K} {OV : Ord V} E s k (f : V -> V) :
  (forall k v, E (k, f v) = E (k, v)) -> (forall kv, 0 < E kv) -> b_inv E s ->
  get_ok BTreeB (b_inv E) (@b_ct K V) (fun s => b_get s) s k f.
Proof.
  intros Hf Hp Hi. unfold get_ok, b_get.
  destruct (b_take_spec k Hi) as (s1 & o & H1 & H2 & H3 & H4 & H5). rewrite H1. cbn [bind].
  destruct o as [[k' v]|].
  2:{ destruct H5 as [Hn ->]. exists s, None. repeat split; auto; apply Hi. }
  destruct H5 as [-> P]. pose proof Hi as (_ & Hx & Ht & Hc). destruct H2 as (I1 & I2 & I3 & I4).
  rewrite <- (sum_sz_perm _ P), sum_sz_cons, <- I3 in Ht.
  destruct (@b_push_spec _ _ _ _ _ E s1 [(k, f v)]) as (s2 & out & Q1 & Q2 & Q3 & Q4 & _).
  { repeat split; auto; apply I2. }
  { repeat constructor. auto. }
  assert (Ho : out = []).
  { revert Q1. unfold b_push. rewrite I1.
    replace (sum_sz E [(k, f v)]) with (E (k, v)) by (rewrite sum_sz_cons, Hf; unfold sum_sz; cbn; lia).
    destruct (b_cap s1 <=? E (k, v)) eqn:L1.
    - apply Nat.leb_le in L1. replace (b_cap s1 <? E (k, v)) with false by (symmetry; apply Nat.ltb_ge; lia).
      assert (Z : b_ct s1 = []).
      { destruct (b_ct s1) as [|x l] eqn:Ex; auto. rewrite sum_sz_cons in I3. specialize (Hp x). lia. }
      destruct (b_flush_spec I1 I2) as (s3 & F1 & _). rewrite F1. cbn [bind]. rewrite Z. intros Hq; inversion Hq; auto.
    - apply Nat.leb_gt in L1.
      assert (Hb : b_inv E s1) by (repeat split; auto; apply I2).
      cbn [keys map fst]. unfold default_take_multiple. cbn [take_each].
      destruct (b_take_spec k Hb) as (s4 & o & T1 & T2 & T3 & T4 & T5). rewrite T1. cbn [bind].
      assert (Hn : ~ In k (keys (b_ct s1))).
      { intros Hk. assert (N : NoDup (keys (b_ct s))) by (unfold b_ct; rewrite keys_m2c; apply Hx).
        apply (Permutation_NoDup (keys_perm (Permutation_sym P))) in N. cbn in N. inversion N; auto. }
      destruct o as [[k' v']|].
      { destruct T5 as [-> P5]. exfalso. apply Hn. apply (in_keys_perm k P5). left; auto. }
      destruct T5 as [_ ->]. cbn [bind]. unfold sub_chk. rewrite (proj2 (Nat.leb_le _ _) I4). cbn [bind].
      replace (b_cap s1 - b_total s1 <? E (k, v)) with false by (symmetry; apply Nat.ltb_ge; lia).
      cbn [bind]. intros Hq. inversion Hq; auto. }
  rewrite Q1. cbn [bind]. subst out. exists s2, (Some v). cbn [app] in Q4.
  assert (P2 : Permutation (b_ct s2) ((k, f v) :: b_ct s1)) by (rewrite Q4; symmetry; apply Permutation_cons_append).
  split; [reflexivity|]. split; [exact Q2|]. split; [cbn; congruence|]. split.
  - destruct Q2 as (_ & _ & Q2 & _). cbn. rewrite Q2, (sum_sz_perm _ P2), sum_sz_cons, Hf, <- I3. auto.
  - exists (b_ct s1). split; [symmetry; exact P|exact P2].
Qed.

(** ** Containers of containers *)
Section Comp.
Context {K V : Type} {OK : Ord K} {EK : OrdEq K}.

Lemma sum_get_ok {I} (C : I -> Block K V) (Inv : forall i, St (C i) -> Prop) (ct : forall i, St (C i) -> list (K * V)) (g : forall i, Getter (C i)) s k f :
  get_ok (C (projT1 s)) (Inv (projT1 s)) (ct (projT1 s)) (g (projT1 s)) (projT2 s) k f ->
  get_ok (SumB C) (fun s => Inv (projT1 s) (projT2 s)) (fun s => ct (projT1 s) (projT2 s)) (sum_get g) s k f.
Proof.
  intros (s' & o & H1 & H2 & H3 & H4 & H5). unfold get_ok, sum_get. rewrite H1. cbn [bind].
  eexists _, _. split; [reflexivity|]. cbn [projT1 projT2 capacity size SumB]. auto.
Qed.

Variable C : Block K V.
Variable Inv : St C -> Prop.
Variable ct : St C -> list (K * V).
Variable dup : bool.
Variable g : Getter C.

Lemma bt_get_spec s k f : (forall c, In c s -> get_ok C Inv ct g c k f) -> Forall Inv s ->
  exists s' o, bt_get g s k f = Ok (s', o) /\ Forall Inv s' /\ bt_capacity C s' = bt_capacity C s /\
    bt_size C s' = bt_size C s /\
    match o with
    | Some v => exists rest, Permutation (bt_ct ct s) ((k, v) :: rest) /\ Permutation (bt_ct ct s') ((k, f v) :: rest)
    | None => ~ In k (keys (bt_ct ct s)) /\ Permutation (bt_ct ct s') (bt_ct ct s)
    end.
Proof.
  intros Hg Hs. induction s as [|c s IH]; cbn [bt_get].
  - exists [], None. repeat split; auto.
  - apply Forall_cons_iff in Hs as [Hc Hs].
    destruct (Hg c (or_introl eq_refl)) as (c1 & o & H1 & H2 & H3 & H4 & H5). rewrite H1. cbn [bind].
    destruct o as [v|].
    + exists (c1 :: s), (Some v). rewrite !bt_cap_cons, !bt_size_cons, !bt_ct_cons.
      destruct H5 as (rest & P1 & P2). repeat split; auto; try lia. exists (rest ++ bt_ct ct s). split.
      * perm1 P1.
      * perm1 P2.
    + destruct IH as (s1 & o & I1 & I2 & I3 & I4 & I5); auto. { intros; apply Hg; right; auto. }
      rewrite I1. cbn [bind]. exists (c1 :: s1), o. rewrite !bt_cap_cons, !bt_size_cons, !bt_ct_cons.
      destruct H5 as [Hn P]. repeat split; auto; try lia.
      destruct o as [v|].
      * destruct I5 as (rest & P1 & P2). exists (ct c ++ rest). split; [perm1 P1|perm2 P P2].
      * destruct I5 as [Hn2 P2]. split; [|perm2 P P2]. rewrite keys_app. intros Hk. apply in_app_or in Hk. tauto.
Qed.

Lemma batch_get_ok s k f : (forall c, In c s -> get_ok C Inv ct g c k f) -> bt_inv Inv ct dup s ->
  get_ok (BatchB C) (bt_inv Inv ct dup) (bt_ct ct) (bt_get g) s k f.
Proof.
  intros Hg [Hs Hu]. destruct (bt_get_spec Hg Hs) as (s' & o & H1 & H2 & H3 & H4 & H5).
  exists s', o. repeat split; auto. intros E. specialize (Hu E).
  destruct o as [v|].
  - destruct H5 as (rest & P1 & P2). eapply Permutation_NoDup; [symmetry; exact (rewritten_keys P1 P2)|auto].
  - destruct H5 as [_ P]. eapply Permutation_NoDup; [apply keys_perm; symmetry; exact P|auto].
Qed.

Lemma profiler_get_ok m s k f : get_ok C Inv ct g (snd s) k f ->
  get_ok (ProfilerB C) (fun s => Inv (snd s)) (fun s => ct (snd s)) (pf_get m g) s k f.
Proof.
  intros (s' & o & H1 & H2 & H3 & H4 & H5). unfold get_ok, pf_get. rewrite H1. cbn [bind].
  eexists _, _. split; [reflexivity|]. cbn [snd capacity size ProfilerB]. auto.
Qed.

Lemma associative_get_ok (hash : K -> N) s k f : (forall c, In c s -> get_ok C Inv ct g c k f) ->
  as_inv hash Inv ct dup s ->
  get_ok (AssociativeB hash C) (as_inv hash Inv ct dup) (as_ct ct) (as_get hash g) s k f.
Proof.
  intros Hg Hi. destruct (as_split k Hi) as (a & c & b & Es & El & Hc & Hk).
  assert (Hin : In c s) by (rewrite Es; apply in_or_app; right; left; auto).
  destruct (Hg c Hin) as (c1 & o & H1 & H2 & H3 & H4 & H5).
  destruct Hi as (J1 & J2 & J3 & J4).
  unfold get_ok, as_get. rewrite (as_set_ok hash s k J1). cbn [bind]. rewrite <- El.
  replace (nth_error s (length a)) with (Some c) by (rewrite Es; symmetry; apply nth_error_mid).
  cbn [unwrap bind]. rewrite H1. cbn [bind].
  replace (replace_nth (length a) c1 s) with (a ++ c1 :: b) by (rewrite Es; symmetry; apply replace_nth_mid).
  assert (Hkeys : incl (keys (ct c1)) (keys (ct c)) /\ Permutation (keys (ct c1)) (keys (ct c))).
  { destruct o as [v|].
    - destruct H5 as (rest & P1 & P2). pose proof (rewritten_keys P1 P2) as P. split; auto.
      intros x Hx. eapply Permutation_in; eauto.
    - destruct H5 as [_ P]. split; [|apply keys_perm; auto]. intros x Hx. eapply Permutation_in; [apply keys_perm|]; eauto. }
  exists (a ++ c1 :: b), o. split; [reflexivity|].
  split; [|split; [|split]].
  - split; [rewrite app_length; cbn; lia|]. split; [|split].
    + rewrite Es in J2. apply Forall_app in J2 as [J2 J2']. apply Forall_cons_iff in J2' as [_ J2'].
      apply Forall_app. split; auto.
    + replace (length (a ++ c1 :: b)) with (length s) by (rewrite Es, !app_length; reflexivity).
      rewrite Es in J3 at 2. eapply placed_mid; [|exact J3]. apply Hkeys.
    + intros E. specialize (J4 E). rewrite Es, as_ct_app, as_ct_cons in J4. rewrite as_ct_app, as_ct_cons.
      rewrite !keys_app in *. eapply Permutation_NoDup; [|exact J4].
      apply Permutation_app_head, Permutation_app_tail. symmetry; apply Hkeys.
  - cbn. rewrite Es, !as_cap_app, !as_cap_cons. lia.
  - cbn. rewrite Es, !as_size_app, !as_size_cons. lia.
  - rewrite Es, !as_ct_app, !as_ct_cons. destruct o as [v|].
    + destruct H5 as (rest & P1 & P2). exists (as_ct ct a ++ rest ++ as_ct ct b). split; [perm1 P1|perm1 P2].
    + destruct H5 as [Hn P]. split; [|perm1 P]. rewrite !keys_app. intros Hx. apply in_app_or in Hx. destruct Hx as [Hx|Hx]; [tauto|].
      apply in_app_or in Hx. tauto.
Qed.
End Comp.

Lemma decorator_get_ok {K V D} {OK : Ord K} {EK : OrdEq K} (F : Factory V D) (C : Block K D) Inv ct (g : Getter C) s k f :
  get_ok C Inv ct g (snd s) k (fun d => touched F (fst s) d f) ->
  get_ok (DecoratorB F C) (fun s => Inv (snd s)) (fun s => map (unwrap_kv F) (ct (snd s))) (dc_get F g) s k f.
Proof.
  intros (s' & o & H1 & H2 & H3 & H4 & H5). unfold get_ok, dc_get. rewrite H1. cbn [bind].
  eexists _, _. split; [reflexivity|]. cbn [snd capacity size DecoratorB]. split; [auto|]. split; [auto|]. split; [auto|].
  destruct o as [d|]; cbn [option_map].
  - destruct H5 as (rest & P1 & P2). exists (map (unwrap_kv F) rest). split.
    + apply (Permutation_map (unwrap_kv F)) in P1. exact P1.
    + apply (Permutation_map (unwrap_kv F)) in P2. cbn [map] in P2. unfold unwrap_kv at 2 in P2. cbn [fst snd] in P2.
      rewrite unwrap_touched in P2. exact P2.
  - destruct H5 as [Hn P]. split; [|apply Permutation_map; auto]. rewrite keys_unwrap. auto.
Qed.

(** ** Exclusive *)
Section ExGet.
Context {K V : Type} {OK : Ord K} {EK : OrdEq K}.
Variable bs : BSearch K.
Variables L R : Block K V.
Variable InvL : St L -> Prop.
Variable InvR : St R -> Prop.
Variable ctL : St L -> list (K * V).
Variable ctR : St R -> list (K * V).
Variables dup pL pR eL eR : bool.
Hypothesis HL : Laws L InvL ctL dup pL eL.
Hypothesis HR : Laws R InvR ctR dup pR eR.
Hypothesis UL : Unit L InvL ctL dup.
Hypothesis UR : Unit R InvR ctR dup.
Variable g : Getter L.

Lemma push_len (B : Block K V) Inv (ct : St B -> list (K * V)) p e s vs s' out :
  Laws B Inv ct dup p e -> Unit B Inv ct dup -> Inv s -> may_push B ct dup s vs ->
  push B s vs = Ok (s', out) -> Inv s' /\ capacity B s' = capacity B s /\ Permutation (out ++ ct s') (ct s ++ vs) /\
    length out + Nat.min (capacity B s) (length (ct s) + length vs) = length (ct s) + length vs.
Proof.
  intros Lw U Hi Hm E. destruct (law_push Lw s vs Hi Hm) as (s1 & o1 & H1 & H2 & H3 & H4).
  rewrite E in H1. injection H1 as <- <-. split; auto. split; auto. split; auto.
  pose proof (u_push U s vs s' out Hi Hm E) as Hs. rewrite (u_size U s Hi), (u_size U s' H2) in Hs.
  apply Permutation_length in H4. rewrite !app_length in H4. lia.
Qed.

Lemma ex_get_spec s k f : (forall l, InvL l -> 1 <= capacity L l) -> (forall l, InvL l -> get_ok L InvL ctL g l k f) ->
  ex_inv InvL InvR ctL ctR dup s ->
  exists s' o, ex_get g s k f = Ok (s', o) /\ ex_inv InvL InvR ctL ctR dup s' /\
    ex_capacity s' = ex_capacity s /\ ex_size s' = ex_size s /\
    match o with
    | Some v => (exists rest, Permutation (ex_ct ctL ctR s) ((k, v) :: rest) /\
                              Permutation (ex_ct ctL ctR s') ((k, f v) :: rest)) /\
                In (k, f v) (ctL (fst s'))
    | None => ~ In k (keys (ex_ct ctL ctR s)) /\ Permutation (ex_ct ctL ctR s') (ex_ct ctL ctR s)
    end.
Proof.
  intros Hcap Hg (I1 & I2 & Hu). destruct s as [l r]. unfold ex_ct in *. cbn [fst snd] in *.
  unfold ex_get. cbn [fst snd]. rewrite (law_contains HL l k I1). cbn [bind].
  destruct (has_key k (ctL l)) eqn:Hk.
  - apply has_key_in in Hk. destruct (Hg l I1) as (l1 & o & H1 & H2 & H3 & H4 & H5). rewrite H1. cbn [bind].
    destruct o as [v|]; [|tauto]. destruct H5 as (rest & P1 & P2).
    assert (Q1 : Permutation (ctL l ++ ctR r) ((k, v) :: rest ++ ctR r)) by perm1 P1.
    assert (Q2 : Permutation (ctL l1 ++ ctR r) ((k, f v) :: rest ++ ctR r)) by perm1 P2.
    exists (l1, r), (Some v). split; [reflexivity|]. unfold ex_capacity, ex_size, ex_inv, ex_ct; cbn [fst snd].
    repeat split; auto; try lia.
    + intros E. eapply Permutation_NoDup; [symmetry; exact (rewritten_keys Q1 Q2)|auto].
    + exists (rest ++ ctR r). auto.
    + eapply Permutation_in; [symmetry; exact P2|left; auto].
  - apply has_key_not_in in Hk. unfold ex_downgrade. cbn [fst snd].
    destruct (law_take HR r k I2) as (r1 & o & T1 & T2 & T3 & T4 & T5). rewrite T1. cbn [bind].
    destruct o as [[k' v]|].
    2:{ destruct T5 as [Hn P]. cbn [bind]. exists (l, r1), None. split; [reflexivity|].
        unfold ex_capacity, ex_size, ex_inv, ex_ct; cbn [fst snd].
        assert (Q : Permutation (ctL l ++ ctR r1) (ctL l ++ ctR r)) by (apply Permutation_app_head; auto).
        assert (Sz : size R r1 = size R r) by (rewrite (u_size UR r1 T2), (u_size UR r I2), (Permutation_length P); auto).
        repeat split; auto; try lia.
        - intros E. eapply nodup_keys_perm; [symmetry; exact Q|auto].
        - rewrite keys_app. intros Hx. apply in_app_or in Hx. tauto. }
    destruct T5 as [-> P].
    assert (Mp : may_push L ctL dup l [(k, v)]).
    { intros E. specialize (Hu E). rewrite keys_app in Hu. apply NoDup_app_inv in Hu as (N1 & _ & _).
      rewrite keys_app. apply NoDup_app_inv. split; [auto|]. split; [repeat constructor; auto|].
      intros x Hx [<-|[]]. auto. }
    destruct (law_push HL l [(k, v)] I1 Mp) as (l1 & popped & B1 & _).
    destruct (push_len HL UL I1 Mp B1) as (B2 & B3 & B4 & B5).
    pose proof (u_keep UL l k v l1 popped I1 Hk (Hcap l I1) B1) as B6.
    rewrite B1. cbn [bind].
    assert (Hin1 : In k (keys (ctL l1))).
    { assert (Hx : In k (keys (popped ++ ctL l1))).
      { eapply Permutation_in; [apply keys_perm; symmetry; exact B4|]. rewrite keys_app. apply in_or_app. right. left; auto. }
      rewrite keys_app in Hx. apply in_app_or in Hx. tauto. }
    assert (W : exists r2, match popped with
        | [] => Ok ((l1, r1), true)
        | _ => let* (b', popped') := push R r1 popped in match popped' with [] => Ok ((l1, b'), true) | _ => Panic end
        end = Ok ((l1, r2), true) /\ InvR r2 /\ capacity R r2 = capacity R r1 /\
        Permutation (ctR r2) (ctR r1 ++ popped)).
    { destruct popped as [|y ys] eqn:Ep.
      - exists r1. rewrite app_nil_r. auto.
      - rewrite <- Ep in *. clear Ep.
        assert (Mr : may_push R ctR dup r1 popped).
        { intros E. specialize (Hu E). apply (@nodup_keys_sub K V (ctL l1) (ctL l ++ ctR r)); auto. perm2 P B4. }
        destruct (law_push HR r1 popped T2 Mr) as (r2 & out & D1 & _).
        destruct (push_len HR UR T2 Mr D1) as (D2 & D3 & D4 & D5). rewrite D1. cbn [bind].
        assert (length out = 0).
        { pose proof (law_size HR r I2) as Z. rewrite (u_size UR r I2) in Z.
          apply Permutation_length in P. cbn in P. cbn [length] in B5. pose proof (Hcap l I1).
          pose proof (law_size HL l I1) as Z2. rewrite (u_size UL l I1) in Z2. lia. }
        destruct out; [|discriminate]. exists r2. cbn in D4. auto. }
    destruct W as (r2 & W1 & W2 & W3 & W4).
    match goal with |- context [bind ?e _] => replace e with (Ok ((l1, r2), true)) by (symmetry; exact W1) end.
    cbn [bind fst snd]. destruct (Hg l1 B2) as (l2 & o & G1 & G2 & G3 & G4 & G5). rewrite G1. cbn [bind].
    destruct o as [w|]; [|tauto]. destruct G5 as (rest & P1 & P2).
    assert (Q1 : Permutation (ctL l ++ ctR r) ((k, w) :: rest ++ ctR r2)) by perm4 P B4 W4 P1.
    assert (Q2 : Permutation (ctL l2 ++ ctR r2) ((k, f w) :: rest ++ ctR r2)) by perm1 P2.
    exists (l2, r2), (Some w). split; [reflexivity|]. unfold ex_capacity, ex_size, ex_inv, ex_ct; cbn [fst snd].
    assert (Sz : size L l2 + size R r2 = size L l + size R r).
    { rewrite (u_size UL l2 G2), (u_size UR r2 W2), (u_size UL l I1), (u_size UR r I2).
      apply Permutation_length in Q1, Q2. rewrite app_length in Q1, Q2. cbn in *. lia. }
    repeat split; auto; try lia.
    + intros E. eapply Permutation_NoDup; [symmetry; exact (rewritten_keys Q1 Q2)|auto].
    + exists (rest ++ ctR r2). auto.
    + eapply Permutation_in; [symmetry; exact P2|left; auto].
Qed.

(** Exclusive itself counts its elements. *)
Lemma exclusive_unit : Unit (ExclusiveB bs L R) (ex_inv InvL InvR ctL ctR dup) (ex_ct ctL ctR) dup.
Proof.
  constructor.
  - intros [l r] (I1 & I2 & _). cbn in *. unfold ex_size, ex_ct; cbn. rewrite app_length.
    rewrite (u_size UL l I1), (u_size UR r I2). auto.
  - intros [l r] vs s' out (I1 & I2 & Hu) Hm E. cbn in *. unfold ex_push in E. cbn [fst snd] in E.
    unfold ex_size, ex_capacity, ex_ct in *; cbn [fst snd] in *.
    assert (Mp : may_push L ctL dup l vs).
    { intros Ed. specialize (Hm Ed). cbn [fst snd] in Hm. apply (@nodup_keys_sub K V (ctR r) ((ctL l ++ ctR r) ++ vs)); auto. perm0. }
    destruct (law_push HL l vs I1 Mp) as (l1 & o & B1 & _).
    destruct (push_len HL UL I1 Mp B1) as (B2 & B3 & B4 & B5). rewrite B1 in E. cbn [bind] in E.
    assert (Mr : may_push R ctR dup r o).
    { intros Ed. specialize (Hm Ed). cbn [fst snd] in Hm. apply (@nodup_keys_sub K V (ctL l1) ((ctL l ++ ctR r) ++ vs)); auto. perm1 B4. }
    destruct (law_push HR r o I2 Mr) as (r1 & o2 & D1 & _).
    destruct (push_len HR UR I2 Mr D1) as (D2 & D3 & D4 & D5). rewrite D1 in E. cbn [bind] in E.
    inversion E; subst s' out. cbn [fst snd].
    rewrite (u_push UL l vs l1 o I1 Mp B1), (u_push UR r o r1 o2 I2 Mr D1).
    pose proof (law_size HL l I1). pose proof (law_size HR r I2).
    rewrite (u_size UL l I1), (u_size UR r I2) in *. lia.
  - intros [l r] k v s' out (I1 & I2 & Hu) Hk Hc E. cbn in *. unfold ex_push in E. cbn [fst snd] in E.
    unfold ex_ct, ex_capacity in *. cbn [fst snd] in *. rewrite keys_app in Hk.
    assert (Hkl : ~ In k (keys (ctL l))) by (intros H; apply Hk, in_or_app; auto).
    assert (Mp : may_push L ctL dup l [(k, v)]).
    { intros Ed. specialize (Hu Ed). rewrite keys_app in Hu. apply NoDup_app_inv in Hu as (N1 & _ & _).
      rewrite keys_app. apply NoDup_app_inv. split; [auto|]. split; [repeat constructor; auto|].
      intros x Hx [<-|[]]. auto. }
    destruct (law_push HL l [(k, v)] I1 Mp) as (l1 & o & B1 & _).
    destruct (push_len HL UL I1 Mp B1) as (B2 & B3 & B4 & B5).
    rewrite B1 in E. cbn [bind] in E.
    assert (Mr : may_push R ctR dup r o).
    { intros Ed. specialize (Hu Ed).
      apply (@nodup_keys_sub K V (ctL l1) ((ctL l ++ ctR r) ++ [(k, v)])); [perm1 B4|].
      rewrite keys_app. apply NoDup_app_inv. split; [auto|]. split; [repeat constructor; auto|].
      rewrite keys_app. intros x Hx [<-|[]]. auto. }
    destruct (law_push HR r o I2 Mr) as (r1 & o2 & D1 & _).
    destruct (push_len HR UR I2 Mr D1) as (D2 & D3 & D4 & D5). rewrite D1 in E. cbn [bind] in E. inversion E; subst.
    destruct (capacity L l) as [|c] eqn:Ec.
    { pose proof (law_size HL l I1) as Z. pose proof (law_size HL l1 B2) as Z1. rewrite B3, (u_size UL l1 B2) in Z1.
      rewrite (u_size UL l I1) in Z.
      destruct (ctL l); [|cbn in Z; lia]. destruct (ctL l1); [|cbn in Z1; lia].
      rewrite app_nil_r in B4. cbn in B4. apply Permutation_sym, Permutation_length_1_inv in B4. subst o.
      eapply (u_keep UR r k v r1 out); auto. }
    assert (Hko : ~ In k (keys o)) by (eapply (u_keep UL l k v l1 o); auto; lia).
    intros Hx. assert (Hy : In k (keys (ctR r ++ o))).
    { eapply Permutation_in; [apply keys_perm; exact D4|]. rewrite keys_app. apply in_or_app; auto. }
    rewrite keys_app in Hy. apply in_app_or in Hy. destruct Hy; [apply Hk, in_or_app; auto|auto].
Qed.
End ExGet.

(** ** Elements of size one *)
Lemma sum_sz_unit {T} (sz : T -> nat) l : (forall x, sz x = 1) -> sum_sz sz l = length l.
Proof. intros H. induction l; [reflexivity|]. rewrite sum_sz_cons, IHl, H. reflexivity. Qed.
Lemma find_cut_unit {T} (sz : T -> nat) n (vs : list T) i c e : (forall x, sz x = 1) -> 1 <= n <= length vs ->
  find_cut_at_size vs sz n = (i, c, e) -> c = n /\ i = length vs - n.
Proof.
  intros Hs Hn F. apply find_cut_spec in F as (Hc & _ & H1 & H2 & H3).
  assert (Hne : vs <> []) by (destruct vs; [cbn in Hn; lia|discriminate]).
  specialize (H2 Hne). specialize (H3 Hne).
  rewrite (sum_sz_unit _ _ Hs) in Hc. rewrite skipn_length in Hc.
  assert (H3' : length vs - S i = 0 \/ length vs - S i < n).
  { destruct H3 as [H3|H3]; [apply (f_equal (@length T)) in H3; rewrite skipn_length in H3; auto|].
    rewrite (sum_sz_unit _ _ Hs), skipn_length in H3. auto. }
  lia.
Qed.

Lemma array_unit {K V} {OK : Ord K} {EK : OrdEq K} {OV : Ord V} (srt : Sorter (K * V) V snd) (bs : BSearch K) E dup :
  (forall x, E x = 1) ->
  Unit (ArrayB srt bs) (inv_u (ArrayB srt bs) (a_inv_e E) (@a_vals K V) dup) (@a_vals K V) dup.
Proof.
  intros H1. constructor.
  - intros s [[[Ht _] HE] _]. cbn. unfold a_size. rewrite Ht, HE, sum_sz_unit; auto.
  - intros s vs s' out [[[Ht Hc] HE] _] _ Ep. cbn in *. unfold a_size, a_capacity in *. revert Ep. unfold a_push.
    rewrite HE in *. rewrite (sum_sz_unit E vs H1). rewrite (sum_sz_unit E _ H1) in Ht.
    unfold sub_chk. rewrite (proj2 (Nat.leb_le _ _) Hc). cbn [bind].
    destruct (length vs <=? a_cap s - a_total s) eqn:L1; [apply Nat.leb_le in L1; intros X; inversion X; subst; cbn [a_total]; lia|].
    apply Nat.leb_gt in L1.
    destruct (length vs =? a_cap s) eqn:L2; [apply Nat.eqb_eq in L2; intros X; inversion X; subst; cbn [a_total]; lia|].
    apply Nat.eqb_neq in L2.
    destruct (a_cap s <? length vs) eqn:L3.
    + apply Nat.ltb_lt in L3. destruct (find_cut_at_size _ E _) as [[i c] e] eqn:F.
      assert (Hlen : length (stable_sort (@snd K V) vs) = length vs) by (apply Permutation_length, stable_sort_perm).
      apply find_cut_unit in F as [-> ->]; auto; [|lia].
      rewrite (proj2 (Nat.leb_le (length vs - a_cap s) (length vs)) ltac:(lia)). cbn [bind]. intros X; inversion X; subst; cbn [a_total]. lia.
    + apply Nat.ltb_ge in L3. unfold a_pop. set (n := length vs - (a_cap s - a_total s)).
      destruct (a_vals s) as [|x l] eqn:Ev; [cbn in Ht; lia|]. rewrite <- Ev in *.
      destruct (a_total s <=? n) eqn:L4.
      * apply Nat.leb_le in L4. cbn [bind a_total a_cap a_vals a_esz]. intros X; inversion X; subst; cbn [a_total]. lia.
      * apply Nat.leb_gt in L4. rewrite HE. destruct (find_cut_at_size _ E _) as [[i c] e] eqn:F.
        assert (Hlen : length (srt (a_vals s)) = length (a_vals s)) by (apply Permutation_length, sort_perm).
        apply find_cut_unit in F as [-> ->]; auto; [|lia].
        unfold sub_chk. rewrite (proj2 (Nat.leb_le n (a_total s)) ltac:(lia)). cbn [bind a_total a_cap a_vals a_esz].
        intros X; inversion X; subst; cbn [a_total]. lia.
  - intros s k v s' out [[[Ht Hc] HE] _] Hk Hcap Ep. cbn in *. unfold a_capacity in *. revert Ep. unfold a_push.
    rewrite HE in *. rewrite (sum_sz_unit E [(k, v)] H1). cbn [length]. rewrite (sum_sz_unit E _ H1) in Ht.
    unfold sub_chk. rewrite (proj2 (Nat.leb_le _ _) Hc). cbn [bind].
    destruct (1 <=? a_cap s - a_total s) eqn:L1; [intros X; inversion X; subst; auto|].
    destruct (1 =? a_cap s) eqn:L2; [intros X; inversion X; subst; auto|].
    apply Nat.eqb_neq in L2.
    replace (a_cap s <? 1) with false by (symmetry; apply Nat.ltb_ge; lia).
    destruct (a_pop_spec srt (1 - (a_cap s - a_total s)) (conj (eq_trans Ht (eq_sym (eq_trans (f_equal (fun e => sum_sz e (a_vals s)) HE) (sum_sz_unit E _ H1)))) Hc))
      as (s1 & o & P1 & _ & _ & _ & P2 & _).
    rewrite P1. cbn [bind]. intros X; inversion X; subst. intros Hx. apply Hk.
    eapply Permutation_in; [apply keys_perm; exact P2|]. rewrite keys_app. apply in_or_app; auto.
Qed.

Lemma btree_unit {K V} {OK : Ord K} {EK : OrdEq K} {OV : Ord V} E : (forall x, E x = 1) ->
  Unit BTreeB (b_inv E) (@b_ct K V) false.
Proof.
  intros H1. constructor.
  - intros s (_ & _ & Ht & _). cbn. rewrite Ht, sum_sz_unit; auto.
  - intros s vs s' out Hi Hm Ep. cbn in *. specialize (Hm eq_refl).
    assert (Hnv : NoDup (keys vs)) by (rewrite keys_app in Hm; apply NoDup_app_inv in Hm; tauto).
    pose proof Hi as (HE & Hx & Ht & Hc). rewrite (sum_sz_unit E _ H1) in Ht.
    revert Ep. unfold b_push. rewrite HE, (sum_sz_unit E vs H1).
    destruct (b_cap s <=? length vs) eqn:L1.
    + apply Nat.leb_le in L1. destruct (b_flush_spec HE Hx) as (s1 & F1 & (F2 & F3 & F4 & F5) & F6 & F7 & F8).
      rewrite F1. cbn [bind].
      destruct (@b_insert_spec _ _ _ _ _ vs s1) as (I1 & I2 & I3 & I4 & I5); auto. { rewrite F7. auto. }
      rewrite F7 in I2. cbn in I2.
      destruct (b_cap s <? length vs) eqn:L2.
      * apply Nat.ltb_lt in L2.
        set (s2 := with_total (b_insert s1 vs) (length vs)).
        assert (J2 : Permutation (b_ct s2) vs) by exact I2.
        assert (J3 : b_total s2 = sum_sz E (b_ct s2)) by (rewrite (sum_sz_perm _ J2), sum_sz_unit; auto).
        destruct (@b_pop_spec _ _ _ _ _ E s2 (length vs - b_cap s)) as (s3 & o & P1 & P2 & P3 & P4 & P5 & P6 & P7 & P8 & P9 & P10); auto.
        { cbn. congruence. }
        rewrite P1. cbn [bind]. intros X; inversion X; subst s3 out.
        rewrite P4, (sum_sz_unit E _ H1). change (b_total s2) with (length vs) in *.
        destruct (Nat.eq_dec (b_cap s) 0) as [Z|Z].
        { rewrite P9 by lia. cbn. lia. }
        destruct P10 as (x & b & Q1 & Q2 & Q3 & Q4); [lia|].
        apply Permutation_length in P6. rewrite app_length, (Permutation_length J2), Q2, map_length in P6. cbn [length] in P6.
        assert (b = [] \/ length b < length vs - b_cap s).
        { destruct Q3 as [->|Q3]; auto. rewrite (sum_sz_unit E _ H1), map_length in Q3. auto. }
        assert (length vs - b_cap s <= S (length b) \/ length (b_ct s') = 0).
        { destruct Q4 as [Q4|Q4]; [left; rewrite (sum_sz_unit E _ H1), map_length in Q4; cbn in Q4; auto|].
          right. rewrite <- (Permutation_length (b_ct_set P3)), Q4. auto. }
        destruct H as [->|H]; cbn in *; lia.
      * apply Nat.ltb_ge in L2. intros X; inversion X; subst. cbn. lia.
    + apply Nat.leb_gt in L1.
      destruct (@default_tm_ok _ _ _ _ BTreeB (b_inv E) b_ct (@b_take_ok _ _ _ _ _ E) s (keys vs) Hi)
        as (s1 & out1 & T1 & T2 & T3 & T4 & T5 & T6 & T7 & T8).
      cbn [take BTreeB capacity size St] in *.
      assert (T1' : @default_take_multiple K V (btree K V) b_take s (keys vs) = Ok (s1, keys vs, out1)) by exact T1.
      rewrite T1'. cbn [bind].
      assert (Z : out1 = []).
      { destruct out1 as [|[k v] o]; auto. exfalso. rewrite keys_app in Hm. apply NoDup_app_inv in Hm as (_ & _ & Hm).
        apply (Hm k); [|apply T6; left; auto]. eapply Permutation_in; [apply keys_perm; exact T5|]. left; auto. }
      subst out1. cbn in T5. destruct T2 as (U1 & U2 & U3 & U4). rewrite (sum_sz_perm _ T5), (sum_sz_unit E _ H1) in U3.
      unfold sub_chk. rewrite (proj2 (Nat.leb_le _ _) U4). cbn [bind].
      destruct (b_cap s1 - b_total s1 <? length vs) eqn:L3.
      * apply Nat.ltb_lt in L3. set (n := length vs - (b_cap s1 - b_total s1)) in *.
        destruct (@b_pop_spec _ _ _ _ _ E s1 n U1 U2) as (s3 & o & P1 & P2 & P3 & P4 & P5 & P6 & P7 & P8 & P9 & P10).
        { rewrite U3, (sum_sz_unit E _ H1), (Permutation_length T5). auto. }
        rewrite P1. cbn [bind]. intros X; inversion X; subst s' out. cbn.
        destruct (@b_insert_spec _ _ _ _ _ vs s3 P3) as (_ & _ & I3 & I4 & I5).
        { apply (@nodup_keys_sub K V o (b_ct s ++ vs)); [perm2 P6 T5|auto]. }
        rewrite (sum_sz_unit E _ H1) in P4.
        destruct (Nat.le_gt_cases (b_total s1) n) as [Hle|Hgt].
        { rewrite P9 in P4 by auto. cbn in P4. lia. }
        destruct P10 as (x & b & Q1 & Q2 & Q3 & Q4); [lia|].
        apply Permutation_length in P6. rewrite app_length, (Permutation_length T5), Q2, map_length in P6. cbn [length] in P6.
        assert (b = [] \/ length b < n).
        { destruct Q3 as [->|Q3]; auto. rewrite (sum_sz_unit E _ H1), map_length in Q3. auto. }
        assert (n <= S (length b) \/ length (b_ct s3) = 0).
        { destruct Q4 as [Q4|Q4]; [left; rewrite (sum_sz_unit E _ H1), map_length in Q4; cbn in Q4; auto|].
          right. rewrite <- (Permutation_length (b_ct_set P3)), Q4. auto. }
        destruct H as [->|H]; cbn in *; lia.
      * apply Nat.ltb_ge in L3. cbn [bind]. intros X; inversion X; subst. cbn.
        destruct (@b_insert_spec _ _ _ _ _ vs s1 U2) as (_ & _ & I3 & I4 & I5).
        { eapply Permutation_NoDup; [apply keys_perm, Permutation_app_tail; symmetry; exact T5|auto]. }
        lia.
  - intros s k v s' out Hi Hk Hc Ep. cbn in *.
    destruct (@b_push_spec _ _ _ _ _ E s [(k, v)] Hi) as (s1 & o & P1 & P2 & P3 & P4 & P5).
    { repeat constructor. auto. }
    rewrite Ep in P1. injection P1 as <- <-. rewrite (sum_sz_unit E _ H1) in P5. cbn in P5.
    assert (Hin : In (k, v) (b_ct s')).
    { destruct (Nat.eq_dec (b_cap s) 1) as [Ec|Ec]; [|apply P5; [lia|left; auto]].
      revert Ep. unfold b_push. destruct Hi as (HE & Hx & Ht & Hcp). rewrite HE, (sum_sz_unit E _ H1), Ec. cbn [length].
      change (1 <=? 1) with true. change (1 <? 1) with false. cbv iota.
      destruct (b_flush_spec HE Hx) as (s2 & F1 & (F2 & F3 & F4 & F5) & F6 & F7 & F8). rewrite F1. cbn [bind].
      intros X; injection X as <- <-.
      destruct (@b_insert_spec _ _ _ _ _ [(k, v)] s2) as (I1 & I2 & _); auto.
      { rewrite F7. repeat constructor; auto. }
      rewrite F7 in I2. eapply Permutation_in; [symmetry; exact I2|left; auto]. }
    intros Hx. assert (N : NoDup (keys (b_ct s ++ [(k, v)]))).
    { rewrite keys_app. apply NoDup_app_inv. split; [unfold b_ct; rewrite keys_m2c; apply Hi|].
      split; [repeat constructor; auto|]. intros y Hy [<-|[]]; auto. }
    apply (Permutation_NoDup (keys_perm (Permutation_sym P4))) in N. rewrite keys_app in N.
    apply NoDup_app_inv in N as (_ & _ & N). eapply N; eauto. eapply in_keys; eauto.
Qed.

Section CompUnit.
Context {K V : Type} {OK : Ord K} {EK : OrdEq K}.

Lemma sum_unit {I} (C : I -> Block K V) (Inv : forall i, St (C i) -> Prop) (ct : forall i, St (C i) -> list (K * V)) dup :
  (forall i, Unit (C i) (Inv i) (ct i) dup) ->
  Unit (SumB C) (fun s => Inv (projT1 s) (projT2 s)) (fun s => ct (projT1 s) (projT2 s)) dup.
Proof.
  intros H. constructor.
  - intros [i s] Hi. apply (u_size (H i)); auto.
  - intros [i s] vs s' out Hi Hm E. cbn in *.
    destruct (push (C i) s vs) as [[s1 o]|] eqn:E1; cbn in E; [|discriminate]. inversion E; subst. cbn.
    eapply (u_push (H i)); eauto.
  - intros [i s] k v s' out Hi Hk Hc E. cbn in *.
    destruct (push (C i) s _) as [[s1 o]|] eqn:E1; cbn in E; [|discriminate]. inversion E; subst. cbn.
    eapply (u_keep (H i)); eauto.
Qed.
Lemma unit_false (B : Block K V) ct dup : Unit B (fun _ => False) ct dup.
Proof. constructor; intros; contradiction. Qed.

Variable C : Block K V.
Variable Inv : St C -> Prop.
Variable ct : St C -> list (K * V).
Variables dup pops empties : bool.
Hypothesis L : Laws C Inv ct dup pops empties.
Hypothesis U : Unit C Inv ct dup.

Lemma unit_and (P : St C -> Prop) : Unit C (fun s => Inv s /\ P s) ct dup.
Proof.
  constructor.
  - intros s [H _]. apply (u_size U); auto.
  - intros s vs s' out [H _]. apply (u_push U); auto.
  - intros s k v s' out [H _]. apply (u_keep U); auto.
Qed.

Lemma profiler_unit : Unit (ProfilerB C) (fun s => Inv (snd s)) (fun s => ct (snd s)) dup.
Proof.
  constructor.
  - intros [t s] H. apply (u_size U); auto.
  - intros [t s] vs s' out H Hm E. cbn in *. unfold pf_push in E. cbn in E.
    destruct (push C s vs) as [[s1 o]|] eqn:E1; cbn in E; [|discriminate]. inversion E; subst. cbn. eapply (u_push U); eauto.
  - intros [t s] k v s' out H Hk Hc E. cbn in *. unfold pf_push in E. cbn in E.
    destruct (push C s _) as [[s1 o]|] eqn:E1; cbn in E; [|discriminate]. inversion E; subst. cbn. eapply (u_keep U); eauto.
Qed.

Lemma bt_unit_push : forall s vs v r out, Forall Inv s -> (dup = false -> NoDup (keys (bt_ct ct s ++ vs))) ->
  bt_push_loop C s vs = Ok (v, r, out) ->
  bt_size C v + bt_size C r = Nat.min (bt_capacity C s) (bt_size C s + length vs).
Proof.
  induction s as [|c s IH]; intros vs v r out Hs Hm E.
  - destruct vs; cbn in E; inversion E; subst; cbn; lia.
  - destruct vs as [|x vs0] eqn:Ev.
    + cbn in E. inversion E; subst. cbn [length]. rewrite Nat.add_0_r. cbn [bt_size map list_sum fold_right].
      rewrite Nat.min_r; [reflexivity|]. apply (bt_size_le L Hs).
    + rewrite <- Ev in *. assert (E' : (let* (c1, values1) := push C c vs in
        let* (visited, rest, o) := bt_push_loop C s values1 in Ok (c1 :: visited, rest, o)) = Ok (v, r, out)) by (rewrite Ev in *; exact E).
      clear E Ev. apply Forall_cons_iff in Hs as [Hc Hs].
      assert (M : may_push C ct dup c vs).
      { intros Ed. apply (@nodup_keys_sub K V (bt_ct ct s) (bt_ct ct (c :: s) ++ vs)); auto. rewrite bt_ct_cons. perm0. }
      destruct (law_push L c vs Hc M) as (c1 & o & P1 & _).
      destruct (push_len L U Hc M P1) as (P2 & P3 & P4 & P5). rewrite P1 in E'. cbn [bind] in E'.
      destruct (bt_push_loop C s o) as [[[v1 r1] o1]|] eqn:E1; cbn [bind] in E'; [|discriminate]. inversion E'; subst v r out.
      assert (M1 : dup = false -> NoDup (keys (bt_ct ct s ++ o))).
      { intros Ed. apply (@nodup_keys_sub K V (ct c1) (bt_ct ct (c :: s) ++ vs)); auto. rewrite bt_ct_cons. perm1 P4. }
      specialize (IH o v1 r1 o1 Hs M1 E1). rewrite !bt_size_cons, bt_cap_cons.
      rewrite (u_push U c vs c1 o Hc M P1), (u_size U c Hc).
      pose proof (law_size L c Hc) as Z. rewrite (u_size U c Hc) in Z. pose proof (bt_size_le L Hs). lia.
Qed.

Lemma bt_unit_keep : forall s k w v r out, Forall Inv s -> (dup = false -> NoDup (keys (bt_ct ct s))) ->
  ~ In k (keys (bt_ct ct s)) -> 1 <= bt_capacity C s ->
  bt_push_loop C s [(k, w)] = Ok (v, r, out) -> ~ In k (keys out).
Proof.
  induction s as [|c s IH]; intros k w v r out Hs Hm Hk Hc E.
  - cbn in Hc. lia.
  - cbn [bt_push_loop] in E. apply Forall_cons_iff in Hs as [Hi Hs]. rewrite bt_ct_cons, keys_app in *.
    rewrite bt_cap_cons in Hc.
    assert (Hkc : ~ In k (keys (ct c))) by (intros H; apply Hk, in_or_app; auto).
    assert (Hks : ~ In k (keys (bt_ct ct s))) by (intros H; apply Hk, in_or_app; auto).
    assert (M : may_push C ct dup c [(k, w)]).
    { intros Ed. specialize (Hm Ed). apply NoDup_app_inv in Hm as (N1 & _ & _). rewrite keys_app.
      apply NoDup_app_inv. split; [auto|]. split; [repeat constructor; auto|]. intros x Hx [<-|[]]; auto. }
    destruct (law_push L c _ Hi M) as (c1 & o & P1 & _).
    destruct (push_len L U Hi M P1) as (P2 & P3 & P4 & P5). rewrite P1 in E. cbn [bind] in E.
    destruct (bt_push_loop C s o) as [[[v1 r1] o1]|] eqn:E1; cbn [bind] in E; [|discriminate]. inversion E; subst v r out.
    destruct (capacity C c) as [|n] eqn:Ec.
    + pose proof (law_size L c Hi) as Z. pose proof (law_size L c1 P2) as Z1. rewrite P3, (u_size U c1 P2) in Z1.
      rewrite (u_size U c Hi) in Z. destruct (ct c); [|cbn in Z; lia]. destruct (ct c1); [|cbn in Z1; lia].
      rewrite app_nil_r in P4. cbn in P4. apply Permutation_sym, Permutation_length_1_inv in P4. subst o.
      eapply IH; [exact Hs| |exact Hks|cbn in Hc; exact Hc|exact E1]. intros Ed. specialize (Hm Ed). apply NoDup_app_inv in Hm. tauto.
    + assert (Hko : ~ In k (keys o)) by (eapply (u_keep U c k w c1 o); auto; lia).
      destruct (@bt_push_loop_spec _ _ _ C Inv ct dup pops empties L s o Hs) as (v2 & r2 & o2 & S1 & S2 & S3 & S4).
      { intros Ed. specialize (Hm Ed). apply (@nodup_keys_sub K V (ct c1) (ct c ++ bt_ct ct s ++ [(k, w)])); [perm1 P4|].
        rewrite app_assoc, keys_app, keys_app. apply NoDup_app_inv. split; [auto|]. split; [repeat constructor; auto|].
        intros x Hx [<-|[]]; auto. }
      rewrite E1 in S1. injection S1 as <- <- <-. intros Hx.
      assert (Hy : In k (keys (bt_ct ct s ++ o))).
      { eapply Permutation_in; [apply keys_perm; exact S4|]. rewrite keys_app. apply in_or_app; auto. }
      rewrite keys_app in Hy. apply in_app_or in Hy. tauto.
Qed.

Lemma batch_unit : Unit (BatchB C) (bt_inv Inv ct dup) (bt_ct ct) dup.
Proof.
  constructor.
  - intros s [H _]. cbn. unfold bt_size, bt_ct. clear - H U. induction H as [|c s Hc Hs IH]; [reflexivity|].
    cbn [map flat_map]. rewrite app_length, (u_size U c Hc), <- IH. reflexivity.
  - intros s vs s' out [H _] Hm E. cbn in *. unfold bt_push in E.
    destruct (bt_push_loop C s vs) as [[[v r] o]|] eqn:E1; cbn in E; [|discriminate]. inversion E; subst.
    rewrite <- (bt_unit_push _ H Hm E1). unfold bt_size. rewrite map_app, list_sum_app. lia.
  - intros s k v s' out [H Hu] Hk Hc E. cbn in *. unfold bt_push in E.
    destruct (bt_push_loop C s _) as [[[v1 r] o]|] eqn:E1; cbn in E; [|discriminate]. inversion E; subst.
    eapply bt_unit_keep; eauto.
Qed.
End CompUnit.

Lemma decorator_unit {K V D} {OK : Ord K} {EK : OrdEq K} (F : Factory V D) (C : Block K D) Inv ct dup :
  Unit C Inv ct dup ->
  Unit (DecoratorB F C) (fun s => Inv (snd s)) (fun s => map (unwrap_kv F) (ct (snd s))) dup.
Proof.
  intros U. constructor.
  - intros [t s] H. cbn. rewrite map_length. apply (u_size U); auto.
  - intros [t s] vs s' out H Hm E. cbn [push DecoratorB capacity size fst snd] in *.
    destruct (wrap_all F t vs) as [t' ds] eqn:Ew.
    destruct (push C s ds) as [[s1 o]|] eqn:E1; cbn in E; [|discriminate]. inversion E; subst. cbn.
    assert (Ev : vs = map (unwrap_kv F) ds) by (rewrite <- (unwrap_wrap_all F vs t), Ew; auto).
    replace (length vs) with (length ds) by (rewrite Ev, map_length; auto).
    eapply (u_push U); eauto. intros Ed. specialize (Hm Ed). cbn [snd] in Hm. rewrite Ev, <- map_app, keys_unwrap in Hm. auto.
  - intros [t s] k v s' out H Hk Hc E. cbn in *. destruct (wrap F t v) as [t' d].
    destruct (push C s _) as [[s1 o]|] eqn:E1; cbn in E; [|discriminate]. inversion E; subst. cbn.
    rewrite keys_unwrap in *. eapply (u_keep U); eauto.
Qed.
