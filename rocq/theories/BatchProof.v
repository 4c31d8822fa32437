(** BatchProof.v -- a Batch of lawful containers is a lawful container. *)
From Verif Require Import Base PermSolve Block Spec LawsProof Batch.
Set Implicit Arguments.

Section BatchProof.
Context {K V : Type} {OK : Ord K} {EK : OrdEq K}.
Variable C : Block K V.
Variable Inv : St C -> Prop.
Variable ct : St C -> list (K * V).
Variables dup pops empties : bool.
Hypothesis L : Laws C Inv ct dup pops empties.

Definition bt_ct (s : batch C) : list (K * V) := flat_map ct s.
Definition bt_inv (s : batch C) : Prop :=
  Forall Inv s /\ (dup = false -> NoDup (keys (bt_ct s))).

Lemma bt_ct_cons c s : bt_ct (c :: s) = ct c ++ bt_ct s. Proof. reflexivity. Qed.
Lemma bt_size_cons c s : bt_size C (c :: s) = size C c + bt_size C s. Proof. reflexivity. Qed.
Lemma bt_cap_cons c s : bt_capacity C (c :: s) = capacity C c + bt_capacity C s. Proof. reflexivity. Qed.
Lemma bt_ct_app s t : bt_ct (s ++ t) = bt_ct s ++ bt_ct t. Proof. apply flat_map_app. Qed.
Lemma bt_cap_app s t : bt_capacity C (s ++ t) = bt_capacity C s + bt_capacity C t.
Proof. unfold bt_capacity. rewrite map_app, list_sum_app. auto. Qed.
Ltac bt := rewrite ?bt_ct_app, ?bt_cap_app, ?bt_ct_cons, ?bt_size_cons, ?bt_cap_cons in *.

Lemma flat_map_nil_iff (s : batch C) : bt_ct s = [] <-> Forall (fun c => ct c = []) s.
Proof.
  unfold bt_ct in *. induction s as [|c s IH]; cbn; [split; auto|].
  rewrite Forall_cons_iff, <- IH. split.
  - intros H; apply app_eq_nil in H; auto.
  - intros [-> ->]; auto.
Qed.

Lemma bt_size_le s : Forall Inv s -> bt_size C s <= bt_capacity C s.
Proof.
  unfold bt_size, bt_capacity.
  induction 1 as [|c s Hc Hs IH]; simpl; auto. pose proof (law_size L c Hc). unfold list_sum in *. lia.
Qed.
Lemma bt_size_empty s : Forall Inv s -> bt_ct s = [] -> bt_size C s = 0.
Proof.
  intros Hs He. apply flat_map_nil_iff in He. induction Hs as [|c s Hc Hs IH]; cbn; auto.
  inversion He; subst. rewrite (law_empty L c Hc) by auto. apply IH; auto.
Qed.
Lemma bt_contains_ok s k : Forall Inv s -> bt_contains C s k = Ok (has_key k (bt_ct s)).
Proof.
  induction 1 as [|c s Hc Hs IH]; auto. cbn [bt_contains]. bt.
  rewrite (law_contains L c k Hc). cbn [bind]. rewrite has_key_app.
  destruct (has_key k (ct c)); cbn; auto.
Qed.
Lemma bt_take_spec s k : Forall Inv s ->
  exists s' o, bt_take C s k = Ok (s', o) /\ Forall Inv s' /\ bt_capacity C s' = bt_capacity C s /\
    bt_size C s' <= bt_size C s /\
    match o with
    | Some (k', v) => k' = k /\ Permutation ((k, v) :: bt_ct s') (bt_ct s)
    | None => ~ In k (keys (bt_ct s)) /\ Permutation (bt_ct s') (bt_ct s)
    end.
Proof.
  induction 1 as [|c s Hc Hs IH].
  - exists [], None. cbn. repeat split; auto.
  - destruct (law_take L c k Hc) as (c1 & o & T1 & T2 & T3 & T4 & T5).
    cbn [bt_take]. rewrite T1. cbn [bind]. destruct o as [[k' v]|].
    + exists (c1 :: s), (Some (k', v)). destruct T5 as [-> P]. bt.
      repeat split; auto; try lia. perm1 P.
    + destruct IH as (s1 & o & I1 & I2 & I3 & I4 & I5). rewrite I1. cbn [bind].
      exists (c1 :: s1), o. destruct T5 as [Hn P].
      split; [reflexivity|]. split; [auto|].
      bt. split; [lia|]. split; [lia|].
      destruct o as [[k' v]|].
      * destruct I5 as [-> P2]. split; auto. perm2 P P2.
      * destruct I5 as [Hn2 P2]. split; [|perm2 P P2]. rewrite keys_app, in_app_iff. tauto.
Qed.

Lemma bt_tm_spec : forall s ks, Forall Inv s ->
  exists s' ks' out, bt_take_multiple C s ks = Ok (s', ks', out) /\ Forall Inv s' /\
    bt_capacity C s' = bt_capacity C s /\ bt_size C s' <= bt_size C s /\
    Permutation (out ++ bt_ct s') (bt_ct s) /\ incl (keys out) ks /\
    (forall k, In k ks -> In k (keys (bt_ct s)) -> In k (keys out)) /\
    (exists removed, Permutation ks (removed ++ ks') /\ incl removed (keys out)).
Proof.
  induction s as [|c s IH]; intros ks Hs.
  - exists [], ks, []. cbn. repeat split; auto; try (intros x []); try contradiction.
    exists []. split; auto. intros x [].
  - apply Forall_cons_iff in Hs as [Hc Hs']. destruct ks as [|k0 ks0] eqn:Ek.
    + exists (c :: s), [], []. cbn. repeat split; auto; try (intros x []); try contradiction.
      exists []. split; auto. intros x [].
    + rewrite <- Ek in *. replace (bt_take_multiple C (c :: s) ks) with
        (let* (c1, ks1, o1) := take_multiple C c ks in
         let* (s2, ks2, o2) := bt_take_multiple C s ks1 in Ok (c1 :: s2, ks2, o1 ++ o2)) by (subst ks; auto).
      clear k0 ks0 Ek.
      destruct (law_take_multiple L c ks Hc) as (c1 & ks1 & o1 & T1 & T2 & T3 & T4 & T5 & T6 & T7 & (r1 & T8 & T9)).
      destruct (IH ks1 Hs') as (s2 & ks2 & o2 & I1 & I2 & I3 & I4 & I5 & I6 & I7 & (r2 & I8 & I9)).
      rewrite T1. cbn [bind]. rewrite I1. cbn [bind].
      exists (c1 :: s2), ks2, (o1 ++ o2).
      bt.
      split; [reflexivity|]. split; [auto|]. split; [lia|]. split; [lia|]. split; [perm2 T5 I5|].
      split; [|split].
      * rewrite keys_app. intros x Hx. apply in_app_or in Hx. destruct Hx as [Hx|Hx]; [auto|].
        apply I6 in Hx. rewrite T8. apply in_or_app; auto.
      * intros x Hx Hin. rewrite keys_app in *. apply in_app_or in Hin. apply in_or_app.
        destruct Hin as [Hin|Hin]; [left; auto|].
        rewrite T8 in Hx. apply in_app_or in Hx. destruct Hx as [Hx|Hx]; [left; apply T9; auto|right; auto].
      * exists (r1 ++ r2). split; [perm2 T8 I8|]. rewrite keys_app. apply incl_app; [apply incl_appl|apply incl_appr]; auto.
Qed.

Lemma bt_push_loop_spec : forall s vs, Forall Inv s ->
  (dup = false -> NoDup (keys (bt_ct s ++ vs))) ->
  exists vis rest out, bt_push_loop C s vs = Ok (vis, rest, out) /\ Forall Inv (rest ++ vis) /\
    bt_capacity C (rest ++ vis) = bt_capacity C s /\
    Permutation (out ++ bt_ct (rest ++ vis)) (bt_ct s ++ vs).
Proof.
  induction s as [|c s IH]; intros vs Hs Hu.
  - destruct vs; cbn; eexists _, _, _; (split; [reflexivity|]); cbn; repeat split; auto. rewrite app_nil_r; auto.
  - apply Forall_cons_iff in Hs as [Hc Hs']. destruct vs as [|v0 vs0] eqn:Ev.
    + cbn. eexists _, _, _; (split; [reflexivity|]). cbn. rewrite !app_nil_r. repeat split; auto.
    + rewrite <- Ev in *. replace (bt_push_loop C (c :: s) vs) with
        (let* (c1, values1) := push C c vs in
         let* (visited, rest, out) := bt_push_loop C s values1 in
         Ok (c1 :: visited, rest, out)) by (subst vs; auto).
      clear v0 vs0 Ev.
      destruct (law_push L c vs Hc) as (c1 & o1 & P1 & P2 & P3 & P4).
      { intros E. specialize (Hu E). bt. eapply (nodup_keys_sub (bt_ct s)); [|exact Hu]. perm0. }
      rewrite P1. cbn [bind].
      destruct (IH o1 Hs') as (vis & rest & out & I1 & I2 & I3 & I4).
      { intros E. specialize (Hu E). eapply (nodup_keys_sub (ct c1)); [|exact Hu].
        bt. perm1 P4. }
      rewrite I1. cbn [bind]. eexists _, _, _. split; [reflexivity|].
      bt.
      split; [|split].
      * rewrite Forall_app in *. split; [tauto|]. constructor; tauto.
      * lia.
      * perm2 P4 I4.
Qed.

Lemma bt_pop_loop_spec : pops = true -> forall rs n, Forall Inv rs ->
  exists rs' out, bt_pop_loop C rs n = Ok (rs', out) /\ Forall Inv rs' /\
    bt_capacity C rs' = bt_capacity C rs /\
    Permutation (out ++ bt_ct rs') (bt_ct rs) /\
    (bt_size C rs' + n <= bt_size C rs \/ bt_ct rs' = []) /\ bt_size C rs' <= bt_size C rs.
Proof.
  intros Hp. induction rs as [|c rs IH]; intros n Hs.
  - exists [], []. cbn. repeat split; auto.
  - apply Forall_cons_iff in Hs as [Hc Hs'].
    destruct (law_pop L Hp c n Hc) as (c1 & o & P1 & P2 & P3 & P4 & P5 & P6).
    cbn [bt_pop_loop]. rewrite P1. cbn [bind].
    unfold sub_chk. replace (size C c1 <=? size C c) with true by (symmetry; apply Nat.leb_le; auto). cbn [bind].
    destruct (n <=? size C c - size C c1) eqn:E.
    + apply Nat.leb_le in E. eexists _, _. split; [reflexivity|].
      bt. repeat split; auto; try lia. perm1 P4.
    + apply Nat.leb_gt in E. destruct P5 as [P5|P5]; [lia|].
      destruct (IH (n - (size C c - size C c1)) Hs') as (rs1 & o1 & I1 & I2 & I3 & I4 & I5 & I6).
      rewrite I1. cbn [bind]. eexists _, _. split; [reflexivity|].
      bt. split; [auto|]. split; [lia|].
      split; [perm2 P4 I4|]. split; [|lia].
      rewrite P5. destruct I5 as [I5|I5]; [|right; auto].
      left. rewrite (law_empty L c1 P2 P5) in *. lia.
Qed.

Lemma bt_flush_spec s : Forall Inv s ->
  exists s' out, bt_flush C s = Ok (s', out) /\ Forall Inv s' /\ bt_capacity C s' = bt_capacity C s /\
    Permutation (out ++ bt_ct s') (bt_ct s) /\ (empties = true -> bt_ct s' = []).
Proof.
  induction 1 as [|c s Hc Hs IH].
  - exists [], []. cbn. repeat split; auto.
  - destruct (law_flush L c Hc) as (c1 & o & P1 & P2 & P3 & P4 & P5).
    destruct IH as (s1 & o1 & I1 & I2 & I3 & I4 & I5).
    cbn [bt_flush]. rewrite P1. cbn [bind]. rewrite I1. cbn [bind].
    eexists _, _. split; [reflexivity|]. bt.
    split; [auto|]. split; [lia|]. split; [perm2 P4 I4|]. intros E. rewrite P5, I5; auto.
Qed.

Lemma bt_perm_sum (f : St C -> nat) s : list_sum (map f (rev s)) = list_sum (map f s).
Proof. apply (sum_sz_perm f). symmetry. apply Permutation_rev. Qed.
Lemma bt_ct_rev s : Permutation (bt_ct (rev s)) (bt_ct s).
Proof. unfold bt_ct. apply Permutation_flat_map. symmetry. apply Permutation_rev. Qed.

Lemma batch_laws : Laws (BatchB C) bt_inv bt_ct dup pops empties.
Proof.
  constructor.
  - intros s [H _]. apply bt_size_le; auto.
  - intros s [H _]. apply bt_size_empty; auto.
  - intros s [_ H]; auto.
  - intros s k [H _]. apply bt_contains_ok; auto.
  - intros s k [H Hu]. destruct (bt_take_spec k H) as (s' & o & H1 & H2 & H3 & H4 & H5).
    exists s', o. cbn. repeat split; auto. intros E. specialize (Hu E).
    destruct o as [[k' v]|]; destruct H5 as [_ P].
    + apply (nodup_keys_sub [(k, v)] _ P); auto.
    + eapply nodup_keys_perm; [symmetry; eauto|auto].
  - intros s ks [H Hu]. destruct (bt_tm_spec ks H) as (s' & ks' & out & H1 & H2 & H3 & H4 & H5 & H6).
    exists s', ks', out. cbn. repeat split; auto; try tauto. intros E. eapply nodup_keys_sub; eauto.
  - intros s vs [H Hu] Hm. destruct (@bt_push_loop_spec s vs H Hm) as (vis & rest & out & H1 & H2 & H3 & H4).
    exists (rest ++ vis), out. cbn. unfold bt_push. rewrite H1. cbn [bind]. repeat split; auto.
    intros E. eapply nodup_keys_sub; [exact H4|]. apply Hm; auto.
  - intros Hp s n [H Hu].
    destruct (bt_pop_loop_spec Hp n (Forall_rev H)) as (rs & out & H1 & H2 & H3 & H4 & H5 & H6).
    exists (rev rs), out. cbn. unfold bt_pop. rewrite H1. cbn [bind].
    unfold bt_capacity, bt_size in *. rewrite !bt_perm_sum in *.
    pose proof (bt_ct_rev rs) as R1. pose proof (bt_ct_rev s) as R2.
    assert (P : Permutation (out ++ bt_ct (rev rs)) (bt_ct s)) by perm3 H4 R1 R2.
    repeat split; auto.
    + apply Forall_rev; auto.
    + intros E. eapply nodup_keys_sub; eauto.
    + destruct H5 as [?|H5]; [left; auto|right]. rewrite H5 in R1. apply Permutation_nil. symmetry; auto.
  - intros s [H Hu]. destruct (bt_flush_spec H) as (s' & out & H1 & H2 & H3 & H4 & H5).
    exists s', out. cbn. repeat split; auto. intros E'. eapply nodup_keys_sub; eauto.
Qed.
End BatchProof.
