(** AssociativeProof.v -- an Associative of at least one lawful container is lawful, but for pop. *)
From Coq Require Import NArith.
From Verif Require Import Base PermSolve Block Spec LawsProof WrappersProof Batch BatchProof Associative.
Set Implicit Arguments.

Section Placed.
Context {K : Type}.
Variable idx : K -> nat.

(** [l] is a vector of vectors of keys, its first component having number [i]: every key is in the
    component of its index. *)
Fixpoint placed (i : nat) (l : list (list K)) : Prop :=
  match l with
  | [] => True
  | ks :: l' => (forall k, In k ks -> idx k = i) /\ placed (S i) l'
  end.

Lemma placed_range l : forall i k, placed i l -> In k (concat l) -> i <= idx k < i + length l.
Proof.
  induction l as [|ks l IH]; intros i k; cbn; [tauto|]. intros [H1 H2] H. apply in_app_or in H. destruct H as [H|H].
  - rewrite (H1 k H). lia.
  - specialize (IH _ _ H2 H). lia.
Qed.
Lemma placed_incl l l' : Forall2 (@incl K) l' l -> forall i, placed i l -> placed i l'.
Proof.
  induction 1 as [|ks' ks l' l Hi Hf IH]; intros i; cbn; auto. intros [H1 H2]. split; auto.
Qed.
Lemma placed_app a b : forall i, placed i (a ++ b) <-> placed i a /\ placed (i + length a) b.
Proof.
  induction a as [|x a IH]; intros i; cbn; [rewrite Nat.add_0_r; tauto|].
  rewrite IH. replace (S i + length a) with (i + S (length a)) by lia. tauto.
Qed.
Lemma placed_repeat n : forall i, placed i (repeat [] n).
Proof. induction n; intros i; cbn; auto. split; auto. intros k []. Qed.
End Placed.

Lemma map_repeat {X Y} (f : X -> Y) x n : map f (repeat x n) = repeat (f x) n.
Proof. induction n; cbn; congruence. Qed.
Lemma concat_repeat_nil {T} n : concat (repeat (@nil T) n) = [].
Proof. induction n; cbn; auto. Qed.

Lemma push_at_spec {T K} (key : T -> K) (idx : K -> nat) x : forall acc i0,
  placed idx i0 (map (map key) acc) -> i0 <= idx (key x) < i0 + length acc ->
  exists acc', push_at (idx (key x) - i0) x acc = Ok acc' /\ length acc' = length acc /\
    Permutation (concat acc') (x :: concat acc) /\ placed idx i0 (map (map key) acc').
Proof.
  induction acc as [|b acc IH]; intros i0 Hp Hr; cbn [length] in Hr; [lia|]. destruct Hp as [H1 H2].
  destruct (idx (key x) - i0) as [|j] eqn:E.
  - cbn. eexists; split; [reflexivity|]. cbn. split; auto. split; [perm0|]. split; auto.
    intros k Hk. rewrite map_app in Hk. apply in_app_or in Hk. destruct Hk as [Hk|[<-|[]]]; auto. lia.
  - cbn. destruct (IH (S i0) H2) as (acc' & A1 & A2 & A3 & A4); [lia|].
    replace (idx (key x) - S i0) with j in A1 by lia. rewrite A1. cbn.
    eexists; split; [reflexivity|]. cbn. split; [lia|]. split; [perm1 A3|]. auto.
Qed.

Section AssociativeProof.
Context {K V : Type} {OK : Ord K} {EK : OrdEq K}.
Variable hash : K -> N.
Variable C : Block K V.
Variable Inv : St C -> Prop.
Variable ct : St C -> list (K * V).
Variables dup pops empties : bool.
Hypothesis L : Laws C Inv ct dup pops empties.

(** The set of a key among [n] sets. *)
Definition set_of (n : nat) (k : K) : nat := N.to_nat (N.modulo (hash k) (N.of_nat n)).

Definition as_ct (s : assoc C) : list (K * V) := flat_map ct s.
Definition ckeys (s : assoc C) : list (list K) := map (fun c => keys (ct c)) s.
Definition as_inv (s : assoc C) : Prop :=
  1 <= length s /\ Forall Inv s /\ placed (set_of (length s)) 0 (ckeys s) /\
  (dup = false -> NoDup (keys (as_ct s))).

Lemma as_ct_cons c s : as_ct (c :: s) = ct c ++ as_ct s. Proof. reflexivity. Qed.
Lemma as_size_cons c s : as_size C (c :: s) = size C c + as_size C s. Proof. reflexivity. Qed.
Lemma as_cap_cons c s : as_capacity C (c :: s) = capacity C c + as_capacity C s. Proof. reflexivity. Qed.
Lemma as_ct_app s t : as_ct (s ++ t) = as_ct s ++ as_ct t. Proof. apply flat_map_app. Qed.
Lemma as_size_app s t : as_size C (s ++ t) = as_size C s + as_size C t.
Proof. unfold as_size. rewrite map_app, list_sum_app. auto. Qed.
Lemma as_cap_app s t : as_capacity C (s ++ t) = as_capacity C s + as_capacity C t.
Proof. unfold as_capacity. rewrite map_app, list_sum_app. auto. Qed.
Ltac as_ := rewrite ?as_ct_app, ?as_size_app, ?as_cap_app, ?as_ct_cons, ?as_size_cons, ?as_cap_cons in *.

Lemma set_of_lt n k : 1 <= n -> set_of n k < n.
Proof. intros H. unfold set_of. pose proof (N.mod_lt (hash k) (N.of_nat n)). lia. Qed.
Lemma as_set_ok (s : assoc C) k : 1 <= length s -> as_set hash C s k = Ok (set_of (length s) k).
Proof. unfold as_set, set_of. destruct (length s); [lia|]. auto. Qed.

Lemma keys_as_ct s : keys (as_ct s) = concat (ckeys s).
Proof.
  induction s as [|c s IH]; auto. as_. rewrite keys_app, IH. reflexivity.
Qed.

(** The components before, at and after the set of a key. *)
Lemma as_split s k : as_inv s -> exists a c b, s = a ++ c :: b /\ length a = set_of (length s) k /\ Inv c /\
  ~ In k (keys (as_ct a)) /\ ~ In k (keys (as_ct b)).
Proof.
  intros (H1 & H2 & H3 & _). pose proof (set_of_lt k H1) as Hlt.
  destruct (nth_error s (set_of (length s) k)) as [c|] eqn:E; [|apply nth_error_None in E; lia].
  destruct (nth_error_split _ _ E) as (a & b & Es & Hl). exists a, c, b.
  rewrite Es in H2. apply Forall_app in H2. destruct H2 as [Ha Hb]. apply Forall_cons_iff in Hb.
  repeat split; try tauto; auto.
  - rewrite keys_as_ct. intros Hin. unfold ckeys in H3. rewrite Es in H3 at 2. rewrite map_app, placed_app in H3.
    destruct H3 as [H3 _]. apply (@placed_range _ _ _ _ _ H3) in Hin. rewrite map_length in Hin. lia.
  - rewrite keys_as_ct. intros Hin. unfold ckeys in H3. rewrite Es in H3 at 2. rewrite map_app, placed_app in H3.
    destruct H3 as [_ [_ H3]]. apply (@placed_range _ _ _ _ _ H3) in Hin. rewrite map_length in Hin. lia.
Qed.

Lemma nth_error_mid {T} (a : list T) c b : nth_error (a ++ c :: b) (length a) = Some c.
Proof. rewrite nth_error_app2, Nat.sub_diag by lia. auto. Qed.
Lemma replace_nth_mid {T} (a : list T) c c' b : replace_nth (length a) c' (a ++ c :: b) = a ++ c' :: b.
Proof. induction a; cbn; congruence. Qed.

Lemma Forall2_incl_refl (l : list (list K)) : Forall2 (@incl K) l l.
Proof. induction l; constructor; auto using incl_refl. Qed.
(** Replacing one component by one holding no other key keeps placement. *)
Lemma placed_mid idx a c c' b : incl (keys (ct c')) (keys (ct c)) ->
  placed idx 0 (ckeys (a ++ c :: b)) -> placed idx 0 (ckeys (a ++ c' :: b)).
Proof.
  intros Hi. apply placed_incl. unfold ckeys. rewrite !map_app. cbn.
  apply Forall2_app; [|constructor; auto]; apply Forall2_incl_refl.
Qed.

Lemma incl_keys_sub (out c c' : list (K * V)) : Permutation (out ++ c') c -> incl (keys c') (keys c).
Proof. intros P k Hk. rewrite <- (keys_perm P), keys_app. apply in_or_app; auto. Qed.

Lemma distribute_spec {T} (key : T -> K) (s : assoc C) (Hs : 1 <= length s) : forall l acc,
  length acc = length s -> placed (set_of (length s)) 0 (map (map key) acc) ->
  exists r, distribute hash C key s l acc = Ok r /\ length r = length s /\
    placed (set_of (length s)) 0 (map (map key) r) /\ Permutation (concat r) (concat acc ++ l).
Proof.
  induction l as [|x l IH]; intros acc Hl Hp; cbn.
  - exists acc. rewrite app_nil_r. auto.
  - rewrite as_set_ok by auto. cbn [bind].
    destruct (@push_at_spec T K key (set_of (length s)) x acc 0 Hp) as (acc' & A1 & A2 & A3 & A4).
    { pose proof (set_of_lt (key x) Hs). lia. }
    rewrite Nat.sub_0_r in A1. rewrite A1. cbn [bind].
    destruct (IH acc') as (r & R1 & R2 & R3 & R4); [lia|auto|].
    exists r. repeat split; auto. perm2 A3 R4.
Qed.

Lemma as_tm_loop_spec idx : forall s kss i, length kss = length s -> Forall Inv s ->
  placed idx i (ckeys s) -> placed idx i kss ->
  exists s' kss' out, as_tm_loop C s kss = Ok (s', kss', out) /\ length s' = length s /\ Forall Inv s' /\
    placed idx i (ckeys s') /\
    as_capacity C s' = as_capacity C s /\ as_size C s' <= as_size C s /\
    Permutation (out ++ as_ct s') (as_ct s) /\ incl (keys out) (concat kss) /\
    (forall k, In k (concat kss) -> In k (keys (as_ct s)) -> In k (keys out)) /\
    (exists removed, Permutation (concat kss) (removed ++ concat kss') /\ incl removed (keys out)).
Proof.
  induction s as [|c s IH]; intros kss i Hl Hs Hp Hk.
  - destruct kss; [|discriminate]. exists [], [], []. cbn. repeat split; auto; try (intros x []); try contradiction.
    exists []. split; auto. intros x [].
  - destruct kss as [|ks kss]; [discriminate|]. apply Forall_cons_iff in Hs as [Hc Hs].
    destruct Hp as [Hp1 Hp2]. destruct Hk as [Hk1 Hk2]. cbn in Hl.
    assert (T : exists c1 ks1 o1,
      match ks with [] => Ok (c, [], []) | _ :: _ => take_multiple C c ks end = Ok (c1, ks1, o1) /\ Inv c1 /\
      capacity C c1 = capacity C c /\ size C c1 <= size C c /\
      Permutation (o1 ++ ct c1) (ct c) /\ incl (keys o1) ks /\
      (forall k, In k ks -> In k (keys (ct c)) -> In k (keys o1)) /\
      (exists removed, Permutation ks (removed ++ ks1) /\ incl removed (keys o1))).
    { destruct ks as [|k0 ks0].
      - exists c, [], []. repeat split; auto; try (intros x []); try contradiction. exists []. split; auto. intros x [].
      - apply (law_take_multiple L c (k0 :: ks0) Hc). }
    destruct T as (c1 & ks1 & o1 & T1 & T2 & T3 & T4 & T5 & T6 & T7 & (r1 & T8 & T9)).
    destruct (IH kss (S i)) as (s2 & kss2 & o2 & I1 & I0 & I2 & Ip & I3 & I4 & I5 & I6 & I7 & (r2 & I8 & I9)); auto.
    cbn [as_tm_loop]. rewrite T1. cbn [bind]. rewrite I1. cbn [bind].
    exists (c1 :: s2), (ks1 :: kss2), (o1 ++ o2). split; [reflexivity|]. split; [cbn; lia|]. split; [auto|].
    split. { split; auto. intros k Hk. apply Hp1. eapply incl_keys_sub; eauto. }
    as_. split; [lia|]. split; [lia|]. split; [perm2 T5 I5|]. cbn [concat]. rewrite keys_app.
    split; [|split].
    + apply incl_app; [apply incl_appl|apply incl_appr]; auto.
    + intros k Hin Hc'. rewrite keys_app in Hc'. apply in_or_app.
      apply in_app_or in Hin. apply in_app_or in Hc'. destruct Hin as [Hin|Hin], Hc' as [Hc'|Hc'].
      * left; auto.
      * exfalso. rewrite keys_as_ct in Hc'. apply (@placed_range _ _ _ _ _ Hp2) in Hc'. rewrite (Hk1 k Hin) in Hc'. lia.
      * exfalso. apply (@placed_range _ _ _ _ _ Hk2) in Hin. rewrite (Hp1 k Hc') in Hin. lia.
      * right; auto.
    + exists (r1 ++ r2). split; [perm2 T8 I8|]. apply incl_app; [apply incl_appl|apply incl_appr]; auto.
Qed.

Lemma as_push_loop_spec idx : forall s vss i, length vss = length s -> Forall Inv s ->
  placed idx i (ckeys s) -> placed idx i (map (map fst) vss) ->
  (dup = false -> NoDup (keys (as_ct s ++ concat vss))) ->
  exists s' out, as_push_loop C s vss = Ok (s', out) /\ length s' = length s /\ Forall Inv s' /\
    placed idx i (ckeys s') /\ as_capacity C s' = as_capacity C s /\
    Permutation (out ++ as_ct s') (as_ct s ++ concat vss).
Proof.
  induction s as [|c s IH]; intros vss i Hl Hs Hp Hk Hu.
  - destruct vss; [|discriminate]. exists [], []. cbn. repeat split; auto.
  - destruct vss as [|vs vss]; [discriminate|]. apply Forall_cons_iff in Hs as [Hc Hs].
    destruct Hp as [Hp1 Hp2]. destruct Hk as [Hk1 Hk2]. cbn in Hl. as_. cbn [concat] in *.
    destruct (law_push L c vs Hc) as (c1 & o1 & P1 & P2 & P3 & P4).
    { intros E. eapply (nodup_keys_sub (as_ct s ++ concat vss)); [|apply Hu, E]. perm0. }
    destruct (IH vss (S i)) as (s2 & o2 & I1 & I0 & I2 & Ip & I3 & I4); auto.
    { intros E. eapply (nodup_keys_sub (ct c ++ vs)); [|apply Hu, E]. perm0. }
    cbn [as_push_loop]. rewrite P1. cbn [bind]. rewrite I1. cbn [bind].
    exists (c1 :: s2), (o1 ++ o2). split; [reflexivity|]. split; [cbn; lia|]. split; [auto|].
    split. { split; auto. intros k Hin. apply (incl_keys_sub _ _ P4) in Hin. rewrite keys_app in Hin.
      apply in_app_or in Hin. destruct Hin; auto. }
    as_. split; [lia|]. perm2 P4 I4.
Qed.

Lemma as_flush_spec idx : forall s i, Forall Inv s -> placed idx i (ckeys s) ->
  exists s' out, as_flush C s = Ok (s', out) /\ length s' = length s /\ Forall Inv s' /\ placed idx i (ckeys s') /\
    as_capacity C s' = as_capacity C s /\
    Permutation (out ++ as_ct s') (as_ct s) /\ (empties = true -> as_ct s' = []).
Proof.
  induction s as [|c s IH]; intros i Hs Hp.
  - exists [], []. cbn. repeat split; auto.
  - apply Forall_cons_iff in Hs as [Hc Hs]. destruct Hp as [Hp1 Hp2].
    destruct (law_flush L c Hc) as (c1 & o & P1 & P2 & P3 & P4 & P5).
    destruct (IH (S i)) as (s1 & o1 & I1 & I0 & I2 & Ip & I3 & I4 & I5); auto.
    cbn [as_flush]. rewrite P1. cbn [bind]. rewrite I1. cbn [bind].
    eexists _, _. split; [reflexivity|]. split; [cbn; lia|]. split; [auto|].
    split. { split; auto. intros k Hin. apply (incl_keys_sub _ _ P4) in Hin; auto. }
    as_. split; [lia|]. split; [perm2 P4 I4|]. intros E. rewrite P5, I5; auto.
Qed.

Lemma associative_laws : Laws (AssociativeB hash C) as_inv as_ct dup false empties.
Proof.
  constructor.
  - intros s (_ & H & _). cbn. revert H. induction 1 as [|c s Hc Hs IH]; auto.
    as_. pose proof (law_size L c Hc). lia.
  - intros s (_ & H & _). cbn. revert H. induction 1 as [|c s Hc Hs IH]; auto.
    as_. intros E. apply app_eq_nil in E. destruct E as [E1 E2]. rewrite (law_empty L c Hc E1), IH; auto.
  - intros s (_ & _ & _ & H). auto.
  - intros s k Hi. cbn. unfold as_contains. rewrite as_set_ok by apply Hi. cbn [bind].
    destruct (as_split k Hi) as (a & c & b & Es & Hl & Hc & Ha & Hb). rewrite <- Hl.
    assert (N : nth_error s (length a) = Some c) by (rewrite Es; apply nth_error_mid). rewrite N.
    cbn [unwrap bind]. rewrite (law_contains L c k Hc). f_equal. rewrite Es. as_. rewrite !has_key_app.
    apply has_key_not_in in Ha. apply has_key_not_in in Hb. rewrite Ha, Hb. cbn. rewrite orb_false_r. auto.
  - intros s k Hi. destruct (as_split k Hi) as (a & c & b & Es & Hl & Hc & Ha & Hb).
    destruct Hi as (H1 & H2 & H3 & Hu).
    destruct (law_take L c k Hc) as (c1 & o & T1 & T2 & T3 & T4 & T5).
    assert (Hlen : length (a ++ c1 :: b) = length s) by (rewrite Es, !app_length; auto).
    unfold take_ok. cbn. unfold as_take. rewrite as_set_ok by auto. cbn [bind].
    assert (N : nth_error s (length a) = Some c) by (rewrite Es; apply nth_error_mid).
    assert (R : replace_nth (length a) c1 s = a ++ c1 :: b) by (rewrite Es; apply replace_nth_mid).
    rewrite <- Hl, N. cbn [unwrap bind]. rewrite T1. cbn [bind]. rewrite R. exists (a ++ c1 :: b), o.
    assert (Hf : Forall Inv (a ++ c1 :: b)).
    { rewrite Es in H2. apply Forall_app in H2. destruct H2 as [? H2]. apply Forall_cons_iff in H2.
      apply Forall_app. split; auto. constructor; tauto. }
    split; [reflexivity|].
    assert (Hinc : incl (keys (ct c1)) (keys (ct c))).
    { destruct o as [[k' v]|]; destruct T5 as [_ P].
      - eapply (incl_keys_sub [(k, v)]); eauto.
      - eapply (incl_keys_sub []); eauto. }
    assert (Q : match o with Some (k', v) => k' = k /\ Permutation ((k, v) :: as_ct (a ++ c1 :: b)) (as_ct s)
                | None => ~ In k (keys (as_ct s)) /\ Permutation (as_ct (a ++ c1 :: b)) (as_ct s) end).
    { rewrite Es. as_. destruct o as [[k' v]|]; destruct T5 as [E P]; (split; [|perm1 P]); auto.
      rewrite !keys_app, !in_app_iff. tauto. }
    split; [|split; [|split]]; auto.
    + unfold as_inv. rewrite Hlen. split; [auto|]. split; [auto|]. split.
      * rewrite Es in H3 at 2. eapply placed_mid; eauto.
      * intros E. specialize (Hu E). destruct o as [[k' v]|]; destruct Q as [_ Q].
        -- apply (nodup_keys_sub [(k, v)] _ Q); auto.
        -- apply (nodup_keys_sub [] _ Q); auto.
    + rewrite Es. as_. lia.
    + rewrite Es. as_. lia.
  - intros s ks (H1 & H2 & H3 & Hu). unfold take_multiple_ok. cbn. unfold as_take_multiple.
    destruct (@distribute_spec K (fun k => k) s H1 ks (repeat [] (length s))) as (kss & D1 & D2 & D3 & D4).
    { apply repeat_length. }
    { rewrite map_repeat. apply placed_repeat. }
    rewrite concat_repeat_nil in D4. cbn in D4. rewrite D1. cbn [bind].
    assert (D3' : placed (set_of (length s)) 0 kss).
    { rewrite <- (map_id kss). erewrite map_ext; [exact D3|]. intros; symmetry; apply map_id. }
    destruct (@as_tm_loop_spec (set_of (length s)) s kss 0) as
      (s' & kss' & out & T1 & T0 & T2 & Tp & T3 & T4 & T5 & T6 & T7 & (r & T8 & T9)); auto.
    rewrite T1. cbn [bind]. exists s', (concat kss'), out. split; [reflexivity|].
    split; [|repeat split; auto].
    + unfold as_inv. rewrite T0. repeat split; auto. intros E. eapply nodup_keys_sub; eauto.
    + intros k Hk. rewrite <- D4. auto.
    + intros k Hk. rewrite <- D4 in Hk. auto.
    + exists r. split; auto. rewrite <- D4. auto.
  - intros s vs (H1 & H2 & H3 & Hu) Hm. unfold push_ok. cbn. unfold as_push.
    destruct (@distribute_spec (K * V) fst s H1 vs (repeat [] (length s))) as (vss & D1 & D2 & D3 & D4).
    { apply repeat_length. }
    { rewrite map_repeat. apply placed_repeat. }
    rewrite concat_repeat_nil in D4. cbn in D4. rewrite D1. cbn [bind].
    destruct (@as_push_loop_spec (set_of (length s)) s vss 0) as (s' & out & T1 & T0 & T2 & Tp & T3 & T4); auto.
    { intros E. eapply nodup_keys_perm; [|apply Hm, E]. perm1 D4. }
    assert (Q : Permutation (out ++ as_ct s') (as_ct s ++ vs)) by perm2 T4 D4.
    rewrite T1. exists s', out. split; [reflexivity|]. split; [|repeat split; auto].
    unfold as_inv. rewrite T0. repeat split; auto. intros E. eapply nodup_keys_sub; [exact Q|]. apply Hm, E.
  - discriminate.
  - intros s (H1 & H2 & H3 & Hu).
    destruct (@as_flush_spec (set_of (length s)) s 0) as (s' & out & T1 & T0 & T2 & Tp & T3 & T4 & T5); auto.
    exists s', out. split; [exact T1|]. split; [|repeat split; auto].
    unfold as_inv. rewrite T0. repeat split; auto. intros E. eapply nodup_keys_sub; eauto.
Qed.

Lemma as_tm_loop_len strict : tm_len C Inv strict -> forall s kss s' kss' out, length kss = length s -> Forall Inv s ->
  as_tm_loop C s kss = Ok (s', kss', out) ->
  length out + (if strict then length (concat kss') else 0) <= length (concat kss).
Proof.
  intros Hb. induction s as [|c s IH]; intros kss s' kss' out Hl Hs E.
  - destruct kss; [|discriminate]. cbn in E. inversion E; subst. cbn. destruct strict; auto.
  - destruct kss as [|ks kss]; [discriminate|]. apply Forall_cons_iff in Hs as [Hc Hs]. cbn in E.
    destruct (match ks with [] => Ok (c, [], []) | _ :: _ => take_multiple C c ks end) as [[[c1 ks1] o1]|] eqn:E1;
      cbn in E; [|discriminate].
    destruct (as_tm_loop C s kss) as [[[s2 kss2] o2]|] eqn:E2; cbn in E; [|discriminate].
    inversion E; subst. cbn [concat]. rewrite !app_length.
    assert (length o1 + (if strict then length ks1 else 0) <= length ks).
    { destruct ks as [|k0 ks0]; [inversion E1; subst; destruct strict; cbn; lia | eapply Hb; eauto]. }
    cbn in Hl. specialize (IH kss s2 kss2 o2 ltac:(lia) Hs E2). destruct strict; lia.
Qed.
Lemma associative_tm_len strict : tm_len C Inv strict -> tm_len (AssociativeB hash C) as_inv strict.
Proof.
  intros Hb s ks s' ks' out (H1 & H2 & H3 & Hu) E. cbn in E. unfold as_take_multiple in E.
  destruct (@distribute_spec K (fun k => k) s H1 ks (repeat [] (length s))) as (kss & D1 & D2 & D3 & D4).
  { apply repeat_length. }
  { rewrite map_repeat. apply placed_repeat. }
  rewrite concat_repeat_nil in D4. cbn in D4. rewrite D1 in E. cbn [bind] in E.
  destruct (as_tm_loop C s kss) as [[[s2 kss2] o2]|] eqn:E2; cbn in E; [|discriminate].
  inversion E; subst. rewrite <- (Permutation_length D4). eapply as_tm_loop_len; eauto.
Qed.
End AssociativeProof.
