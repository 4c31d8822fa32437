(** PMoving.v -- C64: an Lrfu decorator over an Array and over a BTree. *)
From Coq Require Import QArith Lqa.
From Verif Require Import Base PermSolve Block Spec LawsProof Cut CutProof Array ArrayProof PArray BTree BTreeProof Wrappers WrappersProof Get GetProof Calls Decorations PLrfu Moving.
Set Implicit Arguments.
Local Open Scope nat_scope.

(** ** Array: whatever the comparisons answer, the contract holds *)
Section MArrayProof.
Context {K V : Type} {OK : Ord K} {EK : OrdEq K}.
Variable cmp : nat -> V -> V -> comparison.
Variable srt : @MSorter K V cmp.
Variable bs : BSearch K.
Notation B := (MArrayB srt bs).
Definition ma_inv (s : marray) : Prop := @a_inv K V (snd s).
Definition ma_ct (s : marray) : list (K * V) := a_vals (snd s).

Lemma ma_pop_spec (s : marray) n : ma_inv s ->
  exists s' out, ma_pop srt s n = Ok (s', out) /\ ma_inv s' /\ a_cap (snd s') = a_cap (snd s) /\
    Permutation (out ++ ma_ct s') (ma_ct s) /\
    (a_total (snd s') + n <= a_total (snd s) \/ ma_ct s' = []) /\ a_total (snd s') <= a_total (snd s).
Proof.
  destruct s as [t s]. unfold ma_inv, ma_ct. cbn [snd]. intros [Ht Hc]. unfold ma_pop.
  destruct (a_vals s) as [|x l] eqn:E.
  - exists (t, s), []. cbn [snd]. repeat split; rewrite ?E; auto.
  - rewrite <- E in *. clear x l E. destruct (a_total s <=? n) eqn:L.
    + eexists _, _. split; [reflexivity|]. unfold a_inv; cbn. repeat split; auto; try lia.
      rewrite app_nil_r; auto.
    + apply Nat.leb_gt in L. pose proof (ms_perm srt t (a_vals s)) as P. destruct (ms_fun srt t (a_vals s)) as [t' vals]. cbn [snd] in P.
      destruct (find_cut_at_size vals (a_esz s) n) as [[i c] e] eqn:F.
      pose proof (cut_split _ _ _ F) as Hsum. rewrite (sum_sz_perm _ P), <- Ht in Hsum.
      apply find_cut_spec in F. destruct F as (Hcc & _ & Hr & _).
      unfold sub_chk. destruct (c <=? a_total s) eqn:L2; [|apply Nat.leb_gt in L2; lia].
      cbn [bind]. eexists _, _. split; [reflexivity|]. unfold a_inv; cbn [a_cap a_total a_vals a_esz snd].
      assert (HP : Permutation (skipn i vals ++ firstn i vals) (a_vals s)).
      { rewrite Permutation_app_comm, firstn_skipn. auto. }
      repeat split; auto; try lia.
      destruct Hr as [Hr| ->]; [left; lia|]. right. auto.
Qed.
Lemma ma_push_spec (s : marray) vs : ma_inv s ->
  exists s' out, ma_push srt s vs = Ok (s', out) /\ ma_inv s' /\ a_cap (snd s') = a_cap (snd s) /\
    Permutation (out ++ ma_ct s') (ma_ct s ++ vs).
Proof.
  destruct s as [t s]. intros H. pose proof H as [Ht Hc]. cbn [snd] in Ht, Hc. unfold ma_push. set (sz := sum_sz (a_esz s) vs).
  unfold sub_chk at 1. replace (a_total s <=? a_cap s) with true by (symmetry; apply Nat.leb_le; auto).
  cbn [bind]. set (room := a_cap s - a_total s).
  destruct (sz <=? room) eqn:L1.
  { apply Nat.leb_le in L1. eexists _, _. split; [reflexivity|]. unfold ma_inv, ma_ct, a_inv; cbn [a_cap a_total a_vals a_esz snd]. rewrite sum_sz_app. fold sz. repeat split; auto; lia. }
  apply Nat.leb_gt in L1. destruct (sz =? a_cap s) eqn:L2.
  { apply Nat.eqb_eq in L2. eexists _, _. split; [reflexivity|]. unfold ma_inv, ma_ct, a_inv; cbn [a_cap a_total a_vals a_esz snd]. fold sz. repeat split; auto; lia. }
  apply Nat.eqb_neq in L2. destruct (a_cap s <? sz) eqn:L3.
  { apply Nat.ltb_lt in L3. pose proof (ms_perm srt t vs) as P. destruct (ms_fun srt t vs) as [t' els]. cbn [snd] in P.
    destruct (find_cut_at_size els (a_esz s) (sz - a_cap s)) as [[i c] e] eqn:F.
    pose proof (cut_split _ _ _ F) as Hsum. rewrite (sum_sz_perm _ P) in Hsum. fold sz in Hsum.
    apply find_cut_spec in F. destruct F as (Hcc & _ & Hr & _).
    unfold sub_chk. replace (c <=? sz) with true by (symmetry; apply Nat.leb_le; lia). cbn [bind].
    eexists _, _. split; [reflexivity|]. unfold ma_inv, ma_ct, a_inv; cbn [a_cap a_total a_vals a_esz snd].
    assert (HP : Permutation (skipn i els ++ firstn i els) vs) by (rewrite Permutation_app_comm, firstn_skipn; auto).
    repeat split; auto; try lia.
    - destruct Hr as [Hr| ->]; [lia|]. cbn [firstn] in Hsum. change (sum_sz (a_esz s) []) with 0 in Hsum. lia.
    - rewrite <- app_assoc. apply Permutation_app_head. auto. }
  apply Nat.ltb_ge in L3.
  destruct (ma_pop_spec (sz - room) H) as ([t1 s1] & out & Hp & Hi & Hcap & HP & Hfree & Hle).
  rewrite Hp. cbn [bind]. eexists _, _. split; [reflexivity|].
  assert (Hesz : a_esz s1 = a_esz s).
  { clear - Hp. unfold ma_pop in Hp. destruct (a_vals s); [inversion Hp; auto|]. destruct (a_total s <=? _); [inversion Hp; subst; auto|].
    destruct (ms_fun srt t _) as [t' vals]. destruct (find_cut_at_size vals _ _) as [[i c] e]. destruct (sub_chk _ c); cbn in Hp; [|discriminate]. inversion Hp; subst; auto. }
  destruct Hi as [Hi1 Hi2]. unfold ma_inv, ma_ct, a_inv in *; cbn [a_cap a_total a_vals a_esz snd] in *. rewrite Hesz in *.
  rewrite sum_sz_app. fold sz. repeat split; auto; try lia.
  - destruct Hfree as [Hf|Hf]; [lia|]. rewrite Hf in Hi1. unfold sum_sz in Hi1; cbn in Hi1. lia.
  - perm1 HP.
Qed.
Lemma marray_laws : Laws B ma_inv ma_ct true true true.
Proof.
  pose (T := {| leb := fun _ _ : V => true; leb_total := fun _ _ => or_introl eq_refl; leb_trans := fun _ _ _ _ _ => eq_refl |} : Ord V).
  pose proof (@array_laws K V OK EK T (std_sorter snd) bs) as A.
  constructor; unfold ma_inv, ma_ct.
  - intros [t s]. apply (law_size A).
  - intros [t s]. apply (law_empty A).
  - intros [t s] H E. discriminate.
  - intros [t s] k. apply (law_contains A).
  - intros [t s] k H. destruct (law_take A s k H) as (s' & o & H1 & H2 & H3 & H4 & H5). cbn in H1.
    exists (t, s'), o. cbn [take MArrayB fst snd]. rewrite H1. cbn [bind]. repeat split; auto; apply H2.
  - intros [t s] ks H. destruct (law_take_multiple A s ks H) as (s' & ks' & out & H1 & H2 & H3). cbn in H1.
    exists (t, s'), ks', out. cbn [take_multiple MArrayB fst snd]. rewrite H1. cbn [bind]. split; auto.
  - intros s vs H _. apply ma_push_spec; auto.
  - intros _ s n H. apply ma_pop_spec; auto.
  - intros [t s] H. destruct (law_flush A s H) as (s' & out & H1 & H2 & H3). cbn in H1. inversion H1; subst.
    eexists (t, _), _. split; [reflexivity|]. split; auto.
Qed.
End MArrayProof.

(** ** BTree: what still holds whatever the comparisons answer *)
Section MBTreeProof.
Context {K V : Type} {OK : Ord K} {EK : OrdEq K}.
Variable cmp : nat -> V -> V -> comparison.
Variable srch : @MSearch K V OK cmp.
Notation B := (MBTreeB srch).
Local Notation sentry := ((V * K) * nat)%type.
Local Notation mentry := (K * (V * nat))%type.
Record agree (set : list sentry) (m : list mentry) (next : nat) : Prop := {
  ag_same : Permutation (map s2m set) m;
  ag_keys : NoDup (keys m);
  ag_ids : NoDup (ids m);
  ag_fresh : forall i, In i (ids m) -> i < next
}.
Definition mb_inv (s : mbtree) : Prop := agree (b_set (snd s)) (b_map (snd s)) (b_next (snd s)).
Definition mb_ct (s : mbtree) : list (K * V) := b_ct (snd s).

Lemma key_cmp_eq (a b : K) : key_cmp a b = Eq -> a = b.
Proof. unfold key_cmp. destruct (eqb a b) eqn:E; [intros _; apply eqb_eq; auto|]. destruct (leb a b); discriminate. Qed.
Lemma entry_cmp_key t e x : entry_cmp cmp t e x = Eq -> snd e = snd x /\ cmp t (fst e) (fst x) = Eq.
Proof. unfold entry_cmp. destruct (cmp t (fst e) (fst x)); try discriminate. intros H. apply key_cmp_eq in H. auto. Qed.
Lemma found_key t e (l : list sentry) t' i : mf_fun srch t e l = (t', (true, i)) ->
  exists u x, nth_error l i = Some x /\ snd e = snd (fst x) /\ cmp u (fst e) (fst (fst x)) = Eq.
Proof.
  intros H. destruct (@mf_found _ _ _ _ srch t e l i) as (u & x & H1 & H2 & H3); [rewrite H; auto|].
  apply entry_cmp_key in H3. exists u, x. tauto.
Qed.
Lemma agree_keys set m next : agree set m next -> Permutation (map (fun x : sentry => snd (fst x)) set) (keys m).
Proof. intros H. rewrite <- (keys_perm (ag_same H)). unfold keys. rewrite map_map. auto. Qed.

Lemma m_set_insert_perm t v k id (set : list sentry) : ~ In k (map (fun x : sentry => snd (fst x)) set) ->
  Permutation (snd (m_set_insert srch t ((v, k), id) set)) (((v, k), id) :: set).
Proof.
  intros Hn. unfold m_set_insert. cbn [fst]. destruct (mf_fun srch t (v, k) set) as [t' [[|] i]] eqn:E; cbn [snd].
  - apply found_key in E. destruct E as (u & x & H1 & H2 & _). cbn in H2. exfalso. apply Hn. apply nth_error_In in H1.
    apply in_map_iff. exists x. auto.
  - rewrite <- Permutation_middle. rewrite firstn_skipn. auto.
Qed.
Lemma agree_insert t set m next k (v : V) : agree set m next -> ~ In k (keys m) ->
  agree (snd (m_set_insert srch t ((v, k), next) set)) (map_insert k (v, next) m) (S next) /\
  Permutation (map_insert k (v, next) m) ((k, (v, next)) :: m).
Proof.
  intros H Hk. pose proof (map_insert_new k (v, next) m Hk) as P.
  assert (P2 : Permutation (snd (m_set_insert srch t ((v, k), next) set)) (((v, k), next) :: set)).
  { apply m_set_insert_perm. rewrite (agree_keys H). auto. }
  destruct H as [H2 H3 H4 H5]. split; auto. constructor.
  - rewrite P2, P. cbn. constructor. auto.
  - eapply Permutation_NoDup; [apply keys_perm; symmetry; exact P|]. cbn. constructor; auto.
  - eapply Permutation_NoDup; [apply ids_perm; symmetry; exact P|]. cbn. constructor; auto.
    intros Hin. apply H5 in Hin. lia.
  - intros i Hi. rewrite (ids_perm P) in Hi. cbn in Hi. destruct Hi as [<-|Hi]; [lia|]. apply H5 in Hi. lia.
Qed.
Lemma m_insert_spec : forall vs (s : mbtree), mb_inv s -> NoDup (keys (mb_ct s ++ vs)) ->
  let s' := m_insert srch s vs in
  mb_inv s' /\ Permutation (mb_ct s') (mb_ct s ++ vs) /\
  b_cap (snd s') = b_cap (snd s) /\ b_total (snd s') = b_total (snd s) /\ b_esz (snd s') = b_esz (snd s).
Proof.
  induction vs as [|[k v] vs IH]; intros [t s] Hi Hn.
  - cbn [m_insert]. rewrite app_nil_r. auto.
  - cbn [m_insert]. unfold mb_inv, mb_ct in *. cbn [snd] in *.
    assert (Hk : ~ In k (keys (b_map s))).
    { rewrite keys_app in Hn. cbn in Hn. apply NoDup_remove_2 in Hn. intros H. apply Hn. apply in_or_app. left.
      unfold b_ct. rewrite keys_m2c. auto. }
    destruct (@agree_insert t _ _ _ k v Hi Hk) as [H1 H2].
    apply (Permutation_map m2c) in H2. cbn in H2. unfold m2c in H2 at 2. cbn in H2.
    destruct (m_set_insert srch t (v, k, b_next s) (b_set s)) as [t' set']. cbn [snd] in H1.
    set (s1 := mkBT _ _ _ _ _ _) in *.
    destruct (IH (t', s1)) as (G1 & G2 & G3); auto.
    { eapply nodup_keys_perm; [|exact Hn]. unfold b_ct. subst s1. cbn [b_map snd]. perm1 H2. }
    split; [auto|]. split; [|auto]. unfold b_ct in *. subst s1. cbn [b_map snd] in *. perm2 G2 H2.
Qed.
Lemma m_pop_loop : forall (out_set set : list sentry) m next,
  Permutation (map s2m (out_set ++ set)) m -> NoDup (keys m) -> NoDup (ids m) -> (forall i, In i (ids m) -> i < next) ->
  exists m', b_pop_loop out_set set m = Ok (m', map s2c out_set) /\ agree set m' next.
Proof.
  induction out_set as [|[[v k] id] rest IH]; intros set m next Hp Hk Hid Hf.
  - exists m. cbn. split; auto. constructor; auto.
  - cbn in Hp. unfold s2m in Hp at 1. cbn in Hp. cbn [b_pop_loop].
    destruct (map_remove k m) as [[[v' id'] m']|] eqn:R.
    + apply map_remove_some in R.
      assert (Hx : (v', id') = (v, id)).
      { eapply keys_unique; [exact Hk| |]; [rewrite <- R; left; reflexivity|rewrite <- Hp; left; reflexivity]. }
      inversion Hx; subst. clear Hx.
      assert (P : Permutation (map s2m (rest ++ set)) m').
      { apply Permutation_cons_inv with (a := (k, (v, id))). rewrite Hp, R. auto. }
      assert (Hid' : NoDup (ids ((k, (v, id)) :: m'))) by (eapply Permutation_NoDup; [apply ids_perm; symmetry; eauto|auto]).
      cbn in Hid'. apply NoDup_cons_iff in Hid'. destruct Hid' as [Hni Hid'].
      cbn [unwrap bind snd].
      assert (A1 : in_map id m' = false) by (apply not_true; rewrite in_map_ids; auto).
      assert (A2 : in_set id rest = false).
      { apply not_true. rewrite in_set_ids. intros Hin. apply Hni. rewrite <- (ids_perm P).
        unfold ids. rewrite map_app, map_app. apply in_or_app. left. auto. }
      assert (A3 : in_set id set = false).
      { apply not_true. rewrite in_set_ids. intros Hin. apply Hni. rewrite <- (ids_perm P).
        unfold ids. rewrite map_app, map_app. apply in_or_app. right. auto. }
      rewrite A1, A2, A3. cbn [orb as_value bind fst].
      destruct (IH set m' next) as (m'' & G1 & G2); auto.
      { assert (Hk' : NoDup (keys ((k, (v, id)) :: m'))) by (eapply Permutation_NoDup; [apply keys_perm; symmetry; eauto|auto]).
        cbn in Hk'. apply NoDup_cons_iff in Hk'. tauto. }
      { intros i Hin. apply Hf. rewrite <- (ids_perm R). right; auto. }
      rewrite G1. cbn [bind]. exists m''. split; auto.
    + apply map_remove_none in R. exfalso. apply R. rewrite <- (keys_perm Hp). left; auto.
Qed.
Lemma m_flush_spec (s : mbtree) : mb_inv s -> exists s', m_flush s = Ok (s', mb_ct s) /\ mb_inv s' /\ mb_ct s' = [] /\
  b_cap (snd s') = b_cap (snd s) /\ b_esz (snd s') = b_esz (snd s) /\ b_total (snd s') = 0.
Proof.
  destruct s as [t s]. unfold mb_inv, mb_ct, m_flush, b_flush. cbn [fst snd]. intros H.
  rewrite (@b_drain_ok _ _ _ (ag_ids H)). cbn [bind]. eexists. split; [reflexivity|]. cbn.
  split; [|repeat split]. constructor; cbn; try constructor. intros i [].
Qed.
Lemma m_pop_spec (s : mbtree) n s' out : mb_inv s -> m_pop srch s n = Ok (s', out) ->
  mb_inv s' /\ Permutation (out ++ mb_ct s') (mb_ct s) /\ b_cap (snd s') = b_cap (snd s) /\ b_esz (snd s') = b_esz (snd s).
Proof.
  destruct s as [t s]. intros H E. unfold m_pop in E. cbn [fst snd] in E. destruct (b_map s) as [|x0 m0] eqn:Em.
  - inversion E; subst. split; [auto|]. split; [auto|]. split; auto.
  - rewrite <- Em in *. clear Em. destruct (b_total s <=? n) eqn:L.
    + destruct (m_flush_spec H) as (s1 & H1 & H2 & H3 & H4 & H5 & _). rewrite H1 in E. inversion E; subst.
      rewrite H3, app_nil_r. auto.
    + destruct (find_cut_at_size _ _ n) as [[i c] o]. destruct (unwrap o) as [e|]; cbn [bind] in E; [|discriminate].
      destruct (sub_chk (b_total s) c) as [total|]; cbn [bind] in E; [|discriminate].
      unfold m_set_split_off in E. destruct (mf_fun srch t (fst e) (b_set s)) as [t' [f j]]. cbn [fst snd] in E.
      destruct H as [H1 H2 H3 H4]. cbn [snd] in *.
      assert (P : Permutation (skipn j (b_set s) ++ firstn j (b_set s)) (b_set s)) by (rewrite Permutation_app_comm, firstn_skipn; auto).
      destruct (@m_pop_loop (skipn j (b_set s)) (firstn j (b_set s)) (b_map s) (b_next s)) as (m' & G1 & G2); auto.
      { rewrite P. auto. }
      rewrite G1 in E. cbn [bind] in E. inversion E; subst. unfold mb_inv, mb_ct. cbn [snd b_set b_map b_next b_cap b_esz].
      split; [auto|]. split; [|auto]. unfold b_ct. cbn [b_map]. rewrite <- (ag_same G2), <- H1, !s2c_s2m, <- map_app, P. auto.
Qed.
(** take of an absent key answers None; of a held one, the pair or a panic. *)
Lemma m_take_absent (s : mbtree) k : ~ In k (keys (mb_ct s)) -> m_take srch s k = Ok (s, None).
Proof.
  destruct s as [t s]. unfold mb_ct, b_ct. cbn [snd]. rewrite keys_m2c. intros H. unfold m_take.
  apply map_remove_none in H. rewrite H. auto.
Qed.
Lemma held_entry (s : mbtree) k x m : mb_inv s -> map_remove k (b_map (snd s)) = Some (x, m) ->
  In ((fst x, k), snd x) (b_set (snd s)).
Proof.
  intros H R. apply map_remove_some in R. assert (Hx : In (k, x) (map s2m (b_set (snd s)))) by (rewrite (ag_same H), <- R; left; auto).
  apply in_map_iff in Hx. destruct Hx as ([[v' k'] id'] & Hx & Hin). unfold s2m in Hx. cbn in Hx. inversion Hx; subst; auto.
Qed.
Lemma m_take_spec (s : mbtree) k s' o : mb_inv s -> m_take srch s k = Ok (s', o) ->
  mb_inv s' /\ Permutation (opt_list o ++ mb_ct s') (mb_ct s) /\ b_cap (snd s') = b_cap (snd s) /\ b_esz (snd s') = b_esz (snd s) /\
  (forall p, o = Some p -> fst p = k /\ exists u, cmp u (snd p) (snd p) = Eq) /\
  (o = None -> ~ In k (keys (mb_ct s)) /\ s' = s) /\ b_total (snd s') <= b_total (snd s).
Proof.
  destruct s as [t s]. intros H E. unfold m_take in E. destruct (map_remove k (b_map s)) as [[[v id] m]|] eqn:R.
  - pose proof (@held_entry (t, s) _ _ _ H R) as Hin. cbn [fst snd] in *. apply map_remove_some in R.
    unfold sub_chk in E. destruct (b_esz s (k, v) <=? b_total s) eqn:Le; cbn [bind] in E; [|discriminate]. cbn [bind] in E.
    unfold m_set_remove in E. destruct (mf_fun srch t (v, k) (b_set s)) as [t' [[|] i]] eqn:F.
    + apply found_key in F. destruct F as (u & [[v' k'] id'] & F1 & F2 & F3). cbn in F2, F3. subst k'.
      pose proof (remove_nth_perm _ _ F1) as P.
      assert (Hx : (v', id') = (v, id)).
      { destruct H as [H1 H2 _ _]. cbn [snd] in *. eapply keys_unique; [exact H2| |]; [|rewrite <- R; left; reflexivity].
        rewrite <- H1. apply in_map_iff. exists ((v', k), id'). split; auto. rewrite <- P. left; auto. }
      assert (v' = v /\ id' = id) as [-> ->] by (inversion Hx; auto). clear Hx.
      destruct (as_value _ _) as [v1|] eqn:A; cbn [bind] in E; [|discriminate]. unfold as_value in A.
      destruct (_ || _); [discriminate|]. injection A as <-. cbn [fst] in E. injection E as <- <-.
      destruct H as [H1 H2 H3 H4]. cbn [snd] in *. unfold mb_inv, mb_ct, b_ct. cbn [snd b_set b_map b_next b_cap b_esz b_total].
      split; [|split; [|split; [auto|split; [auto|split; [|split; [discriminate|lia]]]]]].
      * constructor.
        -- apply Permutation_cons_inv with (a := (k, (v, id))). apply (Permutation_map s2m) in P. rewrite R, <- H1. exact P.
        -- assert (Hk' : NoDup (keys ((k, (v, id)) :: m))) by (eapply Permutation_NoDup; [apply keys_perm; symmetry; eauto|auto]).
           cbn in Hk'. apply NoDup_cons_iff in Hk'. tauto.
        -- assert (Hk' : NoDup (ids ((k, (v, id)) :: m))) by (eapply Permutation_NoDup; [apply ids_perm; symmetry; eauto|auto]).
           cbn in Hk'. apply NoDup_cons_iff in Hk'. tauto.
        -- intros j Hj. apply H4. rewrite <- (ids_perm R). right; auto.
      * cbn [opt_list app]. rewrite <- R. cbn. auto.
      * intros p Hp. inversion Hp; subst. cbn. split; auto. exists u. auto.
    + exfalso. assert (A : in_set id (b_set s) = true) by (unfold in_set; apply existsb_exists; eexists; split; [exact Hin|apply Nat.eqb_refl]).
      cbn [snd] in E. rewrite A in E. cbn in E. discriminate.
  - inversion E; subst. cbn [opt_list app]. apply map_remove_none in R. unfold mb_ct, b_ct. cbn [snd]. rewrite keys_m2c.
    repeat split; auto; try (apply H); discriminate.
Qed.
Lemma m_take_each : forall ks (s s' : mbtree) out, mb_inv s -> take_each (m_take srch) s ks = Ok (s', out) ->
  mb_inv s' /\ Permutation (out ++ mb_ct s') (mb_ct s) /\ b_cap (snd s') = b_cap (snd s) /\ b_esz (snd s') = b_esz (snd s) /\
  (forall k, In k ks -> ~ In k (keys (mb_ct s'))) /\ b_total (snd s') <= b_total (snd s).
Proof.
  induction ks as [|k ks IH]; intros s s' out H E; cbn [take_each] in E.
  - inversion E; subst. repeat split; auto; apply H.
  - destruct (m_take srch s k) as [[s1 o]|] eqn:T; cbn [bind] in E; [|discriminate].
    destruct (take_each (m_take srch) s1 ks) as [[s2 o2]|] eqn:T2; cbn [bind] in E; [|discriminate]. inversion E; subst. clear E.
    destruct (@m_take_spec s k s1 o H T) as (A1 & A2 & A3 & A4 & A5 & A6 & A7).
    destruct (@IH s1 s' o2 A1 T2) as (C1 & C2 & C3 & C4 & C5 & C6). split; [auto|]. split; [|split; [congruence|split; [congruence|split; [|lia]]]].
    + destruct o as [p|]; cbn [opt_list app] in *.
      * rewrite <- A2. constructor. auto.
      * rewrite <- A2. auto.
    + intros k' [<-|Hk]; [|apply C5; auto]. intros Hin.
      assert (Hs1 : ~ In k (keys (mb_ct s1))).
      { destruct o as [p|].
        - destruct (A5 p eq_refl) as [<- _]. cbn [opt_list app] in A2. intros Hi.
          assert (Nd : NoDup (keys (p :: mb_ct s1))).
          { eapply Permutation_NoDup; [apply keys_perm; symmetry; exact A2|]. unfold mb_ct, b_ct. rewrite keys_m2c. apply H. }
          cbn in Nd. apply NoDup_cons_iff in Nd. tauto.
        - destruct (A6 eq_refl) as [G ->]. auto. }
      apply Hs1. eapply in_keys_perm; [exact C2|]. rewrite keys_app. apply in_or_app. auto.
Qed.
Lemma with_total_inv (s : mbtree) n : mb_inv s -> mb_inv (fst s, with_total (snd s) n).
Proof. intros [H1 H2 H3 H4]. constructor; auto. Qed.
Lemma m_push_spec (s : mbtree) vs s' out : mb_inv s -> NoDup (keys vs) -> m_push srch s vs = Ok (s', out) ->
  mb_inv s' /\ Permutation (out ++ mb_ct s') (mb_ct s ++ vs) /\ b_cap (snd s') = b_cap (snd s) /\ b_esz (snd s') = b_esz (snd s).
Proof.
  intros H Hn E. unfold m_push in E. destruct (b_cap (snd s) <=? sum_sz (b_esz (snd s)) vs) eqn:L1.
  - destruct (m_flush_spec H) as (s1 & H1 & H2 & H3 & H4 & H5 & _). rewrite H1 in E. cbn [bind] in E.
    destruct (@m_insert_spec vs s1 H2) as (I1 & I2 & I3 & I4 & I5); [rewrite H3; auto|]. rewrite H3 in I2. cbn [app] in I2.
    set (s2 := m_insert srch s1 vs) in *. pose proof (with_total_inv (sum_sz (b_esz (snd s)) vs) I1) as W.
    destruct (b_cap (snd s) <? sum_sz (b_esz (snd s)) vs) eqn:L2.
    + destruct (m_pop srch _ _) as [[s4 o4]|] eqn:P; cbn [bind] in E; [|discriminate]. inversion E; subst.
      destruct (@m_pop_spec _ _ _ _ W P) as (P1 & P2 & P3 & P4). split; [auto|].
      change (mb_ct (fst s2, with_total (snd s2) (sum_sz (b_esz (snd s)) vs))) with (mb_ct s2) in P2.
      cbn [snd with_total b_cap b_esz] in P3, P4. split; [perm2 P2 I2|]. split; congruence.
    + inversion E; subst. split; [exact W|]. split; [|cbn [snd with_total b_cap b_esz]; split; congruence].
      change (mb_ct (fst s2, with_total (snd s2) (sum_sz (b_esz (snd s)) vs))) with (mb_ct s2). perm1 I2.
  - unfold default_take_multiple in E. destruct (take_each (m_take srch) s (keys vs)) as [[s1 o1]|] eqn:T; cbn [bind] in E; [|discriminate].
    destruct (@m_take_each _ _ _ _ H T) as (A1 & A2 & A3 & A4 & A5 & _).
    destruct (sub_chk (b_cap (snd s1)) (b_total (snd s1))) as [room|]; cbn [bind] in E; [|discriminate].
    assert (G : exists s2 o2, (if room <? sum_sz (b_esz (snd s)) vs then m_pop srch s1 (sum_sz (b_esz (snd s)) vs - room) else Ok (s1, [])) = Ok (s2, o2) /\
      mb_inv s2 /\ Permutation (o2 ++ mb_ct s2) (mb_ct s1) /\ b_cap (snd s2) = b_cap (snd s1) /\ b_esz (snd s2) = b_esz (snd s1)).
    { destruct (room <? _).
      - destruct (m_pop srch s1 _) as [[s2 o2]|] eqn:P; cbn [bind] in E; [|discriminate]. exists s2, o2. split; auto.
        eapply m_pop_spec; eauto.
      - exists s1, []. cbn. auto. }
    destruct G as (s2 & o2 & G1 & G2 & G3 & G4 & G5). rewrite G1 in E. cbn [bind] in E. inversion E; subst. clear E G1.
    destruct (@m_insert_spec vs s2 G2) as (I1 & I2 & I3 & I4 & I5).
    { rewrite keys_app. apply NoDup_app_inv. split; [|split]; auto.
      - unfold mb_ct, b_ct. rewrite keys_m2c. apply G2.
      - intros k Hk1 Hk2. apply (A5 k Hk2). eapply in_keys_perm; [exact G3|]. rewrite keys_app. apply in_or_app. auto. }
    split; [apply with_total_inv; auto|]. split; [|cbn [snd with_total b_cap b_esz]; split; congruence].
    match goal with |- Permutation (_ ++ mb_ct ?x) _ => change (mb_ct x) with (mb_ct (m_insert srch s2 vs)) end.
    rewrite I2. rewrite <- A2, <- G3, <- !app_assoc. auto.
Qed.
End MBTreeProof.

(** ** C64, Array *)
Section ArrayCalls.
Context {K V D : Type} {OK : Ord K} {EK : OrdEq K}.
Variable cmp : nat -> D -> D -> comparison.
Variable srt : @MSorter K D cmp.
Variable bs : BSearch K.
Variable F : Factory V D.
(** get and get_mut of an Array do not compare values, /repo/src/array/get.rs. *)
Definition ma_get : Getter (MArrayB srt bs) := fun s k f => let* (a, o) := a_get (snd s) k f in Ok ((fst s, a), o).
(** A Decorator over such an Array as a machine answering calls. *)
Notation DB := (DecoratorB F (MArrayB srt bs)).
Definition deco_does : St DB -> call K V -> res (St DB * reply K V) :=
  @do_call K V DB (fun s k => dc_get F ma_get s k (fun v => v)) (fun s k f => dc_get F ma_get s k f).
Definition deco_ct (s : St DB) : list (K * V) := map (unwrap_kv F) (a_vals (snd (snd s))).
Definition ones (s : marray) : Prop := @ma_inv K D s /\ a_esz (snd s) = fun _ => 1.

Lemma sum_sz_one {T} (l : list T) : sum_sz (fun _ => 1) l = length l.
Proof. apply sum_sz_unit. auto. Qed.
Lemma ones_size (s : marray) : ones s -> a_total (snd s) = length (a_vals (snd s)).
Proof. intros [[H _] E]. rewrite H, E. apply sum_sz_one. Qed.
Lemma ma_pop_esz (s : marray) n s' out : ma_pop srt s n = Ok (s', out) -> a_esz (snd s') = a_esz (snd s).
Proof.
  destruct s as [t s]. unfold ma_pop. intros E. destruct (a_vals s); [inversion E; auto|]. destruct (a_total s <=? n); [inversion E; subst; auto|].
  destruct (ms_fun srt t _) as [t' vals]. destruct (find_cut_at_size vals _ _) as [[i c] e]. destruct (sub_chk _ c); cbn in E; [|discriminate]. inversion E; subst; auto.
Qed.
Lemma ma_push_esz (s : marray) vs s' out : ma_push srt s vs = Ok (s', out) -> a_esz (snd s') = a_esz (snd s).
Proof.
  destruct s as [t s]. unfold ma_push. intros E. destruct (sub_chk _ _) as [room|]; cbn [bind] in E; [|discriminate].
  destruct (_ <=? room); [inversion E; auto|]. destruct (_ =? _); [inversion E; auto|]. destruct (_ <? _).
  - destruct (ms_fun srt t vs) as [t' els]. destruct (find_cut_at_size els _ _) as [[i c] e]. destruct (sub_chk _ c); cbn in E; [|discriminate]. inversion E; auto.
  - destruct (ma_pop srt (t, s) _) as [[[t1 s1] o1]|] eqn:P; cbn [bind] in E; [|discriminate]. inversion E. cbn. apply (ma_pop_esz _ _ P).
Qed.
Lemma ma_pop_ones (s : marray) n s' out : 1 <= n -> ones s -> ma_pop srt s n = Ok (s', out) -> a_total (snd s') = a_total (snd s) - n.
Proof.
  intros Hn H E. pose proof (ones_size H) as Hsz. destruct H as [Hi He]. destruct s as [t s]. unfold ma_pop in E. cbn [snd] in *.
  destruct (a_vals s) as [|x l] eqn:Ev; [inversion E; subst; cbn [snd length] in *; lia|]. rewrite <- Ev in *. clear Ev.
  destruct (a_total s <=? n) eqn:L.
  - apply Nat.leb_le in L. inversion E; subst. cbn. lia.
  - apply Nat.leb_gt in L. pose proof (ms_perm srt t (a_vals s)) as P. destruct (ms_fun srt t (a_vals s)) as [t' vals]. cbn [snd] in P.
    rewrite He in E. destruct (find_cut_at_size vals (fun _ => 1) n) as [[i c] e] eqn:Fc. apply Permutation_length in P.
    apply find_cut_unit in Fc; [|auto|lia]. destruct Fc as [-> ->].
    unfold sub_chk in E. destruct (n <=? a_total s); cbn [bind] in E; [|discriminate]. inversion E; subst. cbn. auto.
Qed.
Lemma ma_push_ones (s : marray) vs s' out : ones s -> ma_push srt s vs = Ok (s', out) ->
  a_total (snd s') = Nat.min (a_cap (snd s)) (a_total (snd s) + length vs).
Proof.
  intros H E. pose proof H as [[_ Hc] He]. destruct s as [t s]. unfold ma_push in E. cbn [snd] in *. rewrite He, sum_sz_one in E.
  unfold sub_chk at 1 in E. rewrite (proj2 (Nat.leb_le _ _) Hc) in E. cbn [bind] in E.
  destruct (length vs <=? a_cap s - a_total s) eqn:L1; [apply Nat.leb_le in L1; inversion E; subst; cbn; lia|]. apply Nat.leb_gt in L1.
  destruct (length vs =? a_cap s) eqn:L2; [apply Nat.eqb_eq in L2; inversion E; subst; cbn; lia|]. apply Nat.eqb_neq in L2.
  destruct (a_cap s <? length vs) eqn:L3.
  - apply Nat.ltb_lt in L3. pose proof (ms_perm srt t vs) as P. destruct (ms_fun srt t vs) as [t' els]. cbn [snd] in P. apply Permutation_length in P.
    destruct (find_cut_at_size els (fun _ => 1) _) as [[i c] e] eqn:Fc. apply find_cut_unit in Fc; [|auto|lia]. destruct Fc as [-> ->].
    unfold sub_chk in E. destruct (_ <=? length vs); cbn [bind] in E; [|discriminate]. inversion E; subst. cbn. lia.
  - apply Nat.ltb_ge in L3. destruct (ma_pop srt (t, s) _) as [[[t1 s1] o1]|] eqn:P; cbn [bind] in E; [|discriminate].
    apply ma_pop_ones in P; [|lia|exact H]. cbn [snd] in P. inversion E; subst. cbn. lia.
Qed.
Lemma marray_get_ok (s : marray) k (f : D -> D) : ones s -> get_ok (MArrayB srt bs) ones (fun s => a_vals (snd s)) ma_get s k f.
Proof.
  pose (T := {| leb := fun _ _ : D => true; leb_total := fun _ _ => or_introl eq_refl; leb_trans := fun _ _ _ _ _ => eq_refl |} : Ord D).
  intros [Hi He]. destruct (@array_get_ok K D OK EK T (std_sorter snd) bs (fun _ => 1) true (snd s) k f) as (s' & o & H1 & H2 & H3 & H4 & H5); auto.
  { split; [split; auto|discriminate]. }
  unfold get_ok, ma_get. rewrite H1. cbn [bind]. exists (fst s, s'), o. split; [auto|]. cbn [snd]. split; [split; apply H2|]. auto.
Qed.
Lemma ones_step (s : marray) o s' r : ones s -> step (MArrayB srt bs) s o = Ok (s', r) -> a_esz (snd s') = fun _ => 1.
Proof.
  pose (T := {| leb := fun _ _ : D => true; leb_total := fun _ _ => or_introl eq_refl; leb_trans := fun _ _ _ _ _ => eq_refl |} : Ord D).
  pose proof (@array_laws_e K D OK EK T (std_sorter snd) bs (fun _ => 1)) as A.
  intros [Hi He] E. destruct o as [vs|n|k|ks|]; cbn [step push pop take take_multiple flush MArrayB] in E.
  - rewrite (ma_push_esz _ _ E). auto.
  - rewrite (ma_pop_esz _ _ E). auto.
  - destruct (law_take A (snd s) k (conj Hi He)) as (s1 & o & H1 & H2 & _). cbn [take ArrayB] in H1. rewrite H1 in E. cbn in E. inversion E; subst. apply H2.
  - destruct (law_take_multiple A (snd s) ks (conj Hi He)) as (s1 & ks1 & o & H1 & H2 & _). cbn [take_multiple ArrayB] in H1. rewrite H1 in E. cbn in E. inversion E; subst. apply H2.
  - inversion E; auto.
Qed.
(** Every call is answered as a cache of that capacity should, keys pushed twice included. *)
Lemma deco_step (s s' : St DB) o r : step DB s o = Ok (s', r) -> exists o' r', step (MArrayB srt bs) (snd s) o' = Ok (snd s', r').
Proof.
  destruct o as [vs|n|k|ks|]; cbn [step push pop take take_multiple flush DecoratorB].
  - destruct (wrap_all F (fst s) vs) as [f ds]. destruct (push (MArrayB srt bs) (snd s) ds) as [[s1 o1]|] eqn:E; cbn [bind]; [|discriminate].
    intros H; inversion H; subst. exists (OpPush ds), o1. auto.
  - destruct (pop (MArrayB srt bs) (snd s) n) as [[s1 o1]|] eqn:E; cbn [bind]; [|discriminate].
    intros H; inversion H; subst. exists (OpPop n), o1. auto.
  - destruct (take (MArrayB srt bs) (snd s) k) as [[s1 o1]|] eqn:E; cbn [bind]; [|discriminate].
    intros H; inversion H; subst. exists (OpTake k), (opt_list o1). cbn [step]. rewrite E. auto.
  - destruct (take_multiple (MArrayB srt bs) (snd s) ks) as [[[s1 ks1] o1]|] eqn:E; cbn [bind]; [|discriminate].
    intros H; inversion H; subst. exists (OpTakeMultiple ks), o1. cbn [step]. rewrite E. auto.
  - destruct (flush (MArrayB srt bs) (snd s)) as [[s1 o1]|] eqn:E; cbn [bind]; [|discriminate].
    intros H; inversion H; subst. exists OpFlush, o1. auto.
Qed.
Lemma deco_call (s : St DB) x cap : ones (snd s) -> a_cap (snd (snd s)) = cap ->
  exists s' r, deco_does s x = Ok (s', r) /\ ones (snd s') /\ a_cap (snd (snd s')) = cap /\ effect cap (deco_ct s) x r (deco_ct s').
Proof.
  intros H Hcap. pose proof (decorator_laws F (marray_laws srt bs)) as L.
  pose proof H as [Hi He].
  assert (Hl : forall s : St DB, ones (snd s) -> size DB s = length (deco_ct s)).
  { intros s0 H0. change (size DB s0) with (a_total (snd (snd s0))). rewrite (ones_size H0). unfold deco_ct. rewrite map_length. auto. }
  assert (Hk : forall s' o r, @dc_inv K V D F (MArrayB srt bs) (@ma_inv K D) s' -> step DB s o = Ok (s', r) -> ones (snd s')).
  { intros s' o r Hi' E. apply deco_step in E as (o' & r' & E). split; [exact Hi'|]. eapply ones_step; eauto. }
  assert (Hg : forall k f, exists s' o, dc_get F ma_get s k f = Ok (s', o) /\ ones (snd s') /\ a_cap (snd (snd s')) = cap /\
    match o with Some v => exists rest, Permutation (deco_ct s) ((k, v) :: rest) /\ Permutation (deco_ct s') ((k, f v) :: rest)
    | None => ~ In k (keys (deco_ct s)) /\ Permutation (deco_ct s') (deco_ct s) end).
  { intros k f. destruct (@decorator_get_ok K V D OK EK F (MArrayB srt bs) ones (fun s => a_vals (snd s)) ma_get s k f) as (s' & o & G1 & G2 & G3 & G4 & G5).
    - apply marray_get_ok; auto.
    - exists s', o. split; [auto|]. split; [apply G2|]. split; [|exact G5]. change (a_cap (snd (snd s')) = a_cap (snd (snd s))) in G3. congruence. }
  unfold deco_does, do_call. destruct x as [o|k|k|k f].
  - destruct o as [vs|n|k|ks|].
    + destruct (law_push L s vs Hi ltac:(discriminate)) as (s' & out & E & H1 & H2 & H3). cbn [step]. rewrite E. cbn [bind].
      pose proof (Hk s' (OpPush vs) out H1 E) as Ho. eexists _, _. split; [reflexivity|]. split; [auto|]. split; [change (a_cap (snd (snd s')) = a_cap (snd (snd s))) in H2; congruence|].
      cbn [effect]. split; [exact H3|]. rewrite <- (Hl s' Ho), <- (Hl s H), <- Hcap.
      cbn [push DecoratorB] in E. pose proof (unwrap_wrap_all F vs (fst s)) as U. destruct (wrap_all F (fst s) vs) as [f ds] eqn:W.
      destruct (push (MArrayB srt bs) (snd s) ds) as [[s1 o1]|] eqn:E1; cbn [bind] in E; [|discriminate]. inversion E; subst.
      cbn [size DecoratorB MArrayB snd]. rewrite (@ma_push_ones (snd s) ds s1 o1 H E1). f_equal. f_equal.
      cbn [snd]. rewrite map_length. auto.
    + destruct (law_pop L eq_refl s n Hi) as (s' & out & E & H1 & H2 & H3 & H4 & H5). cbn [step]. rewrite E. cbn [bind].
      pose proof (Hk s' (OpPop n) out H1 E) as Ho. eexists _, _. split; [reflexivity|]. split; [auto|]. split; [change (a_cap (snd (snd s')) = a_cap (snd (snd s))) in H2; congruence|].
      cbn [effect]. split; [exact H3|]. destruct H4 as [H4|H4]; [left|right; exact H4]. rewrite (Hl s' Ho), (Hl s H) in H4.
      apply Permutation_length in H3. rewrite app_length in H3. unfold dc_ct in H3. unfold deco_ct, ma_ct in *. lia.
    + destruct (law_take L s k Hi) as (s' & o & E & H1 & H2 & H3 & H4). cbn [step]. rewrite E. cbn [bind].
      assert (Es : step DB s (OpTake k) = Ok (s', opt_list o)) by (cbn [step]; rewrite E; auto).
      pose proof (Hk s' (OpTake k) _ H1 Es) as Ho. eexists _, _. split; [reflexivity|]. split; [auto|]. split; [change (a_cap (snd (snd s')) = a_cap (snd (snd s))) in H2; congruence|].
      cbn [effect]. destruct o as [[k' v]|]; cbn [opt_list].
      * destruct H4 as [-> P]. left. exists v. auto.
      * right. destruct H4. auto.
    + destruct (law_take_multiple L s ks Hi) as (s' & ks' & out & E & H1 & H2 & H3 & H4 & H5 & H6 & _). cbn [step]. rewrite E. cbn [bind].
      assert (Es : step DB s (OpTakeMultiple ks) = Ok (s', out)) by (cbn [step]; rewrite E; auto).
      pose proof (Hk s' (OpTakeMultiple ks) _ H1 Es) as Ho. eexists _, _. split; [reflexivity|]. split; [auto|]. split; [change (a_cap (snd (snd s')) = a_cap (snd (snd s))) in H2; congruence|].
      cbn [effect]. split; [exact H4|]. intros k. split; [|intros [A1 A2]; apply H6; auto]. intros Hin. split; [apply H5; auto|].
      eapply in_keys_perm; [exact H4|]. rewrite keys_app. apply in_or_app. auto.
    + destruct (law_flush L s Hi) as (s' & out & E & H1 & H2 & H3 & H4). cbn [step]. rewrite E. cbn [bind].
      pose proof (Hk s' OpFlush _ H1 E) as Ho. eexists _, _. split; [reflexivity|]. split; [auto|]. split; [change (a_cap (snd (snd s')) = a_cap (snd (snd s))) in H2; congruence|].
      cbn [effect]. specialize (H4 eq_refl). rewrite H4, app_nil_r in H3. auto.
  - pose proof (law_contains L s k Hi) as E. rewrite E. cbn [bind]. eexists _, _. split; [reflexivity|]. split; [auto|]. split; [auto|].
    cbn [effect]. split; [apply has_key_in|auto].
  - destruct (Hg k (fun v => v)) as (s' & o & G1 & G2 & G3 & G4). rewrite G1. cbn [bind]. eexists _, _. split; [reflexivity|]. split; [auto|]. split; [auto|].
    cbn [effect]. destruct o as [v|]; auto. destruct G4 as (rest & P1 & P2). split; [rewrite P1; left; auto|]. rewrite P2. symmetry. auto.
  - destruct (Hg k f) as (s' & o & G1 & G2 & G3 & G4). rewrite G1. cbn [bind]. eexists _, _. split; [reflexivity|]. split; [auto|]. split; [auto|].
    cbn [effect]. destruct o as [v|]; auto.
Qed.
End ArrayCalls.
Arguments deco_does {K V D OK cmp} srt bs F _ _.
Arguments deco_ct {K V D OK cmp} srt bs F _.

(** The comparison of Lrfu cells, made when the clock has been read [t] times: its two readings, then the scores. *)
Definition lrfu_dated {V} (clock : nat -> Q) (t : nat) (a b : lrfu_cell V) : comparison :=
  lrfu_cmp (clock t) (clock (S t)) (lrfu_st a) (lrfu_st b).

(** Over an Array every history of calls, get and get_mut included, is answered as by a cache of that capacity (Calls.v):
    whatever the comparisons answer, at whatever moment, and however the sort uses them. *)
Theorem C64_array_is_a_cache : forall K (OK : Ord K) (EK : OrdEq K) V D (F : Factory V D) (cmp : nat -> D -> D -> comparison)
    (srt : @MSorter K D cmp) bs cap f0 t0 h,
  exists s rs c, play (deco_does srt bs F) (f0, (t0, array_new cap (fun _ => 1))) h = Ok (s, rs) /\ follows cap h rs c /\
    Permutation c (deco_ct srt bs F s).
Proof.
  intros K OK EK V D F cmp srt bs cap f0 t0 h.
  assert (G : exists s rs c, play (deco_does srt bs F) (f0, (t0, array_new cap (fun _ => 1))) h = Ok (s, rs) /\ follows cap h rs c /\
    Permutation c (deco_ct srt bs F s) /\ ones (snd s) /\ a_cap (snd (snd s)) = cap).
  { induction h as [|x h IH] using rev_ind.
    - eexists _, _, []. split; [reflexivity|]. split; [constructor|]. split; [constructor|]. cbn. split; [|auto]. split; [|auto]. split; cbn; lia.
    - destruct IH as (s & rs & c & H1 & H2 & H3 & H4 & H5). rewrite play_snoc, H1. cbn [bind].
      destruct (@deco_call K V D OK EK cmp srt bs F s x cap H4 H5) as (s' & r & E & G1 & G2 & G3). rewrite E. cbn [bind].
      exists s', (rs ++ [r]), (deco_ct srt bs F s'). split; [auto|]. split; [|auto]. apply follows_snoc with c; auto. eapply effect_perm; eauto. }
  destruct G as (s & rs & c & H1 & H2 & H3 & _). exists s, rs, c. auto.
Qed.
Theorem C64_lrfu_over_array_is_a_cache : forall K (OK : Ord K) (EK : OrdEq K) V (clock : nat -> Q) e
    (srt : @MSorter K (lrfu_cell V) (lrfu_dated clock)) bs cap f0 t0 h,
  exists s rs c, play (deco_does srt bs (Lrfu clock e)) (f0, (t0, array_new cap (fun _ => 1))) h = Ok (s, rs) /\ follows cap h rs c.
Proof. intros. destruct (@C64_array_is_a_cache K OK EK V _ (Lrfu clock e) _ srt bs cap f0 t0 h) as (s & rs & c & H1 & H2 & _). eauto. Qed.

(** What is evicted: the greatest scores, when no two are closer than the longest time between two readings. *)
Definition offset {V} (c : lrfu_cell V) : Q := ls_score 0 (lrfu_st c).
Definition apart {K V} (g : Q) (l : list (K * lrfu_cell V)) : Prop := forall l1 x l2 y l3, l = l1 ++ x :: l2 ++ y :: l3 ->
  (g < offset (snd x) - offset (snd y) \/ g < offset (snd y) - offset (snd x))%Q.
Lemma score_offset {V} now (c : lrfu_cell V) : (ls_score now (lrfu_st c) == now + offset c)%Q.
Proof. unfold offset, ls_score. ring. Qed.
Lemma apart_perm {K V} g (l l' : list (K * lrfu_cell V)) : Permutation l l' -> apart g l -> apart g l'.
Proof.
  assert (N : forall l : list (K * lrfu_cell V), apart g l <-> ForallOrdPairs (fun x y => g < offset (snd x) - offset (snd y) \/ g < offset (snd y) - offset (snd x))%Q l).
  { clear. induction l as [|a l IH].
    - split; [constructor|]. intros _ l1 x l2 y l3 E. destruct l1; discriminate.
    - split.
      + intros H. constructor.
        * apply Forall_forall. intros y Hy. apply in_split in Hy as (l2 & l3 & ->). apply (H [] a l2 y l3). auto.
        * apply IH. intros l1 x l2 y l3 ->. apply (H (a :: l1) x l2 y l3). auto.
      + intros H. inversion H as [|? ? H1 H2]; subst. intros [|b l1] x l2 y l3 E; cbn in E; injection E as -> E.
        * rewrite Forall_forall in H1. apply H1. rewrite E. apply in_or_app. right. left. auto.
        * apply IH in H2. apply (H2 l1 x l2 y l3 E). }
  intros P H. apply N. apply N in H. revert H. induction P as [|x l l' P IH|x y l|l l1 l' P1 IH1 P2 IH2]; intros H; auto.
  - inversion H as [|? ? H1 H2]; subst. constructor; auto. rewrite <- P. auto.
  - inversion H as [|? ? H1 H2]; subst. inversion H1 as [|? ? H3 H4]; subst. inversion H2 as [|? ? H5 H6]; subst.
    constructor; [constructor; [tauto|auto]|]. constructor; auto.
Qed.
Theorem C64_array_evicts_greatest_scores : forall K (OK : Ord K) V (clock : nat -> Q) (g : Q)
    (srt : @MSorter K (lrfu_cell V) (lrfu_dated clock)) bs t a n t' a' out,
  (forall u, clock u <= clock (S u) <= clock u + g)%Q -> apart g (a_vals a) ->
  pop (MArrayB srt bs) (t, a) n = Ok ((t', a'), out) ->
  forall now x y, In x (a_vals a') -> In y out -> (ls_score now (lrfu_st (snd x)) < ls_score now (lrfu_st (snd y)))%Q.
Proof.
  intros K OK V clock g srt bs t a n t' a' out Hc Ha E now x y Hx Hy. cbn [pop MArrayB] in E. unfold ma_pop in E.
  rewrite !score_offset.
  destruct (a_vals a) as [|z l] eqn:Ev; [inversion E; subst; destruct Hy|]. rewrite <- Ev in *. clear Ev z l.
  destruct (a_total a <=? n); [inversion E; subst; destruct Hx|].
  pose proof (ms_perm srt t (a_vals a)) as P. pose proof (ms_compared srt t (a_vals a)) as C.
  destruct (ms_fun srt t (a_vals a)) as [t1 vals]. cbn [snd] in P, C. apply (apart_perm (Permutation_sym P)) in Ha.
  destruct (find_cut_at_size vals _ n) as [[i c] o]. destruct (sub_chk _ c); cbn [bind] in E; [|discriminate]. inversion E; subst. clear E. cbn [a_vals] in Hx.
  assert (S1 : forall b x1 y1 d, vals = b ++ x1 :: y1 :: d -> (offset (snd x1) < offset (snd y1))%Q).
  { intros b x1 y1 d Ev. destruct (C b x1 y1 d Ev) as (u & _ & Hu). specialize (Hc u). specialize (Ha b x1 [] y1 d Ev).
    unfold lrfu_dated, lrfu_cmp in Hu.
    assert (Hu' : (offset (snd x1) + clock u <= offset (snd y1) + clock (S u) \/ offset (snd x1) + clock (S u) <= offset (snd y1) + clock u)%Q).
    { destruct Hu as [Hu|Hu].
      - left. apply <- Qle_alt in Hu. rewrite !score_offset in Hu. lra.
      - right. apply Qnot_lt_le. intros Q. apply Hu. apply -> Qlt_alt. rewrite !score_offset. lra. }
    destruct Hu' as [Hu'|Hu'], Ha as [Ha|Ha]; lra. }
  assert (S2 : forall d b x1 y1 m, vals = b ++ x1 :: m ++ y1 :: d -> (offset (snd x1) < offset (snd y1))%Q).
  { clear - S1. intros d b x1 y1 m. revert b x1. induction m as [|z m IH]; intros b x1 Ev; [apply (S1 b x1 y1 d Ev)|].
    eapply Qlt_trans; [apply (S1 b x1 z (m ++ y1 :: d) Ev)|]. apply (IH (b ++ [x1]) z). rewrite <- app_assoc. auto. }
  apply in_split in Hx as (b & m1 & Hx). apply in_split in Hy as (m2 & d & Hy).
  assert (Ev : vals = b ++ x :: (m1 ++ m2) ++ y :: d).
  { rewrite <- (firstn_skipn i vals), Hx, Hy. rewrite <- !app_assoc. cbn [app]. auto. }
  specialize (S2 _ _ _ _ _ Ev). lra.
Qed.

(** ** C64, BTree *)
Definition distinct_pushes {K V} (h : list (op K V)) : Prop := forall vs, In (OpPush vs) h -> NoDup (keys vs).
Section BTreeCalls.
Context {K V D : Type} {OK : Ord K} {EK : OrdEq K}.
Variable cmp : nat -> D -> D -> comparison.
Variable srch : @MSearch K D OK cmp.
Variable F : Factory V D.
Notation DB := (DecoratorB F (MBTreeB srch)).
Definition dm_ct (s : St DB) : list (K * V) := map (unwrap_kv F) (mb_ct (snd s)).
Definition dm_start (f0 : Fst F) (t0 cap : nat) (esz : K * D -> nat) : St DB := (f0, (t0, btree_new cap esz)).

Lemma dm_step (s s' : St DB) o r : mb_inv (snd s) -> (forall vs, o = OpPush vs -> NoDup (keys vs)) -> step DB s o = Ok (s', r) ->
  mb_inv (snd s') /\ Permutation (r ++ dm_ct s') (dm_ct s ++ given o) /\ b_cap (snd (snd s')) = b_cap (snd (snd s)) /\ b_esz (snd (snd s')) = b_esz (snd (snd s)).
Proof.
  destruct s as [f s]. unfold dm_ct. cbn [fst snd]. intros H Hd E.
  assert (U : forall r' c' c : list (K * D), Permutation (r' ++ c') c -> Permutation (map (unwrap_kv F) r' ++ map (unwrap_kv F) c') (map (unwrap_kv F) c)).
  { intros r' c' c P. rewrite <- map_app. apply Permutation_map. auto. }
  destruct o as [vs|n|k|ks|]; cbn [step push pop take take_multiple flush DecoratorB MBTreeB fst snd] in E; cbn [given]; rewrite ?app_nil_r.
  - pose proof (unwrap_wrap_all F vs f) as W. pose proof (keys_unwrap F (snd (wrap_all F f vs))) as Kw. rewrite W in Kw.
    destruct (wrap_all F f vs) as [f1 ds]. cbn [snd] in W, Kw. destruct (m_push srch s ds) as [[s1 o1]|] eqn:P; cbn [bind] in E; [|discriminate].
    inversion E; subst s' r. destruct (@m_push_spec K D OK EK cmp srch s ds s1 o1 H) as (H1 & H2 & H3 & H4); auto.
    { rewrite <- Kw. apply (Hd vs eq_refl). }
    cbn [snd]. split; [auto|]. split; [|auto]. apply U in H2. rewrite map_app, W in H2. auto.
  - destruct (m_pop srch s n) as [[s1 o1]|] eqn:P; cbn [bind] in E; [|discriminate]. inversion E; subst s' r.
    destruct (@m_pop_spec K D OK EK cmp srch s n s1 o1 H P) as (H1 & H2 & H3 & H4). cbn [snd]. auto.
  - destruct (m_take srch s k) as [[s1 o1]|] eqn:P; cbn [bind] in E; [|discriminate]. inversion E; subst s' r.
    destruct (@m_take_spec K D OK EK cmp srch s k s1 o1 H P) as (H1 & H2 & H3 & H4 & _). cbn [snd]. split; [auto|]. split; [|auto].
    apply U in H2. destruct o1; auto.
  - unfold default_take_multiple in E. destruct (take_each (m_take srch) s ks) as [[s1 o1]|] eqn:P; cbn [bind] in E; [|discriminate]. inversion E; subst s' r.
    destruct (@m_take_each K D OK EK cmp srch ks s s1 o1 H P) as (H1 & H2 & H3 & H4 & _). cbn [snd]. auto.
  - destruct (@m_flush_spec K D s H) as (s1 & P & H1 & H2 & H3 & H4 & _). rewrite P in E. cbn [bind] in E. inversion E; subst s' r. cbn [snd].
    split; [auto|]. split; [|auto]. rewrite H2. cbn [map]. rewrite app_nil_r. auto.
Qed.
Lemma dm_run : forall h (s s' : St DB) r, mb_inv (snd s) -> distinct_pushes h -> run DB s h = Ok (s', r) ->
  mb_inv (snd s') /\ Permutation (r ++ dm_ct s') (dm_ct s ++ all_given h) /\ b_cap (snd (snd s')) = b_cap (snd (snd s)) /\ b_esz (snd (snd s')) = b_esz (snd (snd s)).
Proof.
  induction h as [|o h IH]; intros s s' r H Hd E; cbn [run] in E.
  - inversion E; subst. cbn [app all_given flat_map]. rewrite app_nil_r. auto.
  - destruct (step DB s o) as [[s1 r1]|] eqn:E1; cbn [bind] in E; [|discriminate]. destruct (run DB s1 h) as [[s2 r2]|] eqn:E2; cbn [bind] in E; [|discriminate].
    inversion E; subst s' r. destruct (@dm_step s s1 o r1 H) as (A1 & A2 & A3 & A4); auto. { intros vs ->. apply Hd. left. auto. }
    destruct (IH s1 s2 r2 A1) as (C1 & C2 & C3 & C4); auto. { intros vs Hv. apply Hd. right. auto. }
    split; [auto|]. split; [|split; congruence]. unfold all_given in *. cbn [flat_map]. perm2 A2 C2.
Qed.
Lemma dm_start_inv f0 t0 cap esz : mb_inv (snd (dm_start f0 t0 cap esz)) /\ dm_ct (dm_start f0 t0 cap esz) = [].
Proof. split; auto. constructor; cbn; try constructor. intros i []. Qed.

(** Whatever the comparisons answer, what a history of calls got back and what a flush then gives is all that was pushed,
    once each, and contains tells what the flush will give. *)
Theorem C64_btree_loses_nothing : forall f0 t0 cap esz h s r, distinct_pushes h -> run DB (dm_start f0 t0 cap esz) h = Ok (s, r) ->
  exists s' out, flush DB s = Ok (s', out) /\ Permutation (r ++ out) (all_given h) /\ NoDup (keys out) /\ size DB s' = 0 /\
    forall k, contains DB s k = Ok (has_key k out).
Proof.
  intros f0 t0 cap esz h s r Hd E. destruct (dm_start_inv f0 t0 cap esz) as [I0 C0].
  destruct (@dm_run h _ s r I0 Hd E) as (H & P & _). rewrite C0 in P. cbn [app] in P.
  destruct (@m_flush_spec K D (snd s) H) as (s1 & F1 & H1 & H2 & H3 & H4 & H5). destruct s as [f s]. cbn [fst snd] in *.
  exists (f, s1), (dm_ct (f, s)). cbn [flush size contains DecoratorB MBTreeB fst snd]. rewrite F1. cbn [bind]. split; [auto|]. split; [auto|].
  unfold dm_ct. cbn [snd]. split; [|split; [auto|]].
  - rewrite keys_unwrap. unfold mb_ct, b_ct. rewrite keys_m2c. apply H.
  - intros k. unfold b_contains. f_equal. destruct (has_key k (b_map (snd s))) eqn:Hk; symmetry.
    + apply has_key_in. rewrite keys_unwrap. unfold mb_ct, b_ct. rewrite keys_m2c. apply has_key_in; auto.
    + apply has_key_not_in. rewrite keys_unwrap. unfold mb_ct, b_ct. rewrite keys_m2c. apply has_key_not_in; auto.
Qed.

Lemma contains_ct (s : St DB) k b : contains DB s k = Ok b -> b = true <-> In k (keys (mb_ct (snd s))).
Proof.
  cbn [contains DecoratorB MBTreeB]. unfold b_contains. intros E. assert (has_key k (b_map (snd (snd s))) = b) by congruence. subst b.
  rewrite has_key_in. unfold mb_ct, b_ct. rewrite keys_m2c. tauto.
Qed.
Hypothesis below : forall t v, cmp t v v <> Eq.
Lemma m_take_panics (s : mbtree) k : mb_inv s -> In k (keys (mb_ct s)) -> m_take srch s k = Panic.
Proof.
  intros H Hk. destruct (m_take srch s k) as [[s' o]|] eqn:E; auto. exfalso.
  destruct (@m_take_spec K D OK EK cmp srch s k s' o H E) as (_ & _ & _ & _ & A & B & _). destruct o as [p|].
  - destruct (A p eq_refl) as [_ [u Hu]]. apply below in Hu. auto.
  - destruct (B eq_refl). auto.
Qed.
Lemma m_each_panics : forall ks (s : mbtree) k, mb_inv s -> In k ks -> In k (keys (mb_ct s)) -> take_each (m_take srch) s ks = Panic.
Proof.
  induction ks as [|k0 ks IH]; intros s k H Hk Hin; [destruct Hk|]. destruct Hk as [->|Hk]; cbn [take_each].
  - rewrite (@m_take_panics _ _ H Hin). auto.
  - destruct (has_key k0 (mb_ct s)) eqn:E.
    + apply has_key_in in E. rewrite (@m_take_panics _ _ H E). auto.
    + apply has_key_not_in in E. rewrite (@m_take_absent _ _ _ _ _ srch _ _ E). cbn [bind]. rewrite (IH _ _ H Hk Hin). auto.
Qed.
(** A key that is held cannot be taken out, read, written or pushed again: the call panics. *)
Theorem C64_btree_held_keys_panic : forall f0 t0 cap esz h s r k, distinct_pushes h -> run DB (dm_start f0 t0 cap esz) h = Ok (s, r) ->
  contains DB s k = Ok true ->
  take DB s k = Panic /\
  (forall ks, In k ks -> take_multiple DB s ks = Panic) /\
  (forall f, dc_get F (m_get srch : Getter (MBTreeB srch)) s k f = Panic) /\
  (forall v, esz (k, snd (wrap F (fst s) v)) < cap -> push DB s [(k, v)] = Panic).
Proof.
  intros f0 t0 cap esz h s r k Hd E Hc. destruct (dm_start_inv f0 t0 cap esz) as [I0 C0].
  destruct (@dm_run h _ s r I0 Hd E) as (H & _ & Hcap & Hesz). cbn in Hcap, Hesz. apply contains_ct in Hc. pose proof (proj1 Hc eq_refl) as Hin. clear Hc.
  pose proof (@m_take_panics _ _ H Hin) as T. split; [|split; [|split]].
  - cbn [take DecoratorB MBTreeB]. rewrite T. auto.
  - intros ks Hk. cbn [take_multiple DecoratorB MBTreeB]. unfold default_take_multiple. rewrite (@m_each_panics _ _ _ H Hk Hin). auto.
  - intros f. unfold dc_get, m_get. rewrite T. auto.
  - intros v Hs. clear E. destruct s as [fs [t b]]. cbn [fst snd] in *. cbn [push DecoratorB MBTreeB wrap_all fst]. destruct (wrap F fs v) as [f1 d]. cbn [snd] in Hs.
    unfold m_push. cbn [snd]. rewrite Hesz, Hcap. unfold sum_sz at 1. cbn [map list_sum fold_right]. rewrite Nat.add_0_r.
    rewrite (proj2 (Nat.leb_gt _ _) Hs). unfold default_take_multiple. cbn [keys map fst take_each]. rewrite T. auto.
Qed.
End BTreeCalls.
(** What remains: new keys that fit are kept, ... *)
Theorem C64_btree_new_keys : forall K (OK : Ord K) (EK : OrdEq K) V D (cmp : nat -> D -> D -> comparison) (srch : @MSearch K D OK cmp) (F : Factory V D)
    f0 t0 cap h s r vs,
  let B := DecoratorB F (MBTreeB srch) in
  distinct_pushes h -> run B (f0, (t0, btree_new cap (fun _ => 1))) h = Ok (s, r) ->
  NoDup (keys vs) -> (forall k, In k (keys vs) -> contains B s k = Ok false) -> length vs < cap -> size B s + length vs <= cap ->
  exists s', push B s vs = Ok (s', []) /\ size B s' = size B s + length vs /\ forall k, In k (keys vs) -> contains B s' k = Ok true.
Proof.
  intros K OK EK V D cmp srch F f0 t0 cap h s r vs B Hd E Hn Hk Hl Hs.
  destruct (@dm_start_inv K V D OK cmp srch F f0 t0 cap (fun _ => 1)) as [I0 C0].
  destruct (@dm_run K V D OK EK cmp srch F h _ s r I0 Hd E) as (H & _ & Hcap & Hesz). cbn in Hcap, Hesz. clear E. subst B.
  assert (Hk' : forall k, In k (keys vs) -> ~ In k (keys (mb_ct (snd s)))).
  { intros k Hi Hx. specialize (Hk k Hi). apply contains_ct in Hk; auto. apply Hk in Hx. discriminate. }
  clear Hk. destruct s as [f [t b]]. cbn [snd] in *. cbn [push size contains DecoratorB MBTreeB fst snd] in *.
  pose proof (unwrap_wrap_all F vs f) as W. pose proof (keys_unwrap F (snd (wrap_all F f vs))) as Kw. rewrite W in Kw.
  apply (f_equal (@length _)) in W. rewrite map_length in W.
  destruct (wrap_all F f vs) as [f1 ds]. cbn [snd] in W, Kw. rewrite <- W in Hl, Hs. rewrite <- W. rewrite Kw in *.
  unfold m_push. cbn [snd]. rewrite Hesz, Hcap, sum_sz_one. rewrite (proj2 (Nat.leb_gt _ _) Hl). unfold default_take_multiple.
  assert (T : forall ks, incl ks (keys ds) -> take_each (m_take srch) (t, b) ks = Ok ((t, b), [])).
  { induction ks as [|k ks IH]; intros Hi; cbn [take_each]; auto. rewrite (@m_take_absent _ _ _ _ _ srch (t, b) k); [|apply Hk'; apply Hi; left; auto].
    cbn [bind]. rewrite IH; auto. intros x Hx. apply Hi. right. auto. }
  rewrite T by (intros x Hx; exact Hx). cbn [bind snd]. unfold sub_chk. rewrite Hcap, (proj2 (Nat.leb_le (b_total b) cap)) by lia. cbn [bind].
  rewrite (proj2 (Nat.ltb_ge (cap - b_total b) (length ds))) by lia. cbn [bind].
  destruct (@m_insert_spec K D OK EK cmp srch ds (t, b) H) as (I1 & I2 & I3 & I4 & I5).
  { rewrite keys_app. apply NoDup_app_inv. split; [|split]; auto.
    - unfold mb_ct, b_ct. rewrite keys_m2c. apply H.
    - intros k H1 H2. apply (Hk' k H2 H1). }
  eexists. split; [reflexivity|]. cbn [snd with_total b_total]. split; [rewrite I4; auto|].
  intros k Hi. unfold b_contains. f_equal. cbn [b_map with_total]. apply has_key_in.
  replace (keys (b_map (snd (m_insert srch (t, b) ds)))) with (keys (mb_ct (m_insert srch (t, b) ds))) by (unfold mb_ct, b_ct; apply keys_m2c).
  eapply in_keys_perm; [symmetry; exact I2|]. rewrite keys_app. apply in_or_app. auto.
Qed.
(** ... and: absent keys are answered None without effect. *)
Theorem C64_btree_absent_keys : forall K (OK : Ord K) (EK : OrdEq K) V D (cmp : nat -> D -> D -> comparison) (srch : @MSearch K D OK cmp) (F : Factory V D) s k,
  contains (DecoratorB F (MBTreeB srch)) s k = Ok false ->
  take (DecoratorB F (MBTreeB srch)) s k = Ok (s, None) /\
  forall f, dc_get F (m_get srch : Getter (MBTreeB srch)) s k f = Ok (s, None).
Proof.
  intros K OK EK V D cmp srch F [f0 s] k Hc.
  assert (Hn : ~ In k (keys (mb_ct s))).
  { cbn [contains DecoratorB MBTreeB snd] in Hc. unfold b_contains in Hc. assert (E : has_key k (b_map (snd s)) = false) by congruence.
    apply has_key_not_in in E. unfold mb_ct, b_ct. rewrite keys_m2c. auto. }
  cbn [take DecoratorB MBTreeB fst snd]. unfold dc_get, m_get. cbn [fst snd]. rewrite (@m_take_absent _ _ _ _ _ srch _ _ Hn). auto.
Qed.
(** Lrfu over a BTree, with any clock that advances at each reading. *)
Lemma lrfu_below {V} (clock : nat -> Q) : (forall n, clock n < clock (S n))%Q -> forall t (v : lrfu_cell V), lrfu_dated clock t v v <> Eq.
Proof. intros H t v. unfold lrfu_dated. rewrite C24_cell_below_itself_refuted; [discriminate|auto]. Qed.
Theorem C64_lrfu_over_btree_refuted : forall K (OK : Ord K) (EK : OrdEq K) V (clock : nat -> Q) e
    (srch : @MSearch K (lrfu_cell V) OK (lrfu_dated clock)) f0 t0 cap h s r k,
  (forall n, clock n < clock (S n))%Q -> distinct_pushes h ->
  let B := DecoratorB (Lrfu clock e) (MBTreeB srch) in
  run B (f0, (t0, btree_new cap (fun _ => 1))) h = Ok (s, r) -> contains B s k = Ok true ->
  take B s k = Panic /\ (forall f, dc_get (Lrfu clock e) (m_get srch : Getter (MBTreeB srch)) s k f = Panic) /\
  (forall v, 1 < cap -> push B s [(k, v)] = Panic).
Proof.
  intros K OK EK V clock e srch f0 t0 cap h s r k Hc Hd B E Hk.
  destruct (@C64_btree_held_keys_panic K V (lrfu_cell V) OK EK _ srch (Lrfu clock e) (lrfu_below clock Hc) f0 t0 cap (fun _ => 1) h s r k Hd E Hk) as (H1 & _ & H2 & H3).
  auto.
Qed.

(** ** The hypotheses are met: insertion sort, and the scan of the members in order *)
Section Instances.
Context {K V : Type} {OK : Ord K}.
Variable cmp : nat -> V -> V -> comparison.
Definition compared_from (t0 : nat) (x y : K * V) : Prop := exists u, t0 <= u /\ (cmp u (snd x) (snd y) <> Gt \/ cmp u (snd y) (snd x) <> Lt).
Lemma msort_ins_ok t0 x : forall l t, t0 <= t -> t <= fst (msort_ins cmp t x l) /\ Permutation (snd (msort_ins cmp t x l)) (x :: l) /\
  (Sorted (compared_from t0) l -> Sorted (compared_from t0) (snd (msort_ins cmp t x l)) /\
    forall z, HdRel (compared_from t0) z l -> compared_from t0 z x -> HdRel (compared_from t0) z (snd (msort_ins cmp t x l))).
Proof.
  induction l as [|y l IH]; intros t Ht; cbn [msort_ins].
  - cbn. repeat split; auto.
  - assert (G : cmp t (snd x) (snd y) <> Gt ->
      t <= fst (S (S t), x :: y :: l) /\ Permutation (snd (S (S t), x :: y :: l)) (x :: y :: l) /\
      (Sorted (compared_from t0) (y :: l) -> Sorted (compared_from t0) (snd (S (S t), x :: y :: l)) /\
        forall z, HdRel (compared_from t0) z (y :: l) -> compared_from t0 z x -> HdRel (compared_from t0) z (snd (S (S t), x :: y :: l)))).
    { intros Hc. cbn [fst snd]. split; [lia|]. split; [auto|]. intros Hs. split.
      - constructor; auto. constructor. exists t. auto.
      - intros z _ Hz. constructor. auto. }
    destruct (cmp t (snd x) (snd y)) eqn:C; try (apply G; discriminate). clear G.
    destruct (IH (S (S t))) as (H1 & H2 & H3); [lia|]. destruct (msort_ins cmp (S (S t)) x l) as [t' r]. cbn [fst snd] in *.
    split; [lia|]. split; [rewrite H2; apply perm_swap|]. intros Hs. inversion Hs as [|? ? Hs1 Hs2]; subst.
    destruct (H3 Hs1) as [H4 H5]. split.
    + constructor; auto. apply H5; auto. exists t. split; [auto|]. right. rewrite C. discriminate.
    + intros z Hz _. inversion Hz; subst. constructor. auto.
Qed.
Lemma msort_ok t0 : forall l, t0 <= fst (msort cmp t0 l) /\ Permutation (snd (msort cmp t0 l)) l /\ Sorted (compared_from t0) (snd (msort cmp t0 l)).
Proof.
  induction l as [|x l IH]; cbn [msort]; [cbn; auto|]. destruct IH as (H1 & H2 & H3). destruct (msort cmp t0 l) as [t1 r]. cbn [fst snd] in *.
  destruct (@msort_ins_ok t0 x r t1 H1) as (A1 & A2 & A3). split; [lia|]. split; [rewrite A2, H2; auto|]. apply A3; auto.
Qed.
Definition insertion_sort : @MSorter K V cmp.
Proof.
  refine {| ms_fun := msort cmp |}.
  - intros t l. apply msort_ok.
  - intros t l a x y b E. pose proof (msort_ok t l) as (_ & _ & H). rewrite E in H. clear E.
    induction a as [|z a IH]; cbn [app] in H; inversion H as [|? ? H1 H2]; subst; auto. inversion H2; auto.
Defined.
Definition scan : @MSearch K V OK cmp.
Proof.
  refine {| mf_fun := fun t e l => mscan cmp t 0 e l |}.
  assert (G : forall (l : list ((V * K) * nat)) t j e i, snd (mscan cmp t j e l) = (true, i) ->
    exists u x, j <= i /\ nth_error l (i - j) = Some x /\ t <= u /\ entry_cmp cmp u e (fst x) = Eq).
  { induction l as [|y l IH]; intros t j e i H; cbn [mscan] in H; [discriminate|].
    destruct (entry_cmp cmp t e (fst y)) eqn:C; cbn [snd] in H; try discriminate.
    - inversion H; subst. exists t, y. rewrite Nat.sub_diag. auto.
    - apply IH in H as (u & x & H1 & H2 & H3 & H4). exists u, x. split; [lia|]. replace (i - j) with (S (i - S j)) by lia. split; [auto|]. split; [lia|auto]. }
  intros t e l i H. apply G in H as (u & x & _ & H1 & H2 & H3). rewrite Nat.sub_0_r in H1. eauto.
Defined.
End Instances.

(** A clock that counts its readings, exponent 2. *)
Definition counting (n : nat) : Q := inject_Z (Z.of_nat n).
Lemma counting_advances n : (counting n < counting (S n))%Q.
Proof. unfold counting. rewrite <- Zlt_Qlt. lia. Qed.
Definition LB : Block nat nat := DecoratorB (Lrfu counting 2) (MBTreeB (scan (lrfu_dated counting))).
Definition lb_start (cap : nat) : St LB := (0, (100, btree_new cap (fun _ => 1))).
Definition outcome {S} (r : res (S * list (nat * nat))) (sz : S -> nat) : option (list (nat * nat) * nat) :=
  match r with Ok (s, o) => Some (o, sz s) | Panic => None end.
Definition seen (r : res (St LB * list (nat * nat))) : option (list (nat * nat) * nat * option bool * option bool) :=
  match r with
  | Ok (s, o) => Some (o, size LB s, match contains LB s 1 with Ok b => Some b | Panic => None end, match contains LB s 2 with Ok b => Some b | Panic => None end)
  | Panic => None
  end.
Lemma seen_ok x o n b1 b2 : seen x = Some (o, n, Some b1, Some b2) ->
  exists s, x = Ok (s, o) /\ size LB s = n /\ contains LB s 1 = Ok b1 /\ contains LB s 2 = Ok b2.
Proof.
  unfold seen. destruct x as [[s o']|]; [|discriminate]. destruct (contains LB s 1) as [c1|] eqn:C1; [|discriminate]. destruct (contains LB s 2) as [c2|] eqn:C2; [|discriminate].
  intros H. exists s. injection H as <- <- <- <-. auto.
Qed.
(** On a BTree, pop may give back more than asked and leave a size that counts what has gone: of two pairs just pushed,
    pop(1) gives back both, and the container, which holds neither any more, counts one. *)
Theorem C64_btree_pop_size_refuted : exists s, run LB (lb_start 4) [OpPush [(1, 10); (2, 20)]; OpPop 1] = Ok (s, [(2, 20); (1, 10)]) /\
  size LB s = 1 /\ contains LB s 1 = Ok false /\ contains LB s 2 = Ok false.
Proof. apply seen_ok. vm_compute. reflexivity. Qed.
(** The hypotheses of the theorems above: a BTree holding two keys, both of which panic; an Array in the same place keeps
    working, and gives back the older pair. *)
Example lrfu_btree_case : exists s, run LB (lb_start 4) [OpPush [(1, 10); (2, 20)]; OpTake 3] = Ok (s, []) /\
  contains LB s 1 = Ok true /\ take LB s 1 = Panic /\ take LB s 2 = Panic /\ push LB s [(2, 21)] = Panic.
Proof.
  assert (E : seen (run LB (lb_start 4) [OpPush [(1, 10); (2, 20)]; OpTake 3]) = Some ([], 2, Some true, Some true)) by (vm_compute; reflexivity).
  apply seen_ok in E. destruct E as (s & E & _ & H1 & H2). exists s.
  assert (D : @distinct_pushes nat nat [OpPush [(1, 10); (2, 20)]; OpTake 3]).
  { intros vs [H|[H|[]]]; [|discriminate]. inversion H; subst. repeat constructor; cbn; intuition discriminate. }
  destruct (@C64_lrfu_over_btree_refuted nat _ _ nat counting 2 (scan (lrfu_dated counting)) 0 100 4 _ s [] 1 counting_advances D E H1) as (T1 & _ & _).
  destruct (@C64_lrfu_over_btree_refuted nat _ _ nat counting 2 (scan (lrfu_dated counting)) 0 100 4 _ s [] 2 counting_advances D E H2) as (T2 & _ & P2).
  split; [exact E|]. split; [exact H1|]. split; [exact T1|]. split; [exact T2|]. apply P2. lia.
Qed.
Definition la_does := deco_does (insertion_sort (K := nat) (lrfu_dated (V := nat) counting)) linear_bs (Lrfu counting 2).
Definition la_replies (h : list (call nat nat)) : option (list (reply nat nat)) :=
  match play la_does (0, (100, array_new 4 (fun _ => 1))) h with Ok (_, rs) => Some rs | Panic => None end.
Example lrfu_array_case :
  la_replies [COp (OpPush [(1, 10); (2, 20); (3, 30)]); CRead 1; COp (OpPop 1); CWrite 1 S; COp (OpTake 1); COp (OpPush [(2, 21)])] =
  Some [RPairs []; RValue (Some 10); RPairs [(3, 30)]; RValue (Some 10); RPairs [(1, 11)]; RPairs []].
Proof. vm_compute. reflexivity. Qed.
(** Scores closer than two readings: of three pairs pushed together and one of them read, pop evicts the one of least score,
    at every time. *)
Definition cell (e : Q) (t0 : nat) (ts : list nat) (v : nat) : lrfu_cell nat := mkLrfu v (accessed e (counting t0) (map counting ts)).
Definition cells (l : list (nat * lrfu_cell nat)) : array nat (lrfu_cell nat) := mkArray 4 (length l) l (fun _ => 1).
Definition cell_pop (l : list (nat * lrfu_cell nat)) : res (list nat) :=
  match pop (MArrayB (insertion_sort (lrfu_dated counting)) linear_bs) (100, cells l) 1 with Ok (_, out) => Ok (keys out) | Panic => Panic end.
Theorem C64_array_evicts_least_score_refuted :
  let a := cell 2 0 [3] 10 in let b := cell 2 1 [] 20 in let c := cell 2 2 [] 30 in
  cell_pop [(1, a); (2, b); (3, c)] = Ok [3] /\
  forall now, (ls_score now (lrfu_st c) < ls_score now (lrfu_st a) < ls_score now (lrfu_st b))%Q.
Proof.
  cbn zeta. split; [vm_compute; reflexivity|]. intros now. rewrite !score_offset.
  assert (H : (offset (cell 2 2 [] 30) < offset (cell 2 0 [3%nat] 10) < offset (cell 2 1 [] 20))%Q) by (split; vm_compute; reflexivity).
  lra.
Qed.
(** Scores further apart: pairs pushed at the readings 0, 5 and 12. *)
Example apart_case : let l := [(1, cell 2 0 [] 10); (2, cell 2 5 [] 20); (3, cell 2 12 [] 30)] in
  cell_pop l = Ok [1] /\ apart 1 l /\ forall u, (counting u <= counting (S u) <= counting u + 1)%Q.
Proof.
  cbn zeta. split; [vm_compute; reflexivity|]. split.
  - intros l1 x l2 y l3 E.
    assert (H : (1 < offset (cell 2 0 [] 10) - offset (cell 2 5 [] 20) /\ 1 < offset (cell 2 0 [] 10) - offset (cell 2 12 [] 30) /\
      1 < offset (cell 2 5 [] 20) - offset (cell 2 12 [] 30))%Q) by (repeat split; vm_compute; reflexivity).
    destruct H as (H1 & H2 & H3). destruct l1 as [|? [|? [|? ?]]]; cbn [app] in E.
    + injection E as <- E. destruct l2 as [|? [|? l2]]; cbn [app] in E.
      * injection E as <- _. left. exact H1.
      * injection E as _ <- _. left. exact H2.
      * injection E as _ _ E. destruct l2; discriminate.
    + injection E as _ <- E. destruct l2 as [|? l2]; cbn [app] in E; injection E as <- E.
      * left. exact H3.
      * destruct l2; discriminate.
    + injection E as _ _ _ E. destruct l2; discriminate.
    + injection E as _ _ _ E. destruct l; discriminate.
  - intros u. unfold counting. rewrite Nat2Z.inj_succ. unfold Z.succ. rewrite inject_Z_plus. change (inject_Z 1) with 1%Q. lra.
Qed.
Print Assumptions C64_array_is_a_cache.
Print Assumptions C64_array_evicts_greatest_scores.
Print Assumptions C64_btree_loses_nothing.
Print Assumptions C64_lrfu_over_btree_refuted.
Print Assumptions C64_btree_new_keys.
Print Assumptions C64_btree_pop_size_refuted.
