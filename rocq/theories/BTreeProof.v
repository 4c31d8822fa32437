(** BTreeProof.v -- the contract holds for BTree when the keys of each pushed vector are distinct. *)
From Verif Require Import Base PermSolve Block Spec LawsProof Cut CutProof BTree.
Set Implicit Arguments.
Local Arguments leb {A Ord} _ _ : simpl never.

Section BTreeProof.
Context {K V : Type} {OK : Ord K} {EK : OrdEq K} {OV : Ord V}.
Local Notation sentry := ((V * K) * nat)%type.
Local Notation mentry := (K * (V * nat))%type.

Definition s2m (e : sentry) : mentry := (snd (fst e), (fst (fst e), snd e)).
Definition m2c (e : mentry) : K * V := (fst e, fst (snd e)).
Definition s2c (e : sentry) : K * V := (snd (fst e), fst (fst e)).
Definition ids (m : list mentry) : list nat := map (fun e => snd (snd e)) m.
Definition b_ct (s : btree K V) : list (K * V) := map m2c (b_map s).

(** The two indexes agree. *)
Record idx_ok (set : list sentry) (m : list mentry) (next : nat) : Prop := {
  ix_sorted : sorted_by fst set;
  ix_agree : Permutation (map s2m set) m;
  ix_keys : NoDup (keys m);
  ix_ids : NoDup (ids m);
  ix_fresh : forall i, In i (ids m) -> i < next
}.

Lemma keys_m2c m : keys (map m2c m) = keys m.
Proof. unfold keys. rewrite map_map. auto. Qed.
Lemma s2c_s2m set : map m2c (map s2m set) = map s2c set.
Proof. rewrite map_map. auto. Qed.

Lemma lex_eqb_key (p q : V * K) : eqb p q = true -> snd p = snd q.
Proof.
  destruct p as [v k], q as [v' k']. unfold eqb. change (lex_leb (v, k) (v', k') && lex_leb (v', k') (v, k) = true -> k = k').
  unfold lex_leb. cbn [fst snd].
  destruct (leb v v'), (leb v' v); cbn; try discriminate. intros H. apply eqb_eq. exact H.
Qed.

(** Distinct members of a set with unique keys are not equal for its order. *)
Lemma sorted_filter_lt (l : list sentry) x b :
  forall a, l = a ++ x :: b -> sorted_by fst l -> NoDup (map (fun e => snd (fst e)) l) ->
  set_split_off (fst x) l = (a, x :: b).
Proof.
  intros a -> Hs Hn. unfold set_split_off.
  assert (Ha : forall y, In y a -> leb (fst x) (fst y) = false).
  { intros y Hy. apply in_split in Hy. destruct Hy as (a1 & a2 & ->).
    rewrite <- app_assoc in Hs, Hn. cbn in Hs, Hn.
    destruct (leb (fst x) (fst y)) eqn:E; auto. exfalso.
    assert (E2 : leb (fst y) (fst x) = true).
    { clear - Hs. induction a1 as [|z a1 IH]; cbn in Hs; inversion Hs as [|? ? H1 H2]; subst; auto.
      rewrite Forall_forall in H2. apply H2. apply in_or_app. right. left. auto. }
    assert (E3 : snd (fst x) = snd (fst y)) by (apply lex_eqb_key; unfold eqb; rewrite E, E2; auto).
    rewrite !map_app in Hn. cbn in Hn. apply NoDup_remove_2 in Hn. apply Hn.
    rewrite <- E3, map_app. rewrite !in_app_iff. right. right. left. auto. }
  assert (Hb : forall y, In y b -> leb (fst x) (fst y) = true).
  { intros y Hy. clear - Hs Hy. induction a as [|z a IH]; cbn in Hs; inversion Hs as [|? ? H1 H2]; subst; auto.
    rewrite Forall_forall in H2. apply H2; auto. }
  f_equal.
  - rewrite filter_app. cbn. rewrite leb_refl. cbn.
    assert (F1 : filter (fun y : sentry => negb (leb (fst x) (fst y))) a = a).
    { clear - Ha. induction a as [|y a IH]; cbn; auto. rewrite (Ha y) by (left; auto). cbn. f_equal. apply IH.
      intros; apply Ha; right; auto. }
    assert (F2 : filter (fun y : sentry => negb (leb (fst x) (fst y))) b = []).
    { clear - Hb. induction b as [|y b IH]; cbn; auto. rewrite (Hb y) by (left; auto). cbn. apply IH.
      intros; apply Hb; right; auto. }
    etransitivity; [apply f_equal2; [exact F1|exact F2]|apply app_nil_r].
  - rewrite filter_app. cbn. rewrite leb_refl.
    assert (F1 : filter (fun y : sentry => leb (fst x) (fst y)) a = []).
    { clear - Ha. induction a as [|y a IH]; cbn; auto. rewrite (Ha y) by (left; auto). apply IH.
      intros; apply Ha; right; auto. }
    assert (F2 : filter (fun y : sentry => leb (fst x) (fst y)) b = b).
    { clear - Hb. induction b as [|y b IH]; cbn; auto. rewrite (Hb y) by (left; auto). f_equal. apply IH.
      intros; apply Hb; right; auto. }
    apply f_equal2 with (f := @app _) (1 := F1) (2 := f_equal (cons x) F2).
Qed.

Lemma map_remove_none k (m : list mentry) : map_remove k m = None <-> ~ In k (keys m).
Proof.
  induction m as [|[k' x] m IH]; cbn; [tauto|].
  destruct (eqb k' k) eqn:E.
  - apply eqb_eq in E. subst. split; [discriminate|tauto].
  - apply eqb_neq in E. destruct (map_remove k m) as [[y m']|].
    + split; [discriminate|]. destruct IH as [_ IH]. intros H. exfalso. assert (Some (y, m') = None) by (apply IH; tauto). discriminate.
    + destruct IH as [IH _]. specialize (IH eq_refl). split; auto. intros _ [?|?]; auto.
Qed.
Lemma map_remove_some k (m : list mentry) x m' : map_remove k m = Some (x, m') -> Permutation ((k, x) :: m') m.
Proof.
  revert m'; induction m as [|[k' y] m IH]; cbn; intros m' H; [discriminate|].
  destruct (eqb k' k) eqn:E.
  - apply eqb_eq in E. inversion H; subst. auto.
  - destruct (map_remove k m) as [[z m2]|]; [|discriminate]. inversion H; subst.
    rewrite perm_swap. constructor. auto.
Qed.
Lemma map_insert_new k x (m : list mentry) : ~ In k (keys m) -> Permutation (map_insert k x m) ((k, x) :: m).
Proof. intros H. unfold map_insert. apply map_remove_none in H. rewrite H. apply ins_perm. Qed.

Lemma ids_perm m m' : Permutation m m' -> Permutation (ids m) (ids m').
Proof. apply Permutation_map. Qed.
Lemma in_map_ids id (m : list mentry) : in_map id m = true <-> In id (ids m).
Proof.
  unfold in_map, ids. rewrite existsb_exists, in_map_iff. split.
  - intros (x & H1 & H2). apply Nat.eqb_eq in H2. eauto.
  - intros (x & H1 & H2). exists x. split; auto. apply Nat.eqb_eq; auto.
Qed.
Lemma in_set_ids id (l : list sentry) : in_set id l = true <-> In id (ids (map s2m l)).
Proof.
  unfold in_set, ids. rewrite map_map, existsb_exists, in_map_iff. split.
  - intros (x & H1 & H2). apply Nat.eqb_eq in H2. exists x. auto.
  - intros (x & H1 & H2). exists x. split; auto. apply Nat.eqb_eq; auto.
Qed.
Lemma not_true b : b <> true -> b = false. Proof. destruct b; auto; congruence. Qed.

(** ** flush *)
Lemma b_drain_ok (m : list mentry) : NoDup (ids m) -> b_drain m = Ok (map m2c m).
Proof.
  induction m as [|[k [v i]] m IH]; cbn; auto. intros H. apply NoDup_cons_iff in H. destruct H as [H1 H2].
  assert (E : in_map i m = false).
  { apply not_true. rewrite in_map_ids. auto. }
  rewrite E. cbn. rewrite IH by auto. auto.
Qed.

(** ** insertion *)
Lemma sorted_app_l {A} (f : A -> V * K) (a b : list A) : sorted_by f (a ++ b) -> sorted_by f a.
Proof.
  unfold sorted_by. induction a as [|x a IH]; cbn; intros H; [constructor|].
  inversion H as [|? ? H1 H2]; subst. constructor; auto. rewrite Forall_app in H2. tauto.
Qed.

Lemma idx_insert set m next k (v : V) : idx_ok set m next -> ~ In k (keys m) ->
  idx_ok (set_insert ((v, k), next) set) (map_insert k (v, next) m) (S next) /\
  Permutation (map_insert k (v, next) m) ((k, (v, next)) :: m).
Proof.
  intros [H1 H2 H3 H4 H5] Hk. pose proof (map_insert_new k (v, next) m Hk) as P.
  assert (E : existsb (fun x : sentry => eqb (fst x) (v, k)) set = false).
  { apply not_true. rewrite existsb_exists. intros (x & Hx & Hq). apply lex_eqb_key in Hq. cbn in Hq. apply Hk.
    rewrite <- (keys_perm H2). unfold keys. rewrite map_map. apply in_map_iff. exists x. auto. }
  assert (P2 : Permutation (set_insert ((v, k), next) set) (((v, k), next) :: set)).
  { unfold set_insert. cbn [fst]. rewrite E. apply ins_perm. }
  split; auto. constructor.
  - unfold set_insert. cbn [fst]. rewrite E. apply ins_sorted; auto.
  - rewrite P2, P. cbn. constructor. auto.
  - eapply Permutation_NoDup; [apply keys_perm; symmetry; exact P|]. cbn. constructor; auto.
  - eapply Permutation_NoDup; [apply ids_perm; symmetry; exact P|]. cbn. constructor; auto.
    intros Hin. apply H5 in Hin. lia.
  - intros i Hi. rewrite (ids_perm P) in Hi. cbn in Hi. destruct Hi as [<-|Hi]; [lia|]. apply H5 in Hi. lia.
Qed.

Definition b_idx (s : btree K V) : Prop := idx_ok (b_set s) (b_map s) (b_next s).

Lemma b_insert_spec : forall vs (s : btree K V), b_idx s -> NoDup (keys (b_ct s ++ vs)) ->
  let s' := b_insert s vs in
  b_idx s' /\ Permutation (b_ct s') (b_ct s ++ vs) /\
  b_cap s' = b_cap s /\ b_total s' = b_total s /\ b_esz s' = b_esz s.
Proof.
  induction vs as [|[k v] vs IH]; intros s Hi Hn; cbn.
  - rewrite app_nil_r. auto.
  - assert (Hk : ~ In k (keys (b_map s))).
    { rewrite keys_app in Hn. cbn in Hn. apply NoDup_remove_2 in Hn. intros H. apply Hn. apply in_or_app. left.
      unfold b_ct. rewrite keys_m2c. auto. }
    destruct (@idx_insert _ _ _ k v Hi Hk) as [H1 H2].
    apply (Permutation_map m2c) in H2. cbn in H2. unfold m2c in H2 at 2. cbn in H2.
    set (s1 := mkBT _ _ _ _ _ _) in *.
    destruct (IH s1) as (G1 & G2 & G3); auto.
    { eapply nodup_keys_perm; [|exact Hn]. unfold b_ct. subst s1. cbn [b_map]. perm1 H2. }
    split; [auto|]. split; [|auto]. unfold b_ct in *. subst s1. cbn [b_map] in *. perm2 G2 H2.
Qed.

(** ** take *)
Definition b_inv (E : K * V -> nat) (s : btree K V) : Prop :=
  b_esz s = E /\ b_idx s /\ b_total s = sum_sz E (b_ct s) /\ b_total s <= b_cap s.

Lemma set_remove_ok set v k id (rest : list mentry) next :
  idx_ok set ((k, (v, id)) :: rest) next -> idx_ok (set_remove (v, k) set) rest next.
Proof.
  intros [H1 H2 H3 H4 H5].
  assert (Hin : In ((v, k), id) set).
  { assert (Hx : In (k, (v, id)) (map s2m set)) by (rewrite H2; left; auto).
    apply in_map_iff in Hx. destruct Hx as ([[v' k'] id'] & Hx & Hin). unfold s2m in Hx. cbn in Hx.
    inversion Hx; subst; auto. }
  unfold set_remove. destruct (find_index (fun x => eqb (fst x) (v, k)) set) as [i|] eqn:F.
  - apply find_index_some in F. destruct F as ([[v' k'] id'] & Hn & He & _). cbn in He.
    apply lex_eqb_key in He. cbn in He. subst k'.
    pose proof (remove_nth_perm _ _ Hn) as P.
    assert (Hx : (v', id') = (v, id)).
    { assert (Hx : In (k, (v', id')) ((k, (v, id)) :: rest)).
      { rewrite <- H2. apply in_map_iff. exists ((v', k), id'). split; auto. rewrite <- P. left; auto. }
      eapply keys_unique; [exact H3| |left; reflexivity]. auto. }
    inversion Hx; subst. constructor.
    + apply remove_nth_sorted; auto.
    + apply (Permutation_map s2m) in P. rewrite H2 in P. cbn in P. unfold s2m in P at 1. cbn in P.
      apply Permutation_cons_inv in P. auto.
    + cbn in H3. apply NoDup_cons_iff in H3. tauto.
    + cbn in H4. apply NoDup_cons_iff in H4. tauto.
    + intros j Hj. apply H5. right; auto.
  - rewrite find_index_none in F. specialize (F _ Hin). cbn [fst] in F. rewrite eqb_refl in F. discriminate.
Qed.

Lemma idx_perm set m m' next : Permutation m m' -> idx_ok set m next -> idx_ok set m' next.
Proof.
  intros P [H1 H2 H3 H4 H5]. constructor; auto.
  - rewrite H2. auto.
  - eapply Permutation_NoDup; [apply keys_perm; eauto|auto].
  - eapply Permutation_NoDup; [apply ids_perm; eauto|auto].
  - intros i Hi. apply H5. rewrite (ids_perm P). auto.
Qed.

Lemma b_take_spec E (s : btree K V) k : b_inv E s ->
  exists s' o, b_take s k = Ok (s', o) /\ b_inv E s' /\ b_cap s' = b_cap s /\ b_total s' <= b_total s /\
    match o with
    | Some (k', v) => k' = k /\ Permutation ((k, v) :: b_ct s') (b_ct s)
    | None => ~ In k (keys (b_ct s)) /\ s' = s
    end.
Proof.
  intros (HE & Hi & Ht & Hc). unfold b_take.
  destruct (map_remove k (b_map s)) as [[[v id] m]|] eqn:R.
  - apply map_remove_some in R. pose proof (idx_perm (Permutation_sym R) Hi) as Hi'.
    pose proof (set_remove_ok Hi') as Hr.
    assert (P : Permutation ((k, v) :: map m2c m) (b_ct s)).
    { unfold b_ct. rewrite <- R. cbn. auto. }
    assert (Hs : b_total s = E (k, v) + sum_sz E (map m2c m)).
    { rewrite Ht, <- (sum_sz_perm _ P). auto. }
    cbn [fst snd]. rewrite HE. unfold sub_chk. replace (E (k, v) <=? b_total s) with true by (symmetry; apply Nat.leb_le; lia).
    cbn [bind].
    assert (A1 : in_map id m = false).
    { apply not_true. rewrite in_map_ids. pose proof (ix_ids Hi') as H. cbn in H. apply NoDup_cons_iff in H. tauto. }
    assert (A2 : in_set id (set_remove (v, k) (b_set s)) = false).
    { apply not_true. rewrite in_set_ids. rewrite (ids_perm (ix_agree Hr)). rewrite <- in_map_ids. congruence. }
    rewrite A1, A2. cbn [orb as_value bind fst]. eexists _, _. split; [reflexivity|].
    unfold b_inv, b_idx, b_ct; cbn [b_esz b_set b_map b_next b_total b_cap].
    repeat split; auto; try lia; try apply Hr.
  - apply map_remove_none in R. exists s, None. unfold b_ct at 1. rewrite keys_m2c. repeat split; auto; apply Hi.
Qed.

(** ** pop *)
Lemma b_pop_loop_spec : forall out_set set m next,
  sorted_by fst set -> Permutation (map s2m (out_set ++ set)) m -> NoDup (keys m) -> NoDup (ids m) ->
  (forall i, In i (ids m) -> i < next) ->
  exists m', b_pop_loop out_set set m = Ok (m', map s2c out_set) /\ idx_ok set m' next.
Proof.
  induction out_set as [|[[v k] id] rest IH]; intros set m next Hs Hp Hk Hid Hf.
  - exists m. cbn. split; auto. constructor; auto.
  - cbn in Hp. unfold s2m in Hp at 1. cbn in Hp. cbn [b_pop_loop].
    destruct (map_remove k m) as [[[v' id'] m']|] eqn:R.
    + apply map_remove_some in R.
      assert (Hx : (v', id') = (v, id)).
      { eapply keys_unique; [exact Hk| |]; [rewrite <- R; left; reflexivity|rewrite <- Hp; left; reflexivity]. }
      inversion Hx; subst. clear Hx.
      assert (P : Permutation (map s2m (rest ++ set)) m').
      { apply Permutation_cons_inv with (a := (k, (v, id))). rewrite Hp, R. auto. }
      assert (Hid' : NoDup (ids ((k, (v, id)) :: m'))) by (eapply Permutation_NoDup; [apply ids_perm; symmetry; eauto|auto]).
      cbn in Hid'. apply NoDup_cons_iff in Hid'. destruct Hid' as [Hni Hid'].
      cbn [unwrap bind snd].
      assert (A1 : in_map id m' = false) by (apply not_true; rewrite in_map_ids; auto).
      assert (A2 : in_set id rest = false).
      { apply not_true. rewrite in_set_ids. intros Hin. apply Hni. rewrite <- (ids_perm P).
        unfold ids. rewrite map_app, map_app. apply in_or_app. left. auto. }
      assert (A3 : in_set id set = false).
      { apply not_true. rewrite in_set_ids. intros Hin. apply Hni. rewrite <- (ids_perm P).
        unfold ids. rewrite map_app, map_app. apply in_or_app. right. auto. }
      rewrite A1, A2, A3. cbn [orb as_value bind fst].
      destruct (IH set m' next) as (m'' & G1 & G2); auto.
      { assert (Hk' : NoDup (keys ((k, (v, id)) :: m'))) by (eapply Permutation_NoDup; [apply keys_perm; symmetry; eauto|auto]).
        cbn in Hk'. apply NoDup_cons_iff in Hk'. tauto. }
      { intros i Hin. apply Hf. rewrite <- (ids_perm R). right; auto. }
      rewrite G1. cbn [bind]. exists m''. split; auto.
    + apply map_remove_none in R. exfalso. apply R. rewrite <- (keys_perm Hp). left; auto.
Qed.

Lemma set_keys_nodup set m next : idx_ok set m next -> NoDup (map (fun e : sentry => snd (fst e)) set).
Proof.
  intros H. pose proof (ix_keys H) as Hk. eapply Permutation_NoDup in Hk; [|apply keys_perm; symmetry; apply (ix_agree H)].
  unfold keys in Hk. rewrite map_map in Hk. exact Hk.
Qed.

(** The pairs of a container in eviction order. *)
Lemma b_ct_set (s : btree K V) : b_idx s -> Permutation (map s2c (b_set s)) (b_ct s).
Proof. intros H. unfold b_ct. rewrite <- (ix_agree H), s2c_s2m. auto. Qed.

Lemma sum_map {X Y} (f : X -> Y) (g : Y -> nat) l : sum_sz g (map f l) = sum_sz (fun x => g (f x)) l.
Proof. unfold sum_sz. rewrite map_map. auto. Qed.

(** pop without the bound by the capacity (push calls it above capacity). *)
Lemma b_pop_spec E (s : btree K V) n : b_esz s = E -> b_idx s -> b_total s = sum_sz E (b_ct s) ->
  exists s' out, b_pop s n = Ok (s', out) /\ b_esz s' = E /\ b_idx s' /\ b_total s' = sum_sz E (b_ct s') /\
    b_cap s' = b_cap s /\
    Permutation (out ++ b_ct s') (b_ct s) /\
    (b_total s' + n <= b_total s \/ b_ct s' = []) /\ b_total s' <= b_total s /\
    (b_total s <= n -> b_ct s' = []) /\
    (n < b_total s -> exists x b, b_set s = b_set s' ++ x :: b /\ out = map s2c (x :: b) /\
       (b = [] \/ sum_sz E (map s2c b) < n) /\
       (n <= sum_sz E (map s2c (x :: b)) \/ b_set s' = [])).
Proof.
  intros HE Hi Ht. unfold b_pop. destruct (b_map s) as [|e0 m0] eqn:Em.
  - assert (Hct : b_ct s = []) by (unfold b_ct; rewrite Em; auto).
    assert (b_total s = 0) by (rewrite Ht, Hct; auto).
    exists s, []. repeat split; auto; try apply Hi; try lia; rewrite ?Hct; auto.
  - rewrite <- Em. destruct (b_total s <=? n) eqn:L1.
    + apply Nat.leb_le in L1. unfold b_flush. rewrite (@b_drain_ok _ (ix_ids Hi)). cbn [bind].
      eexists _, _. split; [reflexivity|]. unfold b_idx, b_ct; cbn.
      repeat split; auto; try lia; try constructor; try (cbn; constructor); try contradiction.
      rewrite app_nil_r. auto.
    + apply Nat.leb_gt in L1.
      set (f := fun x : sentry => b_esz s (snd (fst x), fst (fst x))).
      destruct (find_cut_at_size (b_set s) f n) as [[i c] o] eqn:F.
      assert (Hne : b_set s <> []).
      { intros H0. pose proof (ix_agree Hi) as P. rewrite H0, Em in P. apply Permutation_nil_cons in P. auto. }
      apply find_cut_spec in F. destruct F as (Hc & Ho & Hr & Hl & Hmin). specialize (Hl Hne). specialize (Hmin Hne).
      destruct (nth_error (b_set s) i) as [x|] eqn:En; [|apply nth_error_None in En; lia].
      subst o. cbn [unwrap bind].
      destruct (nth_error_split _ _ En) as (a & b & Es & Ha).
      assert (Sk : skipn i (b_set s) = x :: b).
      { rewrite Es, <- Ha, skipn_app, skipn_all, Nat.sub_diag. auto. }
      assert (Sk2 : skipn (S i) (b_set s) = b).
      { rewrite Es, <- Ha. clear. induction a; auto. }
      rewrite Sk in Hc. rewrite Sk2 in Hmin.
      assert (Hf : forall l, sum_sz f l = sum_sz E (map s2c l)).
      { intros l. rewrite sum_map. unfold f, s2c. rewrite HE. auto. }
      pose proof (b_ct_set Hi) as Pct.
      assert (Hsum : b_total s = sum_sz E (map s2c a) + c).
      { rewrite Ht, <- (sum_sz_perm _ Pct), Es, map_app, sum_sz_app, Hc, Hf. auto. }
      unfold sub_chk. replace (c <=? b_total s) with true by (symmetry; apply Nat.leb_le; lia). cbn [bind].
      rewrite (@sorted_filter_lt _ x b a Es (ix_sorted Hi) (set_keys_nodup Hi)).
      destruct (@b_pop_loop_spec (x :: b) a (b_map s) (b_next s)) as (m' & G1 & G2).
      { pose proof (ix_sorted Hi) as Hs. rewrite Es in Hs. apply sorted_app_l in Hs. auto. }
      { rewrite <- (ix_agree Hi), Es. apply Permutation_map. apply Permutation_app_comm. }
      { apply Hi. }
      { apply Hi. }
      { apply Hi. }
      rewrite G1. cbn [bind]. eexists _, _. split; [reflexivity|].
      assert (Pa : Permutation (map s2c a) (map m2c m')).
      { rewrite <- (ix_agree G2), s2c_s2m. auto. }
      unfold b_idx, b_ct; cbn [b_esz b_set b_map b_next b_total b_cap].
      rewrite Hf in *.
      split; [auto|]. split; [auto|]. split; [rewrite <- (sum_sz_perm _ Pa); lia|]. split; [auto|].
      split. { unfold b_ct in Pct. rewrite <- Pct, Es, <- Pa, <- map_app. apply Permutation_map, Permutation_app_comm. }
      split. { destruct Hr as [Hr|Hr]; [left; lia|right].
               rewrite Hr in Ha. destruct a; [|discriminate]. apply Permutation_nil in Pa. auto. }
      split; [lia|]. split; [intros; lia|].
      intros _. exists x, b. repeat split; auto.
      destruct Hr as [Hr|Hr]; [left; lia|right]. rewrite Hr in Ha. destruct a; [auto|discriminate].
Qed.

Lemma b_flush_spec E (s : btree K V) : b_esz s = E -> b_idx s ->
  exists s', b_flush s = Ok (s', b_ct s) /\ b_inv E s' /\ b_cap s' = b_cap s /\ b_ct s' = [] /\ b_total s' = 0.
Proof.
  intros HE Hi. unfold b_flush. rewrite (@b_drain_ok _ (ix_ids Hi)). cbn [bind].
  eexists. split; [reflexivity|]. unfold b_inv, b_idx, b_ct; cbn.
  repeat split; auto; try lia; try constructor; try (cbn; constructor); try contradiction.
Qed.

Lemma b_take_ok E (s : btree K V) k : b_inv E s -> take_ok BTreeB (b_inv E) b_ct s k.
Proof.
  intros Hi. destruct (b_take_spec k Hi) as (s' & o & H1 & H2 & H3 & H4 & H5).
  exists s', o. repeat split; auto; try apply H2. destruct o as [[k' v]|]; auto. destruct H5 as [? ->]; auto.
Qed.

(** ** push *)
Lemma b_push_spec E (s : btree K V) vs : b_inv E s -> NoDup (keys vs) ->
  exists s' out, b_push s vs = Ok (s', out) /\ b_inv E s' /\ b_cap s' = b_cap s /\
    Permutation (out ++ b_ct s') (b_ct s ++ vs) /\
    (* below capacity, everything pushed is held *)
    (sum_sz E vs < b_cap s -> incl vs (b_ct s') /\
       forall p, In p (b_ct s) -> In (fst p) (keys vs) -> In p out).
Proof.
  intros (HE & Hi & Ht & Hc) Hn. unfold b_push. rewrite HE. set (sz := sum_sz E vs).
  destruct (b_cap s <=? sz) eqn:L1.
  - apply Nat.leb_le in L1.
    destruct (b_flush_spec HE Hi) as (s1 & F1 & (F2 & F3 & F4 & F5) & F6 & F7 & F8).
    rewrite F1. cbn [bind].
    destruct (@b_insert_spec vs s1) as (I1 & I2 & I3 & I4 & I5); auto.
    { rewrite F7. auto. }
    set (s2 := with_total (b_insert s1 vs) sz).
    assert (J1 : b_idx s2) by exact I1.
    assert (J2 : Permutation (b_ct s2) vs) by (rewrite F7 in I2; exact I2).
    assert (J3 : b_total s2 = sum_sz E (b_ct s2)) by (rewrite (sum_sz_perm _ J2); auto).
    assert (J4 : b_esz s2 = E) by (cbn; congruence).
    assert (J5 : b_cap s2 = b_cap s) by (cbn; congruence).
    destruct (b_cap s <? sz) eqn:L2.
    + apply Nat.ltb_lt in L2.
      destruct (@b_pop_spec E s2 (sz - b_cap s) J4 J1 J3) as (s3 & out & P1 & P2 & P3 & P4 & P5 & P6 & P7 & P8 & _).
      rewrite P1. cbn [bind]. exists s3, (b_ct s ++ out). split; [reflexivity|].
      split; [|split; [|split]].
      * split; [auto|]. split; [auto|]. split; [auto|].
        destruct P7 as [P7|P7]; [|rewrite P7 in P4; unfold sum_sz in P4; cbn in P4; lia].
        change (b_total s2) with sz in *. lia.
      * congruence.
      * perm2 P6 J2.
      * intros; lia.
    + apply Nat.ltb_ge in L2. exists s2, (b_ct s). split; [reflexivity|].
      split; [|split; [|split]].
      * split; [auto|]. split; [auto|]. split; [auto|]. change (b_total s2) with sz. lia.
      * auto.
      * perm1 J2.
      * intros; lia.
  - apply Nat.leb_gt in L1.
    assert (Hb : b_inv E s) by (repeat split; auto; apply Hi).
    destruct (@default_tm_ok _ _ _ _ BTreeB (b_inv E) b_ct (@b_take_ok E) s (keys vs) Hb)
      as (s1 & out & T1 & T2 & T3 & T4 & T5 & T6 & T7 & T8).
    cbn [take BTreeB capacity size St] in *.
    assert (T1' : @default_take_multiple K V (btree K V) b_take s (keys vs) = Ok (s1, keys vs, out)) by exact T1.
    rewrite T1'. cbn [bind].
    destruct T2 as (U1 & U2 & U3 & U4).
    unfold sub_chk. replace (b_total s1 <=? b_cap s1) with true by (symmetry; apply Nat.leb_le; auto). cbn [bind].
    set (room := b_cap s1 - b_total s1).
    assert (W : exists s2 out', (if room <? sz then b_pop s1 (sz - room) else Ok (s1, [])) = Ok (s2, out') /\
      b_esz s2 = E /\ b_idx s2 /\ b_total s2 = sum_sz E (b_ct s2) /\ b_cap s2 = b_cap s /\
      Permutation (out' ++ b_ct s2) (b_ct s1) /\ b_total s2 + sz <= b_cap s).
    { destruct (room <? sz) eqn:L3.
      - apply Nat.ltb_lt in L3.
        destruct (@b_pop_spec E s1 (sz - room) U1 U2 U3) as (s2 & out' & P1 & P2 & P3 & P4 & P5 & P6 & P7 & P8 & _).
        exists s2, out'. repeat split; auto; try apply P3; try congruence.
        destruct P7 as [P7|P7]; [lia|]. rewrite P7 in P4. unfold sum_sz in P4; cbn in P4. lia.
      - apply Nat.ltb_ge in L3. exists s1, []. repeat split; auto; try apply U2. lia. }
    destruct W as (s2 & out' & W1 & W2 & W3 & W4 & W5 & W6 & W7). rewrite W1. cbn [bind].
    assert (Hdis : NoDup (keys (b_ct s2 ++ vs))).
    { rewrite keys_app. apply NoDup_app_inv. split; [|split]; auto.
      - unfold b_ct. rewrite keys_m2c. apply W3.
      - intros k H1 H2.
        assert (H3 : In k (keys (b_ct s1))) by (eapply in_keys_perm; [exact W6|]; rewrite keys_app; apply in_or_app; auto).
        assert (H4 : In k (keys (b_ct s))) by (eapply in_keys_perm; [exact T5|]; rewrite keys_app; apply in_or_app; auto).
        specialize (T7 k H2 H4).
        assert (H5 : NoDup (keys (out ++ b_ct s1))).
        { eapply Permutation_NoDup; [apply keys_perm; symmetry; exact T5|]. unfold b_ct. rewrite keys_m2c. apply Hi. }
        rewrite keys_app in H5. apply NoDup_app_inv in H5. destruct H5 as (_ & _ & H5). eauto. }
    destruct (@b_insert_spec vs s2 W3 Hdis) as (I1 & I2 & I3 & I4 & I5).
    eexists _, _. split; [reflexivity|]. split; [|split; [|split]].
    + unfold b_inv. cbn [with_total b_esz b_total b_cap].
      split; [congruence|]. split; [exact I1|]. split.
      * change (b_ct (with_total (b_insert s2 vs) (b_total (b_insert s2 vs) + sz))) with (b_ct (b_insert s2 vs)).
        rewrite (sum_sz_perm _ I2), sum_sz_app. fold sz. lia.
      * lia.
    + cbn. congruence.
    + change (b_ct (with_total (b_insert s2 vs) (b_total (b_insert s2 vs) + sz))) with (b_ct (b_insert s2 vs)).
      perm3 T5 W6 I2.
    + intros _. split.
      * intros p Hp. change (b_ct (with_total (b_insert s2 vs) (b_total (b_insert s2 vs) + sz))) with (b_ct (b_insert s2 vs)).
        rewrite I2. apply in_or_app; auto.
      * intros [k v] Hp Hk. cbn in Hk. rewrite <- T5 in Hp. apply in_app_or in Hp. apply in_or_app. left.
        destruct Hp as [Hp|Hp]; auto. exfalso.
        assert (H4 : In k (keys (b_ct s))).
        { eapply in_keys_perm; [exact T5|]. rewrite keys_app. apply in_or_app. right. eapply in_keys; eauto. }
        specialize (T7 k Hk H4).
        assert (H5 : NoDup (keys (out ++ b_ct s1))).
        { eapply Permutation_NoDup; [apply keys_perm; symmetry; exact T5|]. unfold b_ct. rewrite keys_m2c. apply Hi. }
        rewrite keys_app in H5. apply NoDup_app_inv in H5. destruct H5 as (_ & _ & H5). eapply H5; eauto.
        eapply in_keys; eauto.
Qed.

(** The contract, for callers pushing new, distinct keys. *)
Lemma btree_laws E : Laws BTreeB (b_inv E) b_ct false true true.
Proof.
  constructor.
  - intros s (_ & _ & _ & H); auto.
  - intros s (_ & _ & H & _) He. cbn. rewrite H, He. auto.
  - intros s (_ & H & _ & _) _. unfold b_ct. rewrite keys_m2c. apply H.
  - intros s k _. cbn. unfold b_contains. f_equal. unfold b_ct.
    destruct (has_key k (b_map s)) eqn:X; symmetry.
    + apply has_key_in. rewrite keys_m2c. apply has_key_in; auto.
    + apply has_key_not_in. rewrite keys_m2c. apply has_key_not_in; auto.
  - intros s k. apply b_take_ok.
  - intros s ks H. destruct (@default_tm_ok _ _ _ _ BTreeB (b_inv E) b_ct (@b_take_ok E) s ks H)
      as (s' & out & T1 & T2 & T3 & T4 & T5 & T6 & T7 & T8).
    exists s', ks, out. repeat split; auto; try apply T2. exists []. split; auto. intros x [].
  - intros s vs H Hm. destruct (@b_push_spec E s vs H) as (s' & out & H1 & H2 & H3 & H4 & _).
    { specialize (Hm eq_refl). rewrite keys_app in Hm. apply NoDup_app_inv in Hm. tauto. }
    exists s', out. repeat split; auto; apply H2.
  - intros _ s n (HE & Hi & Ht & Hc).
    destruct (@b_pop_spec E s n HE Hi Ht) as (s' & out & P1 & P2 & P3 & P4 & P5 & P6 & P7 & P8 & _).
    exists s', out. repeat split; auto; try apply P3. lia.
  - intros s (HE & Hi & Ht & Hc). destruct (b_flush_spec HE Hi) as (s' & F1 & F2 & F3 & F4 & F5).
    exists s', (b_ct s). repeat split; auto; try apply F2. rewrite F4, app_nil_r. auto.
Qed.

Lemma btree_new_inv cap esz : b_inv esz (@btree_new K V cap esz) /\ b_ct (@btree_new K V cap esz) = [].
Proof.
  split; [|reflexivity]. unfold b_inv, b_idx; cbn.
  repeat split; auto; try lia; try constructor; try (cbn; constructor); try contradiction.
Qed.
End BTreeProof.
