(** InclusiveProof.v -- the contract of Inclusive: what both containers hold, seen as one content. *)
From Verif Require Import Base PermSolve Block Spec LawsProof Array ArrayProof BTree BTreeProof Get GetProof Inclusive.
Set Implicit Arguments.

(** ** Two lists of cells *)
Section Lists.
Context {K V : Type} {OK : Ord K} {EK : OrdEq K}.
Notation C := (cell V).
Implicit Types (f b l : list (K * C)) (k : K) (c : C).

Definition look k f : option C := option_map snd (find (fun kc => eqb (fst kc) k) f).
(** The last value written to a key: that of the front container if it has the key. *)
Definition latest_at f (kc : K * C) : K * V :=
  (fst kc, match look (fst kc) f with Some c => c_value c | None => c_value (snd kc) end).
Definition latest f b : list (K * V) := map (latest_at f) b.
(** Every key of the front is in the back, both are marked as cloned, and an unwritten one has the same value. *)
Definition linked f b : Prop :=
  NoDup (keys f) /\ NoDup (keys b) /\
  forall k cf, In (k, cf) f -> c_cloned cf = true /\
    exists cb, In (k, cb) b /\ c_cloned cb = true /\ (c_updated cf = false -> c_value cf = c_value cb).
Definition is_stale f (kc : K * C) : bool := is_clone kc && negb (has_key (fst kc) f).

Lemma in_keys {A B} (k' : A) (c : B) (l : list (A * B)) : In (k', c) l -> In k' (keys l).
Proof. intros H. apply (List.in_map fst) in H. auto. Qed.
Lemma in_keys_inv {A B} (k' : A) (l : list (A * B)) : In k' (keys l) -> exists c : B, In (k', c) l.
Proof. intros H. unfold keys in H. apply in_map_iff in H as ([k2 c] & E & H). cbn in E. subst. eauto. Qed.
Lemma nodup_fun {A B} (l : list (A * B)) (k' : A) (c1 c2 : B) : NoDup (keys l) -> In (k', c1) l -> In (k', c2) l -> c1 = c2.
Proof.
  induction l as [|[a b] l IH]; cbn; [tauto|]. intros N. inversion N as [|? ? Hn Hd]; subst. intros [E1|H1] [E2|H2]; auto.
  - congruence.
  - injection E1 as -> ->. exfalso. apply in_keys in H2. auto.
  - injection E2 as -> ->. exfalso. apply in_keys in H1. auto.
Qed.
Lemma look_some k c f : look k f = Some c -> In (k, c) f.
Proof.
  unfold look. destruct (find _ f) as [[k' c']|] eqn:E; cbn; [|discriminate]. intros [= <-]. apply find_some in E as [H1 H2].
  cbn in H2. apply eqb_eq in H2. subst. auto.
Qed.
Lemma look_none k f : look k f = None <-> ~ In k (keys f).
Proof.
  unfold look. destruct (find _ f) as [[k' c']|] eqn:E; cbn; split; intros H; try discriminate.
  - exfalso. apply H. apply find_some in E as [H1 H2]. cbn in H2. apply eqb_eq in H2. subst. eapply in_keys; eauto.
  - intros Hk. apply in_keys_inv in Hk as (c & Hc). pose proof (find_none _ _ E _ Hc) as G. cbn in G. rewrite eqb_refl in G. discriminate.
  - auto.
Qed.
Lemma look_in k c f : NoDup (keys f) -> In (k, c) f -> look k f = Some c.
Proof.
  intros N H. destruct (look k f) as [c'|] eqn:E.
  - apply look_some in E. f_equal. eapply nodup_fun; eauto.
  - apply look_none in E. exfalso. apply E. eapply in_keys; eauto.
Qed.
Arguments look_in {k c f} _ _.
Lemma look_ext k f f' : NoDup (keys f) -> NoDup (keys f') -> (forall c, In (k, c) f <-> In (k, c) f') -> look k f = look k f'.
Proof.
  intros N N' H. destruct (look k f) as [c|] eqn:E.
  - apply look_some in E. symmetry. apply look_in; auto. apply H. auto.
  - symmetry. apply look_none in E. apply look_none. intros Hk. apply E. apply in_keys_inv in Hk as (c & Hc). apply H in Hc. eapply in_keys; eauto.
Qed.
Lemma look_perm k f f' : NoDup (keys f) -> Permutation f f' -> look k f = look k f'.
Proof.
  intros N P. apply look_ext; auto; [eapply nodup_keys_perm; eauto|]. intros c. split; apply Permutation_in; auto. symmetry; auto.
Qed.
Lemma keys_latest f b : keys (latest f b) = keys b.
Proof. unfold keys, latest. rewrite map_map. auto. Qed.
Lemma latest_app f b1 b2 : latest f (b1 ++ b2) = latest f b1 ++ latest f b2.
Proof. apply map_app. Qed.
Lemma latest_cons f x b : latest f (x :: b) = latest_at f x :: latest f b.
Proof. auto. Qed.
Lemma latest_perm f b b' : Permutation b b' -> Permutation (latest f b) (latest f b').
Proof. apply Permutation_map. Qed.
Lemma latest_ext f f' b : (forall kc, In kc b -> look (fst kc) f = look (fst kc) f') -> latest f b = latest f' b.
Proof. intros H. apply map_ext_in. intros kc Hk. unfold latest_at. rewrite (H kc Hk). auto. Qed.
Lemma latest_plain f b : (forall kc, In kc b -> ~ In (fst kc) (keys f)) -> latest f b = map plain b.
Proof. intros H. apply map_ext_in. intros kc Hk. unfold latest_at, plain. rewrite (proj2 (look_none _ _) (H kc Hk)). auto. Qed.

Definition val f b k : option V :=
  match look k f with Some c => Some (c_value c) | None => option_map (@c_value V) (look k b) end.
Lemma in_latest f b k v : NoDup (keys b) -> In (k, v) (latest f b) <-> In k (keys b) /\ val f b k = Some v.
Proof.
  intros N. unfold latest. rewrite in_map_iff. unfold val. split.
  - intros ([k' c] & E & H). unfold latest_at in E. cbn [fst snd] in E. injection E as -> E2.
    split; [eapply in_keys; eauto|]. rewrite (look_in N H). destruct (look k f); cbn; congruence.
  - intros [Hk Hv]. apply in_keys_inv in Hk as (c & Hc). exists (k, c). split; auto. unfold latest_at. cbn [fst snd].
    rewrite (look_in N Hc) in Hv. destruct (look k f); cbn in Hv; congruence.
Qed.
Lemma nodup_of_keys {A B} (l : list (A * B)) : NoDup (keys l) -> NoDup l.
Proof. apply NoDup_map_inv. Qed.
Lemma latest_same f b f' b' : NoDup (keys b) -> NoDup (keys b') -> (forall k, In k (keys b) <-> In k (keys b')) ->
  (forall k, In k (keys b) -> val f b k = val f' b' k) -> Permutation (latest f b) (latest f' b').
Proof.
  intros N N' Hk Hv. apply NoDup_Permutation; [apply nodup_of_keys; rewrite keys_latest; auto|apply nodup_of_keys; rewrite keys_latest; auto|].
  intros [k v]. rewrite !in_latest by auto. split; intros [H1 H2]; split.
  - apply Hk; auto.
  - rewrite <- Hv; auto.
  - apply Hk; auto.
  - rewrite Hv; auto. apply Hk; auto.
Qed.

Lemma linked_perm f b f' b' : Permutation f f' -> Permutation b b' -> linked f b -> linked f' b'.
Proof.
  intros P Q (N1 & N2 & H). split; [eapply nodup_keys_perm; eauto|]. split; [eapply nodup_keys_perm; eauto|].
  intros k cf Hc. apply (Permutation_in _ (Permutation_sym P)) in Hc. destruct (H k cf Hc) as (H1 & cb & H2 & H3 & H4).
  split; auto. exists cb. split; auto. apply (Permutation_in _ Q); auto.
Qed.
Lemma latest_perm_front f f' b : NoDup (keys f) -> Permutation f f' -> latest f b = latest f' b.
Proof. intros N P. apply latest_ext. intros kc _. apply look_perm; auto. Qed.
Lemma linked_unmarked f b k c : linked f b -> In (k, c) b -> c_cloned c = false -> ~ In k (keys f).
Proof.
  intros (N1 & N2 & H) Hc E Hk. apply in_keys_inv in Hk as (cf & Hf). destruct (H k cf Hf) as (_ & cb & H2 & H3 & _).
  assert (cb = c) by (eapply nodup_fun; eauto). congruence.
Qed.
Lemma linked_sub f b k : linked f b -> In k (keys f) -> In k (keys b).
Proof. intros (_ & _ & H) Hk. apply in_keys_inv in Hk as (cf & Hf). destruct (H k cf Hf) as (_ & cb & H2 & _). eapply in_keys; eauto. Qed.
Lemma filter_split2 {A} (p : A -> bool) (l : list A) : Permutation l (filter (fun x => negb (p x)) l ++ filter p l).
Proof.
  induction l as [|x l IH]; cbn; auto. destruct (p x); cbn; [|rewrite IH at 1; auto]. rewrite IH at 1. apply Permutation_middle.
Qed.
Lemma filter_app_if {A} (p q : A -> bool) (l : list A) : Permutation (filter p l) (filter (fun x => p x && q x) l ++ filter (fun x => p x && negb (q x)) l).
Proof.
  induction l as [|x l IH]; cbn; auto. destruct (p x); cbn; auto. destruct (q x); cbn; [constructor; auto|]. rewrite IH. apply Permutation_middle.
Qed.
Lemma nodup_keys_filter {A B} (p : A * B -> bool) (l : list (A * B)) : NoDup (keys l) -> NoDup (keys (filter p l)).
Proof.
  induction l as [|x l IH]; cbn; auto. intros N. inversion N; subst. destruct (p x); cbn; auto. constructor; auto.
  intros H. apply H1. unfold keys in *. apply in_map_iff in H as (y & E & Hy). apply filter_In in Hy as [Hy _]. apply in_map_iff. eauto.
Qed.

(** Pairs [l] leave the back container, and [out] leaves the front. *)
Lemma leaving f b l b' out f' : linked f b -> Permutation b (l ++ b') -> Permutation f (out ++ f') ->
  (forall k, In k (keys out) <-> In k (keys f) /\ In k (keys (filter is_clone l))) ->
  linked f' b' /\ latest f b' = latest f' b' /\
  Permutation (map plain (filter (fun kc => negb (is_clone kc)) l) ++ map plain out ++ map plain (filter (is_stale f) l)) (latest f l).
Proof.
  intros Lk Pb Pf Hk. pose proof Lk as (N1 & N2 & H).
  assert (Nb : NoDup (keys (l ++ b'))) by (eapply nodup_keys_perm; eauto). assert (Nf : NoDup (keys (out ++ f'))) by (eapply nodup_keys_perm; eauto).
  rewrite keys_app in Nb, Nf. apply NoDup_app_inv in Nb as (Nl & Nb' & Db). apply NoDup_app_inv in Nf as (No & Nf' & Df).
  assert (Hf' : forall k c, ~ In k (keys l) -> In (k, c) f <-> In (k, c) f').
  { intros k c Hn. split; intros Hc.
    - apply (Permutation_in _ Pf) in Hc. apply in_app_or in Hc as [Hc|Hc]; auto. exfalso. apply Hn. apply in_keys in Hc. apply Hk in Hc as [_ Hc].
      apply in_keys_inv in Hc as (c' & Hc). apply filter_In in Hc as [Hc _]. eapply in_keys; eauto.
    - apply (Permutation_in _ (Permutation_sym Pf)). apply in_or_app; auto. }
  split.
  { split; [auto|]. split; [auto|]. intros k cf Hc. assert (Hcf : In (k, cf) f) by (apply (Permutation_in _ (Permutation_sym Pf)); apply in_or_app; auto).
    destruct (H k cf Hcf) as (H1 & cb & H2 & H3 & H4). split; auto. exists cb. split; auto. apply (Permutation_in _ Pb) in H2.
    apply in_app_or in H2 as [H2|H2]; auto. exfalso. apply (Df k); [|eapply in_keys; eauto]. apply Hk. split; [eapply in_keys; eauto|].
    apply (@in_keys _ _ k cb). apply filter_In. auto. }
  split.
  { apply latest_ext. intros [k c] Hc. cbn [fst]. apply look_ext; auto. intros c'. apply Hf'. intros Hl. apply (Db k Hl). eapply in_keys; eauto. }
  assert (Sub : forall kc, In kc l -> In kc b) by (intros; apply (Permutation_in _ (Permutation_sym Pb)); apply in_or_app; auto).
  rewrite (latest_perm f (filter_split2 is_clone l)), latest_app. apply Permutation_app.
  { rewrite (latest_plain f (filter (fun kc => negb (is_clone kc)) l)); auto. intros [k c] Hc. apply filter_In in Hc as [Hc Hn]. cbn.
    apply (@linked_unmarked f b k c); auto. unfold is_clone in Hn. cbn in Hn. destruct (c_cloned c); auto. }
  rewrite (latest_perm f (filter_app_if is_clone (fun kc => has_key (fst kc) f) l)), latest_app. apply Permutation_app.
  - set (X := filter _ l). assert (NX : NoDup (keys X)) by (apply nodup_keys_filter; auto).
    assert (Nm : NoDup (keys (map plain out))) by (unfold keys in *; rewrite map_map; auto).
    apply NoDup_Permutation; [apply nodup_of_keys; auto|apply nodup_of_keys; rewrite keys_latest; auto|]. intros [k v].
    rewrite in_map_iff. unfold latest. rewrite in_map_iff. split.
    + intros ([k' c] & E & Hc). unfold plain in E. cbn in E. injection E as -> <-. pose proof (in_keys _ _ _ Hc) as Ho. apply Hk in Ho as [Ho1 Ho2].
      apply in_keys_inv in Ho2 as (cb & Ho2). apply filter_In in Ho2 as [Ho2 Ho3]. exists (k, cb). split.
      * unfold latest_at. cbn. rewrite (@look_in k c f N1); auto. apply (Permutation_in _ (Permutation_sym Pf)). apply in_or_app; auto.
      * apply filter_In. split; auto. rewrite Ho3. cbn. apply has_key_in. auto.
    + intros ([k' cb] & E & Hc). unfold latest_at in E. cbn in E. injection E as -> E. apply filter_In in Hc as [Hc Hb]. apply andb_true_iff in Hb as [Hb Hi].
      cbn in Hi. apply has_key_in in Hi. assert (Ho : In k (keys out)).
      { apply Hk. split; auto. apply (@in_keys _ _ k cb). apply filter_In. auto. }
      apply in_keys_inv in Ho as (c & Ho). exists (k, c). split; auto. unfold plain. cbn. f_equal. rewrite <- E.
      rewrite (@look_in k c f N1); auto. apply (Permutation_in _ (Permutation_sym Pf)). apply in_or_app; auto.
  - rewrite (latest_plain f (filter (fun kc => is_clone kc && negb (has_key (fst kc) f)) l)).
    + apply Permutation_refl.
    + intros [k c] Hc. apply filter_In in Hc as [_ Hc]. apply andb_true_iff in Hc as [_ Hc]. cbn in *. apply has_key_not_in. destruct (has_key k f); auto.
Qed.

(** A value of the front container is rewritten. *)
Lemma rewriting f b f' k c c' rest : linked f b -> Permutation f ((k, c) :: rest) -> Permutation f' ((k, c') :: rest) ->
  c_cloned c' = true -> (c_updated c' = false -> c_value c' = c_value c /\ c_updated c = false) ->
  linked f' b /\ exists r, Permutation (latest f b) ((k, c_value c) :: r) /\ Permutation (latest f' b) ((k, c_value c') :: r).
Proof.
  intros Lk P P' Hc Hu. pose proof Lk as (N1 & N2 & H).
  assert (Nf : NoDup (keys ((k, c) :: rest))) by (eapply nodup_keys_perm; eauto).
  assert (N1' : NoDup (keys f')) by (eapply nodup_keys_perm; [symmetry; exact P'|exact Nf]).
  assert (Hin : In (k, c) f) by (apply (Permutation_in _ (Permutation_sym P)); left; auto).
  assert (Hin' : In (k, c') f') by (apply (Permutation_in _ (Permutation_sym P')); left; auto).
  assert (Oth : forall k2 c2, k2 <> k -> In (k2, c2) f <-> In (k2, c2) f').
  { intros k2 c2 Hn. split; intros Hx.
    - apply (Permutation_in _ P) in Hx as [Hx|Hx]; [congruence|]. apply (Permutation_in _ (Permutation_sym P')). right; auto.
    - apply (Permutation_in _ P') in Hx as [Hx|Hx]; [congruence|]. apply (Permutation_in _ (Permutation_sym P)). right; auto. }
  split.
  - split; [auto|]. split; [auto|]. intros k2 c2 Hx. destruct (eq_dec_ord k2 k) as [->|Hn].
    + assert (c2 = c') by (eapply nodup_fun; eauto). subst c2. split; auto. destruct (H k c Hin) as (_ & cb & H2 & H3 & H4). exists cb.
      split; auto. split; auto. intros E. destruct (Hu E) as [E1 E2]. rewrite E1. auto.
    + apply Oth in Hx; auto.
  - destruct (H k c Hin) as (_ & cb & H2 & _). apply in_split in H2 as (b1 & b2 & ->). 
    assert (Pb : Permutation (b1 ++ (k, cb) :: b2) ((k, cb) :: b1 ++ b2)) by (symmetry; apply Permutation_middle).
    exists (latest f (b1 ++ b2)). split.
    + rewrite (latest_perm f Pb). cbn [latest map]. unfold latest_at at 1. cbn [fst snd]. rewrite (look_in N1 Hin). auto.
    + rewrite (latest_perm f' Pb). cbn [latest map]. unfold latest_at at 1. cbn [fst snd]. rewrite (look_in N1' Hin').
      fold (latest f' (b1 ++ b2)). rewrite (@latest_ext f' f (b1 ++ b2)); auto. intros [k2 c2] Hx. cbn [fst]. apply look_ext; auto.
      intros c3. symmetry. apply Oth. intros ->. assert (Nb : NoDup (keys ((k, cb) :: b1 ++ b2))) by (eapply nodup_keys_perm; eauto).
      cbn in Nb. inversion Nb; subst. apply in_keys in Hx. auto.
Qed.

(** An element of the back container is cloned in the front, which evicts [out]; the updated ones go to the back. *)
Lemma downgrading f b k c rest out f1 old b1' : linked f b -> ~ In k (keys f) -> Permutation b ((k, c) :: rest) ->
  Permutation (out ++ f1) (f ++ [(k, cell_clone c)]) -> ~ In k (keys out) ->
  Permutation ((k, cell_mark c) :: rest) (old ++ b1') ->
  (forall k', In k' (keys old) <-> In k' (keys (filter (fun kc => c_updated (snd kc)) out))) ->
  linked f1 (filter (fun kc => c_updated (snd kc)) out ++ b1') /\
  Permutation (latest f1 (filter (fun kc => c_updated (snd kc)) out ++ b1')) (latest f b) /\ In (k, cell_clone c) f1.
Proof.
  intros Lk Hk Pb Pf Ho Pm Hold. pose proof Lk as (N1 & N2 & H). set (popped := filter _ out) in *. set (b2 := popped ++ b1').
  assert (Nf : NoDup (keys (out ++ f1))).
  { eapply nodup_keys_perm; [symmetry; exact Pf|]. rewrite keys_app. apply NoDup_app_inv. split; auto. split; [repeat constructor; auto|].
    intros x Hx [<-|[]]. auto. }
  rewrite keys_app in Nf. apply NoDup_app_inv in Nf as (No & Nf1 & Df).
  assert (Nm : NoDup (keys (old ++ b1'))).
  { eapply nodup_keys_perm; [exact Pm|]. change (keys ((k, cell_mark c) :: rest)) with (keys ((k, c) :: rest)). eapply nodup_keys_perm; eauto. }
  rewrite keys_app in Nm. apply NoDup_app_inv in Nm as (Nold & Nb1 & Dm).
  assert (Hkf1 : In (k, cell_clone c) f1).
  { assert (G : In (k, cell_clone c) (out ++ f1)) by (apply (Permutation_in _ (Permutation_sym Pf)); apply in_or_app; right; left; auto).
    apply in_app_or in G as [G|G]; auto. exfalso. apply Ho. eapply in_keys; eauto. }
  assert (Fo : forall k' c', k' <> k -> In (k', c') f <-> In (k', c') out \/ In (k', c') f1).
  { intros k' c' Hn. split; intros Hx.
    - apply in_app_or. apply (Permutation_in _ (Permutation_sym Pf)). apply in_or_app; auto.
    - apply in_or_app in Hx. apply (Permutation_in _ Pf) in Hx. apply in_app_or in Hx as [Hx|[Hx|[]]]; auto. congruence. }
  assert (Np : NoDup (keys popped)) by (apply nodup_keys_filter; auto).
  assert (Hkp : ~ In k (keys popped)).
  { intros Hx. apply in_keys_inv in Hx as (c' & Hx). apply filter_In in Hx as [Hx _]. apply Ho. eapply in_keys; eauto. }
  assert (N2' : NoDup (keys b2)).
  { unfold b2. rewrite keys_app. apply NoDup_app_inv. split; auto. split; auto. intros x Hx. apply Dm. apply Hold. auto. }
  assert (Bo : forall k' c', k' <> k -> ~ In k' (keys popped) -> In (k', c') b -> In (k', c') b2).
  { intros k' c' Hn Hnp Hx. apply (Permutation_in _ Pb) in Hx as [Hx|Hx]; [congruence|].
    assert (G : In (k', c') (old ++ b1')) by (apply (Permutation_in _ Pm); right; auto). apply in_app_or in G as [G|G]; [|apply in_or_app; auto].
    exfalso. apply Hnp. apply Hold. eapply in_keys; eauto. }
  assert (Bk : In (k, cell_mark c) b2).
  { assert (G : In (k, cell_mark c) (old ++ b1')) by (apply (Permutation_in _ Pm); left; auto). apply in_app_or in G as [G|G]; [|apply in_or_app; auto].
    exfalso. apply Hkp. apply Hold. eapply in_keys; eauto. }
  split; [|split; auto].
  - split; [auto|]. split; [auto|]. intros k' cf Hx. destruct (eq_dec_ord k' k) as [->|Hn].
    + assert (cf = cell_clone c) by (eapply (nodup_fun f1); eauto). subst cf. split; auto. exists (cell_mark c). auto.
    + assert (Hxf : In (k', cf) f) by (apply Fo; auto). destruct (H k' cf Hxf) as (H1 & cb & H2 & H3 & H4). split; auto. exists cb. split; auto.
      apply Bo; auto. intros Hp. apply in_keys_inv in Hp as (c' & Hp). apply filter_In in Hp as [Hp _]. apply (Df k'); eapply in_keys; eauto.
  - symmetry. apply latest_same; auto.
    + intros k'. destruct (eq_dec_ord k' k) as [->|Hn].
      { split; intros _; [eapply in_keys; eauto|]. apply (in_keys_perm k (Permutation_sym Pb)). left; auto. }
      split; intros Hx.
      * destruct (in_dec eq_dec_ord k' (keys popped)) as [Hp|Hp]; [unfold b2; rewrite keys_app; apply in_or_app; auto|].
        apply in_keys_inv in Hx as (cb & Hx). apply (@in_keys _ _ k' cb). auto.
      * assert (G : In k' (keys (old ++ b1'))).
        { rewrite keys_app. apply in_or_app. unfold b2 in Hx. rewrite keys_app in Hx. apply in_app_or in Hx as [Hx|Hx]; auto. left. apply Hold. auto. }
        apply (in_keys_perm k' (Permutation_sym Pm)) in G. apply (in_keys_perm k' (Permutation_sym Pb)). exact G.
    + intros k' Hx. unfold val. destruct (eq_dec_ord k' k) as [->|Hn].
      { rewrite (proj2 (look_none k f) Hk), (look_in Nf1 Hkf1), (@look_in k c b N2); auto. apply (Permutation_in _ (Permutation_sym Pb)). left; auto. }
      apply in_keys_inv in Hx as (cb & Hx). rewrite (look_in N2 Hx). destruct (look k' f) as [cf|] eqn:Ef.
      * apply look_some in Ef. destruct (proj1 (Fo k' cf Hn) Ef) as [Hout|Hf1].
        -- assert (Hnf : ~ In k' (keys f1)) by (intros Hy; apply (Df k'); auto; eapply in_keys; eauto). rewrite (proj2 (look_none k' f1) Hnf).
           destruct (c_updated cf) eqn:Eu.
           ++ rewrite (@look_in k' cf b2 N2'); auto. apply in_or_app. left. apply filter_In. auto.
           ++ destruct (H k' cf Ef) as (_ & cb' & G2 & _ & G4). assert (cb' = cb) by (eapply (nodup_fun b); eauto). subst cb'.
              rewrite (@look_in k' cb b2 N2'); [cbn; f_equal; auto|]. apply Bo; auto. intros Hp. apply in_keys_inv in Hp as (c' & Hp).
              apply filter_In in Hp as [Hp Hp2]. assert (c' = cf) by (eapply (nodup_fun out); eauto). subst c'. cbn in Hp2. congruence.
        -- rewrite (look_in Nf1 Hf1). auto.
      * apply look_none in Ef. assert (Hn1 : ~ In k' (keys f1)).
        { intros Hy. apply in_keys_inv in Hy as (c' & Hy). apply Ef. apply (@in_keys _ _ k' c'). apply Fo; auto. }
        rewrite (proj2 (look_none k' f1) Hn1), (@look_in k' cb b2 N2'); auto. apply Bo; auto.
        intros Hp. apply in_keys_inv in Hp as (c' & Hp). apply filter_In in Hp as [Hp _]. apply Ef. apply (@in_keys _ _ k' c'). apply Fo; auto.
Qed.

(** What flush does. *)
Lemma flushing f b old b1 b2 all : linked f b -> Permutation all f ->
  let up := map (fun kc => (fst kc, cell_new (c_value (snd kc)))) (filter (fun kc => c_updated (snd kc)) all) in
  Permutation b (old ++ b1) -> (forall k, In k (keys old) <-> In k (keys up) /\ In k (keys b)) -> Permutation b2 (b1 ++ up) ->
  Permutation (map plain b2) (latest f b) /\ length up = length old /\ NoDup (keys (b1 ++ up)).
Proof.
  intros Lk Pa up Pb Hold P2. pose proof Lk as (N1 & N2 & H).
  assert (Ku : keys up = keys (filter (fun kc => c_updated (snd kc)) all)) by (unfold up, keys; rewrite map_map; auto).
  assert (Na : NoDup (keys all)) by (eapply nodup_keys_perm; [symmetry; exact Pa|auto]).
  assert (Nu : NoDup (keys up)) by (rewrite Ku; apply nodup_keys_filter; auto).
  assert (Hu : forall k, In k (keys up) <-> exists cf, In (k, cf) f /\ c_updated cf = true).
  { intros k. rewrite Ku. split.
    - intros Hk. apply in_keys_inv in Hk as (cf & Hk). apply filter_In in Hk as [H1 H2]. exists cf. split; auto. apply (Permutation_in _ Pa); auto.
    - intros (cf & H1 & H2). apply (@in_keys _ _ k cf). apply filter_In. split; auto. apply (Permutation_in _ (Permutation_sym Pa)); auto. }
  assert (Hub : forall k, In k (keys up) -> In k (keys b)).
  { intros k Hk. apply Hu in Hk as (cf & Hk & _). apply (@linked_sub f b); auto. eapply in_keys; eauto. }
  assert (Hold' : forall k, In k (keys old) <-> In k (keys up)) by (intros k; rewrite Hold; split; [tauto|intros Hk; split; auto]).
  assert (Nb : NoDup (keys (old ++ b1))) by (eapply nodup_keys_perm; eauto). rewrite keys_app in Nb. apply NoDup_app_inv in Nb as (No & Nb1 & Db).
  assert (Nbu : NoDup (keys (b1 ++ up))).
  { rewrite keys_app. apply NoDup_app_inv. split; auto. split; auto. intros x Hx Hy. apply Hold' in Hy. apply (Db x); auto. }
  assert (N2' : NoDup (keys b2)) by (eapply nodup_keys_perm; [symmetry; exact P2|auto]).
  split; [|split; auto].
  - rewrite <- (@latest_plain [] b2) by (intros kc _ []). symmetry. apply latest_same; auto.
    + intros k. specialize (Hold' k). pose proof (Permutation_in k (keys_perm Pb)). pose proof (Permutation_in k (keys_perm (Permutation_sym Pb))).
      pose proof (Permutation_in k (keys_perm P2)). pose proof (Permutation_in k (keys_perm (Permutation_sym P2))).
      rewrite keys_app, in_app_iff in *. tauto.
    + intros k Hk. unfold val at 2. cbn [look find option_map]. change (look k []) with (@None C). cbv iota. unfold val.
      apply in_keys_inv in Hk as (cb & Hk). rewrite (look_in N2 Hk). destruct (look k f) as [cf|] eqn:Ef.
      * apply look_some in Ef. destruct (c_updated cf) eqn:Eu.
        -- rewrite (@look_in k (cell_new (c_value cf)) b2 N2'); auto. apply (Permutation_in _ (Permutation_sym P2)). apply in_or_app. right.
           unfold up. apply in_map_iff. exists (k, cf). split; auto. apply filter_In. split; auto. apply (Permutation_in _ (Permutation_sym Pa)); auto.
        -- destruct (H k cf Ef) as (_ & cb' & G2 & _ & G4). assert (cb' = cb) by (eapply (nodup_fun b); eauto). subst cb'.
           rewrite (@look_in k cb b2 N2'); [cbn; f_equal; auto|]. apply (Permutation_in _ (Permutation_sym P2)). apply in_or_app. left.
           apply (Permutation_in _ Pb) in Hk. apply in_app_or in Hk as [Hk|Hk]; auto. exfalso. apply in_keys in Hk. apply Hold' in Hk.
           apply Hu in Hk as (c' & Hc1 & Hc2). assert (c' = cf) by (eapply (nodup_fun f); eauto). congruence.
      * apply look_none in Ef. rewrite (@look_in k cb b2 N2'); auto. apply (Permutation_in _ (Permutation_sym P2)). apply in_or_app. left.
        apply (Permutation_in _ Pb) in Hk. apply in_app_or in Hk as [Hk|Hk]; auto. exfalso. apply in_keys in Hk. apply Hold' in Hk.
        apply Hu in Hk as (c' & Hc1 & _). apply Ef. eapply in_keys; eauto.
  - assert (P : Permutation (keys up) (keys old)) by (apply NoDup_Permutation; auto; intros k; rewrite Hold'; tauto).
    apply Permutation_length in P. unfold keys in P. rewrite !map_length in P. unfold up in *. rewrite !map_length in *. auto.
Qed.
End Lists.

(** ** Guards that outlive calls *)
Section TGet.
Context {K V : Type} {OK : Ord K}.
Variable B : Block K V.
Variable Inv : St B -> Prop.
Variable ct : St B -> list (K * V).
(** [pending g] is what dropping the guard puts back. *)
Record TGet_ok (tg : TGetter B) (pending : tG tg -> list (K * V)) : Prop := {
  t_open_ok : forall s k f, Inv s -> exists s' o, t_open tg s k f = Ok (s', o) /\ Inv s' /\ capacity B s' = capacity B s /\
    match o with
    | Some (v, g) => exists rest, Permutation (ct s) ((k, v) :: rest) /\ Permutation (pending g ++ ct s') ((k, f v) :: rest) /\ incl (keys (pending g)) [k]
    | None => ~ In k (keys (ct s)) /\ Permutation (ct s') (ct s)
    end;
  t_close_ok : forall s g, Inv s -> NoDup (keys (pending g ++ ct s)) -> length (pending g ++ ct s) <= capacity B s ->
    exists s', t_close tg s g = Ok s' /\ Inv s' /\ capacity B s' = capacity B s /\ Permutation (ct s') (pending g ++ ct s)
}.
End TGet.


Notation a_inv_u srt bs E := (inv_u (ArrayB srt bs) (a_inv_e E) (@a_vals _ _) false).
Lemma array_tget_ok {K V} {OK : Ord K} {EK : OrdEq K} {OV : Ord V} (srt : Sorter (K * V) V snd) (bs : BSearch K) (E : K * V -> nat) :
  (forall x, E x = 1) ->
  TGet_ok (a_inv_u srt bs E) (@a_vals K V) (array_tget srt bs) (fun _ => []).
Proof.
  intros HE. split.
  - intros s k f Hi. cbn [t_open array_tget]. unfold array_open.
    destruct (@array_get_ok K V OK EK OV srt bs E false s k f) as (s' & o & H1 & H2 & H3 & H4 & H5); auto.
    { intros. rewrite !HE. auto. }
    rewrite H1. cbn [bind]. eexists s', _. split; [reflexivity|]. split; [exact H2|]. split; [exact H3|]. destruct o as [v|]; cbn [option_map app]; auto.
    destruct H5 as (rest & P1 & P2). exists rest. split; auto. split; auto. intros x [].
  - intros s g Hi _ _. exists s. auto.
Qed.
Lemma btree_tget_ok {K V} {OK : Ord K} {EK : OrdEq K} {OV : Ord V} (E : K * V -> nat) : (forall x, E x = 1) ->
  @TGet_ok K V (@BTreeB K V OK OV) (b_inv E) (@b_ct K V) btree_tget (fun kv => [kv]).
Proof.
  intros HE. split.
  - intros s k f Hi. cbn [t_open btree_tget]. unfold btree_open. destruct (law_take (btree_laws E) s k Hi) as (s1 & o & H1 & H2 & H3 & _ & H4).
    cbn [take BTreeB] in H1. rewrite H1. cbn [bind]. eexists s1, _. split; [reflexivity|]. split; [exact H2|]. split; [exact H3|].
    destruct o as [[k' v]|]; auto. destruct H4 as [-> P]. exists (b_ct s1). split; [symmetry; exact P|]. split; auto. intros x Hx. exact Hx.
  - change (forall s (kv : K * V), b_inv E s -> NoDup (keys ([kv] ++ b_ct s)) -> length ([kv] ++ b_ct s) <= capacity BTreeB s ->
      exists s', t_close btree_tget s kv = Ok s' /\ b_inv E s' /\ capacity BTreeB s' = capacity BTreeB s /\ Permutation (b_ct s') ([kv] ++ b_ct s)).
    intros s kv Hi N Hl. assert (Hm : may_push BTreeB (@b_ct K V) false s [kv]).
    { intros _. eapply nodup_keys_perm; [|exact N]. apply Permutation_app_comm. }
    destruct (law_push (btree_laws E) s [kv] Hi Hm) as (s' & out & H1 & H2 & H3 & H4).
    destruct (push_len (btree_laws E) (btree_unit E HE) Hi Hm H1) as (_ & _ & _ & Hn). rewrite app_length in Hl. cbn [length] in *.
    cbn [t_close btree_tget]. unfold btree_close. cbn [push BTreeB] in H1. rewrite H1. cbn [bind].
    assert (Ho : length out = 0) by lia. destruct out; [|discriminate]. exists s'. split; auto. split; auto. split; auto.
    cbn [app] in H4. rewrite H4. apply Permutation_app_comm.
Qed.

(** ** The container *)
Section Inc.
Context {K V : Type} {OK : Ord K} {EK : OrdEq K}.
Variables L R : Block K (cell V).
Variable InvL : St L -> Prop.
Variable InvR : St R -> Prop.
Variable ctL : St L -> list (K * cell V).
Variable ctR : St R -> list (K * cell V).
Variables pL pR : bool.
Hypothesis HL : Laws L InvL ctL false pL true.
Hypothesis HR : Laws R InvR ctR false pR true.
Hypothesis UL : Unit L InvL ctL false.
Hypothesis UR : Unit R InvR ctR false.

Definition in_ct (s : inclusive L R) : list (K * V) := latest (ctL (fst s)) (ctR (snd s)).
Definition in_inv (s : inclusive L R) : Prop := InvL (fst s) /\ InvR (snd s) /\ linked (ctL (fst s)) (ctR (snd s)).
(** A key marked as cloned in the back that the front does not have (any more). *)
Definition stale (s : inclusive L R) (k : K) : Prop :=
  exists c, In (k, c) (ctR (snd s)) /\ c_cloned c = true /\ ~ In k (keys (ctL (fst s))).

Lemma in_ct_keys s : keys (in_ct s) = keys (ctR (snd s)).
Proof. apply keys_latest. Qed.
Lemma in_inv_nodup s : in_inv s -> NoDup (keys (in_ct s)).
Proof. intros (_ & _ & _ & H & _). rewrite in_ct_keys. auto. Qed.
Lemma is_stale_iff f (kc : K * cell V) : is_stale f kc = true <-> c_cloned (snd kc) = true /\ ~ In (fst kc) (keys f).
Proof.
  unfold is_stale, is_clone. rewrite andb_true_iff. split; intros [H1 H2]; split; auto.
  - apply has_key_not_in. destruct (has_key _ f); auto.
  - apply has_key_not_in in H2. rewrite H2. auto.
Qed.

Lemma in_contains_ok s k : in_inv s -> in_contains s k = Ok (has_key k (in_ct s)).
Proof.
  intros (I1 & I2 & Lk). unfold in_contains. rewrite (law_contains HL _ k I1). cbn [bind]. destruct (has_key k (ctL (fst s))) eqn:E.
  - apply has_key_in in E. symmetry. f_equal. apply has_key_in. rewrite in_ct_keys. eapply linked_sub; eauto.
  - rewrite (law_contains HR _ k I2). f_equal. destruct (has_key k (ctR (snd s))) eqn:E2; symmetry.
    + apply has_key_in. rewrite in_ct_keys. apply has_key_in; auto.
    + apply has_key_not_in. rewrite in_ct_keys. apply has_key_not_in; auto.
Qed.

(** What leaves the front when pairs [l] leave the back (take_multiple and push). *)
Lemma in_leave_ok f b l b' : InvL f -> linked (ctL f) b -> Permutation b (l ++ b') ->
  exists f' out, in_leave L f l = Ok (f', out) /\ InvL f' /\ capacity L f' = capacity L f /\ linked (ctL f') b' /\
    Permutation (out ++ map plain (filter (is_stale (ctL f)) l)) (latest (ctL f) l) /\ latest (ctL f) b' = latest (ctL f') b' /\
    (forall k, ~ In k (keys l) -> In k (keys (ctL f)) -> In k (keys (ctL f'))).
Proof.
  intros I Lk Pb. unfold in_leave. destruct (law_take_multiple HL f (keys (filter (@is_clone K V) l)) I) as (f' & ks' & out & H1 & H2 & H3 & _ & H4 & H5 & H6 & _).
  rewrite H1. cbn [bind]. exists f'. eexists. split; [reflexivity|]. split; auto. split; auto.
  destruct (@leaving K V OK EK (ctL f) b l b' out (ctL f')) as (A1 & A2 & A3); auto.
  { symmetry; auto. }
  { intros k. split; [|intros [G1 G2]; auto]. intros Hk. split; [|apply H5; auto]. apply (in_keys_perm k H4). rewrite keys_app. apply in_or_app; auto. }
  split; auto. split; [rewrite <- app_assoc; auto|]. split; auto. intros k Hn Hk. apply (Permutation_in k (keys_perm (Permutation_sym H4))) in Hk.
  rewrite keys_app in Hk. apply in_app_or in Hk as [Hk|Hk]; auto. exfalso. apply Hn. apply H5 in Hk. unfold keys in *.
  apply in_map_iff in Hk as (x & <- & Hx). apply filter_In in Hx as [Hx _]. apply List.in_map. auto.
Qed.

Lemma in_take_ok s k : in_inv s ->
  (~ stale s k -> exists s' o, in_take s k = Ok (s', o) /\ in_inv s' /\ in_capacity s' = in_capacity s /\ in_size s' <= in_size s /\
     capacity L (fst s') = capacity L (fst s) /\ (forall k', stale s' k' -> stale s k') /\
     match o with
     | Some (k', v) => k' = k /\ Permutation ((k, v) :: in_ct s') (in_ct s)
     | None => ~ In k (keys (in_ct s)) /\ Permutation (in_ct s') (in_ct s)
     end) /\
  (stale s k -> in_take s k = Panic).
Proof.
  intros (I1 & I2 & Lk). destruct s as [f b]. unfold stale, in_take, in_ct, in_inv, in_capacity, in_size in *. cbn [fst snd] in *.
  destruct (law_take HR b k I2) as (b' & o & H1 & H2 & H3 & H4 & H5). rewrite H1. cbn [bind]. destruct o as [[k' c]|].
  - destruct H5 as [-> P]. assert (Hin : In (k, c) (ctR b)) by (apply (Permutation_in _ P); left; auto).
    pose proof Lk as (N1 & N2 & H). unfold in_resolve, is_clone. cbn [fst snd]. destruct (c_cloned c) eqn:Ec.
    + destruct (law_take HL f k I1) as (f' & o & G1 & G2 & G3 & _ & G4). rewrite G1. cbn [bind]. destruct o as [[k' cf]|].
      * destruct G4 as [-> Pf]. cbn [unwrap bind plain fst snd].
        destruct (@leaving K V OK EK (ctL f) (ctR b) [(k, c)] (ctR b') [(k, cf)] (ctL f')) as (A1 & A2 & A3); auto; try (symmetry; auto; fail).
        { intros x. cbn [filter is_clone snd]. unfold is_clone. cbn [snd]. rewrite Ec. cbn. split; intros G; [|tauto].
          split; auto. destruct G as [<-|[]]. apply (in_keys_perm k Pf). left; auto. }
        assert (Hkf : In k (keys (ctL f))) by (apply (in_keys_perm k Pf); left; auto).
        split; [|intros (c2 & _ & _ & Hn); tauto]. intros _. eexists (f', b'), (Some (k, c_value cf)). split; [reflexivity|]. cbn [fst snd].
        split; [split; [auto|split; [auto|exact A1]]|]. split; auto. split; auto. split; auto. split.
        { intros x (c2 & Hx & Hc & Hn). exists c2. split; [apply (Permutation_in _ P); right; auto|]. split; auto. intros Hy.
          apply (Permutation_in x (keys_perm (Permutation_sym Pf))) in Hy as [Hy|Hy]; auto. cbn in Hy. subst x.
          assert (Nb : NoDup (keys ((k, c) :: ctR b'))) by (eapply nodup_keys_perm; [symmetry; exact P|auto]). cbn in Nb. inversion Nb; subst.
          apply in_keys in Hx. auto. }
        split; auto. rewrite <- A2. rewrite <- (latest_perm (ctL f) P). rewrite latest_cons. unfold latest_at at 1. cbn [fst].
        rewrite (@look_in K V OK EK k cf (ctL f) N1); auto. apply (Permutation_in _ Pf). left; auto.
      * destruct G4 as [Hn _]. cbn [unwrap bind]. split; [|auto]. intros Hs. exfalso. apply Hs. exists c. auto.
    + assert (Hn : ~ In k (keys (ctL f))) by (eapply linked_unmarked; eauto).
      destruct (@leaving K V OK EK (ctL f) (ctR b) [(k, c)] (ctR b') [] (ctL f)) as (A1 & A2 & A3); auto; try (symmetry; auto; fail).
      { intros x. cbn [filter]. unfold is_clone. cbn [snd]. rewrite Ec. cbn. tauto. }
      cbn [bind plain fst snd]. split.
      * intros _. exists (f, b'), (Some (k, c_value c)). split; [reflexivity|]. cbn [fst snd]. split; [split; [auto|split; [auto|exact A1]]|]. split; auto. split; auto. split; auto.
        split; [intros x (c2 & Hx & Hc & Hy); exists c2; split; auto; apply (Permutation_in _ P); right; auto|]. split; auto.
        rewrite <- (latest_perm (ctL f) P). rewrite latest_cons. unfold latest_at at 1. cbn [fst snd]. rewrite (proj2 (look_none k (ctL f)) Hn). auto.
      * intros (c2 & Hc & Hd & _). assert (c2 = c) by (eapply (nodup_fun (ctR b)); eauto). congruence.
  - destruct H5 as [Hn P]. split.
    + intros _. exists (f, b'), None. split; [reflexivity|]. cbn [fst snd]. split; [split; [auto|split; [auto|eapply linked_perm; [apply Permutation_refl|symmetry; exact P|auto]]]|].
      split; auto. split; auto. split; auto. split; [intros x (c2 & Hx & Hc & Hy); exists c2; split; auto; apply (Permutation_in _ P); auto|].
      split; [rewrite keys_latest; auto|apply latest_perm; auto].
    + intros (c & Hc & _). exfalso. apply Hn. eapply in_keys; eauto.
Qed.

Lemma in_take_multiple_ok s ks : in_inv s ->
  exists s' ks' out lost, in_take_multiple s ks = Ok (s', ks', out) /\ in_inv s' /\ in_capacity s' = in_capacity s /\ in_size s' <= in_size s /\
    capacity L (fst s') = capacity L (fst s) /\ (forall k', stale s' k' -> stale s k') /\
    Permutation (out ++ lost ++ in_ct s') (in_ct s) /\ (forall k, In k (keys lost) -> stale s k) /\ (forall k, stale s k -> In k ks -> In k (keys lost)) /\
    incl (keys (out ++ lost)) ks /\ (forall k, In k ks -> In k (keys (in_ct s)) -> In k (keys (out ++ lost))) /\
    (exists removed, Permutation ks (removed ++ ks') /\ incl removed (keys (out ++ lost))).
Proof.
  intros (I1 & I2 & Lk). destruct s as [f b]. unfold stale, in_take_multiple, in_ct, in_inv, in_capacity, in_size in *. cbn [fst snd] in *.
  destruct (law_take_multiple HR b ks I2) as (b' & ks' & l & H1 & H2 & H3 & H4 & H5 & H6 & H7 & rm & H8 & H9). rewrite H1. cbn [bind].
  destruct (@in_leave_ok f (ctR b) l (ctR b')) as (f' & out & G1 & G2 & G3 & G4 & G5 & G6 & G7); auto; [symmetry; auto|]. rewrite G1. cbn [bind].
  pose proof Lk as (N1 & N2 & H).
  assert (Nl : NoDup (keys (l ++ ctR b'))) by (eapply nodup_keys_perm; [symmetry; exact H5|auto]). rewrite keys_app in Nl. apply NoDup_app_inv in Nl as (Nl & Nb' & Dl).
  set (st := filter (is_stale (ctL f)) l) in *.
  assert (Kp : keys (map plain st) = keys st) by (unfold keys; rewrite map_map; auto).
  assert (Ko : forall k, In k (keys (out ++ map plain st)) <-> In k (keys l)).
  { intros k. rewrite <- (keys_latest (ctL f) l). split; apply Permutation_in; [|symmetry]; apply keys_perm; auto. }
  eexists (f', b'), ks', out, (map plain st). split; [reflexivity|]. cbn [fst snd]. split; [split; [auto|split; [auto|exact G4]]|]. split; auto. split; auto. split; auto.
  split.
  { intros k (c & Hc & Hd & Hn). exists c. split; [apply (Permutation_in _ H5); apply in_or_app; auto|]. split; auto. intros Hk. apply Hn. apply G7; auto.
    intros Hl. apply (Dl k); auto. eapply in_keys; eauto. }
  split. { rewrite <- (latest_perm (ctL f) H5), latest_app, <- G6, <- G5, app_assoc. auto. }
  split.
  { intros k Hk. rewrite Kp in Hk. apply in_keys_inv in Hk as (c & Hc). apply filter_In in Hc as [Hc1 Hc2]. apply is_stale_iff in Hc2 as [Hc2 Hc3].
    exists c. split; auto. apply (Permutation_in _ H5); apply in_or_app; auto. }
  split.
  { intros k (c & Hc & Hd & Hn) Hk. rewrite Kp. apply (@in_keys _ _ k c). apply filter_In. rewrite is_stale_iff. split; auto.
    assert (Hl : In k (keys l)) by (apply H7; auto; eapply in_keys; eauto). apply in_keys_inv in Hl as (c' & Hl).
    assert (c' = c); [|subst; auto]. eapply (nodup_fun (ctR b)); eauto. apply (Permutation_in _ H5); apply in_or_app; auto. }
  split; [intros k Hk; apply Ko in Hk; auto|]. split; [intros k Hk Hc; apply Ko; rewrite keys_latest in Hc; auto|].
  exists rm. split; auto. intros k Hk. apply Ko. auto.
Qed.

Lemma in_push_ok s vs : in_inv s -> NoDup (keys (in_ct s ++ vs)) ->
  exists s' out lost, in_push s vs = Ok (s', out) /\ in_inv s' /\ in_capacity s' = in_capacity s /\
    capacity L (fst s') = capacity L (fst s) /\ (forall k', stale s' k' -> stale s k') /\
    Permutation (out ++ lost ++ in_ct s') (in_ct s ++ vs) /\ (forall k, In k (keys lost) -> stale s k) /\
    (forall k, stale s k -> In k (keys lost) \/ stale s' k) /\
    length (in_ct s') = Nat.min (in_capacity s) (length (in_ct s) + length vs).
Proof.
  intros (I1 & I2 & Lk) N. destruct s as [f b]. unfold stale, in_push, in_ct, in_inv, in_capacity in *. cbn [fst snd] in *.
  set (w := map _ vs). assert (Kw : keys w = keys vs) by (unfold w, keys; rewrite map_map; auto).
  assert (Nw : NoDup (keys (ctR b ++ w))) by (rewrite keys_app, Kw; rewrite keys_app, keys_latest in N; auto).
  destruct (law_push HR b w I2 (fun _ => Nw)) as (b' & l & H1 & H2 & H3 & H4). rewrite H1. cbn [bind].
  pose proof Lk as (N1 & N2 & H).
  assert (Lw : linked (ctL f) (ctR b ++ w)).
  { split; auto. split; auto. intros k cf Hc. destruct (H k cf Hc) as (A1 & cb & A2 & A3). split; auto. exists cb. split; auto. apply in_or_app; auto. }
  assert (El : latest (ctL f) (ctR b ++ w) = latest (ctL f) (ctR b) ++ vs).
  { rewrite latest_app. f_equal. rewrite latest_plain.
    - unfold w. rewrite map_map. unfold plain. cbn. rewrite <- (map_id vs) at 2. apply map_ext. intros []; auto.
    - intros kc Hk Hf. apply (@linked_sub K V _ _ _ Lk) in Hf. rewrite keys_app in Nw. apply NoDup_app_inv in Nw as (_ & _ & D). apply (D (fst kc)); auto.
      apply List.in_map. auto. }
  destruct (@in_leave_ok f (ctR b ++ w) l (ctR b')) as (f' & out & G1 & G2 & G3 & G4 & G5 & G6 & G7); auto; [symmetry; auto|]. rewrite G1. cbn [bind].
  assert (Nl : NoDup (keys (l ++ ctR b'))) by (eapply nodup_keys_perm; [symmetry; exact H4|auto]). rewrite keys_app in Nl. apply NoDup_app_inv in Nl as (Nl & Nb' & Dl).
  set (st := filter (is_stale (ctL f)) l) in *.
  assert (Kp : keys (map plain st) = keys st) by (unfold keys; rewrite map_map; auto).
  assert (Nc : forall k c, In (k, c) (ctR b ++ w) -> c_cloned c = true -> In (k, c) (ctR b)).
  { intros k c Hc Hd. apply in_app_or in Hc as [Hc|Hc]; auto. unfold w in Hc. apply in_map_iff in Hc as (x & E & _). injection E as _ <-. discriminate. }
  eexists (f', b'), out, (map plain st). split; [reflexivity|]. cbn [fst snd]. split; [split; [auto|split; [auto|exact G4]]|]. split; auto. split; auto.
  split.
  { intros k (c & Hc & Hd & Hn). exists c. assert (Hc' : In (k, c) (ctR b ++ w)) by (apply (Permutation_in _ H4); apply in_or_app; auto).
    split; [apply Nc; auto|]. split; auto. intros Hk. apply Hn. apply G7; auto. intros Hl. apply (Dl k); auto. eapply in_keys; eauto. }
  split. { rewrite <- El. rewrite <- (latest_perm (ctL f) H4), latest_app, <- G6, <- G5, app_assoc. auto. }
  split.
  { intros k Hk. rewrite Kp in Hk. apply in_keys_inv in Hk as (c & Hc). apply filter_In in Hc as [Hc1 Hc2]. apply is_stale_iff in Hc2 as [Hc2 Hc3].
    exists c. split; auto. apply Nc; auto. apply (Permutation_in _ H4); apply in_or_app; auto. }
  split; [|destruct (push_len HR UR I2 (fun _ => Nw) H1) as (_ & _ & J4 & J5); unfold latest; rewrite !map_length;
    apply Permutation_length in J4; rewrite !app_length in J4; unfold w in J4, J5; rewrite !map_length in J4, J5; lia].
  intros k (c & Hc & Hd & Hn). assert (Hc' : In (k, c) (l ++ ctR b')).
  { apply (Permutation_in _ (Permutation_sym H4)). apply in_or_app; auto. }
  apply in_app_or in Hc' as [Hc'|Hc'].
  - left. rewrite Kp. apply (@in_keys _ _ k c). apply filter_In. rewrite is_stale_iff. auto.
  - right. exists c. split; auto. split; auto. intros Hk. apply Hn. apply in_keys_inv in Hk as (cf & Hk).
    assert (G : In k (keys (ctL f))); auto. revert Hk G1. unfold in_leave.
    destruct (law_take_multiple HL f (keys (filter (@is_clone K V) l)) I1) as (f2 & ks2 & out2 & J1 & _ & _ & _ & J4 & _). rewrite J1. cbn [bind].
    intros Hk [= <- _]. apply (in_keys_perm k J4). rewrite keys_app. apply in_or_app. right. eapply in_keys; eauto.
Qed.

(** pop *)
Lemma in_resolve_all_ok : forall l f, InvL f -> NoDup (keys l) -> (forall k c, In (k, c) l -> c_cloned c = false -> ~ In k (keys (ctL f))) ->
  (existsb (is_stale (ctL f)) l = true -> in_resolve_all L f l = Panic) /\
  (existsb (is_stale (ctL f)) l = false -> exists f' out, in_resolve_all L f l = Ok (f', latest (ctL f) l) /\ InvL f' /\ capacity L f' = capacity L f /\
     Permutation (ctL f) (out ++ ctL f') /\ (forall k, In k (keys out) <-> In k (keys (ctL f)) /\ In k (keys (filter (@is_clone K V) l)))).
Proof.
  induction l as [|[k c] l IH]; intros f I N Hu.
  - split; [discriminate|]. intros _. exists f, []. cbn. split; auto. split; auto. split; auto. split; auto. tauto.
  - cbn in N. inversion N as [|? ? Nk N']; subst. cbn [existsb in_resolve_all fst].
    assert (NL : NoDup (keys (ctL f))) by (apply (law_unique HL); auto).
    assert (Step : is_stale (ctL f) (k, c) = false -> exists f1 o1, in_resolve L f k (k, c) = Ok (f1, latest_at (ctL f) (k, c)) /\ InvL f1 /\ capacity L f1 = capacity L f /\
      Permutation (ctL f) (o1 ++ ctL f1) /\ (forall x, In x (keys o1) <-> In x (keys (ctL f)) /\ c_cloned c = true /\ x = k)).
    { intros Es. unfold in_resolve, is_clone. cbn [snd]. destruct (c_cloned c) eqn:Ec.
      - destruct (law_take HL f k I) as (f1 & o & G1 & G2 & G3 & _ & G4). rewrite G1. cbn [bind]. destruct o as [[k' cf]|].
        + destruct G4 as [-> P]. exists f1, [(k, cf)]. cbn [unwrap bind]. split.
          * unfold latest_at, plain. cbn [fst snd]. rewrite (@look_in K V OK EK k cf (ctL f) NL); auto. apply (Permutation_in _ P). left; auto.
          * split; auto. split; auto. split; [symmetry; auto|]. intros x. cbn. split; [intros [<-|[]]; repeat split; auto; apply (in_keys_perm k P); left; auto|].
            intros (_ & _ & ->); auto.
        + destruct G4 as [Hn _]. exfalso. assert (X : is_stale (ctL f) (k, c) = true) by (apply is_stale_iff; auto). congruence.
      - exists f, []. unfold latest_at, plain. cbn [fst snd]. rewrite (proj2 (look_none k (ctL f))).
        + split; auto. split; auto. split; auto. split; auto. intros x. split; [intros []|intros (_ & X & _); discriminate].
        + apply (Hu k c); auto. left; auto. }
    destruct (is_stale (ctL f) (k, c)) eqn:Es.
    + split; [|discriminate]. intros _. apply is_stale_iff in Es as [Ec Hn]. cbn [fst snd] in *. unfold in_resolve, is_clone. cbn [snd]. rewrite Ec.
      destruct (law_take HL f k I) as (f1 & o & G1 & _ & _ & _ & G4). rewrite G1. cbn [bind]. destruct o as [[k' cf]|]; auto.
      destruct G4 as [-> P]. exfalso. apply Hn. apply (in_keys_perm k P). left; auto.
    + destruct (Step eq_refl) as (f1 & o1 & S1 & S2 & S3 & S4 & S5). rewrite S1. cbn [bind orb].
      assert (Sub : forall x, In x (keys (ctL f1)) -> In x (keys (ctL f))).
      { intros x Hx. apply (Permutation_in x (keys_perm (Permutation_sym S4))). rewrite keys_app. apply in_or_app; auto. }
      assert (Back : forall x, x <> k -> In x (keys (ctL f)) -> In x (keys (ctL f1))).
      { intros x Hx Hf. apply (Permutation_in x (keys_perm S4)) in Hf. rewrite keys_app in Hf. apply in_app_or in Hf as [Hf|Hf]; auto. apply S5 in Hf. tauto. }
      assert (NL1 : NoDup (keys (ctL f1))) by (apply (law_unique HL); auto).
      assert (Kl : forall kc, In kc l -> fst kc <> k) by (intros kc Hk Ek; apply Nk; rewrite <- Ek; apply List.in_map; auto).
      assert (Est : existsb (is_stale (ctL f1)) l = existsb (is_stale (ctL f)) l).
      { apply eq_true_iff_eq. rewrite !existsb_exists. split; intros (x & Hx & Hs); exists x; split; auto; apply is_stale_iff; apply is_stale_iff in Hs as [Hs1 Hs2]; split; auto.
        all: intros Hy; apply Hs2; auto. }
      destruct (IH f1 S2 N') as [IH1 IH2].
      { intros x cx Hx Ex Hf. apply (Hu x cx); auto. right; auto. }
      split.
      * intros E. rewrite IH1; auto. rewrite Est; auto.
      * intros E. destruct IH2 as (f' & out & G1 & G2 & G3 & G4 & G5); [rewrite Est; auto|]. rewrite G1. cbn [bind].
        assert (El : latest (ctL f1) l = latest (ctL f) l).
        { apply latest_ext. intros kc Hk. apply look_ext; auto. intros c'. split; intros Hc.
          - apply (Permutation_in _ (Permutation_sym S4)). apply in_or_app; auto.
          - apply (Permutation_in _ S4) in Hc. apply in_app_or in Hc as [Hc|Hc]; auto. exfalso. apply in_keys in Hc. apply S5 in Hc as (_ & _ & Hc). apply (Kl kc Hk Hc). }
        exists f', (o1 ++ out). split; [rewrite El; auto|]. split; auto. split; [congruence|]. split; [rewrite S4, G4, app_assoc; auto|].
        intros x. rewrite keys_app, in_app_iff, S5, G5. cbn [filter]. unfold is_clone at 2. cbn [snd].
        destruct (c_cloned c) eqn:Ec; cbn [keys map fst In].
        -- split.
           ++ intros [(A1 & _ & ->)|[A1 A2]]; [auto|]. split; auto.
           ++ intros [A1 [<-|A2]]; [left; auto|]. right. split; auto. apply Back; auto. intros ->. unfold keys in A2. apply in_map_iff in A2 as (y & Ey & Hy).
              apply filter_In in Hy as [Hy _]. apply (Kl y Hy Ey).
        -- split.
           ++ intros [(_ & A & _)|[A1 A2]]; [discriminate|]. split; auto.
           ++ intros [A1 A2]. right. split; auto. apply Back; auto. intros ->. unfold keys in A2. apply in_map_iff in A2 as (y & Ey & Hy).
              apply filter_In in Hy as [Hy _]. apply (Kl y Hy Ey).
Qed.

Lemma in_pop_ok s n : pR = true -> in_inv s ->
  exists b' l, pop R (snd s) n = Ok (b', l) /\
  ((exists k, In k (keys l) /\ stale s k) -> in_pop s n = Panic) /\
  (~ (exists k, In k (keys l) /\ stale s k) -> exists s' out, in_pop s n = Ok (s', out) /\ in_inv s' /\ in_capacity s' = in_capacity s /\
     capacity L (fst s') = capacity L (fst s) /\ (forall k', stale s' k' -> stale s k') /\
     Permutation (out ++ in_ct s') (in_ct s) /\ keys out = keys l /\
     (in_size s' + n <= in_size s \/ in_ct s' = []) /\ in_size s' <= in_size s).
Proof.
  intros Hp (I1 & I2 & Lk). destruct s as [f b]. unfold stale, in_pop, in_ct, in_inv, in_capacity, in_size in *. cbn [fst snd] in *.
  destruct (law_pop HR Hp b n I2) as (b' & l & H1 & H2 & H3 & H4 & H5 & H6). exists b', l. split; auto. rewrite H1. cbn [bind].
  pose proof Lk as (N1 & N2 & H).
  assert (Nl : NoDup (keys (l ++ ctR b'))) by (eapply nodup_keys_perm; [symmetry; exact H4|auto]). rewrite keys_app in Nl. apply NoDup_app_inv in Nl as (Nl & Nb' & Dl).
  assert (Sub : forall kc, In kc l -> In kc (ctR b)) by (intros; apply (Permutation_in _ H4); apply in_or_app; auto).
  assert (St : (exists k, In k (keys l) /\ exists c, In (k, c) (ctR b) /\ c_cloned c = true /\ ~ In k (keys (ctL f))) <-> existsb (is_stale (ctL f)) l = true).
  { rewrite existsb_exists. split.
    - intros (k & Hk & c & Hc & Hd & Hn). apply in_keys_inv in Hk as (c' & Hk). assert (c' = c) by (eapply (nodup_fun (ctR b)); eauto). subst c'.
      exists (k, c). split; auto. apply is_stale_iff. auto.
    - intros ([k c] & Hk & Hs). apply is_stale_iff in Hs as [Hs1 Hs2]. exists k. split; [eapply in_keys; eauto|]. exists c. auto. }
  destruct (@in_resolve_all_ok l f I1 Nl) as [A1 A2].
  { intros k c Hc Ec. eapply linked_unmarked; eauto. }
  split.
  - intros Hs. apply St in Hs. rewrite A1; auto.
  - intros Hs. destruct (existsb (is_stale (ctL f)) l) eqn:Es; [exfalso; apply Hs, St; auto|].
    destruct A2 as (f' & out & G1 & G2 & G3 & G4 & G5); auto. rewrite G1. cbn [bind].
    destruct (@leaving K V OK EK (ctL f) (ctR b) l (ctR b') out (ctL f')) as (B1 & B2 & B3); auto; [symmetry; auto|].
    eexists (f', b'), _. split; [reflexivity|]. cbn [fst snd]. split; [split; [auto|split; [auto|exact B1]]|]. split; auto. split; auto. split.
    { intros k (c & Hc & Hd & Hn). exists c. split; [apply (Permutation_in _ H4); apply in_or_app; auto|]. split; auto. intros Hk. apply Hn.
      apply (Permutation_in k (keys_perm G4)) in Hk. rewrite keys_app in Hk. apply in_app_or in Hk as [Hk|Hk]; auto. exfalso. apply G5 in Hk as [_ Hk].
      apply (Dl k); [|eapply in_keys; eauto]. unfold keys in Hk |- *. apply in_map_iff in Hk as (y & <- & Hy). apply filter_In in Hy as [Hy _]. apply List.in_map. auto. }
    split; [rewrite <- B2, <- latest_app; apply latest_perm; auto|]. split; [apply keys_latest|]. split; auto. destruct H5 as [H5|H5]; auto. right. rewrite H5. auto.
Qed.

Lemma in_flush_ok s : in_inv s ->
  exists s' out, in_flush s = Ok (s', out) /\ in_inv s' /\ in_capacity s' = in_capacity s /\ capacity L (fst s') = capacity L (fst s) /\
    Permutation out (in_ct s) /\ in_ct s' = [] /\ ctL (fst s') = [] /\ ctR (snd s') = [].
Proof.
  intros (I1 & I2 & Lk). destruct s as [f b]. unfold in_flush, in_ct, in_inv, in_capacity in *. cbn [fst snd] in *.
  destruct (law_flush HL f I1) as (f' & all & H1 & H2 & H3 & H4 & H5). rewrite H1. cbn [bind]. specialize (H5 eq_refl). rewrite H5, app_nil_r in H4.
  set (up := map _ (filter _ all)). destruct (law_take_multiple HR b (keys up) I2) as (b1 & ks' & old & G1 & G2 & G3 & _ & G4 & G5 & G6 & _). rewrite G1. cbn [bind].
  destruct (@flushing K V OK EK (ctL f) (ctR b) old (ctR b1) (ctR b1 ++ up) all) as (A1 & A2 & A3); auto.
  { symmetry; auto. }
  { intros k. fold up. split; [|intros [X Y]; auto]. intros Hk. split; auto. apply (in_keys_perm k G4). rewrite keys_app. apply in_or_app; auto. }
  fold up in A2, A3. destruct (law_push HR b1 up G2 (fun _ => A3)) as (b2 & over & P1 & _).
  destruct (push_len HR UR G2 (fun _ => A3) P1) as (P2 & P3 & P4 & P5). rewrite P1. cbn [bind].
  assert (Lo : length over = 0).
  { pose proof (law_size HR b I2) as Z. rewrite (u_size UR b I2) in Z. apply Permutation_length in G4. rewrite app_length in G4. lia. }
  destruct over; [|discriminate]. cbn [app] in P4. destruct (law_flush HR b2 P2) as (b3 & out & Q1 & Q2 & Q3 & Q4 & Q5). rewrite Q1. cbn [bind].
  specialize (Q5 eq_refl). rewrite Q5, app_nil_r in Q4. eexists (f', b3), _. split; [reflexivity|]. cbn [fst snd]. rewrite H5, Q5.
  split; [split; [auto|split; [auto|split; [constructor|split; [constructor|intros k cf []]]]]|]. split; [congruence|]. split; auto. split; auto.
  rewrite <- A1. apply Permutation_map. rewrite Q4, P4. auto.
Qed.

(** get and get_mut *)
Variable tg : TGetter R.
Variable pending : tG tg -> list (K * cell V).
Hypothesis HT : TGet_ok InvR ctR tg pending.
Variable g : Getter L.
Hypothesis HG : forall f k touch, InvL f -> get_ok L InvL ctL g f k touch.

Lemma in_downgrade_ok s k : (In k (keys (in_ct s)) -> 1 <= capacity L (fst s)) -> in_inv s -> ~ In k (keys (ctL (fst s))) ->
  exists s' ok, in_downgrade tg s k = Ok (s', ok) /\ in_inv s' /\ in_capacity s' = in_capacity s /\ capacity L (fst s') = capacity L (fst s) /\
    Permutation (in_ct s') (in_ct s) /\
    (ok = true -> In k (keys (in_ct s)) /\ In k (keys (ctL (fst s')))) /\ (ok = false -> ~ In k (keys (in_ct s))) /\
    (length (ctL (fst s)) < capacity L (fst s) \/ ~ In k (keys (in_ct s)) -> forall k', stale s' k' -> stale s k').
Proof.
  intros Hcap (I1 & I2 & Lk) Hk. destruct s as [f b]. unfold stale, in_downgrade, in_ct, in_inv, in_capacity in *. cbn [fst snd] in *.
  destruct (t_open_ok HT b k (@cell_mark V) I2) as (b0 & o & H1 & H2 & H3 & H4). rewrite H1. cbn [bind]. destruct o as [[c gd]|].
  2:{ destruct H4 as [Hn P]. eexists (f, b0), false. split; [reflexivity|]. cbn [fst snd]. split; [split; [auto|split; [auto|eapply linked_perm; [apply Permutation_refl|symmetry; exact P|auto]]]|].
      split; auto. split; auto. split; [apply latest_perm; auto|]. split; [discriminate|]. split; [rewrite keys_latest; auto|].
      intros _ k' (c & Hc & Hd). exists c. split; auto. apply (Permutation_in _ P); auto. }
  destruct H4 as (rest & Pb & Pm & Hpend). pose proof Lk as (N1 & N2 & H).
  assert (Hkb : In k (keys (ctR b))) by (apply (Permutation_in k (keys_perm (Permutation_sym Pb))); left; auto).
  assert (Mp : may_push L ctL false f [(k, cell_clone c)]).
  { intros _. rewrite keys_app. apply NoDup_app_inv. split; auto. split; [repeat constructor; auto|]. intros x Hx [<-|[]]. auto. }
  destruct (law_push HL f _ I1 Mp) as (f1 & out & Q1 & _). destruct (push_len HL UL I1 Mp Q1) as (Q2 & Q3 & Q4 & Q5).
  rewrite keys_latest in Hcap. pose proof (u_keep UL f k (cell_clone c) f1 out I1 Hk (Hcap Hkb) Q1) as Ho. rewrite Q1. cbn [bind]. set (popped := filter _ out).
  pose proof (law_size HR b I2) as Zb. rewrite (u_size UR b I2) in Zb.
  assert (Nm : NoDup (keys (pending gd ++ ctR b0))).
  { eapply nodup_keys_perm; [symmetry; exact Pm|]. change (keys ((k, cell_mark c) :: rest)) with (keys ((k, c) :: rest)). eapply nodup_keys_perm; eauto. }
  assert (Lm : length (pending gd ++ ctR b0) = length (ctR b)) by (rewrite (Permutation_length Pm), (Permutation_length Pb); auto).
  assert (W : exists b3 old b1', (match popped with
      | [] => let* b1 := t_close tg b0 gd in Ok ((f1, b1), true)
      | _ => let* (b1, _, _) := take_multiple R b0 (keys popped) in let* (b2, over) := push R b1 popped in
             match over with [] => let* b3 := t_close tg b2 gd in Ok ((f1, b3), true) | _ => Panic end
      end) = Ok ((f1, b3), true) /\ InvR b3 /\ capacity R b3 = capacity R b /\
      Permutation ((k, cell_mark c) :: rest) (old ++ b1') /\ (forall x, In x (keys old) <-> In x (keys popped)) /\
      Permutation (ctR b3) (popped ++ b1')).
  { assert (Close : forall b2, InvR b2 -> capacity R b2 = capacity R b -> NoDup (keys (pending gd ++ ctR b2)) -> length (pending gd ++ ctR b2) <= length (ctR b) ->
      exists b3, t_close tg b2 gd = Ok b3 /\ InvR b3 /\ capacity R b3 = capacity R b /\ Permutation (ctR b3) (pending gd ++ ctR b2)).
    { intros b2 J1 J2 J3 J4. destruct (t_close_ok HT b2 gd J1 J3) as (b3 & C1 & C2 & C3 & C4); [lia|]. exists b3. split; auto. split; auto. split; [congruence|auto]. }
    destruct popped as [|y ys] eqn:Ep.
    - destruct (Close b0) as (b3 & C1 & C2 & C3 & C4); auto; [lia|]. exists b3, [], ((k, cell_mark c) :: rest). rewrite C1. cbn [bind].
      split; auto. split; auto. split; auto. split; auto. split; [tauto|]. rewrite C4, Pm. auto.
    - rewrite <- Ep in *. clear Ep y ys. 
      destruct (law_take_multiple HR b0 (keys popped) H2) as (b1 & ks' & old & T1 & T2 & T3 & _ & T4 & T5 & T6 & _). rewrite T1. cbn [bind].
      assert (Hpk : forall x, In x (keys popped) -> x <> k).
      { intros x Hx ->. apply Ho. unfold popped, keys in Hx |- *. apply in_map_iff in Hx as (y & <- & Hy). apply filter_In in Hy as [Hy _]. apply List.in_map. auto. }
      assert (Hpb : forall x, In x (keys popped) -> In x (keys (ctR b0))).
      { intros x Hx. pose proof (Hpk x Hx) as Hn. assert (Hxf : In x (keys (ctL f))).
        { unfold popped, keys in Hx. apply in_map_iff in Hx as (y & <- & Hy). apply filter_In in Hy as [Hy _].
          assert (G : In (fst y) (keys (ctL f ++ [(k, cell_clone c)]))) by (apply (in_keys_perm (fst y) Q4); rewrite keys_app; apply in_or_app; left; apply List.in_map; auto).
          rewrite keys_app in G. apply in_app_or in G as [G|[G|[]]]; auto. cbn in G. congruence. }
        apply (@linked_sub K V _ _ _ Lk) in Hxf. apply (Permutation_in x (keys_perm Pb)) in Hxf. destruct Hxf as [Hxf|Hxf]; [cbn in Hxf; congruence|].
        assert (G : In x (keys (pending gd ++ ctR b0))) by (apply (Permutation_in x (keys_perm (Permutation_sym Pm))); right; auto).
        rewrite keys_app in G. apply in_app_or in G as [G|G]; auto. apply Hpend in G as [G|[]]. congruence. }
      assert (Hold : forall x, In x (keys old) <-> In x (keys popped)) by (intros x; split; auto).
      assert (Nout : NoDup (keys out)).
      { assert (G : NoDup (keys (out ++ ctL f1))) by (eapply nodup_keys_perm; [symmetry; exact Q4|apply Mp; auto]). rewrite keys_app in G. apply NoDup_app_inv in G. tauto. }
      assert (Np : NoDup (keys popped)) by (apply nodup_keys_filter; auto).
      assert (P0 : Permutation (pending gd ++ ctR b0) (old ++ pending gd ++ ctR b1)) by (rewrite <- T4; perm0).
      assert (N0 : NoDup (keys (old ++ pending gd ++ ctR b1))) by (eapply nodup_keys_perm; eauto).
      rewrite keys_app in N0. apply NoDup_app_inv in N0 as (No & Npb & Do).
      assert (Lp : length popped = length old).
      { assert (P : Permutation (keys popped) (keys old)) by (apply NoDup_Permutation; auto; intros x; rewrite Hold; tauto).
        apply Permutation_length in P. unfold keys in P. rewrite !map_length in P. auto. }
      assert (Nall : NoDup (keys (pending gd ++ ctR b1 ++ popped))).
      { rewrite app_assoc, keys_app. apply NoDup_app_inv. split; auto. split; auto. intros x Hx Hy. apply (Do x); auto. }
      assert (Mr : may_push R ctR false b1 popped).
      { intros _. rewrite keys_app in Nall. apply NoDup_app_inv in Nall. tauto. }
      destruct (law_push HR b1 popped T2 Mr) as (b2 & over & D1 & _). destruct (push_len HR UR T2 Mr D1) as (D2 & D3 & D4 & D5). rewrite D1. cbn [bind].
      assert (Lo : length over = 0).
      { apply Permutation_length in P0. rewrite !app_length in P0. rewrite app_length in Lm. lia. }
      destruct over; [|discriminate]. cbn [app] in D4.
      destruct (Close b2) as (b3 & C1 & C2 & C3 & C4); auto; [congruence| | |].
      { eapply nodup_keys_perm; [|exact Nall]. apply Permutation_app_head. symmetry. exact D4. }
      { rewrite app_length, (Permutation_length D4). apply Permutation_length in P0. rewrite !app_length in *. lia. }
      exists b3, old, (pending gd ++ ctR b1). rewrite C1. cbn [bind]. split; auto. split; auto. split; auto. split; [rewrite <- Pm; auto|]. split; auto.
      rewrite C4, D4. perm0. }
  destruct W as (b3 & old & b1' & W1 & W2 & W3 & W4 & W5 & W6).
  destruct (@downgrading K V OK EK (ctL f) (ctR b) k c rest out (ctL f1) old b1') as (A1 & A2 & A3); auto. fold popped in A1, A2.
  eexists (f1, b3), true. split; [exact W1|]. cbn [fst snd].
  split; [split; [auto|split; [auto|eapply linked_perm; [apply Permutation_refl|symmetry; exact W6|exact A1]]]|]. split; auto. split; auto.
  split; [rewrite (latest_perm (ctL f1) W6); auto|]. split; [intros _; rewrite keys_latest; split; auto; eapply in_keys; eauto|]. split; [discriminate|].
  intros Hroom0 k' (c' & Hc & Hd & Hn). assert (Hroom : length (ctL f) < capacity L f) by (destruct Hroom0 as [X|X]; auto; exfalso; apply X; rewrite keys_latest; auto).
  assert (Lo : length out = 0) by (cbn [length] in Q5; lia). assert (Eo : out = []) by (destruct out; auto; discriminate).
  assert (Epop : popped = []) by (unfold popped; rewrite Eo; auto). rewrite Eo in Q4. cbn [app] in Q4. rewrite Epop in W6, W5. cbn [app] in W6.
  assert (Eold : old = []) by (destruct old as [|y ys]; auto; exfalso; apply (proj1 (W5 (fst y))); left; auto). rewrite Eold in W4. cbn [app] in W4.
  apply (Permutation_in _ W6) in Hc. apply (Permutation_in _ (Permutation_sym W4)) in Hc. destruct Hc as [Hc|Hc].
  - injection Hc as <- <-. exfalso. apply Hn. eapply in_keys; eauto.
  - exists c'. split; [apply (Permutation_in _ (Permutation_sym Pb)); right; auto|]. split; auto. intros Hy. apply Hn. apply (in_keys_perm k' (Permutation_sym Q4)).
    rewrite keys_app. apply in_or_app; auto.
Qed.

Definition touching (touch : cell V -> cell V) (w : V -> V) : Prop :=
  forall c, c_cloned c = true -> c_value (touch c) = w (c_value c) /\ c_cloned (touch c) = true /\
    (c_updated (touch c) = false -> c_value (touch c) = c_value c /\ c_updated c = false).
Lemma touching_read : touching (fun c => c) (fun v => v).
Proof. intros c H. auto. Qed.
Lemma touching_write w : touching (cell_write w) w.
Proof. intros [v u cl] H. cbn in *. subst. repeat split; auto; discriminate. Qed.

Lemma in_access_ok (s : inclusive L R) k touch w : touching touch w -> (In k (keys (in_ct s)) -> 1 <= capacity L (fst s)) -> in_inv s ->
  exists s' o, in_access tg g s k touch = Ok (s', o) /\ in_inv s' /\ in_capacity s' = in_capacity s /\ capacity L (fst s') = capacity L (fst s) /\
    in_size s' = in_size s /\
    match o with
    | Some v => exists rest, Permutation (in_ct s) ((k, v) :: rest) /\ Permutation (in_ct s') ((k, w v) :: rest)
    | None => ~ In k (keys (in_ct s)) /\ Permutation (in_ct s') (in_ct s)
    end /\
    (length (ctL (fst s)) < capacity L (fst s) \/ In k (keys (ctL (fst s))) \/ ~ In k (keys (in_ct s)) -> forall k', stale s' k' -> stale s k').
Proof.
  intros Ht Hcap Hi. unfold in_access. pose proof Hi as (I1 & I2 & Lk). rewrite (law_contains HL _ k I1). cbn [bind].
  assert (D : exists (s1 : inclusive L R) found, (if has_key k (ctL (fst s)) then Ok (s, true) else in_downgrade tg s k) = Ok (s1, found) /\ in_inv s1 /\ in_capacity s1 = in_capacity s /\
    capacity L (fst s1) = capacity L (fst s) /\ Permutation (in_ct s1) (in_ct s) /\
    (found = true -> In k (keys (ctL (fst s1)))) /\ (found = false -> ~ In k (keys (in_ct s))) /\
    (length (ctL (fst s)) < capacity L (fst s) \/ In k (keys (ctL (fst s))) \/ ~ In k (keys (in_ct s)) -> forall k', stale s1 k' -> stale s k')).
  { destruct (has_key k (ctL (fst s))) eqn:E.
    - apply has_key_in in E. exists s, true. split; auto. split; auto. split; auto. split; auto. split; auto. split; auto. split; [discriminate|auto].
    - apply has_key_not_in in E. destruct (@in_downgrade_ok s k Hcap Hi E) as (s1 & ok & D1 & D2 & D3 & D4 & D5 & D6 & D7 & D8). exists s1, ok. split; auto. split; auto.
      split; auto. split; auto. split; auto. split; [intros X; apply D6; auto|]. split; auto. intros [X|[X|X]]; auto. }
  destruct D as (s1 & found & D1 & D2 & D3 & D4 & D5 & D6 & D7 & D8). rewrite D1. cbn [bind]. pose proof D2 as (J1 & J2 & Lk1).
  assert (Sz : forall x : inclusive L R, in_inv x -> in_size x = length (in_ct x)).
  { intros x (_ & X & _). unfold in_size, in_ct, latest. rewrite map_length. apply (u_size UR); auto. }
  destruct found.
  - destruct (@HG (fst s1) k touch J1) as (f & o & G1 & G2 & G3 & _ & G4). rewrite G1. cbn [bind]. destruct o as [c|]; [|exfalso; apply (proj1 G4), D6; auto].
    destruct G4 as (rest & P1 & P2). assert (Hc : c_cloned c = true).
    { destruct Lk1 as (_ & _ & H). apply (H k c). apply (Permutation_in _ (Permutation_sym P1)). left; auto. }
    destruct (Ht c Hc) as (T1 & T2 & T3).
    destruct (@rewriting K V OK EK (ctL (fst s1)) (ctR (snd s1)) (ctL f) k c (touch c) rest) as (A1 & r & A2 & A3); auto. rewrite T1 in A3.
    assert (Hi' : in_inv (f, snd s1)) by (split; [auto|split; [auto|exact A1]]).
    eexists (f, snd s1), (Some (c_value c)). split; [reflexivity|]. split; auto. split; auto. split; [cbn [fst]; congruence|].
    split; [rewrite !Sz by auto; unfold in_ct at 1; cbn [fst snd]; rewrite (Permutation_length A3), <- (Permutation_length D5); unfold in_ct; rewrite (Permutation_length A2); auto|].
    split; [exists r; split; [rewrite <- D5; exact A2|exact A3]|].
    intros X k' Y. apply D8; auto. destruct Y as (c' & Y1 & Y2 & Y3). exists c'. split; auto. split; auto. intros Y. apply Y3. cbn [fst].
    apply (Permutation_in k' (keys_perm (Permutation_sym P2))). apply (Permutation_in k' (keys_perm P1)) in Y. exact Y.
  - exists s1, None. split; auto. split; auto. split; auto. split; auto. split; [rewrite !Sz by auto; apply Permutation_length; auto|]. split; auto.
Qed.
End Inc.
