(** ReprProof.v -- leaves of the same policy: the proof side of Repr.v. *)
From Coq Require Import NArith.
From Verif Require Import Base PermSolve Block Spec LawsProof Cut CutProof Array ArrayProof BTree BTreeProof Sim Arch Repr.
Set Implicit Arguments.

(** ** Pairs told apart *)
Section Apart.
Context {K V : Type} {O : Ord V}.
Lemma apart_sub (l l' : list (K * V)) : apart l -> incl l' l -> NoDup (keys l') -> apart l'.
Proof. intros [H1 H2] Hi Hn. split; auto. Qed.
Lemma apart_perm (l l' : list (K * V)) : Permutation l l' -> apart l -> apart l'.
Proof.
  intros P H. apply (apart_sub H).
  - intros x Hx. rewrite P. auto.
  - eapply NoDup_perm; [apply keys_perm; exact P|]. apply H.
Qed.
Lemma apart_app_l (a b : list (K * V)) : apart (a ++ b) -> apart a.
Proof.
  intros H. apply (apart_sub H); [intros x Hx; apply in_or_app; auto|].
  destruct H as [H _]. rewrite keys_app in H. apply NoDup_app_inv in H. tauto.
Qed.
Lemma apart_app_r (a b : list (K * V)) : apart (a ++ b) -> apart b.
Proof. intros H. eapply apart_app_l. eapply apart_perm; [apply Permutation_app_comm|]. exact H. Qed.
Lemma apart_nil : apart ([] : list (K * V)). Proof. split; [constructor|]. intros p q []. Qed.

Lemma sorted_unique : forall l l' : list (K * V), sorted_by snd l -> sorted_by snd l' -> Permutation l l' -> apart l -> l = l'.
Proof.
  unfold sorted_by. induction l as [|x l IH]; intros l' Hl Hl' P Ha.
  - apply Permutation_nil in P. auto.
  - destruct l' as [|y l']; [symmetry in P; apply Permutation_nil in P; discriminate|].
    apply StronglySorted_inv in Hl. apply StronglySorted_inv in Hl'. destruct Hl as [Hl Fx], Hl' as [Hl' Fy].
    rewrite Forall_forall in Fx, Fy.
    assert (Hx : In x (y :: l')) by (rewrite <- P; left; auto).
    assert (Hy : In y (x :: l)) by (rewrite P; left; auto).
    assert (E : x = y).
    { destruct Hx as [Hx|Hx]; auto. destruct Hy as [Hy|Hy]; auto.
      apply (proj2 Ha); [left; auto|right; auto|]. unfold eqb. rewrite (Fx _ Hy), (Fy _ Hx). auto. }
    subst y. f_equal. apply IH; auto.
    + apply Permutation_cons_inv in P. auto.
    + apply (apart_app_r [x] l). exact Ha.
Qed.
End Apart.

(** ** The policy of a leaf: what it keeps and what it evicts, as lists *)
Section Leaf.
Context {K V : Type} {OK : Ord K} {EK : OrdEq K} {O : Ord V}.
Variable esz : K * V -> nat.
Hypothesis pos : forall e, 1 <= esz e.

Definition cut_of n (l : list (K * V)) : nat := fst (fst (find_cut_at_size l esz n)).
Definition keep n (l : list (K * V)) : list (K * V) :=
  if sum_sz esz l <=? n then [] else firstn (cut_of n (stable_sort snd l)) (stable_sort snd l).
Definition evict n (l : list (K * V)) : list (K * V) :=
  if sum_sz esz l <=? n then l else skipn (cut_of n (stable_sort snd l)) (stable_sort snd l).
Definition push_keep cap (l vs : list (K * V)) : list (K * V) :=
  if sum_sz esz vs <=? cap - sum_sz esz l then l ++ vs
  else if sum_sz esz vs =? cap then vs
  else if cap <? sum_sz esz vs then keep (sum_sz esz vs - cap) vs
  else keep (sum_sz esz vs - (cap - sum_sz esz l)) l ++ vs.
Definition push_evict cap (l vs : list (K * V)) : list (K * V) :=
  if sum_sz esz vs <=? cap - sum_sz esz l then []
  else if sum_sz esz vs =? cap then l
  else if cap <? sum_sz esz vs then l ++ evict (sum_sz esz vs - cap) vs
  else evict (sum_sz esz vs - (cap - sum_sz esz l)) l.

Lemma sum_zero (l : list (K * V)) : sum_sz esz l = 0 -> l = [].
Proof. destruct l as [|x l]; auto. rewrite sum_sz_cons. pose proof (pos x). lia. Qed.
Lemma keep_evict n l : Permutation (evict n l ++ keep n l) l.
Proof.
  unfold keep, evict. destruct (_ <=? _); [rewrite app_nil_r; auto|].
  rewrite Permutation_app_comm, firstn_skipn. apply stable_sort_perm.
Qed.
Lemma sort_eq (l l' : list (K * V)) : Permutation l l' -> apart l -> stable_sort snd l = stable_sort snd l'.
Proof.
  intros P Ha. apply sorted_unique; try apply stable_sort_sorted.
  - rewrite !stable_sort_perm. auto.
  - eapply apart_perm; [symmetry; apply stable_sort_perm|auto].
Qed.
Lemma keep_perm n l l' : Permutation l l' -> apart l -> Permutation (keep n l) (keep n l').
Proof. intros P Ha. unfold keep. rewrite (sum_sz_perm _ P), (sort_eq P Ha). auto. Qed.
Lemma evict_perm n l l' : Permutation l l' -> apart l -> Permutation (evict n l) (evict n l').
Proof. intros P Ha. unfold evict. rewrite (sum_sz_perm _ P), (sort_eq P Ha). destruct (_ <=? _); auto. Qed.
Lemma push_keep_perm cap l l' vs vs' : Permutation l l' -> Permutation vs vs' -> apart (l ++ vs) ->
  Permutation (push_keep cap l vs) (push_keep cap l' vs').
Proof.
  intros P Q Ha. unfold push_keep. rewrite <- (sum_sz_perm _ P), <- (sum_sz_perm _ Q).
  pose proof (keep_perm (sum_sz esz vs - cap) Q (apart_app_r _ _ Ha)).
  pose proof (keep_perm (sum_sz esz vs - (cap - sum_sz esz l)) P (apart_app_l _ _ Ha)).
  repeat destruct (_ <=? _); repeat destruct (_ =? _); repeat destruct (_ <? _); auto; apply Permutation_app; auto.
Qed.
Lemma push_evict_perm cap l l' vs vs' : Permutation l l' -> Permutation vs vs' -> apart (l ++ vs) ->
  Permutation (push_evict cap l vs) (push_evict cap l' vs').
Proof.
  intros P Q Ha. unfold push_evict. rewrite <- (sum_sz_perm _ P), <- (sum_sz_perm _ Q).
  pose proof (evict_perm (sum_sz esz vs - cap) Q (apart_app_r _ _ Ha)).
  pose proof (evict_perm (sum_sz esz vs - (cap - sum_sz esz l)) P (apart_app_l _ _ Ha)).
  repeat destruct (_ <=? _); repeat destruct (_ =? _); repeat destruct (_ <? _); auto; apply Permutation_app; auto.
Qed.

(** The cut is the same wherever the list comes from: it is characterised by sums of sizes. *)
Lemma cut_at (a : list (K * V)) x b n :
  (b = [] \/ sum_sz esz b < n) -> (n <= sum_sz esz (x :: b) \/ a = []) ->
  cut_of n (a ++ x :: b) = length a.
Proof.
  intros H1 H2. unfold cut_of. destruct (find_cut_at_size (a ++ x :: b) esz n) as [[i c] e] eqn:F.
  apply find_cut_spec in F. cbn [fst]. destruct F as (Hc & _ & Hr & Hl & Hm).
  assert (Hne : a ++ x :: b <> []) by (destruct a; discriminate).
  specialize (Hl Hne). specialize (Hm Hne).
  destruct (Nat.lt_trichotomy i (length a)) as [L|[L|L]]; auto; exfalso.
  - (* too early: what follows already frees n *)
    rewrite skipn_app in Hm. replace (S i - length a) with 0 in Hm by lia. cbn [skipn] in Hm.
    destruct H2 as [H2|H2]; [|subst a; cbn in L; lia].
    destruct Hm as [Hm|Hm].
    + apply app_eq_nil in Hm. destruct Hm; discriminate.
    + rewrite sum_sz_app in Hm. lia.
  - rewrite skipn_app in Hc. rewrite app_length in Hl. cbn [length] in Hl.
    rewrite (skipn_all2 a) in Hc by lia. cbn [app] in Hc.
    destruct (i - length a) as [|j] eqn:Ej; [lia|]. cbn [skipn] in Hc.
    destruct Hr as [Hr|Hr]; [|lia].
    assert (Hj : j < length b) by lia.
    destruct H1 as [H1|H1]; [subst b; cbn in Hj; lia|].
    rewrite <- (firstn_skipn j b), sum_sz_app in H1. lia.
Qed.

(** What it is for a container to follow that policy. *)
Record Leaf (B : Block K V) (I : St B -> Prop) (ct : St B -> list (K * V)) : Prop := {
  lf_size : forall s, I s -> size B s = sum_sz esz (ct s);
  lf_pop : forall s n, I s -> apart (ct s) -> exists s' o, pop B s n = Ok (s', o) /\ I s' /\
    capacity B s' = capacity B s /\ Permutation o (evict n (ct s)) /\ Permutation (ct s') (keep n (ct s));
  lf_push : forall s vs, I s -> apart (ct s ++ vs) -> exists s' o, push B s vs = Ok (s', o) /\ I s' /\
    capacity B s' = capacity B s /\ Permutation o (push_evict (capacity B s) (ct s) vs) /\
    Permutation (ct s') (push_keep (capacity B s) (ct s) vs);
  lf_flush : forall s, I s -> exists s' o, flush B s = Ok (s', o) /\ I s' /\
    capacity B s' = capacity B s /\ Permutation o (ct s) /\ ct s' = []
}.

(** ** Array *)
Section A.
Variable srt : Sorter (K * V) V snd.
Variable bs : BSearch K.
Definition ai := inv_u (ArrayB srt bs) (@a_inv_e K V esz) (@a_vals K V) false.
Lemma srt_eq l : apart l -> srt l = stable_sort snd l.
Proof.
  intros Ha. apply sorted_unique; [apply sort_sorted|apply stable_sort_sorted|rewrite sort_perm, stable_sort_perm; auto|].
  eapply apart_perm; [symmetry; apply sort_perm|auto].
Qed.
Lemma sum_vals (s : array K V) : a_inv_e esz s -> a_total s = sum_sz esz (a_vals s).
Proof. intros [[H _] <-]. auto. Qed.
Lemma a_pop_policy (s : array K V) n : a_inv_e esz s -> apart (a_vals s) ->
  exists s' o, a_pop srt s n = Ok (s', o) /\ a_inv_e esz s' /\ a_cap s' = a_cap s /\
    Permutation o (evict n (a_vals s)) /\ Permutation (a_vals s') (keep n (a_vals s)).
Proof.
  intros Hi Ha. destruct (a_pop_spec srt n (proj1 Hi)) as (s' & o & E & Hi' & Hc & He & _).
  exists s', o. split; auto. split; [split; auto; rewrite He; apply Hi|]. split; auto.
  pose proof (sum_vals Hi) as Ht. unfold a_pop in E. unfold keep, evict. rewrite <- Ht.
  destruct (a_vals s) as [|x l] eqn:Ev.
  - inversion E; subst. rewrite Ev in *. assert (a_total s' = 0) by (rewrite Ht; auto). rewrite H. cbn. auto.
  - rewrite <- Ev in *. destruct (a_total s <=? n) eqn:L; [inversion E; subst; auto|].
    rewrite (srt_eq Ha) in E. unfold cut_of. replace (a_esz s) with esz in E by (symmetry; apply Hi).
    destruct (find_cut_at_size _ _ _) as [[i c] e]. cbn [fst].
    destruct (sub_chk _ _); cbn in E; inversion E; subst. auto.
Qed.
Lemma nodup_keys (l : list (K * V)) : apart l -> NoDup (keys l). Proof. intros H. apply H. Qed.
Lemma array_leaf : Leaf (ArrayB srt bs) ai (@a_vals K V).
Proof.
  assert (U : forall s, a_inv_e esz s -> apart (a_vals s) -> ai s) by (intros s H H'; split; auto; intros _; apply H').
  constructor.
  - intros s [Hi _]. apply (sum_vals Hi).
  - intros s n [Hi _] Ha. destruct (a_pop_policy n Hi Ha) as (s' & o & E & Hi' & Hc & P & Q).
    exists s', o. split; auto. split; [|auto]. apply U; auto.
    eapply apart_perm; [symmetry; exact Q|]. eapply apart_app_r. eapply apart_perm; [symmetry; apply (keep_evict n)|auto].
  - intros s vs [Hi _] Ha. cbn [capacity ArrayB]. unfold a_capacity.
    destruct (a_push_spec srt vs (proj1 Hi)) as (s' & o & E & Hi' & Hc & He & Pc).
    exists s', o. split; auto.
    assert (Ha' : apart (a_vals s')) by (eapply apart_app_r; eapply apart_perm; [symmetry; exact Pc|auto]).
    split; [apply U; auto; split; auto; rewrite He; apply Hi|]. split; auto.
    pose proof (sum_vals Hi) as Ht. pose proof (proj2 (proj1 Hi)) as Hcap.
    pose proof (proj2 Hi) as Ee. unfold a_push in E. rewrite Ee in E. rewrite Ht in *.
    unfold sub_chk in E at 1. replace (sum_sz esz (a_vals s) <=? a_cap s) with true in E by (symmetry; apply Nat.leb_le; auto).
    cbn [bind] in E. unfold push_evict, push_keep.
    destruct (_ <=? _) eqn:L1; [inversion E; subst; auto|].
    destruct (_ =? _) eqn:L2; [inversion E; subst; auto|].
    destruct (a_cap s <? sum_sz esz vs) eqn:L3.
    + apply Nat.ltb_lt in L3. pose proof (stable_sort_perm snd vs) as Ps.
      unfold evict, keep.
      destruct (sum_sz esz vs <=? sum_sz esz vs - a_cap s) eqn:L4.
      * (* capacity 0 *)
        apply Nat.leb_le in L4. assert (Hz : a_cap s = 0) by lia.
        destruct (find_cut_at_size _ _ _) as [[i c] e] eqn:F. apply find_cut_spec in F. destruct F as (Hcs & _ & Hr & _).
        assert (Hf : firstn i (stable_sort snd vs) = []).
        { destruct Hr as [Hr| ->]; auto. apply sum_zero. rewrite Hz, Nat.sub_0_r in Hr.
          pose proof (sum_sz_perm esz Ps) as S1. rewrite <- (firstn_skipn i (stable_sort snd vs)), sum_sz_app in S1. lia. }
        destruct (sub_chk _ _); cbn in E; inversion E; subst. cbn [a_vals]. rewrite Hf. split; auto.
        apply Permutation_app_head. rewrite <- Ps at 2. rewrite <- (firstn_skipn i (stable_sort snd vs)) at 2. rewrite Hf. auto.
      * unfold cut_of.
        destruct (find_cut_at_size _ _ _) as [[i c] e]. destruct (sub_chk _ _); cbn in E; inversion E; subst. auto.
    + destruct (a_pop_policy (sum_sz esz vs - (a_cap s - sum_sz esz (a_vals s))) Hi (apart_app_l _ _ Ha)) as (s1 & o1 & E1 & Hi1 & _ & P1 & Q1).
      rewrite E1 in E. cbn in E. inversion E; subst. cbn. split; auto. apply Permutation_app; auto.
  - intros s [Hi _]. eexists _, _. split; [reflexivity|]. cbn. split; [|auto].
    split; [|intros _; constructor]. split; [split; cbn; auto; lia|cbn; apply Hi].
Qed.
End A.

(** ** BTree *)
Lemma b_set_sorted (s : btree K V) : b_idx s -> apart (b_ct s) -> map s2c (b_set s) = stable_sort snd (b_ct s).
Proof.
  intros Hi Ha. pose proof (b_ct_set Hi) as P.
  apply sorted_unique; [|apply stable_sort_sorted|rewrite stable_sort_perm; auto|eapply apart_perm; [symmetry; exact P|auto]].
  pose proof (ix_sorted Hi) as S. clear - S. unfold sorted_by in *. induction S as [|x l S IH F]; cbn; constructor; auto.
  rewrite Forall_map. rewrite Forall_forall in *. intros y Hy. specialize (F y Hy).
  destruct x as [[v k] i], y as [[v' k'] i']. cbn in *. unfold lex_leb in F. cbn in F. apply andb_prop in F. tauto.
Qed.
Lemma b_pop_policy (s : btree K V) n : b_esz s = esz -> b_idx s -> b_total s = sum_sz esz (b_ct s) -> apart (b_ct s) ->
  exists s' o, b_pop s n = Ok (s', o) /\ b_esz s' = esz /\ b_idx s' /\ b_total s' = sum_sz esz (b_ct s') /\ b_cap s' = b_cap s /\
    (b_total s' + n <= b_total s \/ b_ct s' = []) /\ b_total s' <= b_total s /\
    Permutation o (evict n (b_ct s)) /\ Permutation (b_ct s') (keep n (b_ct s)).
Proof.
  intros He Hi Ht Ha. destruct (b_pop_spec n He Hi Ht) as (s' & o & E & He' & Hi' & Ht' & Hc & P & Hf & Hle & H1 & H2).
  exists s', o. split; auto. do 6 (split; auto). unfold evict, keep. rewrite <- Ht. destruct (b_total s <=? n) eqn:L.
  - apply Nat.leb_le in L. rewrite (H1 L) in *. rewrite app_nil_r in P. auto.
  - apply Nat.leb_gt in L. destruct (H2 L) as (x & b & Es & -> & Hb & Hn).
    pose proof (b_set_sorted Hi Ha) as Hs. rewrite Es, map_app in Hs. cbn [map] in Hs. rewrite <- Hs.
    rewrite (@cut_at (map s2c (b_set s')) (s2c x) (map s2c b) n).
    + rewrite <- (Nat.add_0_r (length (map s2c (b_set s')))) at 1 2. rewrite firstn_app_2. cbn [firstn]. rewrite app_nil_r.
      split.
      * rewrite skipn_app, Nat.add_0_r, skipn_all, Nat.sub_diag. auto.
      * symmetry. apply b_ct_set. auto.
    + destruct Hb as [->|Hb]; auto.
    + destruct Hn as [Hn| ->]; auto.
Qed.
Lemma b_take_none ks : forall s : btree K V, (forall k, In k ks -> ~ In k (keys (b_ct s))) ->
  take_each b_take s ks = Ok (s, []).
Proof.
  induction ks as [|k ks IH]; intros s H; auto. cbn [take_each].
  assert (E : b_take s k = Ok (s, None)).
  { unfold b_take. replace (map_remove k (b_map s)) with (@None (V * nat * list (K * (V * nat)))); auto.
    symmetry. apply map_remove_none. unfold b_ct in H. rewrite <- keys_m2c. apply H. left; auto. }
  rewrite E. cbn [bind]. rewrite IH; auto. intros k' Hk. apply H. right; auto.
Qed.
Lemma btree_leaf : Leaf BTreeB (b_inv esz) b_ct.
Proof.
  constructor.
  - intros s (_ & _ & H & _). auto.
  - intros s n (He & Hi & Ht & Hle) Ha. destruct (b_pop_policy n He Hi Ht Ha) as (s' & o & E & He' & Hi' & Ht' & Hc & _ & Hl & P & Q).
    exists s', o. split; auto. split; [|auto]. repeat split; auto; try apply Hi'. lia.
  - intros s vs (He & Hi & Ht & Hle) Ha. cbn [capacity BTreeB].
    assert (Hv : NoDup (keys vs)) by apply (apart_app_r _ _ Ha).
    destruct (@b_push_spec K V OK EK O esz s vs (conj He (conj Hi (conj Ht Hle))) Hv) as (s' & o & E & Hi' & Hc & Pc & _).
    exists s', o. split; auto. split; auto. split; auto.
    unfold b_push in E. rewrite He in E.
    destruct (b_cap s <=? sum_sz esz vs) eqn:L1.
    + apply Nat.leb_le in L1. destruct (b_flush_spec He Hi) as (s1 & F1 & (He1 & Hi1 & Ht1 & _) & Hc1 & Hct1 & Hz1).
      rewrite F1 in E. cbn [bind] in E.
      destruct (@b_insert_spec K V OK EK O vs s1 Hi1) as (Hi2 & P2 & Hc2 & Ht2 & He2).
      { rewrite Hct1. auto. }
      rewrite Hct1 in P2. cbn [app] in P2.
      set (s2 := with_total (b_insert s1 vs) (sum_sz esz vs)) in *.
      assert (Ct2 : b_ct s2 = b_ct (b_insert s1 vs)) by reflexivity.
      destruct (b_cap s <? sum_sz esz vs) eqn:L2.
      * apply Nat.ltb_lt in L2.
        destruct (@b_pop_policy s2 (sum_sz esz vs - b_cap s)) as (s3 & o3 & E3 & _ & _ & _ & _ & _ & _ & P3 & Q3).
        { cbn. congruence. } { exact Hi2. } { rewrite Ct2, (sum_sz_perm esz P2). reflexivity. }
        { rewrite Ct2. eapply apart_perm; [symmetry; exact P2|]. eapply apart_app_r; eauto. }
        rewrite E3 in E. cbn [bind] in E. inversion E; subst s' o. unfold push_evict, push_keep.
        assert (A2 : apart (b_ct s2)) by (rewrite Ct2; eapply apart_perm; [symmetry; exact P2|]; eapply apart_app_r; eauto).
        rewrite Ct2 in P3, Q3, A2.
        replace (sum_sz esz vs <=? b_cap s - sum_sz esz (b_ct s)) with false by (symmetry; apply Nat.leb_gt; lia).
        replace (sum_sz esz vs =? b_cap s) with false by (symmetry; apply Nat.eqb_neq; lia).
        replace (b_cap s <? sum_sz esz vs) with true by (symmetry; apply Nat.ltb_lt; lia).
        split; [apply Permutation_app_head; rewrite P3; apply evict_perm; auto|]. rewrite Q3. apply keep_perm; auto.
      * apply Nat.ltb_ge in L2. assert (Eq : sum_sz esz vs = b_cap s) by lia. inversion E; subst s' o.
        unfold push_evict, push_keep. destruct (_ <=? _) eqn:L3.
        -- apply Nat.leb_le in L3. assert (Hn : b_ct s = []).
           { apply sum_zero. lia. }
           rewrite Hn. auto.
        -- replace (sum_sz esz vs =? b_cap s) with true by (symmetry; apply Nat.eqb_eq; auto). auto.
    + apply Nat.leb_gt in L1. unfold default_take_multiple in E. rewrite b_take_none in E.
      2:{ intros k Hk Hk'. destruct Ha as [Ha _]. rewrite keys_app in Ha. apply NoDup_app_inv in Ha. destruct Ha as (_ & _ & H). eapply H; eauto. }
      cbn [bind] in E. unfold sub_chk in E at 1. replace (b_total s <=? b_cap s) with true in E by (symmetry; apply Nat.leb_le; auto).
      cbn [bind] in E. rewrite Ht in E. unfold push_evict, push_keep.
      replace (sum_sz esz vs =? b_cap s) with false by (symmetry; apply Nat.eqb_neq; lia).
      replace (b_cap s <? sum_sz esz vs) with false by (symmetry; apply Nat.ltb_ge; lia).
      destruct (b_cap s - sum_sz esz (b_ct s) <? sum_sz esz vs) eqn:L2.
      * apply Nat.ltb_lt in L2. replace (sum_sz esz vs <=? b_cap s - sum_sz esz (b_ct s)) with false by (symmetry; apply Nat.leb_gt; lia).
        destruct (@b_pop_policy s (sum_sz esz vs - (b_cap s - sum_sz esz (b_ct s))) He Hi Ht (apart_app_l _ _ Ha))
          as (s1 & o1 & E1 & _ & Hi1 & _ & _ & _ & _ & P1 & Q1).
        rewrite E1 in E. cbn [bind] in E. inversion E; subst s' o. cbn [app]. split; auto.
        destruct (@b_insert_spec K V OK EK O vs s1 Hi1) as (_ & P2 & _).
        { eapply nodup_keys. eapply apart_perm; [apply Permutation_app_tail; symmetry; exact Q1|].
          eapply apart_app_r. eapply apart_perm; [|exact Ha].
          rewrite app_assoc. apply Permutation_app_tail. symmetry. apply keep_evict. }
        change (b_ct (with_total (b_insert s1 vs) (b_total (b_insert s1 vs) + sum_sz esz vs))) with (b_ct (b_insert s1 vs)).
        rewrite P2. apply Permutation_app_tail. auto.
      * apply Nat.ltb_ge in L2. replace (sum_sz esz vs <=? b_cap s - sum_sz esz (b_ct s)) with true by (symmetry; apply Nat.leb_le; lia).
        cbn [bind] in E. inversion E; subst s' o. cbn [app]. split; auto.
  - intros s (He & Hi & Ht & Hle). destruct (b_flush_spec He Hi) as (s1 & F1 & H1 & Hc1 & Hct1 & Hz1).
    exists s1, (b_ct s). auto.
Qed.
End Leaf.
