(** OrderProof.v -- Array and BTree, and transparent wrappers over them, evict in the order of values. *)
From Coq Require Import NArith.
From Verif Require Import Base PermSolve Block Spec LawsProof Cut CutProof Array ArrayProof BTree BTreeProof
  Batch Exclusive Wrappers WrappersProof Associative Stream Compressed CompressedProof Arch ArchProof PArray PBTree.
From Verif Require PCompressed.
Set Implicit Arguments.

(** No victim has a smaller value than what is kept. *)
Definition sep {K V} (OV : Ord V) (kept out : list (K * V)) : Prop :=
  forall x y, In x kept -> In y out -> leb (snd x) (snd y) = true.

Lemma Forall_forall' {A} (P : A -> Prop) : (forall x, P x) -> forall l, Forall P l.
Proof. intros H l. apply Forall_forall. auto. Qed.

Section OrderProof.
Context {K : Type} {OK : Ord K} {EK : OrdEq K}.

(** Array, BTree or Compressed (whose elements all can be serialized) comparing values by [O], possibly wrapped. *)
Fixpoint ordered_by {D} (a : arch K D) : Ord D -> Prop :=
  match a in arch _ D return Ord D -> Prop with
  | @AArray _ _ _ OV _ _ _ _ => fun O => OV = O
  | ABTree OV _ _ => fun O => OV = O
  | AFlushStopper a => ordered_by a
  | ASequential a => ordered_by a
  | ADyn a => ordered_by a
  | AProfiler a => ordered_by a
  | ARemote a => ordered_by a
  | @ACompressed _ _ _ OV _ C _ _ _ => fun O => OV = O /\ forall x, c_esz C x <> None
  | _ => fun _ => False
  end.

Section Leaves.
Context {V : Type} {OV : Ord V}.
Lemma a_pop_sep (srt : Sorter (K * V) V snd) (s : array K V) n s' out :
  a_pop srt s n = Ok (s', out) -> sep OV (a_vals s') out.
Proof.
  unfold a_pop. destruct (a_vals s) as [|x l] eqn:E.
  - intros H. injection H as <- <-. rewrite E. intros ? ? [].
  - rewrite <- E. clear x l E. destruct (a_total s <=? n).
    + intros H. injection H as <- <-. intros ? ? [].
    + destruct (find_cut_at_size _ _ _) as [[i c] e]. destruct (sub_chk _ _); [|discriminate].
      intros H. cbn in H. injection H as <- <-. intros x y Hx Hy. cbn in Hx.
      apply (@sorted_app_le (K * V) V _ snd (firstn i (srt (a_vals s))) (skipn i (srt (a_vals s)))); auto.
      rewrite firstn_skipn. apply sort_sorted.
Qed.
Lemma a_push_sep (srt : Sorter (K * V) V snd) (s : array K V) vs s' out : a_inv s ->
  (forall x y, In x vs -> In y (a_vals s) -> leb (snd x) (snd y) = true) ->
  a_push srt s vs = Ok (s', out) -> sep OV (a_vals s') out.
Proof.
  intros Hi Hle. unfold a_push. destruct (sub_chk _ _) as [room|]; [|discriminate]. cbn [bind].
  destruct (_ <=? room). { intros H. injection H as <- <-. intros ? ? ? []. }
  destruct (_ =? _). { intros H. injection H as <- <-. intros x y. cbn. auto. }
  destruct (_ <? _).
  - pose proof (stable_sort_perm (@snd K V) vs) as P. pose proof (stable_sort_sorted (@snd K V) vs) as Hs.
    destruct (find_cut_at_size _ _ _) as [[i c] e]. destruct (sub_chk _ _); [|discriminate].
    intros H. cbn in H. injection H as <- <-. intros x y Hx Hy. cbn in Hx.
    apply in_app_or in Hy. destruct Hy as [Hy|Hy].
    + apply Hle; auto. eapply Permutation_in; [exact P|]. rewrite <- (firstn_skipn i). apply in_or_app; auto.
    + eapply sorted_app_le; [|exact Hx|exact Hy]. rewrite firstn_skipn. auto.
  - destruct (a_pop_spec srt (sum_sz (a_esz s) vs - room) Hi) as (s1 & o & H1 & _ & _ & _ & P & _).
    rewrite H1. cbn [bind]. intros H. injection H as <- <-. intros x y Hx Hy. cbn in Hx.
    apply in_app_or in Hx. destruct Hx as [Hx|Hx]; [eapply a_pop_sep; eauto|].
    apply Hle; auto. eapply Permutation_in; [exact P|apply in_or_app; auto].
Qed.

Lemma b_pop_sep E (s : btree K V) n s' out : b_esz s = E -> b_idx s -> b_total s = sum_sz E (b_ct s) ->
  b_pop s n = Ok (s', out) -> sep OV (b_ct s') out.
Proof.
  intros I1 I2 I3 H.
  destruct (@b_pop_spec K V OK EK OV E s n I1 I2 I3) as (s1 & o1 & H1 & H2 & H3 & H4 & H5 & H6 & H7 & H8 & H9 & H10).
  rewrite H in H1. injection H1 as <- <-.
  destruct (le_lt_dec (b_total s) n) as [L|L]. { rewrite (H9 L). intros ? ? []. }
  destruct (H10 L) as (x & b & S1 & S2 & _). pose proof (BTreeProof.b_ct_set H3) as P'.
  assert (Hsort : sorted_by fst (b_set s' ++ x :: b)) by (rewrite <- S1; apply I2).
  intros p q Hp Hq. apply (Permutation_in _ (Permutation_sym P')) in Hp. apply in_map_iff in Hp as (ep & <- & Hp).
  rewrite S2 in Hq. apply in_map_iff in Hq as (eq & <- & Hq).
  pose proof (sorted_app_le _ _ Hsort _ _ Hp Hq) as L2.
  destruct ep as [[v k] i], eq as [[v' k'] i']. change (lex_leb (v, k) (v', k') = true) in L2. unfold lex_leb in L2.
  cbn [fst snd] in L2. cbn. destruct (leb v v'); auto.
Qed.
Lemma b_push_sep E (s : btree K V) vs s' out : b_inv E s -> NoDup (keys (b_ct s ++ vs)) ->
  (forall x y, In x vs -> In y (b_ct s) -> leb (snd x) (snd y) = true) ->
  b_push s vs = Ok (s', out) -> sep OV (b_ct s') out.
Proof.
  intros (HE & Hi & Ht & Hc) Hn Hle. unfold b_push. rewrite HE. set (sz := sum_sz E vs).
  assert (Hn' : NoDup (keys vs) /\ (forall k, In k (keys vs) -> ~ In k (keys (b_ct s)))).
  { rewrite keys_app in Hn. apply NoDup_app_inv in Hn as (_ & N2 & N3). split; auto. intros k H1 H2. eapply N3; eauto. }
  destruct Hn' as [Nv Nd].
  destruct (b_cap s <=? sz) eqn:L1.
  - destruct (b_flush_spec HE Hi) as (s1 & F1 & (F2 & F3 & F4 & F5) & F6 & F7 & F8).
    rewrite F1. cbn [bind].
    destruct (@b_insert_spec _ _ _ _ _ vs s1) as (I1 & I2 & I3 & I4 & I5); auto. { rewrite F7. auto. }
    set (s2 := with_total (b_insert s1 vs) sz).
    assert (J1 : b_idx s2) by exact I1.
    assert (J2 : Permutation (b_ct s2) vs) by (rewrite F7 in I2; exact I2).
    assert (J3 : b_total s2 = sum_sz E (b_ct s2)) by (rewrite (sum_sz_perm _ J2); auto).
    assert (J4 : b_esz s2 = E) by (cbn; congruence).
    destruct (b_cap s <? sz) eqn:L2.
    + destruct (@b_pop_spec _ _ _ _ _ E s2 (sz - b_cap s) J4 J1 J3) as (s3 & o & P1 & P2 & P3 & P4 & P5 & P6 & P7 & P8 & _).
      rewrite P1. cbn [bind]. intros H. injection H as <- <-. intros x y Hx Hy. apply in_app_or in Hy. destruct Hy as [Hy|Hy].
      * apply Hle; auto. eapply Permutation_in; [exact J2|]. eapply Permutation_in; [exact P6|apply in_or_app; auto].
      * exact (@b_pop_sep E s2 _ s3 o J4 J1 J3 P1 x y Hx Hy).
    + intros H. injection H as <- <-. intros x y Hx Hy. apply Hle; auto. eapply Permutation_in; [exact J2|auto].
  - assert (Hb : b_inv E s) by (repeat split; auto; apply Hi).
    destruct (@default_tm_ok _ _ _ _ BTreeB (b_inv E) b_ct (@b_take_ok _ _ _ _ _ E) s (keys vs) Hb)
      as (s1 & o & T1 & T2 & T3 & T4 & T5 & T6 & T7 & T8).
    cbn [take BTreeB capacity size St] in *.
    assert (T1' : @default_take_multiple K V (btree K V) b_take s (keys vs) = Ok (s1, keys vs, o)) by exact T1.
    rewrite T1'. cbn [bind].
    assert (Eo : o = []).
    { destruct o as [|p o]; auto. exfalso. apply (Nd (fst p)).
      - apply T6. left; auto.
      - eapply in_keys_perm; [exact T5|]. left; auto. }
    subst o. cbn [app] in *. destruct T2 as (U1 & U2 & U3 & U4).
    unfold sub_chk. replace (b_total s1 <=? b_cap s1) with true by (symmetry; apply Nat.leb_le; auto). cbn [bind]. set (room := b_cap s1 - b_total s1).
    destruct (room <? sz) eqn:L3.
    + destruct (@b_pop_spec _ _ _ _ _ E s1 (sz - room) U1 U2 U3) as (s2 & o & P1 & P2 & P3 & P4 & P5 & P6 & P7 & P8 & _).
      rewrite P1. cbn [bind]. intros H. injection H as <- <-.
      assert (Hdis : NoDup (keys (b_ct s2 ++ vs))).
      { rewrite keys_app. apply NoDup_app_inv. split; [|split]; auto.
        - unfold b_ct. rewrite keys_m2c. apply P3.
        - intros k H1 H2. apply (Nd k H2). eapply in_keys_perm; [exact T5|]. eapply in_keys_perm; [exact P6|].
          rewrite keys_app. apply in_or_app; auto. }
      destruct (@b_insert_spec _ _ _ _ _ vs s2 P3 Hdis) as (I1 & I2 & I3 & I4 & I5).
      intros x y Hx Hy. change (In x (b_ct (b_insert s2 vs))) in Hx. rewrite I2 in Hx. apply in_app_or in Hx.
      destruct Hx as [Hx|Hx]; [exact (@b_pop_sep E s1 _ s2 o U1 U2 U3 P1 x y Hx Hy)|].
      apply Hle; auto. eapply Permutation_in; [exact T5|]. eapply Permutation_in; [exact P6|apply in_or_app; auto].
    + cbn [bind]. intros H. injection H as <- <-. intros ? ? ? [].
Qed.
End Leaves.

Theorem ordered_pop dup {D} (a : arch K D) O : ordered_by a O ->
  forall s n s' out, ainv dup a s -> pop (block a) s n = Ok (s', out) -> sep O (held a s') out.
Proof.
  induction a as [V OV srt bs cap esz|V OV cap esz|V n f IH|V bs l IHl r IHr|V a IH|V a IH|V a IH|V a IH|V D F f0 a IH|V hash n f IH|V OV L C srt bs cap|V a IH];
    cbn [ordered_by block ainv]; try contradiction; intros Ho s n0 s' out Hi H.
  - subst O. eapply a_pop_sep. exact H.
  - subst O. destruct Hi as (I1 & I2 & I3 & I4). exact (b_pop_sep _ I1 I2 I3 H).
  - eapply IH; eauto.
  - eapply IH; eauto.
  - eapply IH; eauto.
  - cbn in H. unfold pf_pop in H. destruct (pop (block a) (snd s) n0) as [[c o]|] eqn:E; [|discriminate]. cbn in H.
    destruct (sub_chk _ _); [|discriminate]. injection H as <- <-. cbn. eapply IH; eauto.
  - destruct Ho as [<- Hz]. destruct Hi as [Hi _]. cbn [held]. intros x y Hx Hy. rewrite <- compressed_held in Hx.
    exact (PCompressed.C48_pop_evicts_greatest_values _ x y Hi H Hx Hy).
  - eapply IH; eauto.
Qed.
Theorem ordered_push dup {D} (a : arch K D) O : ordered_by a O -> (dup = true -> any_keys a = true) ->
  forall s vs s' out, ainv dup a s -> may_push (block a) (held a) dup s vs ->
  (forall x y, In x vs -> In y (held a s) -> leb (snd x) (snd y) = true) ->
  push (block a) s vs = Ok (s', out) -> sep O (held a s') out.
Proof.
  induction a as [V OV srt bs cap esz|V OV cap esz|V n f IH|V bs l IHl r IHr|V a IH|V a IH|V a IH|V a IH|V D F f0 a IH|V hash n f IH|V OV L C srt bs cap|V a IH];
    cbn [ordered_by block ainv]; try contradiction; intros Ho Hd s vs s' out Hi Hm Hle H.
  - subst O. destruct Hi as [[Hi _] _]. exact (@a_push_sep _ OV srt s vs s' out Hi Hle H).
  - subst O. destruct dup; [discriminate (Hd eq_refl)|]. exact (@b_push_sep _ OV esz s vs s' out Hi (Hm eq_refl) Hle H).
  - eapply IH; eauto.
  - eapply IH; eauto.
  - eapply IH; eauto.
  - cbn in H. unfold pf_push in H. destruct (push (block a) (snd s) vs) as [[c o]|] eqn:E; [|discriminate]. cbn in H.
    injection H as <- <-. cbn. eapply IH; eauto.
    intros E'. specialize (Hd E'). unfold any_keys in *. cbn [needs_new_keys profiled_dyn] in Hd.
    rewrite negb_orb in Hd. destruct (needs_new_keys a), (has_dyn a), (profiled_dyn a); cbn in *; auto; discriminate.
  - destruct Ho as [<- Hz]. destruct Hi as [Hi _]. cbn [held] in *. intros x y Hx Hy. rewrite <- compressed_held in Hx.
    assert (Hle' : forall x y, In x vs -> In y (c_ct L C s) -> leb (snd x) (snd y) = true).
    { intros p q Hp Hq. apply Hle; auto. rewrite <- compressed_held. auto. }
    destruct (PCompressed.C39_push_keeps Hi (Forall_forall' _ Hz vs) H) as (A1 & A2 & _).
    destruct (le_lt_dec (8 + sum_sz (c_esz0 C) vs) (c_cap s)) as [Hc|Hc].
    + destruct (A1 Hc) as (kept & P1 & P2 & P3). apply (Permutation_in _ P2) in Hx. apply in_app_or in Hx as [Hx|Hx]; [apply P3; auto|].
      apply Hle'; auto. apply (Permutation_in _ P1). apply in_or_app; auto.
    + destruct (A2 Hc) as (lo & P1 & P2 & P3). apply (Permutation_in _ P1) in Hy. apply in_app_or in Hy as [Hy|Hy]; [|apply P3; auto].
      apply Hle'; auto. apply (Permutation_in _ P2). apply in_or_app; auto.
  - eapply IH; eauto.
Qed.
End OrderProof.
