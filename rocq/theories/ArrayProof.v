(** ArrayProof.v -- the contract holds for Array, whatever the sort, search, capacity and sizes. *)
From Verif Require Import Base PermSolve Block Spec LawsProof Cut CutProof Array.
Set Implicit Arguments.

Lemma swap_remove_app {T} (a : list T) e b :
  exists b', swap_remove (length a) (a ++ e :: b) = a ++ b' /\ Permutation b' b.
Proof.
  unfold swap_remove. destruct (rev (a ++ e :: b)) as [|z rl] eqn:E.
  - apply (f_equal (@rev T)) in E. rewrite rev_involutive in E. destruct a; discriminate.
  - assert (R : replace_nth (length a) z (a ++ e :: b) = a ++ z :: b).
    { clear. induction a; simpl; congruence. }
    rewrite R. rewrite rev_app_distr in E. simpl in E. rewrite <- app_assoc in E.
    destruct (rev b) as [|y rb] eqn:Eb.
    + simpl in E. inversion E; subst. apply (f_equal (@rev T)) in Eb. rewrite rev_involutive in Eb; subst b.
      exists []. rewrite removelast_last, app_nil_r. auto.
    + simpl in E. inversion E; subst y.
      assert (Hb : b = rev rb ++ [z]) by (apply (f_equal (@rev T)) in Eb; rewrite rev_involutive in Eb; auto).
      exists (z :: rev rb). subst b. split.
      * replace (a ++ z :: rev rb ++ [z]) with ((a ++ z :: rev rb) ++ [z]) by (rewrite <- app_assoc; auto).
        rewrite removelast_last. auto.
      * apply Permutation_cons_append.
Qed.

Section ArrayProof.
Context {K V : Type} {OK : Ord K} {EK : OrdEq K} {OV : Ord V}.
Variable srt : Sorter (K * V) V snd.
Variable bs : BSearch K.
Notation B := (ArrayB srt bs).

Definition a_inv (s : array K V) : Prop :=
  a_total s = sum_sz (a_esz s) (a_vals s) /\ a_total s <= a_cap s.

Lemma cut_split (esz : K * V -> nat) vals n i c e :
  find_cut_at_size vals esz n = (i, c, e) ->
  sum_sz esz vals = sum_sz esz (firstn i vals) + c.
Proof.
  intros H. apply find_cut_spec in H. destruct H as (-> & _).
  rewrite <- sum_sz_app, firstn_skipn. auto.
Qed.

Lemma a_pop_spec (s : array K V) n : a_inv s ->
  exists s' out, a_pop srt s n = Ok (s', out) /\ a_inv s' /\ a_cap s' = a_cap s /\ a_esz s' = a_esz s /\
    Permutation (out ++ a_vals s') (a_vals s) /\
    (a_total s' + n <= a_total s \/ a_vals s' = []) /\ a_total s' <= a_total s.
Proof.
  intros [Ht Hc]. unfold a_pop.
  destruct (a_vals s) as [|x l] eqn:E.
  - exists s, []. repeat split; rewrite ?E; auto.
  - rewrite <- E in *. clear x l E. destruct (a_total s <=? n) eqn:L.
    + eexists _, _. split; [reflexivity|]. unfold a_inv; simpl. repeat split; auto; try lia.
      rewrite app_nil_r; auto.
    + apply Nat.leb_gt in L. set (vals := srt (a_vals s)).
      assert (P : Permutation vals (a_vals s)) by apply sort_perm.
      destruct (find_cut_at_size vals (a_esz s) n) as [[i c] e] eqn:F.
      pose proof (cut_split _ _ _ F) as Hsum. rewrite (sum_sz_perm _ P), <- Ht in Hsum.
      apply find_cut_spec in F. destruct F as (Hcc & _ & Hr & _).
      unfold sub_chk. destruct (c <=? a_total s) eqn:L2; [|apply Nat.leb_gt in L2; lia].
      simpl. eexists _, _. split; [reflexivity|]. unfold a_inv; simpl.
      assert (HP : Permutation (skipn i vals ++ firstn i vals) (a_vals s)).
      { rewrite Permutation_app_comm, firstn_skipn. auto. }
      repeat split; auto; try lia.
      destruct Hr as [Hr| ->]; [left; lia|]. right. auto.
Qed.

Lemma a_push_spec (s : array K V) vs : a_inv s ->
  exists s' out, a_push srt s vs = Ok (s', out) /\ a_inv s' /\ a_cap s' = a_cap s /\ a_esz s' = a_esz s /\
    Permutation (out ++ a_vals s') (a_vals s ++ vs).
Proof.
  intros [Ht Hc]. unfold a_push. set (sz := sum_sz (a_esz s) vs).
  unfold sub_chk at 1. replace (a_total s <=? a_cap s) with true by (symmetry; apply Nat.leb_le; auto).
  simpl. set (room := a_cap s - a_total s).
  destruct (sz <=? room) eqn:L1.
  { apply Nat.leb_le in L1. eexists _, _. split; [reflexivity|]. unfold a_inv; simpl.
    rewrite sum_sz_app. fold sz. repeat split; auto; lia. }
  apply Nat.leb_gt in L1. destruct (sz =? a_cap s) eqn:L2.
  { apply Nat.eqb_eq in L2. eexists _, _. split; [reflexivity|]. unfold a_inv; simpl.
    repeat split; auto; lia. }
  apply Nat.eqb_neq in L2. destruct (a_cap s <? sz) eqn:L3.
  { apply Nat.ltb_lt in L3. set (els := stable_sort snd vs).
    assert (P : Permutation els vs) by apply stable_sort_perm.
    destruct (find_cut_at_size els (a_esz s) (sz - a_cap s)) as [[i c] e] eqn:F.
    pose proof (cut_split _ _ _ F) as Hsum. rewrite (sum_sz_perm _ P) in Hsum. fold sz in Hsum.
    apply find_cut_spec in F. destruct F as (Hcc & _ & Hr & _).
    unfold sub_chk. destruct (c <=? sz) eqn:L4; [|apply Nat.leb_gt in L4; lia].
    simpl. eexists _, _. split; [reflexivity|]. unfold a_inv; simpl.
    assert (HP : Permutation (skipn i els ++ firstn i els) vs).
    { rewrite Permutation_app_comm, firstn_skipn. auto. }
    repeat split; auto; try lia.
    - destruct Hr as [Hr|Hr]; [lia|]. rewrite Hr in *. simpl in *.
      unfold sum_sz in Hcc; simpl in Hcc. lia.
    - perm1 HP. }
  apply Nat.ltb_ge in L3.
  destruct (@a_pop_spec s (sz - room)) as (s1 & out & Hp & Hi & Hcap & Hesz & HP & Hfree & Hle); [split; auto|].
  rewrite Hp. simpl. eexists _, _. split; [reflexivity|].
  destruct Hi as [Hi1 Hi2]. unfold a_inv; simpl. rewrite Hesz in *.
  rewrite sum_sz_app. fold sz. repeat split; auto; try lia.
  - destruct Hfree as [Hf|Hf]; [lia|]. rewrite Hf in Hi1. unfold sum_sz in Hi1; simpl in Hi1. lia.
  - perm1 HP.
Qed.

Lemma a_take_spec (s : array K V) k : a_inv s ->
  exists s' o, a_take s k = Ok (s', o) /\ a_inv s' /\ a_cap s' = a_cap s /\ a_esz s' = a_esz s /\
    a_total s' <= a_total s /\
    match o with
    | Some (k', v) => k' = k /\ Permutation ((k, v) :: a_vals s') (a_vals s)
    | None => ~ In k (keys (a_vals s)) /\ s' = s
    end.
Proof.
  intros [Ht Hc]. unfold a_take.
  destruct (find_index (fun p => eqb (fst p) k) (a_vals s)) as [i|] eqn:F.
  - apply find_index_some in F. destruct F as ([k' v] & Hn & He & _). rewrite Hn. simpl.
    simpl in He. apply eqb_eq in He. subst k'.
    pose proof (swap_remove_perm _ _ Hn) as P.
    assert (Hs : a_total s = a_esz s (k, v) + sum_sz (a_esz s) (swap_remove i (a_vals s))).
    { rewrite Ht, <- (sum_sz_perm _ P). auto. }
    unfold sub_chk. destruct (a_esz s (k, v) <=? a_total s) eqn:L; [|apply Nat.leb_gt in L; lia].
    simpl. eexists _, _. split; [reflexivity|]. unfold a_inv; simpl. repeat split; auto; lia.
  - exists s, None. repeat split; auto. intros Hin. unfold keys in Hin. apply in_map_iff in Hin.
    destruct Hin as (p & Hp & Hin). rewrite find_index_none in F. apply F in Hin.
    subst k. rewrite eqb_refl in Hin. discriminate.
Qed.

Lemma bs_remove ks k p : bs ks k = Some p -> Permutation ks (k :: remove_nth p ks).
Proof. intros H. apply bs_sound in H. symmetry. apply remove_nth_perm; auto. Qed.

Lemma a_tm_loop_spec : forall (a b : list (K * V)) (s : array K V) ks ret,
  a_inv s -> a_vals s = a ++ b -> sorted_by (fun x => x) ks ->
  (forall e, In e b -> ~ In (fst e) ks) ->
  exists s' ks' ret', a_tm_loop bs (length a) s ks ret = Ok (s', ks', ret ++ ret') /\ a_inv s' /\
    a_cap s' = a_cap s /\ a_esz s' = a_esz s /\ a_total s' <= a_total s /\
    Permutation (ret' ++ a_vals s') (a_vals s) /\
    Permutation ks (keys ret' ++ ks') /\
    (forall e, In e (a_vals s') -> ~ In (fst e) ks').
Proof.
  intros a. remember (length a) as n eqn:En. revert a En.
  induction n as [|j IH]; intros a En b s ks ret Hi Hv Hs Hb.
  - destruct a; [|discriminate]. simpl in Hv. exists s, ks, []. rewrite app_nil_r.
    repeat split; try apply Hi; auto. rewrite Hv; auto.
  - destruct (@exists_last _ a) as (a' & x & Ha); [intros ->; discriminate|].
    assert (Hj : j = length a').
    { rewrite Ha, app_length in En. simpl in En. lia. }
    assert (Hv' : a_vals s = a' ++ x :: b).
    { rewrite Hv, Ha, <- app_assoc; auto. }
    cbn [a_tm_loop]. rewrite Hv'. rewrite Hj, nth_error_app2, Nat.sub_diag by lia. cbn [nth_error unwrap bind].
    destruct (bs ks (fst x)) as [p|] eqn:Eb.
    + destruct (swap_remove_app a' x b) as (b' & Hsw & HPb). rewrite Hsw.
      destruct Hi as [Ht Hc].
      assert (Hsum : a_total s = a_esz s x + sum_sz (a_esz s) (a' ++ b')).
      { rewrite Ht, Hv', !sum_sz_app, sum_sz_cons, (sum_sz_perm _ HPb). lia. }
      unfold sub_chk. destruct (a_esz s x <=? a_total s) eqn:L; [|apply Nat.leb_gt in L; lia].
      cbn [bind]. pose proof (bs_remove _ _ Eb) as HPk.
      destruct (IH a' Hj b' (mkArray (a_cap s) (a_total s - a_esz s x) (a' ++ b') (a_esz s))
                   (remove_nth p ks) (ret ++ [x])) as (s' & ks' & ret' & HR & Hi' & Hcap & Hesz & Hle & HP & HPks & Hk).
      { split; cbn [a_total a_esz a_vals a_cap]; lia. }
      { auto. }
      { apply remove_nth_sorted; auto. }
      { intros e He Hin. apply (Hb e).
        - rewrite <- HPb; auto.
        - rewrite HPk; right; auto. }
      cbn [a_cap a_total a_esz a_vals] in *.
      exists s', ks', (x :: ret'). rewrite <- Hj. rewrite <- app_assoc in HR. cbn [app] in HR.
      split; [exact HR|]. split; [auto|]. split; [auto|]. split; [auto|]. split; [lia|].
      split; [|split]; auto.
      * perm2 HP HPb.
      * cbn [keys map]. fold (keys ret'). perm2 HPk HPks.
    + rewrite <- Hj, <- Hv'.
      apply (IH a' Hj (x :: b) s ks ret); auto.
      intros e [<-|He]; auto. intros Hin. exact (bs_complete bs _ Hs Hin Eb).
Qed.

Lemma a_take_multiple_spec (s : array K V) ks : a_inv s ->
  exists s' ks' out, a_take_multiple bs s ks = Ok (s', ks', out) /\ a_inv s' /\
    a_cap s' = a_cap s /\ a_esz s' = a_esz s /\ a_total s' <= a_total s /\
    Permutation (out ++ a_vals s') (a_vals s) /\
    Permutation ks (keys out ++ ks') /\
    (forall e, In e (a_vals s') -> ~ In (fst e) ks').
Proof.
  intros Hi. unfold a_take_multiple.
  destruct (@a_tm_loop_spec (a_vals s) [] s (sort_keys ks) []) as (s' & ks' & out & H & H1 & H2 & H3 & H4 & H5 & H6 & H7).
  { auto. }
  { rewrite app_nil_r; auto. }
  { apply stable_sort_sorted. }
  { intros e []. }
  exists s', ks', out. repeat split; auto; try apply H1.
  rewrite <- H6. symmetry. apply stable_sort_perm.
Qed.

(** Array satisfies the whole contract with no discipline imposed on the caller. *)
Lemma array_laws : Laws B a_inv (@a_vals K V) true true true.
Proof.
  constructor.
  - intros s [H1 H2]; auto.
  - intros s [H1 H2] E. cbn in *. unfold a_size. rewrite H1, E; auto.
  - discriminate.
  - intros s k _. reflexivity.
  - intros s k Hi. destruct (@a_take_spec s k Hi) as (s' & o & H1 & H2 & H3 & H4 & H5 & H6).
    exists s', o. cbn. unfold a_capacity, a_size. repeat split; auto; try apply H2.
    destruct o as [[k' v]|]; auto. destruct H6 as [? ->]; auto.
  - intros s ks Hi. destruct (@a_take_multiple_spec s ks Hi) as (s' & ks' & out & H1 & H2 & H3 & H4 & H5 & H6 & H7 & H8).
    exists s', ks', out. cbn. unfold a_capacity, a_size. repeat split; auto; try apply H2.
    + intros k Hk. rewrite H7. apply in_or_app; auto.
    + intros k Hk Hc. assert (Hc' : In k (keys (out ++ a_vals s'))) by (rewrite keys_perm; eauto).
      rewrite keys_app in Hc'. apply in_app_or in Hc'. destruct Hc' as [?|Hc']; auto.
      rewrite H7 in Hk. apply in_app_or in Hk. destruct Hk as [?|Hk]; auto.
      exfalso. unfold keys in Hc'. apply in_map_iff in Hc'. destruct Hc' as (e & <- & He).
      eapply H8; eauto.
    + exists (keys out). split; auto. apply incl_refl.
  - intros s vs Hi _. destruct (@a_push_spec s vs Hi) as (s' & out & H1 & H2 & H3 & H4 & H5).
    exists s', out. cbn. repeat split; auto; apply H2.
  - intros _ s n Hi. destruct (@a_pop_spec s n Hi) as (s' & out & H1 & H2 & H3 & H4 & H5 & H6 & H7).
    exists s', out. cbn. repeat split; auto; apply H2.
  - intros s Hi. eexists _, _. split; [reflexivity|]. cbn. unfold a_inv; cbn.
    repeat split; auto; try lia. rewrite app_nil_r; auto.
Qed.

(** The element size function never changes. *)
Definition a_inv_e (E : K * V -> nat) (s : array K V) : Prop := a_inv s /\ a_esz s = E.
Lemma array_laws_e E : Laws B (a_inv_e E) (@a_vals K V) true true true.
Proof.
  apply laws_and; [apply array_laws|]. intros s o s' r Hi Es _ <-.
  destruct o as [vs|n|k|ks|]; cbn in Es.
  - destruct (@a_push_spec s vs Hi) as (s1 & out & H1 & _ & _ & H4 & _). rewrite H1 in Es. inversion Es; subst; auto.
  - destruct (@a_pop_spec s n Hi) as (s1 & out & H1 & _ & _ & H4 & _). rewrite H1 in Es. inversion Es; subst; auto.
  - destruct (@a_take_spec s k Hi) as (s1 & o & H1 & _ & _ & H4 & _). rewrite H1 in Es. inversion Es; subst; auto.
  - destruct (@a_take_multiple_spec s ks Hi) as (s1 & ks' & out & H1 & _ & _ & H4 & _). rewrite H1 in Es. inversion Es; subst; auto.
  - inversion Es; subst; auto.
Qed.

Lemma array_new_inv cap esz : a_inv (@array_new K V cap esz) /\ a_vals (@array_new K V cap esz) = [].
Proof. split; [split; cbn; auto; lia | auto]. Qed.

End ArrayProof.
