(** TmLen.v -- how many pairs take_multiple may return, counted against the requested keys. *)
From Verif Require Import Base PermSolve Block Spec LawsProof Wrappers WrappersProof Array ArrayProof
  Batch BatchProof Exclusive ExclusiveProof.
Set Implicit Arguments.

Section TmLen.
Context {K V : Type} {OK : Ord K} {EK : OrdEq K}.

Lemma array_tm_len {OV : Ord V} (srt : Sorter (K * V) V snd) (bs : BSearch K) : tm_len (ArrayB srt bs) (@a_inv K V) true.
Proof.
  intros s ks s' ks' out H E. destruct (a_take_multiple_spec bs ks H) as (s1 & ks1 & o1 & H1 & _ & _ & _ & _ & _ & P & _).
  cbn in E. rewrite H1 in E. inversion E; subst. apply Permutation_length in P. rewrite app_length in P.
  unfold keys in P. rewrite map_length in P. lia.
Qed.

Variables C D : Block K V.
Variable InvC : St C -> Prop.
Variable InvD : St D -> Prop.

Lemma bt_tm_len : tm_len C InvC true -> forall s ks s' ks' out, Forall InvC s ->
  bt_take_multiple C s ks = Ok (s', ks', out) -> length out + length ks' <= length ks.
Proof.
  intros Hb. induction s as [|c s IH]; intros ks s' ks' out Hs E.
  - cbn in E. inversion E; subst. auto.
  - apply Forall_cons_iff in Hs as [Hc Hs]. destruct ks as [|k0 ks0] eqn:Ek.
    + cbn in E. inversion E; subst. auto.
    + rewrite <- Ek in *. replace (bt_take_multiple C (c :: s) ks) with
        (let* (c1, ks1, o1) := take_multiple C c ks in
         let* (s2, ks2, o2) := bt_take_multiple C s ks1 in Ok (c1 :: s2, ks2, o1 ++ o2)) in E by (subst ks; auto).
      clear Ek. destruct (take_multiple C c ks) as [[[c1 ks1] o1]|] eqn:E1; cbn in E; [|discriminate].
      destruct (bt_take_multiple C s ks1) as [[[s2 ks2] o2]|] eqn:E2; cbn in E; [|discriminate].
      inversion E; subst. specialize (Hb _ _ _ _ _ Hc E1). specialize (IH _ _ _ _ Hs E2).
      rewrite app_length. cbn in Hb. lia.
Qed.
Lemma batch_tm_len ct dup : tm_len C InvC true -> tm_len (BatchB C) (@bt_inv K V C InvC ct dup) true.
Proof. intros Hb s ks s' ks' out [H _] E. eapply bt_tm_len; eauto. Qed.

Lemma remove_found_len (bs : BSearch K) (found : list (K * V)) ks : length (remove_found bs ks found) <= length ks.
Proof.
  destruct (remove_found_spec bs found ks) as (r & P & _). apply Permutation_length in P.
  rewrite app_length in P. lia.
Qed.
Lemma exclusive_tm_len bs ctC ctD dup strict : tm_len C InvC true -> tm_len D InvD strict ->
  tm_len (ExclusiveB bs C D) (@ex_inv K V C D InvC InvD ctC ctD dup) strict.
Proof.
  intros Hc Hd [f b] ks s' ks' out (H1 & H2 & _) E. cbn in *. unfold ex_take_multiple in E. cbn [fst snd] in E.
  destruct (take_multiple C f (sort_keys ks)) as [[[f1 ks1] o1]|] eqn:E1; cbn in E; [|discriminate].
  destruct (take_multiple D b (remove_found bs ks1 o1)) as [[[b1 ks3] o2]|] eqn:E2; cbn in E; [|discriminate].
  inversion E; subst. specialize (Hc _ _ _ _ _ H1 E1). specialize (Hd _ _ _ _ _ H2 E2).
  pose proof (remove_found_len bs o1 ks1). pose proof (remove_found_len bs o2 ks3).
  assert (length (sort_keys ks) = length ks) by (apply Permutation_length, stable_sort_perm).
  rewrite app_length. cbn in Hc. destruct strict; lia.
Qed.
End TmLen.
