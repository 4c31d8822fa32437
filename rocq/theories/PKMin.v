(** PKMin.v -- property theorems: C33. *)
From Verif Require Import Base PermSolve BTree KMin.
Set Implicit Arguments.

Section PKMin.
Context {T : Type} {OT : Ord T}.
Notation entry := (T * nat)%type.
Notation id := (fun x : entry => x).
Definition km_ok (m : kmin T) (dropped : list entry) : Prop :=
  sorted_by id (km_set m) /\ km_size m = sum_sz snd (km_set m) /\
  (forall d x, In d dropped -> In x (km_set m) -> leb d x = true) /\
  (dropped = [] \/ km_max m <= km_size m).

Lemma km_drop_spec max : forall set size, sorted_by id set -> size = sum_sz snd set -> max <= size ->
  exists gone kept, set = gone ++ kept /\ km_drop set max size = Ok (kept, sum_sz snd kept) /\
    max <= sum_sz snd kept /\
    (forall x rest, kept = x :: rest -> sum_sz snd rest < max).
Proof.
  induction set as [|[x n] set IH]; intros size Hs -> Hm.
  - exists [], []. cbn. repeat split; auto. discriminate.
  - cbn [km_drop]. rewrite sum_sz_cons in *. cbn [snd] in *. unfold sub_chk.
    replace (n <=? n + sum_sz snd set) with true by (symmetry; apply Nat.leb_le; lia). cbn [bind].
    replace (n + sum_sz snd set - n) with (sum_sz snd set) by lia.
    destruct (sum_sz snd set <? max) eqn:E.
    + apply Nat.ltb_lt in E. exists [], ((x, n) :: set). cbn [app]. rewrite sum_sz_cons. cbn [snd]. repeat split; auto.
      intros y rest H. inversion H; subst. auto.
    + apply Nat.ltb_ge in E. inversion Hs as [|? ? S1 S2]; subst.
      destruct (IH _ S1 eq_refl E) as (gone & kept & -> & H2 & H3 & H4).
      exists ((x, n) :: gone), kept. auto.
Qed.
Lemma sorted_app_le' (a b : list entry) : sorted_by id (a ++ b) -> forall x y, In x a -> In y b -> leb x y = true.
Proof.
  unfold sorted_by. induction a as [|z a IH]; cbn; intros H x y Hx Hy; [tauto|].
  inversion H as [|? ? H1 H2]; subst. destruct Hx as [->|Hx]; [|exact (IH H1 x y Hx Hy)].
  rewrite Forall_forall in H2. apply (H2 y). apply in_or_app; auto.
Qed.
Lemma sorted_app_r (a b : list entry) : sorted_by id (a ++ b) -> sorted_by id b.
Proof. unfold sorted_by. induction a as [|z a IH]; cbn; auto. intros H. inversion H; auto. Qed.

Lemma km_push_spec (m : kmin T) dropped x n : km_ok m dropped ->
  exists m' b gone, km_push m x n = Ok (m', b) /\ km_max m' = km_max m /\ km_ok m' (gone ++ dropped) /\
    (b = true -> Permutation (gone ++ km_set m') ((x, n) :: km_set m)) /\
    (b = false -> m' = m /\ gone = [] /\ exists y, In y (km_set m) /\ eqb y (x, n) = true).
Proof.
  intros (S1 & S2 & S3 & S4). unfold km_push.
  destruct (existsb (fun y => eqb y (x, n)) (km_set m)) eqn:E.
  { exists m, false, []. split; auto. split; auto. split; [repeat split; auto|]. split; [discriminate|].
    intros _. split; auto. split; auto. apply existsb_exists in E. exact E. }
  unfold sub_chk. replace (n <=? km_size m + n) with true by (symmetry; apply Nat.leb_le; lia). cbn [bind].
  replace (km_size m + n - n) with (km_size m) by lia.
  set (set := ins id (x, n) (km_set m)).
  assert (Ps : Permutation set ((x, n) :: km_set m)) by apply ins_perm.
  assert (Hs : sorted_by id set) by (apply ins_sorted; auto).
  assert (Hz : km_size m + n = sum_sz snd set). { rewrite (sum_sz_perm _ Ps), sum_sz_cons. cbn. lia. }
  destruct (km_size m <? km_max m) eqn:L.
  - apply Nat.ltb_lt in L. eexists _, true, []. split; [reflexivity|]. cbn. split; auto. split.
    + destruct S4 as [->|]; [|lia]. repeat split; auto.
    + split; auto. discriminate.
  - apply Nat.ltb_ge in L. destruct (@km_drop_spec (km_max m) set (km_size m + n) Hs Hz ltac:(lia)) as (gone & kept & G1 & G2 & G3 & G4).
    rewrite G2. cbn [bind]. eexists _, true, gone. split; [reflexivity|]. cbn [km_max km_set km_size]. split; auto. split; [|split].
    + unfold km_ok. cbn [km_set km_size km_max]. rewrite G1 in Hs. split; [eapply sorted_app_r; eauto|]. split; auto.
      split; [|auto]. intros d y Hd Hy. apply in_app_or in Hd as [Hd|Hd]; [eapply sorted_app_le'; eauto|].
      assert (Hy2 : In y set) by (rewrite G1; apply in_or_app; auto). apply (Permutation_in _ Ps) in Hy2.
      destruct Hy2 as [<-|Hy2]; auto.
      (* the new item is kept: then it is not the smallest, or all smaller ones are gone *)
      destruct (leb_total d (x, n)) as [H|H]; auto. exfalso.
      (* the new item is below [d], hence below everything kept before: it is first, and is dropped *)
      assert (Hmin : forall z, In z (km_set m) -> leb (x, n) z = true).
      { intros z Hz2. eapply leb_trans; [exact H|]. apply S3; auto. }
      assert (Eset : set = (x, n) :: km_set m).
      { unfold set. destruct (km_set m) as [|z l] eqn:El; auto. cbn [ins].
        replace (leb (x, n) z) with true by (symmetry; apply Hmin; left; auto). auto. }
      destruct gone as [|g gone].
      * cbn in G1. rewrite G1 in Eset. specialize (G4 _ _ Eset). lia.
      * cbn in G1. rewrite Eset in G1. injection G1 as <- G1.
        assert (Hin : In (x, n) (km_set m)) by (rewrite G1; apply in_or_app; auto).
        assert (E2 : existsb (fun y => eqb y (x, n)) (km_set m) = true).
        { apply existsb_exists. exists (x, n). split; auto. apply eqb_refl. } congruence.
    + intros _. rewrite <- G1. auto.
    + discriminate.
Qed.

(** Two entries the set tells apart. *)
Definition apart (a b : entry) : Prop := eqb a b = false /\ eqb b a = false.
Definition distinct (l : list entry) : Prop := ForallOrdPairs apart l.

(** C33: whatever is pushed (distinct items), in whatever order: no panic; what is kept and what is dropped
    make up what was pushed; no dropped item is above a kept one; and the kept sizes reach the requested size
    unless nothing was dropped. *)
Theorem C33_kmin_keeps_greatest : forall k (l : list entry), distinct l ->
  exists m dropped, km_push_all (km_new k) l = Ok m /\
    Permutation (km_set m ++ dropped) l /\
    (forall d x, In d dropped -> In x (km_set m) -> leb d x = true) /\
    (dropped = [] \/ k <= sum_sz snd (km_set m)) /\
    km_size m = sum_sz snd (km_set m).
Proof.
  intros k l Hd.
  assert (G : forall l (m : kmin T) dropped pushed, km_ok m dropped -> Permutation (km_set m ++ dropped) pushed ->
    (forall a b, In a pushed -> In b l -> apart a b) -> distinct l ->
    exists m' dropped', km_push_all m l = Ok m' /\ km_ok m' dropped' /\ km_max m' = km_max m /\
      Permutation (km_set m' ++ dropped') (pushed ++ l)).
  { clear. induction l as [|[x n] l IH]; intros m dropped pushed Hok Hp Ha Hd.
    - exists m, dropped. cbn. rewrite app_nil_r. auto.
    - cbn [km_push_all]. inversion Hd as [|? ? D1 D2]; subst.
      destruct (km_push_spec x n Hok) as (m1 & b & gone & P1 & P2 & P3 & P4 & P5). rewrite P1. cbn [bind].
      destruct b.
      + destruct (IH m1 (gone ++ dropped) ((x, n) :: pushed)) as (m2 & d2 & Q1 & Q2 & Q3 & Q4); auto.
        * specialize (P4 eq_refl). rewrite <- Hp. rewrite app_comm_cons, <- P4. perm0.
        * intros a b [<-|Ha1] Hb; [rewrite Forall_forall in D1; auto|]. apply Ha; auto. right; auto.
        * exists m2, d2. split; auto. split; auto. split; [congruence|]. rewrite Q4. perm0.
      + exfalso. destruct (P5 eq_refl) as (_ & _ & y & Hy & Ey).
        assert (Hin : In y pushed) by (apply (Permutation_in _ Hp), in_or_app; auto).
        destruct (Ha y (x, n) Hin (or_introl eq_refl)) as [E _]. congruence. }
  destruct (G l (km_new k) [] []) as (m & dropped & H1 & (H2 & H3 & H4 & H5) & H6 & H7); auto.
  { repeat split; cbn; auto. constructor. }
  { intros a b []. }
  cbn in H6, H7. rewrite H6, H3 in H5. exists m, dropped. auto 8.
Qed.
(** An item equal to one already in the set is refused and changes nothing. *)
Theorem C33_kmin_refuses_duplicates : forall (m : kmin T) x n y, In y (km_set m) -> eqb y (x, n) = true ->
  km_push m x n = Ok (m, false).
Proof.
  intros m x n y Hy E. unfold km_push. replace (existsb _ _) with true; auto. symmetry. apply existsb_exists. eauto.
Qed.
End PKMin.

(** The first overflow does not trim: the kept set need not be minimal. *)
Theorem C33_kmin_not_minimal : exists m, km_push_all (km_new 5) [(1, 1); (9, 10)] = Ok m /\
  km_set m = [(1, 1); (9, 10)] /\ 5 <= sum_sz snd [(9, 10)].
Proof. eexists. split; [reflexivity|]. split; auto. vm_compute. lia. Qed.
Example c33_case : distinct [(2, 4); (3, 4); (4, 1); (5, 1); (1, 1)] /\
  exists m, km_push_all (km_new 5) [(2, 4); (3, 4); (4, 1); (5, 1); (1, 1)] = Ok m /\ km_set m = [(3, 4); (4, 1); (5, 1)].
Proof. split; [repeat constructor|]. eexists. split; reflexivity. Qed.

Print Assumptions C33_kmin_keeps_greatest.
