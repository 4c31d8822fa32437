(** Minus.v -- proof side of Repr.v: take and take_multiple remove the requested keys wherever they are, and nothing
    else, component by component. *)
From Coq Require Import NArith.
From Verif Require Import Base PermSolve Block Spec LawsProof Cut Array ArrayProof BTree BTreeProof
  Batch BatchProof Exclusive ExclusiveProof Wrappers WrappersProof Associative AssociativeProof Arch ArchProof.
Set Implicit Arguments.

Section Minus.
Context {K : Type} {OK : Ord K} {EK : OrdEq K}.
Definition mem (ks : list K) (k : K) : bool := existsb (fun x => eqb x k) ks.
Lemma mem_in ks k : mem ks k = true <-> In k ks.
Proof.
  unfold mem. rewrite existsb_exists. split; [intros (x & H & E)|intros H; exists k].
  - apply eqb_eq in E. subst; auto.
  - split; auto. apply eqb_refl.
Qed.
Lemma mem_same ks ks' k : (In k ks <-> In k ks') -> mem ks k = mem ks' k.
Proof. intros H. rewrite <- !mem_in in H. destruct (mem ks k), (mem ks' k); auto; [symmetry|]; apply H; auto. Qed.

Section V.
Context {V : Type}.
Definition without (P : K -> bool) (l : list (K * V)) : list (K * V) := filter (fun p => negb (P (fst p))) l.
Lemma filter_perm {T} (p : T -> bool) l l' : Permutation l l' -> Permutation (filter p l) (filter p l').
Proof. induction 1; cbn; auto; repeat destruct (p _); auto; try constructor. eapply Permutation_trans; eauto. Qed.
Lemma without_perm P l l' : Permutation l l' -> Permutation (without P l) (without P l').
Proof. apply filter_perm. Qed.
Lemma without_app P l l' : without P (l ++ l') = without P l ++ without P l'.
Proof. apply filter_app. Qed.
Lemma without_ext P Q l : (forall k, In k (keys l) -> P k = Q k) -> without P l = without Q l.
Proof. intros H. apply filter_ext_in. intros [k v] Hk. cbn. rewrite (H k); auto. eapply in_keys; eauto. Qed.
Lemma without_none P l : (forall k, In k (keys l) -> P k = false) -> without P l = l.
Proof.
  induction l as [|[k v] l IH]; intros H; auto. unfold without in *. cbn. rewrite (H k) by (left; auto). cbn. rewrite IH; auto.
  intros k' Hk. apply H. right; auto.
Qed.
Lemma without_all P l : (forall k, In k (keys l) -> P k = true) -> without P l = [].
Proof.
  induction l as [|[k v] l IH]; intros H; auto. unfold without in *. cbn. rewrite (H k) by (left; auto). cbn. rewrite IH; auto.
  intros k' Hk. apply H. right; auto.
Qed.
Lemma without_or P Q l : without Q (without P l) = without (fun k => P k || Q k) l.
Proof.
  unfold without. induction l as [|[k v] l IH]; auto. cbn. destruct (P k); cbn; auto. destruct (Q k); cbn; auto. rewrite IH; auto.
Qed.
Lemma without_keys P l k : In k (keys (without P l)) -> In k (keys l) /\ P k = false.
Proof.
  unfold keys, without. rewrite !in_map_iff. intros ([k' v] & <- & H). apply filter_In in H. cbn in *. destruct H as [H1 H2].
  split; [exists (k', v); auto|]. destruct (P k'); auto; discriminate.
Qed.

Record Minus (B : Block K V) (I : St B -> Prop) (ct : St B -> list (K * V)) (M : (K -> bool) -> St B -> St B -> Prop) : Prop := {
  mi_ct : forall P s s', M P s s' -> Permutation (ct s') (without P (ct s));
  mi_ext : forall P Q s s', (forall k, In k (keys (ct s)) -> P k = Q k) -> M P s s' -> M Q s s';
  mi_trans : forall P Q s s' s'', M P s s' -> M Q s' s'' -> M (fun k => P k || Q k) s s'';
  mi_none : forall s, M (fun _ => false) s s;
  mi_take : forall s k s' o, I s -> take B s k = Ok (s', o) -> M (fun x => eqb x k) s s';
  mi_tm : forall s ks s' l o, I s -> take_multiple B s ks = Ok (s', l, o) -> M (mem ks) s s'
}.
Arguments mi_ct {B I ct M} _ {P s s'} _.
Arguments mi_ext {B I ct M} _ {P Q s s'} _ _.
Arguments mi_trans {B I ct M} _ {P Q s s' s''} _ _.
Arguments mi_none {B I ct M} _ s.
Arguments mi_take {B I ct M} _ {s k s' o} _ _.
Arguments mi_tm {B I ct M} _ {s ks s' l o} _ _.

Definition leaf_minus (B : Block K V) (ct : St B -> list (K * V)) (P : K -> bool) (s s' : St B) : Prop :=
  capacity B s' = capacity B s /\ Permutation (ct s') (without P (ct s)).
Lemma leaf_minus_ok (B : Block K V) I ct p e : Laws B I ct false p e -> Minus B I ct (leaf_minus B ct).
Proof.
  intros L. constructor; unfold leaf_minus.
  - tauto.
  - intros P Q s s' E [Hc H]. split; auto. rewrite H. erewrite without_ext; eauto.
  - intros P Q s s' s'' [H1 H2] [H3 H4]. split; [congruence|]. rewrite H4, (without_perm Q H2), without_or. auto.
  - intros s. split; auto. rewrite without_none; auto.
  - intros s k s' o Hi E. destruct (law_take L s k Hi) as (s1 & o1 & E1 & Hi1 & Hc & _ & H). rewrite E in E1. inversion E1; subst.
    split; auto. pose proof (law_unique L s Hi eq_refl) as Hn. destruct o1 as [[k' v]|].
    + destruct H as [-> P]. rewrite <- (without_perm _ P). unfold without at 1. cbn. rewrite eqb_refl. cbn.
      fold (without (fun x => eqb x k) (ct s1)). rewrite without_none; auto. intros x Hx. apply eqb_neq. intros ->.
      apply (Permutation_NoDup (Permutation_sym (keys_perm P))) in Hn. cbn in Hn. inversion Hn; auto.
    + destruct H as [Hk P]. rewrite without_none; auto. intros x Hx. apply eqb_neq. intros ->; auto.
  - intros s ks s' l o Hi E.
    destruct (law_take_multiple L s ks Hi) as (s1 & ks1 & o1 & E1 & Hi1 & Hc & _ & P & H1 & H2 & _). rewrite E in E1. inversion E1; subst.
    split; auto. pose proof (law_unique L s Hi eq_refl) as Hn.
    rewrite <- (without_perm _ P), without_app, (without_all (mem ks) o1).
    2:{ intros k Hk. apply mem_in. apply H1; auto. }
    cbn. rewrite without_none; auto. intros k Hk. destruct (mem ks k) eqn:Em; auto. apply mem_in in Em.
    apply (Permutation_NoDup (Permutation_sym (keys_perm P))) in Hn. rewrite keys_app in Hn. apply NoDup_app_inv in Hn.
    destruct Hn as (_ & _ & Hn). exfalso. apply (Hn k); auto. apply H2; auto.
    rewrite <- (keys_perm P), keys_app. apply in_or_app; auto.
Qed.

(** *** take_multiple as the provided method of the trait *)
Lemma each_minus (B : Block K V) I ct M p e : Laws B I ct false p e -> Minus B I ct M ->
  forall ks s s' o, I s -> take_each (take B) s ks = Ok (s', o) -> M (mem ks) s s'.
Proof.
  intros L H. induction ks as [|k ks IH]; intros s s' o Hi E; cbn [take_each] in E.
  - inversion E; subst. apply (mi_none H).
  - destruct (law_take L s k Hi) as (s1 & o1 & E1 & Hi1 & _). rewrite E1 in E. cbn [bind] in E.
    destruct (take_each (take B) s1 ks) as [[s2 o2]|] eqn:E2; cbn [bind] in E; [|discriminate]. inversion E; subst.
    specialize (IH _ _ _ Hi1 E2). pose proof (mi_trans H (mi_take H Hi E1) IH) as T.
    eapply (mi_ext H); [|exact T]. intros x Hx. unfold mem. cbn. f_equal.
    unfold eqb. rewrite andb_comm. auto.
Qed.
Lemma default_minus (B : Block K V) I ct M p e : Laws B I ct false p e -> Minus B I ct M ->
  forall ks s s' l o, I s -> default_take_multiple (take B) s ks = Ok (s', l, o) -> M (mem ks) s s'.
Proof.
  intros L H ks s s' l o Hi E. unfold default_take_multiple in E.
  destruct (take_each (take B) s ks) as [[s1 o1]|] eqn:E1; cbn in E; [|discriminate]. inversion E; subst. eapply each_minus; eauto.
Qed.

(** What take_multiple leaves in the vector of keys is enough for the containers asked next. *)
Lemma left_enough (ks ks' removed : list K) (out c : list (K * V)) k :
  Permutation ks (removed ++ ks') -> incl removed (keys out) -> NoDup (keys (out ++ c)) -> In k (keys c) -> mem ks k = mem ks' k.
Proof.
  intros P Hi Hn Hk. apply mem_same. rewrite P, in_app_iff. split; auto. intros [H|H]; auto.
  rewrite keys_app in Hn. apply NoDup_app_inv in Hn. destruct Hn as (_ & _ & Hn). exfalso. eapply Hn; eauto.
Qed.
End V.
Arguments mi_ct {V B I ct M} _ {P s s'} _.
Arguments mi_ext {V B I ct M} _ {P Q s s'} _ _.
Arguments mi_trans {V B I ct M} _ {P Q s s' s''} _ _.
Arguments mi_none {V B I ct M} _ s.
Arguments mi_take {V B I ct M} _ {s k s' o} _ _.
Arguments mi_tm {V B I ct M} _ {s ks s' l o} _ _.

(** *** Batch *)
Section Batch.
Context {V : Type}.
Variables (C : Block K V) (I : St C -> Prop) (ct : St C -> list (K * V)) (p e : bool).
Hypothesis L : Laws C I ct false p e.
Variable M : (K -> bool) -> St C -> St C -> Prop.
Hypothesis H : Minus C I ct M.
Notation ML := (fun P => Forall2 (M P)).
Lemma list_ct P s s' : ML P s s' -> Permutation (flat_map ct s') (without P (flat_map ct s)).
Proof. induction 1 as [|c c' s s' Hc Hs IH]; cbn [flat_map]; auto. rewrite without_app. apply Permutation_app; auto. apply (mi_ct H Hc). Qed.
Lemma list_ext P Q s s' : (forall k, In k (keys (flat_map ct s)) -> P k = Q k) -> ML P s s' -> ML Q s s'.
Proof.
  intros E F. induction F as [|c c' s s' Hc Hs IH]; constructor.
  - eapply (mi_ext H); [|exact Hc]. intros k Hk. apply E. cbn [flat_map]. rewrite keys_app. apply in_or_app; auto.
  - apply IH. intros k Hk. apply E. cbn [flat_map]. rewrite keys_app. apply in_or_app; auto.
Qed.
Lemma list_trans P Q s s' s'' : ML P s s' -> ML Q s' s'' -> ML (fun k => P k || Q k) s s''.
Proof.
  intros F. revert s''. induction F as [|c c' s s' Hc Hs IH]; intros s'' G; inversion G; subst; constructor; auto.
  eapply (mi_trans H); eauto.
Qed.
Lemma list_none s : ML (fun _ => false) s s.
Proof. induction s; constructor; auto. apply (mi_none H). Qed.
Lemma list_absent P s : (forall k, In k (keys (flat_map ct s)) -> P k = false) -> ML P s s.
Proof. intros E. eapply list_ext; [|apply list_none]. intros k Hk. rewrite E; auto. Qed.

Lemma bt_take_minus k : forall s s' o, Forall I s -> NoDup (keys (flat_map ct s)) ->
  bt_take C s k = Ok (s', o) -> ML (fun x => eqb x k) s s'.
Proof.
  induction s as [|c s IH]; intros s' o Hs Hn E; cbn [bt_take] in E.
  - inversion E; subst. constructor.
  - inversion Hs as [|? ? Hc Hs']; subst. cbn [flat_map fst snd] in Hn. rewrite keys_app in Hn. apply NoDup_app_inv in Hn. destruct Hn as (N1 & N2 & N3).
    destruct (law_take L c k Hc) as (c1 & o1 & E1 & _ & _ & _ & Ho). rewrite E1 in E. cbn [bind] in E.
    pose proof (mi_take H Hc E1) as T. destruct o1 as [[k' v]|].
    + inversion E; subst. constructor; auto. apply list_absent. intros x Hx. apply eqb_neq. intros ->.
      destruct Ho as [-> P]. apply (N3 k); auto. rewrite <- (keys_perm P). left; auto.
    + destruct (bt_take C s k) as [[s1 o1]|] eqn:E2; cbn [bind] in E; [|discriminate]. inversion E; subst. constructor; auto. eapply IH; eauto.
Qed.
Lemma bt_tm_minus : forall s ks s' l o, Forall I s -> NoDup (keys (flat_map ct s)) ->
  bt_take_multiple C s ks = Ok (s', l, o) -> ML (mem ks) s s'.
Proof.
  induction s as [|c s IH]; intros ks s' l o Hs Hn E; cbn [bt_take_multiple] in E.
  - inversion E; subst. constructor.
  - destruct ks as [|k0 ks0].
    + inversion E; subst. apply list_absent. intros; auto.
    + set (ks := k0 :: ks0) in *. inversion Hs as [|? ? Hc Hs']; subst. cbn [flat_map fst snd] in Hn. rewrite keys_app in Hn.
      pose proof Hn as Hn0. apply NoDup_app_inv in Hn. destruct Hn as (N1 & N2 & N3).
      destruct (law_take_multiple L c ks Hc) as (c1 & ks1 & o1 & E1 & _ & _ & _ & P & Hio & Hco & (rm & Pr & Hr)). rewrite E1 in E. cbn [bind] in E.
      destruct (bt_take_multiple C s ks1) as [[[s2 ks2] o2]|] eqn:E2; cbn [bind] in E; [|discriminate]. inversion E; subst.
      constructor; [apply (mi_tm H Hc E1)|]. specialize (IH _ _ _ _ Hs' N2 E2).
      eapply list_ext; [|exact IH]. intros k Hk. symmetry. eapply left_enough with (out := o1) (c := flat_map ct s); eauto.
      rewrite keys_app. apply NoDup_app_inv. repeat split; auto.
      * eapply nodup_keys_sub with (out := ct c1) (c := ct c); auto. rewrite Permutation_app_comm. auto.
      * intros x Hx Hx'. apply (N3 x); auto. rewrite <- (keys_perm P), keys_app. apply in_or_app; auto.
Qed.
Lemma batch_minus : Minus (BatchB C) (bt_inv I ct false) (flat_map ct) ML.
Proof.
  constructor.
  - apply list_ct.
  - apply list_ext.
  - apply list_trans.
  - apply list_none.
  - intros s k s' o [Hs Hn] E. eapply bt_take_minus; eauto.
  - intros s ks s' l o [Hs Hn] E. eapply bt_tm_minus; eauto.
Qed.

(** *** Associative *)
Variable hash : K -> N.
Lemma as_tm_minus idx ks : forall s kss i s' l o, length kss = length s -> Forall I s ->
  placed idx i (ckeys ct s) -> placed idx i kss -> (forall k, i <= idx k < i + length s -> (In k (concat kss) <-> In k ks)) ->
  as_tm_loop C s kss = Ok (s', l, o) -> ML (mem ks) s s'.
Proof.
  induction s as [|c s IH]; intros kss i s' l o Hl Hs Hp Hk Hin E; cbn [as_tm_loop] in E.
  - inversion E; subst. constructor.
  - destruct kss as [|b kss]; [discriminate|]. inversion Hs as [|? ? Hc Hs']; subst. destruct Hp as [Hp1 Hp2], Hk as [Hk1 Hk2].
    assert (Eb : forall k, In k (keys (ct c)) -> mem ks k = mem b k).
    { intros k Hkc. apply mem_same. rewrite <- Hin; [|rewrite (Hp1 k Hkc); cbn [length]; lia]. cbn. rewrite in_app_iff.
      split; auto. intros [G|G]; auto. pose proof (placed_range idx kss (S i) k Hk2 G) as G2. rewrite (Hp1 k Hkc) in G2. lia. }
    destruct (match b with [] => Ok (c, [], []) | _ :: _ => take_multiple C c b end) as [[[c1 k1] o1]|] eqn:E1; cbn [bind] in E; [|discriminate].
    destruct (as_tm_loop C s kss) as [[[s2 k2] o2]|] eqn:E2; cbn [bind] in E; [|discriminate]. inversion E; subst. constructor.
    + eapply (mi_ext H); [intros k Hkc; symmetry; apply Eb; exact Hkc|]. destruct b as [|b0 b].
      * inversion E1; subst. apply (mi_none H).
      * eapply (mi_tm H); eauto.
    + eapply IH; [..|exact E2]; eauto. intros k Hr. rewrite <- Hin by (cbn [length]; lia). cbn. rewrite in_app_iff. split; auto.
      intros [G|G]; auto. rewrite (Hk1 k G) in Hr. lia.
Qed.
Lemma associative_minus : Minus (AssociativeB hash C) (as_inv hash I ct false) (flat_map ct) ML.
Proof.
  constructor.
  - apply list_ct.
  - apply list_ext.
  - apply list_trans.
  - apply list_none.
  - intros s k s' o Hi E. cbn in E. unfold as_take in E. rewrite as_set_ok in E by apply Hi. cbn [bind] in E.
    destruct (as_split k Hi) as (a & c & b & Es & Ha & Hc & Na & Nb). rewrite <- Ha in E. subst s. rewrite nth_error_mid in E. cbn [unwrap bind] in E.
    destruct (take C c k) as [[c1 o1]|] eqn:E1; cbn [bind] in E; [|discriminate]. inversion E; subst. rewrite replace_nth_mid.
    apply Forall2_app; [|constructor].
    + apply list_absent. intros x Hx. apply eqb_neq. intros ->; auto.
    + eapply (mi_take H); eauto.
    + apply list_absent. intros x Hx. apply eqb_neq. intros ->; auto.
  - intros s ks s' l o Hi E. pose proof Hi as (H1 & H2 & H3 & _). cbn in E. unfold as_take_multiple in E.
    destruct (distribute_spec hash (fun k : K => k) s H1 ks (repeat [] (length s))) as (kss & D1 & D2 & D3 & D4).
    { apply repeat_length. }
    { rewrite map_repeat. apply placed_repeat. }
    rewrite D1 in E. cbn [bind] in E. destruct (as_tm_loop C s kss) as [[[s2 k2] o2]|] eqn:E2; cbn [bind] in E; [|discriminate]. inversion E; subst.
    rewrite concat_repeat_nil in D4. cbn in D4.
    eapply as_tm_minus; [exact D2|exact H2|exact H3| |intros k _; rewrite D4; tauto|exact E2].
    replace kss with (map (map (fun k : K => k)) kss); auto. clear. induction kss; cbn; auto. rewrite map_id. congruence.
Qed.
End Batch.

(** *** Exclusive *)
Section Excl.
Context {V : Type}.
Variables (bs : BSearch K) (A B : Block K V) (IA : St A -> Prop) (IB : St B -> Prop) (cA : St A -> list (K * V)) (cB : St B -> list (K * V)).
Variables pA eA pB eB : bool.
Hypothesis LA : Laws A IA cA false pA eA.
Hypothesis LB : Laws B IB cB false pB eB.
Variables (MA : (K -> bool) -> St A -> St A -> Prop) (MB : (K -> bool) -> St B -> St B -> Prop).
Hypothesis HA : Minus A IA cA MA.
Hypothesis HB : Minus B IB cB MB.
Lemma exclusive_minus : Minus (ExclusiveB bs A B) (@ex_inv K V A B IA IB cA cB false) (@ex_ct K V A B cA cB)
  (fun P s s' => MA P (fst s) (fst s') /\ MB P (snd s) (snd s')).
Proof.
  constructor; unfold ex_ct.
  - intros P s s' [H1 H2]. rewrite without_app. apply Permutation_app; [apply (mi_ct HA H1)|apply (mi_ct HB H2)].
  - intros P Q s s' E [H1 H2]. split; [eapply (mi_ext HA); [|exact H1]|eapply (mi_ext HB); [|exact H2]]; intros k Hk; apply E;
      rewrite keys_app; apply in_or_app; auto.
  - intros P Q s s' s'' [H1 H2] [H3 H4]. split; [apply (mi_trans HA H1 H3)|apply (mi_trans HB H2 H4)].
  - intros s. split; [apply (mi_none HA)|apply (mi_none HB)].
  - intros [f b] k s' o (H1 & H2 & Hn) E. specialize (Hn eq_refl). cbn in *. unfold ex_take in E. cbn [fst snd] in E.
    destruct (law_take LA f k H1) as (f1 & o1 & E1 & _ & _ & _ & Ho). rewrite E1 in E. cbn [bind] in E.
    pose proof (mi_take HA H1 E1) as T. destruct o1 as [[k' v]|].
    + inversion E; subst. cbn. split; auto. eapply (mi_ext HB); [|apply (mi_none HB)]. intros x Hx. symmetry. apply eqb_neq. intros ->.
      unfold ex_ct in Hn. cbn [flat_map fst snd] in Hn. rewrite keys_app in Hn. apply NoDup_app_inv in Hn. destruct Hn as (_ & _ & Hn). apply (Hn k); auto.
      destruct Ho as [-> P]. rewrite <- (keys_perm P). left; auto.
    + destruct (take B b k) as [[b1 o2]|] eqn:E2; cbn [bind] in E; [|discriminate]. inversion E; subst. cbn. split; auto. eapply (mi_take HB); eauto.
  - intros [f b] ks s' l o (H1 & H2 & Hn) E. specialize (Hn eq_refl). cbn in *. unfold ex_take_multiple in E. cbn [fst snd] in E.
    set (ks0 := sort_keys ks) in *. assert (P0 : Permutation ks0 ks) by apply stable_sort_perm.
    destruct (law_take_multiple LA f ks0 H1) as (f1 & ks1 & o1 & E1 & _ & _ & _ & P & Hio & Hco & (rm & Pr & Hr)). rewrite E1 in E. cbn [bind] in E.
    destruct (remove_found_spec bs o1 ks1) as (r2 & F1 & F2). set (ks2 := remove_found bs ks1 o1) in *.
    destruct (take_multiple B b ks2) as [[[b1 ks3] o2]|] eqn:E2; cbn [bind] in E; [|discriminate]. inversion E; subst. cbn [fst snd].
    unfold ex_ct in Hn. cbn in Hn.
    assert (E0 : forall k, mem ks0 k = mem ks k) by (intros k; apply mem_same; rewrite P0; tauto).
    split.
    + eapply (mi_ext HA); [|apply (mi_tm HA H1 E1)]. auto.
    + eapply (mi_ext HB); [|apply (mi_tm HB H2 E2)]. intros k Hk. rewrite <- E0. symmetry.
      eapply left_enough with (out := o1) (c := cB b) (removed := rm ++ r2); auto.
      * rewrite Pr, F1. rewrite app_assoc. auto.
      * intros x Hx. apply in_app_or in Hx. destruct Hx; auto.
      * assert (Q : Permutation (cA f ++ cB b) (cA f1 ++ (o1 ++ cB b))) by (rewrite <- P, (Permutation_app_comm o1), <- app_assoc; auto).
        eapply nodup_keys_perm in Hn; [|exact Q]. rewrite keys_app in Hn. apply NoDup_app_inv in Hn. tauto.
Qed.
End Excl.

(** *** Disjoint union *)
Section Sums.
Context {V : Type}.
Variables (C : nat -> Block K V) (J : St (SumB C) -> Prop) (I : forall i, St (C i) -> Prop) (ct : forall i, St (C i) -> list (K * V)).
Variable M : forall i, (K -> bool) -> St (C i) -> St (C i) -> Prop.
Hypothesis H : forall i, Minus (C i) (@I i) (@ct i) (@M i).
Hypothesis HJ : forall i s, J (existT _ i s) -> I i s.
Definition sum_minus (P : K -> bool) (x x' : St (SumB C)) : Prop :=
  exists i s s', x = existT _ i s /\ x' = existT _ i s' /\ M i P s s'.
Lemma sum_minus_ok : Minus (SumB C) J (fun c => ct (projT1 c) (projT2 c)) sum_minus.
Proof.
  constructor.
  - intros P x x' (i & s & s' & -> & -> & G). cbn. apply (mi_ct (H i) G).
  - intros P Q x x' E (i & s & s' & -> & -> & G). exists i, s, s'. repeat split; auto. eapply (mi_ext (H i)); eauto.
  - intros P Q x x' x'' (i & s & s' & -> & -> & G) (i' & t & t' & E & -> & G').
    assert (Ei := f_equal (@projT1 _ _) E). cbn in Ei. subst i'.
    apply (Eqdep_dec.inj_pair2_eq_dec _ Nat.eq_dec) in E. subst t. exists i, s, t'. repeat split; auto. apply (mi_trans (H i) G G').
  - intros [i s]. exists i, s, s. repeat split. apply (mi_none (H i)).
  - intros [i s] k x' o Hi E. cbn in E. destruct (take (C i) s k) as [[s1 o1]|] eqn:E1; cbn in E; [|discriminate]. inversion E; subst.
    exists i, s, s1. repeat split; auto. eapply (mi_take (H i)); eauto.
  - intros [i s] ks x' l o Hi E. cbn in E. destruct (take_multiple (C i) s ks) as [[[s1 l1] o1]|] eqn:E1; cbn in E; [|discriminate]. inversion E; subst.
    exists i, s, s1. repeat split; auto. eapply (mi_tm (H i)); eauto.
Qed.
End Sums.

(** *** Every architecture *)
Fixpoint minus {V : Type} (a : arch K V) : (K -> bool) -> St (block a) -> St (block a) -> Prop :=
  match a in arch _ V return (K -> bool) -> St (block a) -> St (block a) -> Prop with
  | AArray srt bs _ _ => leaf_minus (ArrayB srt bs) (@a_vals K _)
  | ABTree _ _ _ => leaf_minus BTreeB (fun s => map (fun e => (fst e, fst (snd e))) (b_map s))
  | ABatch _ f => fun P => Forall2 (@sum_minus _ (fun i => block (f i)) (fun i => minus (f i)) P)
  | AExclusive _ l r => fun P s s' => minus l P (fst s) (fst s') /\ minus r P (snd s) (snd s')
  | AFlushStopper a => minus a
  | ASequential a => minus a
  | ADyn a => minus a
  | AProfiler a => fun P s s' => minus a P (snd s) (snd s')
  | ADecorator _ _ a => fun P s s' => fst s' = fst s /\ minus a P (snd s) (snd s')
  | AAssociative _ _ f => fun P => Forall2 (@sum_minus _ (fun i => block (f i)) (fun i => minus (f i)) P)
  | ACompressed L C srt bs _ => leaf_minus (Compressed.CompressedB Stream.VecStream L C srt bs)
      (fun s => match Compressed.c_read L C s with Some l => l | None => [] end)
  | ARemote a => minus a
  end.
Lemma laws_of {V} (a : arch K V) : Laws (block a) (ainv false a) (held a) false (negb (has_associative a)) (negb (has_stopper a)).
Proof. apply arch_laws. discriminate. Qed.
Lemma family_of {V} n (f : nat -> arch K V) :
  Laws (SumB (fun i => block (f i))) (fun c => (if projT1 c <? n then ainv false (f (projT1 c)) else fun _ => False) (projT2 c))
       (fun c => held (f (projT1 c)) (projT2 c)) false false false.
Proof. apply family_laws. intros i Hi. eapply laws_flags; [apply laws_of|discriminate|discriminate]. Qed.
Theorem minus_ok : forall V (a : arch K V), Minus (block a) (ainv false a) (held a) (minus a).
Proof.
  induction a as [V OV srt bs cap esz|V OV cap esz|V n f IH|V bs l IHl r IHr|V a IH|V a IH|V a IH|V a IH|V D F f0 a IH|V hash n f IH|V OV L C srt bs cap|V a IH].
  - exact (leaf_minus_ok (laws_of (AArray srt bs cap esz))).
  - exact (leaf_minus_ok (laws_of (ABTree OV cap esz))).
  - cbn [block ainv held minus]. eapply batch_minus; [apply family_of|].
    apply (@sum_minus_ok V (fun i => block (f i)) _ (fun i => ainv false (f i)) (fun i => held (f i)) (fun i => minus (f i)) IH).
    intros i s. cbn [projT1 projT2]. destruct (i <? n); tauto.
  - cbn [block ainv held minus].
    assert (Hl : Minus (block l) (fun s => ainv false l s /\ capacity (block l) s = capacity (block l) (init l)) (held l) (minus l)).
    { destruct IHl as [H1 H2 H3 H4 H5 H6]. constructor; auto.
      - intros s k s' o [Hi _]. apply H5; auto.
      - intros s ks s' l0 o [Hi _]. apply H6; auto. }
    exact (exclusive_minus bs (laws_cap (capacity (block l) (init l)) (laws_of l)) Hl IHr).
  - destruct IH as [H1 H2 H3 H4 H5 H6]. constructor; auto.
  - destruct IH as [H1 H2 H3 H4 H5 H6]. constructor; auto.
  - pose proof (default_minus (laws_of a) IH) as D. destruct IH as [H1 H2 H3 H4 H5 H6]. constructor; auto.
    intros s ks s' l o Hi E. eapply D; eauto.
  - destruct IH as [H1 H2 H3 H4 H5 H6]. cbn [block ainv held minus]. constructor.
    + intros P s s'. apply H1.
    + intros P Q s s'. apply H2.
    + intros P Q s s' s''. apply H3.
    + intros s. apply H4.
    + intros s k s' o Hi E. cbn in E. unfold pf_take in E. destruct (take (block a) (snd s) k) as [[s1 o1]|] eqn:E1; cbn in E; [|discriminate].
      inversion E; subst. cbn. eapply H5; eauto.
    + intros s ks s' l o Hi E. cbn in E. unfold pf_take_multiple in E. destruct (take_multiple (block a) (snd s) ks) as [[[s1 l1] o1]|] eqn:E1; cbn in E; [|discriminate].
      destruct (sub_chk _ _); cbn in E; [|discriminate]. inversion E; subst. cbn. eapply H6; eauto.
  - destruct IH as [H1 H2 H3 H4 H5 H6]. cbn [block ainv held minus].
    assert (KW : forall P (l : list (K * D)), map (unwrap_kv F) (without P l) = without P (map (unwrap_kv F) l)).
    { intros P l. unfold without. induction l as [|[k d] l IHl]; cbn; auto. destruct (P k); cbn; auto. rewrite IHl; auto. }
    assert (KK : forall l : list (K * D), keys (map (unwrap_kv F) l) = keys l).
    { intros l. unfold keys. rewrite map_map. auto. }
    constructor.
    + intros P s s' [_ G]. rewrite <- KW. apply Permutation_map. apply H1. auto.
    + intros P Q s s' E [G1 G2]. split; auto. eapply H2; [|exact G2]. intros k Hk. apply E. rewrite KK. auto.
    + intros P Q s s' s'' [G1 G2] [G3 G4]. split; [congruence|]. eapply H3; eauto.
    + intros s. split; auto.
    + intros s k s' o Hi E. cbn in E. destruct (take (block a) (snd s) k) as [[s1 o1]|] eqn:E1; cbn in E; [|discriminate].
      inversion E; subst. cbn. split; auto. eapply H5; eauto.
    + intros s ks s' l o Hi E. cbn in E. destruct (take_multiple (block a) (snd s) ks) as [[[s1 l1] o1]|] eqn:E1; cbn in E; [|discriminate].
      inversion E; subst. cbn. split; auto. eapply H6; eauto.
  - cbn [block ainv held minus]. apply associative_minus.
    apply (@sum_minus_ok V (fun i => block (f i)) _ (fun i => ainv false (f i)) (fun i => held (f i)) (fun i => minus (f i)) IH).
    intros i s. cbn [projT1 projT2]. destruct (i <? S n); tauto.
  - exact (leaf_minus_ok (laws_of (ACompressed L C srt bs cap))).
  - destruct IH as [H1 H2 H3 H4 H5 H6]. constructor; auto.
    intros s ks s' l o Hi E. cbn in E. destruct (take_multiple (block a) s ks) as [[[s1 l1] o1]|] eqn:E1; cbn in E; [|discriminate].
    inversion E; subst. eapply H6; eauto.
Qed.
End Minus.
Arguments mi_ct {K OK V B I ct M} _ {P s s'} _.
Arguments mi_ext {K OK V B I ct M} _ {P Q s s'} _ _.
Arguments mi_trans {K OK V B I ct M} _ {P Q s s' s''} _ _.
Arguments mi_none {K OK V B I ct M} _ s.
Arguments mi_take {K OK V B I ct M} _ {s k s' o} _ _.
Arguments mi_tm {K OK V B I ct M} _ {s ks s' l o} _ _.
