(** LawsProof.v -- consequences of the contract: weakening, histories, the provided take_multiple. *)
From Verif Require Import Base PermSolve Block Spec.
Set Implicit Arguments.

Lemma nodup_keys_sub {K V} (out c c' : list (K * V)) :
  Permutation (out ++ c') c -> NoDup (keys c) -> NoDup (keys c').
Proof.
  intros P H. apply keys_perm in P. rewrite keys_app in P.
  apply (Permutation_NoDup (Permutation_sym P)) in H. apply NoDup_app_inv in H. tauto.
Qed.
Lemma nodup_keys_perm {K V} (c c' : list (K * V)) :
  Permutation c c' -> NoDup (keys c) -> NoDup (keys c').
Proof. intros P H. eapply Permutation_NoDup; [apply keys_perm; eauto | auto]. Qed.
Lemma in_keys_perm {K V} (c c' : list (K * V)) k :
  Permutation c c' -> In k (keys c) -> In k (keys c').
Proof. intros P H. rewrite <- (keys_perm P). auto. Qed.
Lemma has_key_perm {K V} {OK : Ord K} {EK : OrdEq K} (c c' : list (K * V)) k :
  Permutation c c' -> has_key k c = has_key k c'.
Proof.
  intros P. destruct (has_key k c') eqn:E.
  - apply has_key_in. apply has_key_in in E. eapply in_keys_perm; [symmetry|]; eauto.
  - apply has_key_not_in. apply has_key_not_in in E. intros H; apply E. eapply in_keys_perm; eauto.
Qed.
Lemma has_key_app {K V} {OK : Ord K} (c c' : list (K * V)) k :
  has_key k (c ++ c') = has_key k c || has_key k c'.
Proof. apply existsb_app. Qed.

Section Weaken.
Context {K V : Type} {OK : Ord K}.
Variable B : Block K V.
Variable Inv : St B -> Prop.
Variable ct : St B -> list (K * V).

(** A container that needs no discipline also works under the discipline, where keys stay unique. *)
Definition inv_u (dup : bool) (s : St B) : Prop := Inv s /\ (dup = false -> NoDup (keys (ct s))).

Lemma laws_weaken d d' p p' e e' :
  Laws B Inv ct d p e ->
  (d = false -> d' = false) -> (p' = true -> p = true) -> (e' = true -> e = true) ->
  Laws B (inv_u d') ct d' p' e'.
Proof.
  intros L Hd Hp He. constructor.
  - intros s [H _]. apply (law_size L); auto.
  - intros s [H _]. apply (law_empty L); auto.
  - intros s [_ H]; auto.
  - intros s k [H _]. apply (law_contains L); auto.
  - intros s k [H Hu]. destruct (law_take L s k H) as (s' & o & H1 & H2 & H3 & H4 & H5).
    exists s', o. repeat split; auto. intros E. specialize (Hu E).
    destruct o as [[k' v]|].
    + destruct H5 as [_ P]. apply (nodup_keys_sub [(k, v)] _ P); auto.
    + destruct H5 as [_ P]. eapply nodup_keys_perm; [symmetry; eauto|auto].
  - intros s ks [H Hu]. destruct (law_take_multiple L s ks H) as (s' & ks' & out & H1 & H2 & H3 & H4 & H5 & H6).
    exists s', ks', out. repeat split; auto; try tauto. intros E. eapply nodup_keys_sub; eauto.
  - intros s vs [H Hu] Hm. destruct (law_push L s vs H) as (s' & out & H1 & H2 & H3 & H4).
    { intros E. apply Hm; auto. }
    exists s', out. repeat split; auto. intros E. eapply nodup_keys_sub; [exact H4|]. apply Hm; auto.
  - intros E s n [H Hu]. destruct (law_pop L (Hp E) s n H) as (s' & out & H1 & H2 & H3 & H4 & H5).
    exists s', out. repeat split; auto; try tauto. intros E'. eapply nodup_keys_sub; eauto.
  - intros s [H Hu]. destruct (law_flush L s H) as (s' & out & H1 & H2 & H3 & H4 & H5).
    exists s', out. repeat split; auto. intros E'. eapply nodup_keys_sub; eauto.
Qed.

(** A property preserved by every step can be added to the invariant. *)
Lemma laws_and d p e (P : St B -> Prop) :
  Laws B Inv ct d p e ->
  (forall s o s' r, Inv s -> step B s o = Ok (s', r) -> capacity B s' = capacity B s -> P s -> P s') ->
  Laws B (fun s => Inv s /\ P s) ct d p e.
Proof.
  intros L HP. constructor.
  - intros s [H _]. apply (law_size L); auto.
  - intros s [H _]. apply (law_empty L); auto.
  - intros s [H _]. apply (law_unique L); auto.
  - intros s k [H _]. apply (law_contains L); auto.
  - intros s k [H Hp]. destruct (law_take L s k H) as (s' & o & H1 & H2 & H3 & H4 & H5).
    exists s', o. repeat split; auto. apply (HP s (OpTake k) s' (opt_list o)); auto. cbn. rewrite H1. reflexivity.
  - intros s ks [H Hp]. destruct (law_take_multiple L s ks H) as (s' & ks' & out & H1 & H2 & H3 & H4 & H5 & H6).
    exists s', ks', out. repeat split; auto; try tauto.
    apply (HP s (OpTakeMultiple ks) s' out); auto. cbn. rewrite H1. reflexivity.
  - intros s vs [H Hp] Hm. destruct (law_push L s vs H Hm) as (s' & out & H1 & H2 & H3 & H4).
    exists s', out. repeat split; auto. apply (HP s (OpPush vs) s' out); auto.
  - intros E s n [H Hp]. destruct (law_pop L E s n H) as (s' & out & H1 & H2 & H3 & H4 & H5).
    exists s', out. repeat split; auto; try tauto. apply (HP s (OpPop n) s' out); auto.
  - intros s [H Hp]. destruct (law_flush L s H) as (s' & out & H1 & H2 & H3 & H4 & H5).
    exists s', out. repeat split; auto. apply (HP s OpFlush s' out); auto.
Qed.
(** In particular a known capacity. *)
Lemma laws_cap d p e c : Laws B Inv ct d p e -> Laws B (fun s => Inv s /\ capacity B s = c) ct d p e.
Proof. intros L. apply laws_and; auto. intros s o s' r _ _ H <-; auto. Qed.

(** ** Histories *)
Lemma step_laws d p e s o : Laws B Inv ct d p e -> Inv s ->
  (match o with OpPush vs => may_push B ct d s vs | OpPop _ => p = true | _ => True end) ->
  exists s' r, step B s o = Ok (s', r) /\ Inv s' /\ capacity B s' = capacity B s /\
    Permutation (r ++ ct s') (ct s ++ given o).
Proof.
  intros L H Ho. destruct o as [vs|n|k|ks|]; cbn [step given].
  - destruct (law_push L s vs H Ho) as (s' & out & H1 & H2 & H3 & H4). exists s', out; auto.
  - destruct (law_pop L Ho s n H) as (s' & out & H1 & H2 & H3 & H4 & _). exists s', out. rewrite app_nil_r; auto.
  - destruct (law_take L s k H) as (s' & o & H1 & H2 & H3 & _ & H4). rewrite H1. cbn [bind].
    exists s', (opt_list o). repeat split; auto. rewrite app_nil_r.
    destruct o as [[k' v]|]; cbn [opt_list app]; destruct H4 as [E P]; auto. rewrite E; auto.
  - destruct (law_take_multiple L s ks H) as (s' & ks' & out & H1 & H2 & H3 & _ & H4 & _). rewrite H1. cbn [bind].
    exists s', out. rewrite app_nil_r; auto.
  - destruct (law_flush L s H) as (s' & out & H1 & H2 & H3 & H4 & _). exists s', out. rewrite app_nil_r; auto.
Qed.

Lemma run_laws d p e : Laws B Inv ct d p e -> forall h s, Inv s -> allowed B ct d p s h ->
  exists s' r, run B s h = Ok (s', r) /\ Inv s' /\ capacity B s' = capacity B s /\
    Permutation (r ++ ct s') (ct s ++ all_given h).
Proof.
  intros L. induction h as [|o h IH]; intros s H Ha.
  - exists s, []. repeat split; auto. cbn. rewrite app_nil_r; auto.
  - destruct Ha as [Ho Ha]. destruct (step_laws o L H Ho) as (s1 & r1 & H1 & H2 & H3 & H4).
    destruct (IH s1 H2 (Ha _ _ H1)) as (s2 & r2 & G1 & G2 & G3 & G4).
    cbn [run]. rewrite H1. cbn [bind]. rewrite G1. cbn [bind].
    exists s2, (r1 ++ r2). repeat split; auto; [congruence|].
    unfold all_given in *. cbn [flat_map]. perm2 H4 G4.
Qed.

(** Any history the caller may play is played in full without panic; at every point of it the size is
    within capacity. *)
Lemma run_app (s : St B) h1 h2 :
  run B s (h1 ++ h2) = let* (s1, r1) := run B s h1 in let* (s2, r2) := run B s1 h2 in Ok (s2, r1 ++ r2).
Proof.
  revert s; induction h1 as [|o h1 IH]; intros s.
  - cbn. destruct (run B s h2) as [[s2 r2]|]; auto.
  - cbn [app run]. destruct (step B s o) as [[s1 r1]|]; cbn [bind]; auto.
    rewrite IH. destruct (run B s1 h1) as [[s2 r2]|]; cbn [bind]; auto.
    destruct (run B s2 h2) as [[s3 r3]|]; cbn [bind]; auto. rewrite app_assoc; auto.
Qed.

Lemma allowed_app d p h1 h2 (s : St B) :
  allowed B ct d p s (h1 ++ h2) -> allowed B ct d p s h1.
Proof.
  revert s; induction h1 as [|o h1 IH]; intros s H; cbn in *; auto.
  destruct H as [H1 H2]. split; auto. intros s' r E. apply IH. eapply H2; eauto.
Qed.

(** With no discipline and pop allowed, every history is allowed. *)
Lemma allowed_all (s : St B) h : allowed B ct true true s h.
Proof.
  revert s; induction h as [|o h IH]; intros s; cbn; auto.
  split; [|intros; apply IH]. destruct o; auto. discriminate.
Qed.

End Weaken.

(** ** The provided take_multiple *)
Section DefaultTM.
Context {K V : Type} {OK : Ord K} {EK : OrdEq K}.
Variable B : Block K V.
Variable Inv : St B -> Prop.
Variable ct : St B -> list (K * V).
Hypothesis Htake : forall s k, Inv s -> take_ok B Inv ct s k.

Lemma take_each_ok : forall ks s, Inv s ->
  exists s' out, take_each (take B) s ks = Ok (s', out) /\ Inv s' /\
    capacity B s' = capacity B s /\ size B s' <= size B s /\
    Permutation (out ++ ct s') (ct s) /\ incl (keys out) ks /\
    (forall k, In k ks -> In k (keys (ct s)) -> In k (keys out)) /\
    length out <= length ks.
Proof.
  induction ks as [|k ks IH]; intros s H.
  - exists s, []. cbn. repeat split; auto. intros x [].
  - destruct (@Htake s k H) as (s1 & o & T1 & T2 & T3 & T4 & T5).
    destruct (IH s1 T2) as (s2 & out & H1 & H2 & H3 & H4 & H5 & H6 & H7 & H8).
    cbn [take_each]. rewrite T1. cbn [bind]. rewrite H1. cbn [bind].
    exists s2, (match o with Some kv => kv :: out | None => out end).
    split; [reflexivity|]. split; [auto|]. split; [congruence|]. split; [lia|].
    destruct o as [[k' v]|].
    + destruct T5 as [-> P]. split; [|split; [|split]].
      * perm2 P H5.
      * intros x [<-|Hx]; [left; auto | right; apply H6; auto].
      * cbn [keys map fst]. intros x Hx Hc.
        destruct (eq_dec_ord x k) as [->|Hne]; [left; auto|right].
        destruct Hx as [->|Hx]; [congruence|]. apply H7; auto.
        apply (in_keys_perm _ (Permutation_sym P)) in Hc. destruct Hc as [E|]; auto. cbn in E; congruence.
      * simpl. lia.
    + destruct T5 as [Hn P]. split; [|split; [|split]].
      * perm2 P H5.
      * intros x Hx; right; apply H6; auto.
      * intros x [->|Hx] Hc; [tauto|]. apply H7; auto.
        eapply in_keys_perm; [symmetry; exact P|auto].
      * simpl; lia.
Qed.

Lemma default_tm_ok s ks : Inv s ->
  exists s' out, default_take_multiple (take B) s ks = Ok (s', ks, out) /\ Inv s' /\
    capacity B s' = capacity B s /\ size B s' <= size B s /\
    Permutation (out ++ ct s') (ct s) /\ incl (keys out) ks /\
    (forall k, In k ks -> In k (keys (ct s)) -> In k (keys out)) /\
    length out <= length ks.
Proof.
  intros H. destruct (@take_each_ok ks s H) as (s' & out & E & R).
  unfold default_take_multiple. rewrite E. cbn [bind]. exists s', out. auto.
Qed.
End DefaultTM.
