(** PSpur.v -- property theorems: C28, C67 with spurious failures of the weak exchanges. *)
From Coq Require Import NArith.
From Verif Require Import Base Lock PLock Wait PWait Spur.
Set Implicit Arguments.
Local Open Scope N_scope.

(** The steps are those of Lock.v. *)
Theorem wstep_is_lstep : forall s s', (exists e, e <> Poison /\ lstep e s s') <-> exists i spur, wstep i spur s s'.
Proof.
  intros s s'. split.
  - intros (e & He & H). destruct H as [spur w w' l1 p p' l2 HA|]; [|congruence].
    exists (length l1), spur. constructor; auto.
  - intros (i & spur & H). destruct H as [w w' l1 p p' l2 Hl HA].
    exists (if spur then Spurious else Normal). split; [destruct spur; discriminate|]. constructor; auto.
Qed.
(** Without failures, the executions are those of Wait.v. *)
Theorem no_failure_is_executes : forall n x who b, weak_executes n x who (fun _ => false) b <-> executes n x who b.
Proof.
  intros n x who b. unfold weak_executes, executes.
  split; intros [H0 HS]; (split; [exact H0|]); intros k Hk; destruct (HS k Hk); constructor; auto.
Qed.

Lemma w_own i spur s s' : wstep i spur s s' ->
  exists p p', at_ s i = Some p /\ at_ s' i = Some p' /\ astep spur (word s) p (word s') p'.
Proof. intros [w w' l1 p p' l2 <- HA]. exists p, p'. rewrite !at_mid. auto. Qed.
Lemma w_other i spur s s' j : wstep i spur s s' -> j <> i -> at_ s' j = at_ s j.
Proof. intros [w w' l1 p p' l2 <- HA] H. symmetry. apply at_other; auto. Qed.
Lemma w_holders m i spur s s' : wstep i spur s s' -> exists c p p',
  at_ s i = Some p /\ at_ s' i = Some p' /\ holders m s = (nb (holdsb m p) + c)%nat /\ holders m s' = (nb (holdsb m p') + c)%nat.
Proof.
  intros [w w' l1 p p' l2 <- HA]. exists (length (filter (holdsb m) (l1 ++ l2))), p, p'.
  rewrite !at_mid. unfold holders; cbn [clients]. rewrite !count_split. auto.
Qed.

(** ** The invariant *)
Lemma astep_weak w p w' p' s x :
  astep true w p w' p' -> p <> Unl1 Ex -> N.of_nat s + N.of_nat x + 1 < EXCLUSIVE -> pc_ok p -> quiet_pc p ->
  let ex w p := (w = N.of_nat (nb (holdsb Sh p) + s) /\ nb (holdsb Ex p) + x = 0)%nat \/
            (w = EXCLUSIVE /\ nb (holdsb Sh p) + s = 0 /\ nb (holdsb Ex p) + x = 1)%nat in
  ex w p -> ex w' p' /\ quiet_pc p'.
Proof.
  intros HA Hne Hb Hp Hqp ex Hw. unfold ex in *; clear ex. remember true as spur eqn:Es.
  destruct HA as [w m blk|w m blk H|w m blk H1 H2|w m blk H1 H2|w m blk c H|w m blk c H|w m blk c H
    |w m|w m H|w m H|w m H|w m c H|w m c y H Hy|w m c H]; try discriminate Es.
  - destruct blk; (split; [exact Hw|exact I]).
  - destruct m; [|congruence]. cbn [holdsb nb Nat.add] in Hw. rewrite E_val in *. lia.
  - subst w. destruct m; [|destruct Hqp]. destruct (unlock_test_cases Sh c) as [[-> Hc]|[-> Hc]].
    + cbn in Hp. tauto.
    + split; [exact Hw|exact I].
Qed.
Definition fine (s : lsys) : Prop := sys_ok s /\ exact s /\ Forall quiet_pc (clients s).
Lemma fine_init n : N.of_nat n < EXCLUSIVE -> fine (linit n).
Proof. intros Hn. apply (quiet_exact Hn). constructor. Qed.
Lemma fine_step i spur s s' : wstep i spur s s' -> (spur = true -> ~ releasing s i) -> fine s -> fine s'.
Proof.
  intros HC Hsp (OK & EX & QP). split.
  { destruct (proj2 (wstep_is_lstep s s')) as (e & _ & HL); [eauto|]. eapply lstep_ok; eauto. }
  destruct HC as [w w' l1 p p' l2 <- HA]. unfold releasing in Hsp. rewrite at_mid in Hsp.
  destruct OK as [Hl [_ Hp]]. unfold exact, holders in *. cbn [word clients] in *.
  rewrite !count_split in EX. rewrite !count_split.
  pose proof (holders_sum (l1 ++ l2)) as HS. rewrite app_length in Hl, HS. cbn [length] in Hl.
  apply Forall_app in Hp. destruct Hp as [_ Hp2]. inversion Hp2; subst.
  apply Forall_app in QP. destruct QP as [Q1 Q2]. inversion Q2; subst.
  destruct spur.
  - edestruct astep_weak with (1:=HA) as [A1 A2]; [| |eassumption|eassumption|exact EX|]; [|lia|].
    + intros ->. apply Hsp; auto.
    + split; [exact A1|]. apply Forall_app; auto.
  - edestruct astep_exact with (1:=HA) as [A1 A2]; [|eassumption|eassumption|exact EX|]; [lia|].
    split; [exact A1|]. apply Forall_app; auto.
Qed.
Lemma fine_exec n x who sp b : N.of_nat n < EXCLUSIVE -> weak_executes n x who sp b ->
  (forall k, (k < b)%nat -> sp k = true -> ~ releasing (x k) (who k)) ->
  forall k, (k <= b)%nat -> fine (x k).
Proof.
  intros Hn [E0 ES] HN k. induction k as [|k IH]; intros Hk.
  - rewrite E0. apply fine_init; auto.
  - eapply fine_step; [apply ES; lia|apply HN; lia|apply IH; lia].
Qed.

(** C28, in every execution without panics, whatever exchanges fail spuriously except the first one of an
    exclusive unlock: the state of the lock is exactly the set of its holders. *)
Theorem C28_state_is_holders : forall n x who sp b,
  N.of_nat n < EXCLUSIVE -> weak_executes n x who sp b ->
  (forall k, (k < b)%nat -> sp k = true -> ~ releasing (x k) (who k)) ->
  forall k, (k <= b)%nat ->
  (word (x k) = N.of_nat (holders Sh (x k)) /\ holders Ex (x k) = 0%nat) \/
  (word (x k) = EXCLUSIVE /\ holders Sh (x k) = 0%nat /\ holders Ex (x k) = 1%nat).
Proof. intros n x who sp b Hn HE HN k Hk. apply (fine_exec Hn HE HN Hk). Qed.

Lemma weak_reach n x who sp b : weak_executes n x who sp b ->
  forall k, (k <= b)%nat -> lsteps (fun e => e <> Poison) (linit n) (x k).
Proof.
  intros [E0 ES] k. induction k as [|k IH]; intros Hk; [rewrite E0; constructor|].
  destruct (proj2 (wstep_is_lstep (x k) (x (S k)))) as (e & He & HL); [exists (who k), (sp k); apply ES; lia|].
  apply ls_step with e (x k); auto. apply IH; lia.
Qed.

(** C28.  And that one failure is for ever: in every execution in which it has happened once, whatever
    happened before and whatever happens afterwards, nobody holds the lock and nobody ever will. *)
Theorem C28_failed_release_is_for_ever : forall n x who sp b k,
  N.of_nat n < EXCLUSIVE -> weak_executes n x who sp b -> (k < b)%nat -> sp k = true -> releasing (x k) (who k) ->
  forall s, lsteps (fun _ => True) (x (S k)) s -> forall j m p, at_ s j = Some p -> ~ holds m p.
Proof.
  intros n x who sp b k Hn HE Hk Hsp HRel s HS j m p Hj Hh.
  assert (ST : stuck (x (S k))).
  { assert (OK : sys_ok (x k)).
    { apply (lsteps_ok (weak_reach HE (k := k) ltac:(lia)) (linit_ok n Hn)). }
    assert (OK' : sys_ok (x (S k))).
    { apply (lsteps_ok (weak_reach HE (k := S k) ltac:(lia)) (linit_ok n Hn)). }
    unfold stuck. cut ((word (x (S k)) = EXCLUSIVE) /\ holders Sh (x (S k)) = 0%nat /\ holders Ex (x (S k)) = 0%nat); [tauto|].
    pose proof (proj2 HE k Hk) as HC. rewrite Hsp in HC.
    destruct (w_own HC) as (p0 & p1 & A & A' & HA).
    unfold releasing in HRel. rewrite HRel in A. injection A as <-.
    destruct (w_holders Sh HC) as (c1 & q1 & q1' & P1 & P2 & P3 & P4).
    destruct (w_holders Ex HC) as (c2 & q2 & q2' & Q1 & Q2 & Q3 & Q4).
    rewrite HRel in P1, Q1. injection P1 as <-. injection Q1 as <-.
    rewrite A' in P2, Q2. injection P2 as <-. injection Q2 as <-.
    inversion HA as [| | | | | | | | | |? ? H1 E1 E2 E3 E4| | |]; subst.
    assert (I : unlock_test Ex (word (x k)) = Idle) by (rewrite H1; reflexivity).
    destruct OK as [Hl [Hw _]]. cbn [holdsb nb Nat.add] in P3, Q3. rewrite P3, Q3 in Hw.
    rewrite P4, Q4, I. cbn [holdsb nb Nat.add].
    unfold word_ok in Hw. split; [congruence|]. lia. }
  pose proof (stuck_steps HS ST) as (_ & S1 & S2 & _).
  pose proof (nth_split_holder _ _ Hj Hh) as C. unfold holders in *. destruct m; lia.
Qed.

(** C28.  So, in an execution without panics: the state matches the holders at every moment if and only
    if no first exchange of an exclusive unlock failed spuriously. *)
Theorem C28_exactly_when : forall n x who sp b,
  N.of_nat n < EXCLUSIVE -> weak_executes n x who sp b ->
  ((forall k, (k <= b)%nat ->
     (word (x k) = N.of_nat (holders Sh (x k)) /\ holders Ex (x k) = 0%nat) \/
     (word (x k) = EXCLUSIVE /\ holders Sh (x k) = 0%nat /\ holders Ex (x k) = 1%nat)) <->
   (forall k, (k < b)%nat -> sp k = true -> ~ releasing (x k) (who k))).
Proof.
  intros n x who sp b Hn HE. split.
  - intros HX k Hk Hsp HRel.
    pose proof (C28_failed_release_is_for_ever Hn HE Hk Hsp HRel (ls_refl _ _)) as NH.
    assert (Z : forall m, holders m (x (S k)) = 0%nat).
    { intros m. apply none_holds. intros j (p & Hp & Hh). apply (NH j m p Hp Hh). }
    pose proof (proj2 HE k Hk) as HC. rewrite Hsp in HC. destruct (w_own HC) as (p0 & p1 & A & A' & HA).
    unfold releasing in HRel. rewrite HRel in A. injection A as <-.
    inversion HA as [| | | | | | | | | |? ? H1 E1 E2 E3 E4| | |]; subst.
    destruct (HX (S k) ltac:(lia)) as [[W _]|(_ & _ & W)]; rewrite Z in W; [|discriminate].
    assert (WE : word (x (S k)) = EXCLUSIVE) by congruence. rewrite WE in W. discriminate.
  - intros HN. apply (C28_state_is_holders Hn HE HN).
Qed.

(** ** C67 *)
Lemma fine_word s : fine s -> word s <= EXCLUSIVE /\ N.land (word s) POISONED = 0 /\
  (holders Ex s = 0%nat -> N.land (word s) EXCLUSIVE = 0 /\ word s = N.of_nat (holders Sh s)).
Proof.
  intros ([Hl _] & EX & _).
  assert (B : N.of_nat (holders Sh s) < EXCLUSIVE) by (unfold holders; pose proof (count_le Sh (clients s)); lia).
  assert (W : word s <= EXCLUSIVE) by (destruct EX as [[-> _]|[-> _]]; lia).
  assert (W2 : word s < POISONED) by (rewrite P_val, E_val in *; lia).
  split; auto. split.
  - apply not_poisoned; auto. change (2 ^ 64) with (2 * POISONED). rewrite P_val in *; lia.
  - intros H. destruct EX as [[E _]|(_ & _ & E)]; [|lia]. split; auto. apply not_exclusive; auto. lia.
Qed.
Lemma w_same_holders i spur s s' : wstep i spur s s' -> (forall m, has m s i <-> has m s' i) ->
  forall m, holders m s' = holders m s.
Proof.
  intros HC HH m. destruct (w_holders m HC) as (c & p & p' & A & A' & -> & ->). f_equal.
  specialize (HH m). unfold has in HH. rewrite A, A' in HH.
  destruct (holdsb m p) eqn:B; destruct (holdsb m p') eqn:B'; auto.
  - destruct HH as [HH _]. destruct HH as (q & [= <-] & HQ).
    + exists p. split; auto. apply holdsb_iff; auto.
    + apply holdsb_iff in HQ. congruence.
  - destruct HH as [_ HH]. destruct HH as (q & [= <-] & HQ).
    + exists p'. split; auto. apply holdsb_iff; auto.
    + apply holdsb_iff in HQ. congruence.
Qed.
Lemma fine_same_word s s' : fine s -> fine s' -> (forall m, holders m s' = holders m s) -> word s' = word s.
Proof.
  intros (_ & EX & _) (_ & EX' & _) E. unfold exact in *. rewrite !E in EX'.
  destruct EX as [[-> C]|(-> & _ & C)], EX' as [[-> D]|(-> & _ & D)]; auto; lia.
Qed.
Lemma w_still x who sp b a k i : (forall k, (k < b)%nat -> wstep (who k) (sp k) (x k) (x (S k))) ->
  (forall k, (k <= b)%nat -> fine (x k)) -> (a <= k)%nat -> (k < b)%nat ->
  still who x i a b -> who k <> i -> word (x (S k)) = word (x k) /\ (forall m, holders m (x (S k)) = holders m (x k)).
Proof.
  intros ES HF Ha Hk HS Hw. pose proof (ES k Hk) as HC.
  assert (E : forall m, holders m (x (S k)) = holders m (x k)).
  { apply (w_same_holders HC). intros m. destruct (HS k (who k) m) as [S1 S2]; [lia|auto|].
    unfold acquires, gives_back in *. destruct (has_dec m (x k) (who k)), (has_dec m (x (S k)) (who k)); tauto. }
  split; auto. apply fine_same_word; auto; apply HF; lia.
Qed.

Lemma failures_S who sp i a b : (a <= b)%nat ->
  failures who sp i a (S b) = (failures who sp i a b + (if Nat.eqb (who b) i && sp b then 1 else 0))%nat.
Proof.
  intros H. unfold failures. replace (S b - a)%nat with ((b - a) + 1)%nat by lia.
  rewrite seq_app, filter_app, app_length. cbn [seq filter]. replace (a + (b - a))%nat with b by lia.
  destruct (Nat.eqb (who b) i && sp b); reflexivity.
Qed.
Lemma failures_refl who sp i a : failures who sp i a a = 0%nat.
Proof. unfold failures. rewrite Nat.sub_diag. reflexivity. Qed.
Lemma all_failures_S sp a b : (a <= b)%nat ->
  all_failures sp a (S b) = (all_failures sp a b + (if sp b then 1 else 0))%nat.
Proof.
  intros H. unfold all_failures. replace (S b - a)%nat with ((b - a) + 1)%nat by lia.
  rewrite seq_app, filter_app, app_length. cbn [seq filter]. replace (a + (b - a))%nat with b by lia.
  destruct (sp b); reflexivity.
Qed.

(** C67.  With spurious failures: a client waiting in [lock()] or [lock_mut()] while the lock is available
    to it has it by its third turn, two turns later for each of its own exchanges that failed spuriously,
    unless another client acquires it or gives it back in between. *)
Theorem C67_weak_wait_ends : forall n x who sp a b i m,
  N.of_nat n < EXCLUSIVE -> weak_executes n x who sp b ->
  (forall k, (k < b)%nat -> sp k = true -> ~ releasing (x k) (who k)) -> (a <= b)%nat ->
  waits m (x a) i -> available m (x a) ->
  (forall k j m', (a <= k < b)%nat -> who k <> i ->
     ~ acquires m' (x k) (x (S k)) j /\ ~ gives_back m' (x k) (x (S k)) j) ->
  (3 + 2 * failures who sp i a b <= turns who i a b)%nat ->
  exists k, (a < k <= b)%nat /\ at_ (x k) i = Some (Hold m).
Proof.
  intros n x who sp a b i m Hn HE HN Hab HW HA HS HT. fold (still who x i a b) in HS.
  pose proof (fine_exec Hn HE HN) as HF. pose proof (proj2 HE) as ES.
  assert (G : forall d, (a + d <= b)%nat ->
    (exists k, (a < k <= a + d)%nat /\ at_ (x k) i = Some (Hold m)) \/
    exists p, waits m (x (a + d)%nat) i /\ at_ (x (a + d)%nat) i = Some p /\ available m (x (a + d)%nat) /\
      (turns who i a (a + d) + to_go m (word (x (a + d)%nat)) p <= 3 + 2 * failures who sp i a (a + d))%nat).
  { induction d as [|d IH]; intros Hd.
    - right. rewrite Nat.add_0_r. destruct HW as [W|[c W]]; eexists; (split; [red; eauto|split; [exact W|split; [exact HA|]]]); rewrite turns_refl; cbn [to_go].
      + lia.
      + destruct (word (x a) =? cas_expect m c); lia.
    - destruct IH as [(k & Hk & Hh)|(p & Wp & Ap & Av & Ht)]; [lia| |].
      + left. exists k. split; [lia|auto].
      + rewrite Nat.add_succ_r. set (k := (a + d)%nat) in *. rewrite turns_S, failures_S by (unfold k; lia).
        pose proof (ES k ltac:(unfold k; lia)) as HC.
        destruct (fine_word (HF k ltac:(unfold k; lia))) as (B1 & B2 & B3).
        pose proof (proj1 (available_iff m (x k)) Av) as [Av1 Av2]. destruct (B3 Av1) as [B4 B5].
        destruct (Nat.eqb (who k) i) eqn:Ew.
        * apply Nat.eqb_eq in Ew. rewrite Ew in HC. destruct (w_own HC) as (q & q' & Aq & Aq' & HX).
          rewrite Ap in Aq. injection Aq as <-.
          assert (Keep : holdsb Ex q' = false -> holdsb Sh q' = false ->
             holdsb Ex p = false -> holdsb Sh p = false -> available m (x (S k))).
          { intros H1 H2 H3 H4. apply available_iff.
            destruct (w_holders Ex HC) as (c1 & p1 & p1' & P1 & P2 & P3 & P4).
            rewrite Ap in P1; injection P1 as <-. rewrite Aq' in P2; injection P2 as <-. rewrite P3, H3 in Av1. rewrite P4, H1.
            split; auto. intros E. specialize (Av2 E).
            destruct (w_holders Sh HC) as (c2 & p2 & p2' & Q1 & Q2 & Q3 & Q4).
            rewrite Ap in Q1; injection Q1 as <-. rewrite Aq' in Q2; injection Q2 as <-.
            rewrite Q3, H4 in Av2. rewrite Q4, H2. auto. }
          destruct Wp as [W|[c W]]; rewrite Ap in W; injection W as ->.
          -- inversion HX as [|? ? ? H1 E1 E2 E3 E4|? ? ? H1 H2 E1 E2 E3 E4|? ? ? H1 H2 E1 E2 E3 E4| | | | | | | | | |]; subst; try congruence.
             right. eexists. split; [right; eauto|]. split; [eauto|]. split; [eapply Keep; eauto|].
             cbn [to_go] in Ht |- *.
             assert (EE : (word (x k) =? cas_expect m (word (x k))) = true).
             { apply N.eqb_eq. destruct m; cbn [cas_expect]; auto. rewrite B5, Av2; auto. }
             rewrite EE. lia.
          -- inversion HX as [| | | |? ? ? ? H1 E1 E2 E3 E4|? ? ? ? H1 E1 E2 E3 E4|? ? ? ? H1 E1 E2 E3 E4| | | | | | |]; subst.
             ++ left. exists (S k). split; [unfold k; lia|]. congruence.
             ++ right. cbn [would_block] in *. eexists. split; [left; eauto|]. split; [eauto|]. split; [eapply Keep; eauto|].
                cbn [to_go] in *. apply N.eqb_neq in H1. rewrite H1 in Ht. lia.
             ++ right. cbn [would_block] in *. eexists. split; [left; eauto|]. split; [eauto|]. split; [eapply Keep; eauto|].
                cbn [to_go andb] in *. apply N.eqb_eq in H1. rewrite H1 in Ht. lia.
        * apply Nat.eqb_neq in Ew. right.
          destruct (@w_still x who sp b a k i ES HF ltac:(unfold k; lia) ltac:(unfold k; lia) HS Ew) as [Ewd Eh].
          exists p. unfold waits. rewrite (w_other HC) by auto. split; [exact Wp|]. split; [exact Ap|].
          split; [apply available_iff; rewrite !Eh; auto|]. rewrite Ewd. cbn [andb]. lia. }
  destruct (G (b - a)%nat) as [(k & Hk & Hh)|(p & Wp & Ap & Av & Ht)]; [lia| |].
  - exists k. split; [lia|auto].
  - replace (a + (b - a))%nat with b in Ht by lia. exfalso.
    assert (1 <= to_go m (word (x b)) p)%nat.
    { unfold to_go. destruct p; try lia. match goal with |- context [if ?c then _ else _] => destruct c end; lia. }
    lia.
Qed.

(** One turn of a holder either gives the lock back, or brings it one step nearer to that, or fails. *)
Lemma w_holder_turn s s' i spur p m : fine s -> wstep i spur s s' -> (spur = true -> ~ releasing s i) ->
  at_ s i = Some p -> holds m p ->
  at_ s' i = Some Idle \/
  exists p', at_ s' i = Some p' /\ holds m p' /\ word s' = word s /\
    (rel_left (word s') p' < rel_left (word s) p + (if spur then 1 else 0))%nat.
Proof.
  intros HF HC HN Hp Hh. destruct HF as (OK & EX & QP).
  destruct (w_own HC) as (q & q' & Aq & Aq' & HX). rewrite Hp in Aq. injection Aq as <-.
  assert (Q : quiet_pc p) by (rewrite Forall_forall in QP; apply QP; eapply nth_error_In; exact Hp).
  assert (PO : pc_ok p) by (destruct OK as (_ & _ & PK); rewrite Forall_forall in PK; apply PK; eapply nth_error_In; exact Hp).
  assert (C1 : (1 <= holders m s)%nat) by (unfold holders; eapply nth_split_holder; eauto).
  assert (B : N.of_nat (holders Sh s) < EXCLUSIVE).
  { unfold holders. pose proof (count_le Sh (clients s)). destruct OK. lia. }
  rewrite Aq'. destruct Hh as [->|[->|[c ->]]].
  - inversion HX; subst. right. eexists. split; [reflexivity|]. split; [red; auto|]. split; [congruence|]. cbn. lia.
  - inversion HX as [| | | | | | | |? ? H1 E1 E2 E3 E4|? ? H1 E1 E2 E3 E4|? ? H1 E1 E2 E3 E4| | |]; subst.
    + left. unfold unlock_test. rewrite N.eqb_refl, orb_true_r. reflexivity.
    + destruct (unlock_test_cases m (word s)) as [[-> Hc]|[E Hc]].
      * exfalso. destruct EX as [[W H]|(W & _)]; [|congruence]. destruct m; [|lia]. rewrite E_val in *. lia.
      * right. rewrite E. eexists. split; [reflexivity|]. split; [right; right; eauto|]. split; [congruence|].
        replace (word s') with (word s) by congruence. cbn. rewrite N.eqb_refl. lia.
    + exfalso. destruct m; [|apply HN; auto]. destruct EX as [[W H]|(W & H & _)]; [rewrite E_val in *|]; lia.
  - destruct m; [|destruct Q].
    inversion HX as [| | | | | | | | | | |? ? ? H1 E1 E2 E3 E4|? ? ? ? H1 E1 E2 E3 E4 E5|? ? ? H1 E1 E2 E3 E4]; subst.
    + left. reflexivity.
    + destruct (unlock_test_cases Sh (word s)) as [[-> Hc]|[E Hc]].
      * left. reflexivity.
      * right. rewrite E. eexists. split; [reflexivity|]. split; [right; right; eauto|]. split; [congruence|].
        replace (word s') with (word s) by congruence. cbn. rewrite N.eqb_refl. apply N.eqb_neq in H1. rewrite H1. lia.
    + destruct (unlock_test_cases Sh (word s)) as [[-> Hc]|[E Hc]].
      * left. reflexivity.
      * right. rewrite E. eexists. split; [reflexivity|]. split; [right; right; eauto|]. split; [congruence|].
        replace (word s') with (word s) by congruence. cbn [rel_left]. rewrite N.eqb_refl. lia.
Qed.

(** C67.  With spurious failures: a holder that goes on to give the lock back has done so by its third
    turn, one turn later for each of its exchanges that failed spuriously (the first exchange of an
    exclusive unlock must not), unless another client acquires it or gives it back in between. *)
Theorem C67_weak_unlock_ends : forall n x who sp a b i m,
  N.of_nat n < EXCLUSIVE -> weak_executes n x who sp b ->
  (forall k, (k < b)%nat -> sp k = true -> ~ releasing (x k) (who k)) -> (a <= b)%nat ->
  has m (x a) i ->
  (forall k j m', (a <= k < b)%nat -> who k <> i ->
     ~ acquires m' (x k) (x (S k)) j /\ ~ gives_back m' (x k) (x (S k)) j) ->
  (3 + failures who sp i a b <= turns who i a b)%nat ->
  exists k, (a < k <= b)%nat /\ at_ (x k) i = Some Idle.
Proof.
  intros n x who sp a b i m Hn HE HN Hab (p0 & Hp0 & Hh0) HS HT. fold (still who x i a b) in HS.
  pose proof (fine_exec Hn HE HN) as HF. pose proof (proj2 HE) as ES.
  assert (G : forall d, (a + d <= b)%nat ->
    (exists k, (a < k <= a + d)%nat /\ at_ (x k) i = Some Idle) \/
    exists p, at_ (x (a + d)%nat) i = Some p /\ holds m p /\
      (turns who i a (a + d) + rel_left (word (x (a + d)%nat)) p <= 3 + failures who sp i a (a + d))%nat).
  { induction d as [|d IH]; intros Hd.
    - right. rewrite Nat.add_0_r. exists p0. split; auto. split; auto. rewrite turns_refl.
      destruct Hh0 as [->|[->|[c ->]]]; cbn [rel_left]; try lia. destruct (word (x a) =? c); lia.
    - destruct IH as [(k & Hk & Hh)|(p & Ap & Hh & Ht)]; [lia| |].
      + left. exists k. split; [lia|auto].
      + rewrite Nat.add_succ_r. set (k := (a + d)%nat) in *. rewrite turns_S, failures_S by (unfold k; lia).
        pose proof (ES k ltac:(unfold k; lia)) as HC.
        destruct (Nat.eqb (who k) i) eqn:Ew.
        * apply Nat.eqb_eq in Ew. rewrite Ew in HC.
          destruct (@w_holder_turn _ _ _ _ p m (HF k ltac:(unfold k; lia)) HC) as [A|(p' & A & Hh' & _ & Hl)]; auto.
          { intros E. rewrite <- Ew. apply HN; auto. unfold k; lia. }
          -- left. exists (S k). split; [unfold k; lia|auto].
          -- right. exists p'. split; auto. split; auto. cbn [andb]. destruct (sp k); lia.
        * apply Nat.eqb_neq in Ew. right.
          destruct (@w_still x who sp b a k i ES HF ltac:(unfold k; lia) ltac:(unfold k; lia) HS Ew) as [Ewd _].
          exists p. rewrite (w_other HC) by auto. rewrite Ewd. cbn [andb]. split; auto. split; auto. lia. }
  destruct (G (b - a)%nat) as [(k & Hk & Hh)|(p & Ap & Hh & Ht)]; [lia| |].
  - exists k. split; [lia|auto].
  - replace (a + (b - a))%nat with b in * by lia. exfalso.
    destruct Hh as [->|[->|[c ->]]]; cbn [rel_left] in Ht; try lia. destruct (word (x b) =? c); lia.
Qed.

Lemma w_step_cases i spur s s' : fine s -> fine s' -> wstep i spur s s' ->
  (exists m, acquires m s s' i) \/ (total s' < total s)%nat \/ (word s' = word s /\ total s' = total s).
Proof.
  intros HF HF' HC.
  assert (C : forall m, acquires m s s' i \/ (holders m s' < holders m s)%nat \/ holders m s' = holders m s).
  { intros m. destruct (w_holders m HC) as (c & p & p' & A & A' & E1 & E2). unfold acquires, has.
    rewrite A, A', E1, E2. destruct (holdsb m p) eqn:B; destruct (holdsb m p') eqn:B'; cbn [nb].
    - right; right; reflexivity.
    - right; left. lia.
    - left. split; [|apply holdsb_iff in B'; eauto]. intros (q & [= <-] & H). apply holdsb_iff in H. congruence.
    - right; right; reflexivity. }
  destruct (C Sh) as [H|HS]; [eauto|]. destruct (C Ex) as [H|HX]; [eauto|]. right. unfold total.
  destruct HS as [HS|HS]; destruct HX as [HX|HX]; try (left; lia).
  right. split; [|lia]. apply fine_same_word; auto. intros []; auto.
Qed.
Lemma w_free_turn i spur s s' : fine s -> fine s' -> wstep i spur s s' -> total s = 0%nat ->
  (exists m, acquires m s s' i) \/
  (total s' = 0%nat /\ (free_sum s' < free_sum s + (if spur then 3 else 0))%nat).
Proof.
  intros HF HF' HC HT. destruct (w_step_cases HF HF' HC) as [H|[H|[Hw Ht]]]; [auto|lia|]. right. split; [lia|].
  destruct (fine_word HF) as (_ & B2 & B3). unfold total in HT. destruct (B3 ltac:(lia)) as [B4 B5].
  assert (W0 : word s = 0) by (rewrite B5; replace (holders Sh s) with 0%nat by lia; reflexivity).
  assert (Q : forall p, at_ s i = Some p -> holdsb Sh p = false /\ holdsb Ex p = false).
  { intros p Hp. split; [destruct (holdsb Sh p) eqn:B|destruct (holdsb Ex p) eqn:B]; auto; exfalso;
      apply holdsb_iff in B; pose proof (nth_split_holder _ _ Hp B); unfold holders in *; lia. }
  destruct HC as [w w' l1 p p' l2 <- HA]. specialize (Q p (at_mid _ _ _ _)). destruct Q as [Q1 Q2].
  cbn [word] in *. unfold free_sum; cbn [clients]. rewrite !map_app, !list_sum_app. cbn [map].
  change (list_sum (free_left p' :: map free_left l2)) with (free_left p' + list_sum (map free_left l2))%nat.
  change (list_sum (free_left p :: map free_left l2)) with (free_left p + list_sum (map free_left l2))%nat.
  cut (free_left p' < free_left p + (if spur then 3 else 0))%nat; [lia|].
  clear - HA Hw W0 B2 B4 Q1 Q2. rewrite W0 in *. rewrite Hw in HA.
  inversion HA; subst; try (destruct m; discriminate); try congruence.
  - cbn. lia.
  - cbn [free_left]. destruct m; cbn; lia.
  - exfalso. destruct m; cbn [cas_expect cas_new] in *; rewrite ?E_val in *; lia.
  - cbn [free_left]. assert (E : (cas_expect m c =? 0) = false) by (apply N.eqb_neq; congruence). rewrite E.
    destruct blk; cbn; lia.
  - destruct blk; cbn [would_block free_left]; lia.
Qed.

(** C67.  With spurious failures: when nobody holds the lock, one of the clients has it within 3n+1 steps
    and three more for each step that failed spuriously, whoever takes them. *)
Theorem C67_weak_free_lock_is_taken : forall n x who sp a b,
  N.of_nat n < EXCLUSIVE -> weak_executes n x who sp b ->
  (forall k, (k < b)%nat -> sp k = true -> ~ releasing (x k) (who k)) -> (a <= b)%nat ->
  (forall j m, ~ has m (x a) j) -> (3 * n + 3 * all_failures sp a b < b - a)%nat ->
  exists k m, (a <= k < b)%nat /\ acquires m (x k) (x (S k)) (who k).
Proof.
  intros n x who sp a b Hn HE HN Hab HNo HL.
  pose proof (fine_exec Hn HE HN) as HF. pose proof (proj2 HE) as ES.
  assert (Len : forall k, (k <= b)%nat -> length (clients (x k)) = n).
  { induction k as [|k IH]; intros Hk.
    - rewrite (proj1 HE). apply repeat_length.
    - rewrite <- IH by lia. destruct (ES k ltac:(lia)) as [w w' l1 p p' l2 _ _]. cbn [clients]. rewrite !app_length. reflexivity. }
  assert (G : forall d, (a + d <= b)%nat ->
    (exists k m, (a <= k < a + d)%nat /\ acquires m (x k) (x (S k)) (who k)) \/
    (total (x (a + d)%nat) = 0%nat /\ (free_sum (x (a + d)%nat) + d <= 3 * n + 3 * all_failures sp a (a + d))%nat)).
  { induction d as [|d IH]; intros Hd.
    - right. rewrite Nat.add_0_r. split; [unfold total; rewrite !(proj1 (none_holds _ _)); auto|].
      unfold free_sum. pose proof (free_sum_le (clients (x a))). rewrite Len in * by auto. lia.
    - destruct IH as [(k & m & Hk & Ha)|[HT Hs]]; [lia| |].
      + left. exists k, m. split; [lia|auto].
      + rewrite Nat.add_succ_r. set (k := (a + d)%nat) in *. rewrite all_failures_S by (unfold k; lia).
        destruct (w_free_turn (HF k ltac:(unfold k; lia)) (HF (S k) ltac:(unfold k; lia)) (ES k ltac:(unfold k; lia)) HT) as [[m H]|[H1 H2]].
        * left. exists k, m. split; [unfold k; lia|auto].
        * right. split; auto. destruct (sp k); lia. }
  destruct (G (b - a)%nat) as [(k & m & Hk & Ha)|[_ Hs]]; [lia| |].
  - exists k, m. split; [lia|auto].
  - replace (a + (b - a))%nat with b in Hs by lia. lia.
Qed.

(** C67.  With spurious failures, in every infinite execution in which each client inside a method of the
    lock, or holding it, gets another turn, exchanges fail spuriously only finitely often, and never the
    first one of an exclusive unlock: at every moment, some client has yet to acquire the lock. *)
Theorem C67_weak_somebody_always_acquires : forall n x who sp k0,
  N.of_nat n < EXCLUSIVE -> (forall b, weak_executes n x who sp b) -> fair x who ->
  (forall k, sp k = true -> ~ releasing (x k) (who k)) ->
  (forall k, (k0 <= k)%nat -> sp k = false) ->
  forall a, exists k i m, (a <= k)%nat /\ acquires m (x k) (x (S k)) i.
Proof.
  intros n x who sp k0 Hn HE HF HN HQ.
  assert (HI : forall k, fine (x k)) by (intros k; apply (fine_exec Hn (HE k) (fun k' _ => HN k')); auto).
  assert (HC : forall k, wstep (who k) (sp k) (x k) (x (S k))) by (intros k; apply (proj2 (HE (S k))); auto).
  pose (Done := fun k h => exists k', (k <= k')%nat /\ ((exists i m, acquires m (x k') (x (S k')) i) \/ (total (x k') < h)%nat)).
  assert (Walk : forall d k i p, who (k + d)%nat = i -> at_ (x k) i = Some p ->
    Done k (total (x k)) \/
    exists k1, (k <= k1)%nat /\ who k1 = i /\ at_ (x k1) i = Some p /\ word (x k1) = word (x k) /\ total (x k1) = total (x k)).
  { induction d as [|d IH]; intros k i p Hd Hp.
    - right. exists k. rewrite Nat.add_0_r in Hd. auto.
    - destruct (Nat.eq_dec (who k) i) as [E|E]; [right; exists k; auto|].
      destruct (w_step_cases (HI k) (HI (S k)) (HC k)) as [[m H]|[H|[Hw Ht]]].
      + left. exists k. split; auto. left. eauto.
      + left. exists (S k). auto.
      + destruct (IH (S k) i p) as [(k' & H1 & H2)|(k1 & H1 & H2 & H3 & H4 & H5)].
        * rewrite <- Hd. f_equal. lia.
        * rewrite (w_other (HC k)); auto.
        * left. exists k'. split; [lia|]. rewrite <- Ht. auto.
        * right. exists k1. split; [lia|]. split; [auto|]. split; [auto|]. split; congruence. }
  assert (Hold : forall r k i p m, (k0 <= k)%nat -> at_ (x k) i = Some p -> holds m p -> (rel_left (word (x k)) p <= r)%nat ->
    Done k (total (x k))).
  { induction r as [|r IH]; intros k i p m Hk0 Hp Hh Hr.
    - exfalso. destruct Hh as [->|[->|[c ->]]]; cbn [rel_left] in Hr; try lia. destruct (word (x k) =? c); lia.
    - destruct (HF k i p Hp) as (k' & Hk' & Hw').
      { destruct Hh as [->|[->|[c ->]]]; discriminate. }
      destruct (Walk (k' - k)%nat k i p) as [H|(k1 & H1 & H2 & H3 & H4 & H5)]; auto.
      { rewrite <- Hw'. f_equal. lia. }
      pose proof (HC k1) as HC1. rewrite H2, (HQ k1) in HC1 by lia.
      destruct (w_holder_turn (HI k1) HC1 ltac:(discriminate) H3 Hh) as [A|(p' & A & Hh' & Hw2 & Hl)].
      + destruct (w_step_cases (HI k1) (HI (S k1)) (HC k1)) as [[m' H]|[H|[Hw Ht]]].
        * exists k1. split; auto. left. eauto.
        * exists (S k1). split; [lia|]. right. lia.
        * exfalso. destruct (w_holders Sh HC1) as (c1 & q1 & q1' & P1 & P2 & P3 & P4).
          destruct (w_holders Ex HC1) as (c2 & q2 & q2' & Q1 & Q2 & Q3 & Q4).
          assert (q1 = p) by congruence. assert (q2 = p) by congruence. assert (q1' = Idle) by congruence. assert (q2' = Idle) by congruence. subst q1 q2 q1' q2'.
          unfold total in Ht. rewrite P3, P4, Q3, Q4 in Ht. apply holdsb_iff in Hh. destruct m; rewrite Hh in Ht; cbn in Ht; lia.
      + assert (Ht : total (x (S k1)) = total (x k1) \/ Done k (total (x k))).
        { destruct (w_step_cases (HI k1) (HI (S k1)) (HC k1)) as [[m' H]|[H|[Hw Ht]]]; auto.
          - right. exists k1. split; auto. left. eauto.
          - right. exists (S k1). split; [lia|]. right. lia. }
        destruct Ht as [Ht|Ht]; auto.
        destruct (IH (S k1) i p' m ltac:(lia) A Hh') as (k2 & H6 & H7).
        { rewrite Hw2 in *. rewrite <- H4 in Hr. lia. }
        exists k2. split; [lia|]. rewrite Ht, H5 in H7. auto. }
  assert (Z : forall k L, (k0 <= k)%nat -> all_failures sp k (k + L) = 0%nat).
  { intros k L Hk. unfold all_failures. replace (k + L - k)%nat with L by lia. revert k Hk.
    induction L as [|L IH]; intros k Hk; cbn [seq filter]; auto. rewrite HQ by lia. apply IH. lia. }
  assert (G : forall h k, (k0 <= k)%nat -> (total (x k) <= h)%nat -> exists k' i m, (k <= k')%nat /\ acquires m (x k') (x (S k')) i).
  { induction h as [|h IH]; intros k Hk0 Hh.
    - destruct (@C67_weak_free_lock_is_taken n x who sp k (k + (3 * n + 1)) Hn (HE _)) as (k' & m & H1 & H2); try lia.
      + intros k' _. apply HN.
      + intros j m. apply none_holds. unfold total in Hh. destruct m; lia.
      + rewrite Z by auto. lia.
      + exists k', (who k'), m. split; [lia|auto].
    - destruct (total (x k)) as [|t] eqn:Et; [apply IH; lia|].
      assert (E : exists i p m, at_ (x k) i = Some p /\ holds m p).
      { assert (F : forall m, (1 <= holders m (x k))%nat -> exists i p m, at_ (x k) i = Some p /\ holds m p).
        { intros m H. unfold holders in H. destruct (filter (holdsb m) (clients (x k))) as [|p l] eqn:E; [cbn in H; lia|].
          assert (B : List.In p (filter (holdsb m) (clients (x k)))) by (rewrite E; left; auto).
          apply filter_In in B. destruct B as [B1 B2]. apply In_nth_error in B1. destruct B1 as [j B1].
          exists j, p, m. split; auto. apply holdsb_iff; auto. }
        unfold total in Et. destruct (holders Sh (x k)) eqn:E1; [apply (F Ex); lia|apply (F Sh); lia]. }
      destruct E as (i & p & m & Hp & HhP).
      destruct (Hold 3%nat k i p m Hk0 Hp HhP) as (k' & H1 & [(i' & m' & H2)|H2]).
      + destruct p; cbn [rel_left]; try lia. destruct (word (x k) =? c); lia.
      + exists k', i', m'. auto.
      + destruct (IH k') as (k2 & i2 & m2 & H3 & H4); [lia|lia|]. exists k2, i2, m2. split; [lia|auto]. }
  intros a. destruct (G _ (Nat.max a k0) ltac:(lia) (le_n _)) as (k & i & m & H1 & H2). exists k, i, m. split; [lia|auto].
Qed.

(** An execution that meets the hypotheses of all of the above: client 0 of two acquires a shared lock and
    gives it back; its first exchange in [lock()] fails spuriously, and so does the first one of the loop
    of [unlock()]. *)
Definition bumpy_pcs : list (N * pc) :=
  [(0, Idle); (0, Load Sh true); (0, Cas Sh true 0); (0, Load Sh true); (0, Cas Sh true 0); (1, Hold Sh);
   (1, Unl1 Sh); (1, Unl2 Sh 1); (1, Unl2 Sh 1); (0, Idle)].
Definition bumpy (k : nat) : lsys := let '(w, p) := nth k bumpy_pcs (0, Idle) in mkSys w [p; Idle].
Definition bumps (k : nat) : bool := match k with 2%nat | 7%nat => true | _ => false end.
Lemma w_first spur w p w' p' r : astep spur w p w' p' -> wstep 0 spur (mkSys w (p :: r)) (mkSys w' (p' :: r)).
Proof. intros H. apply (@W_step 0 spur w w' [] p p' r); auto. Qed.
Theorem C67_weak_example :
  weak_executes 2 bumpy (fun _ => 0%nat) bumps 9 /\
  (forall k, (k < 9)%nat -> bumps k = true -> ~ releasing (bumpy k) 0) /\
  waits Sh (bumpy 1) 0 /\ failures (fun _ => 0%nat) bumps 0 1 6 = 1%nat /\ turns (fun _ => 0%nat) 0 1 6 = 5%nat /\
  at_ (bumpy 5) 0 = Some (Hold Sh) /\
  has Sh (bumpy 5) 0 /\ failures (fun _ => 0%nat) bumps 0 5 9 = 1%nat /\ turns (fun _ => 0%nat) 0 5 9 = 4%nat /\
  at_ (bumpy 9) 0 = Some Idle.
Proof.
  split; [split; [reflexivity|]|].
  { intros k Hk.
    destruct k as [|k]; [apply w_first; constructor|].
    destruct k as [|k]; [apply w_first; apply A_load_go; reflexivity|].
    destruct k as [|k]; [apply w_first; apply (@A_cas_spurious 0 Sh true 0); reflexivity|].
    destruct k as [|k]; [apply w_first; apply A_load_go; reflexivity|].
    destruct k as [|k]; [apply w_first; apply (A_cas_ok Sh true 0); reflexivity|].
    destruct k as [|k]; [apply w_first; constructor|].
    destruct k as [|k]; [apply w_first; apply (@A_unl1_fail 1 Sh); discriminate|].
    destruct k as [|k]; [apply w_first; apply (@A_unl2_spurious 1 Sh 1); reflexivity|].
    destruct k as [|k]; [apply w_first; apply (@A_unl2_ok 1 Sh 1); reflexivity|]. lia. }
  split.
  { intros k Hk Hb. do 9 (destruct k as [|k]; [unfold releasing; cbn; discriminate|]). lia. }
  split; [left; reflexivity|]. repeat split.
  exists (Hold Sh). split; [reflexivity|left; reflexivity].
Qed.

(** And for ever: after that, client 0 acquires the lock and gives it back again and again, in rounds of
    six steps, with no more failures. *)
Definition round_pcs : list (N * pc) :=
  [(0, Idle); (0, Load Sh true); (0, Cas Sh true 0); (1, Hold Sh); (1, Unl1 Sh); (1, Unl2 Sh 1)].
Definition bumpy_on (k : nat) : lsys :=
  if (k <? 9)%nat then bumpy k
  else let '(w, p) := nth ((k - 9) mod 6) round_pcs (0, Idle) in mkSys w [p; Idle].
Theorem C67_weak_somebody_example :
  (forall b, weak_executes 2 bumpy_on (fun _ => 0%nat) bumps b) /\ fair bumpy_on (fun _ => 0%nat) /\
  (forall k, bumps k = true -> ~ releasing (bumpy_on k) 0) /\ (forall k, (9 <= k)%nat -> bumps k = false) /\
  bumps 2 = true.
Proof.
  destruct C67_weak_example as ([_ E1] & E2 & _).
  assert (Step : forall k, wstep 0 (bumps k) (bumpy_on k) (bumpy_on (S k))).
  { intros k. destruct (Nat.ltb_spec k 8) as [H|H].
    - unfold bumpy_on. assert (A : (k <? 9)%nat = true) by (apply Nat.ltb_lt; lia).
      assert (B : (S k <? 9)%nat = true) by (apply Nat.ltb_lt; lia). rewrite A, B. apply E1. lia.
    - destruct (Nat.eq_dec k 8) as [->|H8]; [exact (E1 8%nat ltac:(lia))|].
      unfold bumpy_on. assert (A : (k <? 9)%nat = false) by (apply Nat.ltb_ge; lia).
      assert (B : (S k <? 9)%nat = false) by (apply Nat.ltb_ge; lia). rewrite A, B. clear A B.
      replace (bumps k) with false by (do 9 (destruct k as [|k]; [lia|]); reflexivity).
      pose (q := ((k - 9) / 6)%nat). pose (r := ((k - 9) mod 6)%nat).
      assert (D : (k - 9 = 6 * q + r)%nat) by (apply Nat.div_mod; lia).
      assert (R : (r < 6)%nat) by (apply Nat.mod_upper_bound; lia).
      fold r. replace (S k - 9)%nat with (S r + q * 6)%nat by lia. rewrite Nat.mod_add by lia. clearbody r. clear - R.
      destruct r as [|r]; [apply w_first; constructor|].
      destruct r as [|r]; [apply w_first; apply A_load_go; reflexivity|].
      destruct r as [|r]; [apply w_first; apply (A_cas_ok Sh true 0); reflexivity|].
      destruct r as [|r]; [apply w_first; constructor|].
      destruct r as [|r]; [apply w_first; apply (@A_unl1_fail 1 Sh); discriminate|].
      destruct r as [|r]; [apply w_first; apply (@A_unl2_ok 1 Sh 1); reflexivity|]. lia. }
  split; [intros b; split; [reflexivity|intros k _; apply Step]|]. split.
  { intros k i p Hp Hi. exists k. split; auto. destruct i as [|i]; auto. exfalso. apply Hi.
    unfold bumpy_on, bumpy, at_ in Hp.
    destruct (k <? 9)%nat; [destruct (nth k bumpy_pcs (0, Idle))|destruct (nth ((k - 9) mod 6) round_pcs (0, Idle))];
      (destruct i as [|i]; cbn in Hp; [congruence|destruct i; discriminate]). }
  split.
  { intros k Hb. destruct (Nat.ltb_spec k 9) as [H|H].
    - unfold bumpy_on. assert (A : (k <? 9)%nat = true) by (apply Nat.ltb_lt; lia). rewrite A. apply E2; auto.
    - exfalso. do 9 (destruct k as [|k]; [lia|]). discriminate. }
  split; [|reflexivity]. intros k Hk. do 9 (destruct k as [|k]; [lia|]). reflexivity.
Qed.
