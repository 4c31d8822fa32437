(** PWait.v -- property theorems: C67. *)
From Coq Require Import NArith.
From Verif Require Import Base Lock PLock Wait.
Set Implicit Arguments.
Local Open Scope N_scope.

(** The steps are those of Lock.v. *)
Theorem cstep_is_lstep : forall s s', lstep Normal s s' <-> exists i, cstep i s s'.
Proof.
  intros s s'. split.
  - intros H. inversion H as [spur w w' l1 p p' l2 HA He|]; subst. destruct spur; [discriminate|].
    exists (length l1). constructor; auto.
  - intros [i H]. destruct H as [w w' l1 p p' l2 Hl HA]. apply normal_step; auto.
Qed.
Lemma executes_reach n x who b : executes n x who b -> forall k, (k <= b)%nat -> lsteps quiet (linit n) (x k).
Proof.
  intros [E0 ES] k. induction k as [|k IH]; intros Hk.
  - rewrite E0. constructor.
  - apply ls_step with Normal (x k); [apply IH; lia|reflexivity|].
    apply cstep_is_lstep. exists (who k). apply ES. lia.
Qed.

(** ** What one step does to one client *)
Lemma at_mid w l1 p l2 : at_ (mkSys w (l1 ++ p :: l2)) (length l1) = Some p.
Proof. unfold at_; cbn [clients]. rewrite nth_error_app2, Nat.sub_diag; auto. Qed.
Lemma at_other w w' l1 p p' l2 j : j <> length l1 ->
  at_ (mkSys w (l1 ++ p :: l2)) j = at_ (mkSys w' (l1 ++ p' :: l2)) j.
Proof.
  intros H. unfold at_; cbn [clients]. destruct (Nat.lt_ge_cases j (length l1)) as [A|A].
  - rewrite !nth_error_app1; auto.
  - rewrite !nth_error_app2; auto. destruct (j - length l1)%nat eqn:E; [lia|]. reflexivity.
Qed.
Lemma cstep_own i s s' : cstep i s s' ->
  exists p p', at_ s i = Some p /\ at_ s' i = Some p' /\ astep false (word s) p (word s') p'.
Proof. intros [w w' l1 p p' l2 <- HA]. exists p, p'. rewrite !at_mid. auto. Qed.
Lemma cstep_other i s s' j : cstep i s s' -> j <> i -> at_ s' j = at_ s j.
Proof. intros [w w' l1 p p' l2 <- HA] H. symmetry. apply at_other; auto. Qed.

Lemma has_dec m s i : has m s i \/ ~ has m s i.
Proof.
  unfold has. destruct (at_ s i) as [p|] eqn:E.
  - destruct (holdsb m p) eqn:B.
    + left. exists p. split; auto. apply holdsb_iff; auto.
    + right. intros (q & [= <-] & H). apply holdsb_iff in H. congruence.
  - right. intros (q & [=] & _).
Qed.

Lemma none_holds m s : (forall j, ~ has m s j) <-> holders m s = 0%nat.
Proof.
  unfold has, at_, holders. split.
  - intros H. destruct (filter (holdsb m) (clients s)) as [|p l] eqn:E; auto.
    assert (B : List.In p (filter (holdsb m) (clients s))) by (rewrite E; left; auto).
    apply filter_In in B. destruct B as [B1 B2]. apply In_nth_error in B1. destruct B1 as [j B1].
    destruct (H j). exists p. split; auto. apply holdsb_iff; auto.
  - intros H j (p & Hp & HH). pose proof (nth_split_holder _ _ Hp HH). lia.
Qed.
Lemma available_iff m s : available m s <-> holders Ex s = 0%nat /\ (m = Ex -> holders Sh s = 0%nat).
Proof.
  unfold available. rewrite <- !none_holds. split.
  - intros H. split; [intros j; apply H|]. intros E j. apply H; auto.
  - intros [H1 H2] j. split; [auto|]. intros E; apply H2; auto.
Qed.

(** While nobody acquires or gives back, the word does not change. *)
Lemma holders_mid m s s' i : cstep i s s' -> exists c p p',
  at_ s i = Some p /\ at_ s' i = Some p' /\ holders m s = (nb (holdsb m p) + c)%nat /\ holders m s' = (nb (holdsb m p') + c)%nat.
Proof.
  intros [w w' l1 p p' l2 <- HA]. exists (length (filter (holdsb m) (l1 ++ l2))), p, p'.
  rewrite !at_mid. unfold holders; cbn [clients]. rewrite !count_split. auto.
Qed.
Lemma same_word n s s' i : N.of_nat n < EXCLUSIVE -> lsteps quiet (linit n) s -> cstep i s s' ->
  (forall m, has m s i <-> has m s' i) -> word s' = word s.
Proof.
  intros Hn HR HC HH.
  assert (HR' : lsteps quiet (linit n) s').
  { apply ls_step with Normal s; auto; [reflexivity|]. apply cstep_is_lstep; eauto. }
  pose proof (C28_state_is_holders_partial Hn HR) as W. pose proof (C28_state_is_holders_partial Hn HR') as W'.
  assert (E : forall m, holders m s' = holders m s).
  { intros m. destruct (holders_mid m HC) as (c & p & p' & A & A' & -> & ->). f_equal.
    specialize (HH m). unfold has in HH. destruct (holdsb m p) eqn:B; destruct (holdsb m p') eqn:B'; auto.
    - destruct HH as [HH _]. destruct HH as (q & Hq & HQ).
      + exists p. split; auto. apply holdsb_iff; auto.
      + rewrite A' in Hq. injection Hq as <-. apply holdsb_iff in HQ. congruence.
    - destruct HH as [_ HH]. destruct HH as (q & Hq & HQ).
      + exists p'. split; auto. apply holdsb_iff; auto.
      + rewrite A in Hq. injection Hq as <-. apply holdsb_iff in HQ. congruence. }
  rewrite !E in W'. lia.
Qed.

Lemma turns_S who i a b : (a <= b)%nat ->
  turns who i a (S b) = (turns who i a b + (if Nat.eqb (who b) i then 1 else 0))%nat.
Proof.
  intros H. unfold turns. replace (S b - a)%nat with ((b - a) + 1)%nat by lia.
  rewrite seq_app, filter_app, app_length. cbn [seq filter]. replace (a + (b - a))%nat with b by lia.
  destruct (Nat.eqb (who b) i); reflexivity.
Qed.
Lemma turns_refl who i a : turns who i a a = 0%nat.
Proof. unfold turns. rewrite Nat.sub_diag. reflexivity. Qed.

(** Facts about a reachable state. *)
Lemma word_small n s : N.of_nat n < EXCLUSIVE -> lsteps quiet (linit n) s -> word s <= EXCLUSIVE /\
  N.land (word s) POISONED = 0 /\ (holders Ex s = 0%nat -> N.land (word s) EXCLUSIVE = 0 /\ word s = N.of_nat (holders Sh s)) .
Proof.
  intros Hn HR. destruct (quiet_exact Hn HR) as ([Hl _] & EX & _).
  assert (B : N.of_nat (holders Sh s) < EXCLUSIVE) by (unfold holders; pose proof (count_le Sh (clients s)); lia).
  assert (W : word s <= EXCLUSIVE) by (destruct EX as [[-> _]|[-> _]]; lia).
  assert (W2 : word s < POISONED) by (rewrite P_val, E_val in *; lia).
  split; auto. split.
  - apply not_poisoned; auto. change (2 ^ 64) with (2 * POISONED). rewrite P_val in *; lia.
  - intros H. destruct EX as [[E _]|(_ & _ & E)]; [|lia]. split; auto. apply not_exclusive; auto. lia.
Qed.

(** How many more turns of its own a waiting client needs on a word that does not change. *)
Definition to_go (m : mode) (w : N) (p : pc) : nat :=
  match p with
  | Cas _ _ c => if w =? cas_expect m c then 1%nat else 3%nat
  | _ => 2%nat
  end.

Definition still (who : nat -> nat) (x : nat -> lsys) (i a b : nat) : Prop :=
  forall k j m, (a <= k < b)%nat -> who k <> i -> ~ acquires m (x k) (x (S k)) j /\ ~ gives_back m (x k) (x (S k)) j.

Lemma still_word n x who b a k i : N.of_nat n < EXCLUSIVE -> executes n x who b -> (a <= k)%nat -> (k < b)%nat ->
  still who x i a b -> who k <> i -> word (x (S k)) = word (x k) /\ (forall m, holders m (x (S k)) = holders m (x k)).
Proof.
  intros Hn HE Ha Hk HS Hw. destruct HE as [E0 ES]. pose proof (ES k Hk) as HC.
  assert (HH : forall m j, has m (x k) j <-> has m (x (S k)) j).
  { intros m j. destruct (HS k j m) as [S1 S2]; [lia|auto|].
    unfold acquires, gives_back in *. destruct (has_dec m (x k) j), (has_dec m (x (S k)) j); tauto. }
  split.
  - eapply same_word with (n := n); eauto. eapply executes_reach with (b := b); [split; eauto|lia].
  - intros m. destruct (holders_mid m HC) as (c & p & p' & A & A' & -> & ->). f_equal.
    specialize (HH m (who k)). unfold has in HH. rewrite A, A' in HH.
    destruct (holdsb m p) eqn:B; destruct (holdsb m p') eqn:B'; auto.
    + destruct HH as [HH _]. destruct HH as (q & [= <-] & HQ).
      * exists p. split; auto. apply holdsb_iff; auto.
      * apply holdsb_iff in HQ. congruence.
    + destruct HH as [_ HH]. destruct HH as (q & [= <-] & HQ).
      * exists p'. split; auto. apply holdsb_iff; auto.
      * apply holdsb_iff in HQ. congruence.
Qed.

(** C67.  A client waiting in [lock()] or [lock_mut()] while the lock is available to it has it by the
    third turn it gets, unless another client acquires it or gives it back in between. *)
Theorem C67_undisturbed_wait_ends : forall n x who a b i m,
  N.of_nat n < EXCLUSIVE -> executes n x who b -> (a <= b)%nat ->
  waits m (x a) i -> available m (x a) ->
  (forall k j m', (a <= k < b)%nat -> who k <> i ->
     ~ acquires m' (x k) (x (S k)) j /\ ~ gives_back m' (x k) (x (S k)) j) ->
  (3 <= turns who i a b)%nat ->
  exists k, (a < k <= b)%nat /\ at_ (x k) i = Some (Hold m).
Proof.
  intros n x who a b i m Hn HE Hab HW HA HS HT. fold (still who x i a b) in HS.
  assert (G : forall d, (a + d <= b)%nat ->
    (exists k, (a < k <= a + d)%nat /\ at_ (x k) i = Some (Hold m)) \/
    exists p, waits m (x (a + d)%nat) i /\ at_ (x (a + d)%nat) i = Some p /\ available m (x (a + d)%nat) /\
      (turns who i a (a + d) + to_go m (word (x (a + d)%nat)) p <= 3)%nat).
  { induction d as [|d IH]; intros Hd.
    - right. rewrite Nat.add_0_r. destruct HW as [W|[c W]]; eexists; (split; [red; eauto|split; [exact W|split; [exact HA|]]]); rewrite turns_refl; cbn [to_go].
      + lia.
      + destruct (word (x a) =? cas_expect m c); lia.
    - destruct IH as [(k & Hk & Hh)|(p & Wp & Ap & Av & Ht)]; [lia| |].
      + left. exists k. split; [lia|auto].
      + rewrite Nat.add_succ_r. set (k := (a + d)%nat) in *. rewrite turns_S by (unfold k; lia).
        pose proof (proj2 HE k ltac:(unfold k; lia)) as HC.
        assert (HR : lsteps quiet (linit n) (x k)) by (eapply executes_reach with (b := b); [exact HE|unfold k; lia]).
        destruct (word_small Hn HR) as (B1 & B2 & B3).
        pose proof (proj1 (available_iff m (x k)) Av) as [Av1 Av2]. destruct (B3 Av1) as [B4 B5].
        destruct (Nat.eqb (who k) i) eqn:Ew.
        * apply Nat.eqb_eq in Ew. rewrite Ew in HC. destruct (cstep_own HC) as (q & q' & Aq & Aq' & HX).
          rewrite Ap in Aq. injection Aq as <-.
          assert (Keep : forall w', word (x (S k)) = w' -> w' = word (x k) -> holdsb Ex q' = false -> holdsb Sh q' = false ->
             holdsb Ex p = false -> holdsb Sh p = false -> available m (x (S k))).
          { intros w' _ _ H1 H2 H3 H4. apply available_iff.
            destruct (holders_mid Ex HC) as (c1 & p1 & p1' & P1 & P2 & P3 & P4).
            rewrite Ap in P1; injection P1 as <-. rewrite Aq' in P2; injection P2 as <-. rewrite P3, H3 in Av1. rewrite P4, H1.
            split; auto. intros E. specialize (Av2 E).
            destruct (holders_mid Sh HC) as (c2 & p2 & p2' & Q1 & Q2 & Q3 & Q4).
            rewrite Ap in Q1; injection Q1 as <-. rewrite Aq' in Q2; injection Q2 as <-.
            rewrite Q3, H4 in Av2. rewrite Q4, H2. auto. }
          destruct Wp as [W|[c W]]; rewrite Ap in W; injection W as ->.
          -- inversion HX as [|? ? ? H1 E1 E2 E3 E4|? ? ? H1 H2 E1 E2 E3 E4|? ? ? H1 H2 E1 E2 E3 E4| | | | | | | | | |]; subst; try congruence.
             right. eexists. split; [right; eauto|]. split; [eauto|]. split; [eapply Keep; eauto|].
             cbn [to_go] in Ht |- *.
             assert (EE : (word (x k) =? cas_expect m (word (x k))) = true).
             { apply N.eqb_eq. destruct m; cbn [cas_expect]; auto. rewrite B5, Av2; auto. }
             rewrite EE. lia.
          -- inversion HX as [| | | |? ? ? ? H1 E1 E2 E3 E4|? ? ? ? H1 E1 E2 E3 E4| | | | | | | |]; subst.
             ++ left. exists (S k). split; [unfold k; lia|]. congruence.
             ++ right. cbn [would_block] in *. eexists. split; [left; eauto|]. split; [eauto|]. split; [eapply Keep; eauto|].
                cbn [to_go] in *. apply N.eqb_neq in H1. rewrite H1 in Ht. lia.
        * apply Nat.eqb_neq in Ew. right.
          destruct (@still_word n x who b a k i Hn HE ltac:(unfold k; lia) ltac:(unfold k; lia) HS Ew) as [Ewd Eh].
          exists p. unfold waits. rewrite (cstep_other HC) by auto. split; [exact Wp|]. split; [exact Ap|].
          split; [apply available_iff; rewrite !Eh; auto|]. rewrite Ewd. lia. }
  destruct (G (b - a)%nat) as [(k & Hk & Hh)|(p & Wp & Ap & Av & Ht)]; [lia| |].
  - exists k. split; [lia|auto].
  - replace (a + (b - a))%nat with b in Ht by lia. exfalso.
    assert (1 <= to_go m (word (x (a + (b - a))%nat)) p)%nat.
    { unfold to_go. destruct p; try lia. match goal with |- context [if ?c then _ else _] => destruct c end; lia. }
    replace (a + (b - a))%nat with b in H by lia. lia.
Qed.

(** ** Giving the lock back *)
Definition rel_left (w : N) (p : pc) : nat :=
  match p with
  | Hold _ => 3%nat
  | Unl1 _ => 2%nat
  | Unl2 _ c => if w =? c then 1%nat else 2%nat
  | _ => 0%nat
  end.
(** One turn of a holder either gives the lock back or brings it one step nearer to that. *)
Lemma holder_turn n s s' i p m : N.of_nat n < EXCLUSIVE -> lsteps quiet (linit n) s -> cstep i s s' ->
  at_ s i = Some p -> holds m p ->
  at_ s' i = Some Idle \/
  exists p', at_ s' i = Some p' /\ holds m p' /\ word s' = word s /\ (rel_left (word s') p' < rel_left (word s) p)%nat.
Proof.
  intros Hn HR HC Hp Hh. destruct (quiet_exact Hn HR) as (OK & EX & QP).
  destruct (cstep_own HC) as (q & q' & Aq & Aq' & HX). rewrite Hp in Aq. injection Aq as <-.
  assert (Q : quiet_pc p) by (rewrite Forall_forall in QP; apply QP; eapply nth_error_In; exact Hp).
  assert (C1 : (1 <= holders m s)%nat) by (unfold holders; eapply nth_split_holder; eauto).
  assert (B : N.of_nat (holders Sh s) < EXCLUSIVE).
  { unfold holders. pose proof (count_le Sh (clients s)). destruct OK. lia. }
  rewrite Aq'. destruct Hh as [->|[->|[c ->]]].
  - inversion HX; subst. right. eexists. split; [reflexivity|]. split; [red; auto|]. split; [congruence|]. cbn. lia.
  - inversion HX as [| | | | | | | |? ? H1 E1 E2 E3 E4|? ? H1 E1 E2 E3 E4| | | |]; subst.
    + left. unfold unlock_test. rewrite N.eqb_refl, orb_true_r. reflexivity.
    + destruct (unlock_test_cases m (word s)) as [[-> Hc]|[E Hc]].
      * exfalso. destruct EX as [[W H]|(W & _)]; [|congruence]. destruct m; [|lia]. rewrite E_val in *. lia.
      * right. rewrite E. eexists. split; [reflexivity|]. split; [right; right; eauto|]. split; [congruence|].
        replace (word s') with (word s) by congruence. cbn. rewrite N.eqb_refl. lia.
  - destruct m; [|destruct Q].
    inversion HX as [| | | | | | | | | | |? ? ? H1 E1 E2 E3 E4|? ? ? ? H1 E1 E2 E3 E4 E5|]; subst.
    + left. reflexivity.
    + destruct (unlock_test_cases Sh (word s)) as [[-> Hc]|[E Hc]].
      * left. reflexivity.
      * right. rewrite E. eexists. split; [reflexivity|]. split; [right; right; eauto|]. split; [congruence|].
        replace (word s') with (word s) by congruence. cbn. rewrite N.eqb_refl. apply N.eqb_neq in H1. rewrite H1. lia.
Qed.

(** C67.  A holder that goes on to give the lock back has done so by the third turn it gets, unless
    another client acquires it or gives it back in between. *)
Theorem C67_undisturbed_unlock_ends : forall n x who a b i m,
  N.of_nat n < EXCLUSIVE -> executes n x who b -> (a <= b)%nat -> has m (x a) i ->
  (forall k j m', (a <= k < b)%nat -> who k <> i ->
     ~ acquires m' (x k) (x (S k)) j /\ ~ gives_back m' (x k) (x (S k)) j) ->
  (3 <= turns who i a b)%nat ->
  exists k, (a < k <= b)%nat /\ at_ (x k) i = Some Idle.
Proof.
  intros n x who a b i m Hn HE Hab (p0 & Hp0 & Hh0) HS HT. fold (still who x i a b) in HS.
  assert (G : forall d, (a + d <= b)%nat ->
    (exists k, (a < k <= a + d)%nat /\ at_ (x k) i = Some Idle) \/
    exists p, at_ (x (a + d)%nat) i = Some p /\ holds m p /\
      (turns who i a (a + d) + rel_left (word (x (a + d)%nat)) p <= 3)%nat).
  { induction d as [|d IH]; intros Hd.
    - right. rewrite Nat.add_0_r. exists p0. split; auto. split; auto. rewrite turns_refl.
      destruct Hh0 as [->|[->|[c ->]]]; cbn [rel_left]; try lia. destruct (word (x a) =? c); lia.
    - destruct IH as [(k & Hk & Hh)|(p & Ap & Hh & Ht)]; [lia| |].
      + left. exists k. split; [lia|auto].
      + rewrite Nat.add_succ_r. set (k := (a + d)%nat) in *. rewrite turns_S by (unfold k; lia).
        pose proof (proj2 HE k ltac:(unfold k; lia)) as HC.
        assert (HR : lsteps quiet (linit n) (x k)) by (eapply executes_reach with (b := b); [exact HE|unfold k; lia]).
        destruct (Nat.eqb (who k) i) eqn:Ew.
        * apply Nat.eqb_eq in Ew. rewrite Ew in HC.
          destruct (holder_turn Hn HR HC Ap Hh) as [A|(p' & A & Hh' & _ & Hl)].
          -- left. exists (S k). split; [unfold k; lia|auto].
          -- right. exists p'. split; auto. split; auto. lia.
        * apply Nat.eqb_neq in Ew. right.
          destruct (@still_word n x who b a k i Hn HE ltac:(unfold k; lia) ltac:(unfold k; lia) HS Ew) as [Ewd _].
          exists p. rewrite (cstep_other HC) by auto. rewrite Ewd. split; auto. split; auto. lia. }
  destruct (G (b - a)%nat) as [(k & Hk & Hh)|(p & Ap & Hh & Ht)]; [lia| |].
  - exists k. split; [lia|auto].
  - replace (a + (b - a))%nat with b in * by lia. exfalso.
    destruct Hh as [->|[->|[c ->]]]; cbn [rel_left] in Ht; try lia. destruct (word (x b) =? c); lia.
Qed.

(** ** Somebody gets the lock *)
Definition total (s : lsys) : nat := (holders Sh s + holders Ex s)%nat.
Lemma step_cases n s s' i : N.of_nat n < EXCLUSIVE -> lsteps quiet (linit n) s -> cstep i s s' ->
  (exists m, acquires m s s' i) \/ (total s' < total s)%nat \/ (word s' = word s /\ total s' = total s).
Proof.
  intros Hn HR HC.
  assert (C : forall m, acquires m s s' i \/ (holders m s' < holders m s)%nat \/ (holders m s' = holders m s /\ (has m s i <-> has m s' i))).
  { intros m. destruct (holders_mid m HC) as (c & p & p' & A & A' & E1 & E2). unfold acquires, has.
    rewrite A, A', E1, E2. destruct (holdsb m p) eqn:B; destruct (holdsb m p') eqn:B'; cbn [nb].
    - right; right. split; auto. apply holdsb_iff in B, B'. split; intros _; eauto.
    - right; left. lia.
    - left. split; [|apply holdsb_iff in B'; eauto]. intros (q & [= <-] & H). apply holdsb_iff in H. congruence.
    - right; right. split; auto. split; intros (q & [= <-] & H); apply holdsb_iff in H; congruence. }
  destruct (C Sh) as [H|HS]; [eauto|]. destruct (C Ex) as [H|HX]; [eauto|]. right. unfold total.
  destruct HS as [HS|[HS1 HS2]]; destruct HX as [HX|[HX1 HX2]]; try (left; lia).
  right. split; [|lia]. eapply same_word; eauto. intros []; auto.
Qed.

Definition free_left (p : pc) : nat :=
  match p with
  | Idle => 2%nat
  | Load _ _ => 1%nat
  | Cas m _ c => if cas_expect m c =? 0 then 0%nat else 3%nat
  | _ => 0%nat
  end.
Definition free_sum (s : lsys) : nat := list_sum (map free_left (clients s)).
Lemma free_sum_le l : (list_sum (map free_left l) <= 3 * length l)%nat.
Proof.
  induction l as [|p l IH]; cbn [map list_sum length]; [cbn; lia|].
  assert (free_left p <= 3)%nat.
  { destruct p; cbn; try lia. destruct (cas_expect m c =? 0); lia. }
  change (list_sum (free_left p :: map free_left l)) with (free_left p + list_sum (map free_left l))%nat. lia.
Qed.
Lemma free_turn n s s' i : N.of_nat n < EXCLUSIVE -> lsteps quiet (linit n) s -> cstep i s s' -> total s = 0%nat ->
  (exists m, acquires m s s' i) \/ (total s' = 0%nat /\ (free_sum s' < free_sum s)%nat).
Proof.
  intros Hn HR HC HT. destruct (step_cases Hn HR HC) as [H|[H|[Hw Ht]]]; [auto|lia|]. right. split; [lia|].
  destruct (word_small Hn HR) as (_ & B2 & B3). unfold total in HT. destruct (B3 ltac:(lia)) as [B4 B5].
  assert (W0 : word s = 0) by (rewrite B5; replace (holders Sh s) with 0%nat by lia; reflexivity).
  assert (Q : forall p, at_ s i = Some p -> holdsb Sh p = false /\ holdsb Ex p = false).
  { intros p Hp. split; [destruct (holdsb Sh p) eqn:B|destruct (holdsb Ex p) eqn:B]; auto; exfalso;
      apply holdsb_iff in B; pose proof (nth_split_holder _ _ Hp B); unfold holders in *; lia. }
  destruct HC as [w w' l1 p p' l2 <- HA]. specialize (Q p (at_mid _ _ _ _)). destruct Q as [Q1 Q2].
  cbn [word] in *. unfold free_sum; cbn [clients]. rewrite !map_app, !list_sum_app. cbn [map].
  change (list_sum (free_left p' :: map free_left l2)) with (free_left p' + list_sum (map free_left l2))%nat.
  change (list_sum (free_left p :: map free_left l2)) with (free_left p + list_sum (map free_left l2))%nat.
  cut (free_left p' < free_left p)%nat; [lia|].
  clear - HA Hw W0 B2 B4 Q1 Q2. rewrite W0 in *. rewrite Hw in HA. inversion HA; subst; try (destruct m; discriminate); try congruence.
  - cbn. lia.
  - cbn [free_left]. destruct m; cbn; lia.
  - exfalso. destruct m; cbn [cas_expect cas_new] in *; rewrite ?E_val in *; lia.
  - cbn [free_left]. assert (E : (cas_expect m c =? 0) = false) by (apply N.eqb_neq; congruence). rewrite E.
    destruct blk; cbn; lia.
Qed.

(** C67.  When nobody holds the lock, one of the clients has it within 3n+1 steps, whoever takes them:
    clients that only disturb each other's attempts do not exist. *)
Theorem C67_free_lock_is_taken : forall n x who a b,
  N.of_nat n < EXCLUSIVE -> executes n x who b -> (a <= b)%nat ->
  (forall j m, ~ has m (x a) j) -> (3 * n < b - a)%nat ->
  exists k m, (a <= k < b)%nat /\ acquires m (x k) (x (S k)) (who k).
Proof.
  intros n x who a b Hn HE Hab HF HL.
  assert (G : forall f k, (k <= b)%nat -> total (x k) = 0%nat -> (free_sum (x k) <= f)%nat -> (f < b - k)%nat ->
    exists k' m, (k <= k' < b)%nat /\ acquires m (x k') (x (S k')) (who k')).
  { induction f as [|f IH]; intros k Hk HT Hs Hb.
    - pose proof (proj2 HE k ltac:(lia)) as HC.
      destruct (free_turn Hn (executes_reach HE Hk) HC HT) as [[m H]|[H1 H2]]; [|lia].
      exists k, m. split; [lia|auto].
    - pose proof (proj2 HE k ltac:(lia)) as HC.
      destruct (free_turn Hn (executes_reach HE Hk) HC HT) as [[m H]|[H1 H2]].
      + exists k, m. split; [lia|auto].
      + destruct (IH (S k)) as (k' & m & H3 & H4); try lia. exists k', m. split; [lia|auto]. }
  pose proof (executes_reach HE Hab) as HR.
  assert (Len : length (clients (x a)) = n).
  { clear - HR. remember (linit n) as s0 eqn:E. induction HR as [s|e s s' s'' HS IH He HL]; subst.
    - apply repeat_length.
    - rewrite <- (IH eq_refl). destruct HL; cbn [clients]; auto. rewrite !app_length. reflexivity. }
  apply G with (f := (3 * n)%nat); try lia.
  - unfold total. rewrite !(proj1 (none_holds _ _)); auto.
  - unfold free_sum. rewrite <- Len. apply free_sum_le.
Qed.

(** C67.  In every infinite execution in which each client inside a method of the lock, or holding it,
    gets another turn: at every moment, some client has yet to acquire the lock. *)
Theorem C67_somebody_always_acquires : forall n x who,
  N.of_nat n < EXCLUSIVE -> (forall b, executes n x who b) -> fair x who ->
  forall a, exists k i m, (a <= k)%nat /\ acquires m (x k) (x (S k)) i.
Proof.
  intros n x who Hn HE HF.
  assert (HR : forall k, lsteps quiet (linit n) (x k)) by (intros k; apply (executes_reach (HE k)); auto).
  assert (HC : forall k, cstep (who k) (x k) (x (S k))) by (intros k; apply (HE (S k)); auto).
  pose (Done := fun k h => exists k', (k <= k')%nat /\ ((exists i m, acquires m (x k') (x (S k')) i) \/ (total (x k') < h)%nat)).
  (* until the next turn of client i *)
  assert (Walk : forall d k i p, who (k + d)%nat = i -> at_ (x k) i = Some p ->
    Done k (total (x k)) \/
    exists k1, (k <= k1)%nat /\ who k1 = i /\ at_ (x k1) i = Some p /\ word (x k1) = word (x k) /\ total (x k1) = total (x k)).
  { induction d as [|d IH]; intros k i p Hd Hp.
    - right. exists k. rewrite Nat.add_0_r in Hd. auto.
    - destruct (Nat.eq_dec (who k) i) as [E|E]; [right; exists k; auto|].
      destruct (step_cases Hn (HR k) (HC k)) as [[m H]|[H|[Hw Ht]]].
      + left. exists k. split; auto. left. eauto.
      + left. exists (S k). auto.
      + destruct (IH (S k) i p) as [(k' & H1 & H2)|(k1 & H1 & H2 & H3 & H4 & H5)].
        * rewrite <- Hd. f_equal. lia.
        * rewrite (cstep_other (HC k)); auto.
        * left. exists k'. split; [lia|]. rewrite <- Ht. auto.
        * right. exists k1. split; [lia|]. split; [auto|]. split; [auto|]. split; congruence. }
  assert (Hold : forall r k i p m, at_ (x k) i = Some p -> holds m p -> (rel_left (word (x k)) p <= r)%nat ->
    Done k (total (x k))).
  { induction r as [|r IH]; intros k i p m Hp Hh Hr.
    - exfalso. destruct Hh as [->|[->|[c ->]]]; cbn [rel_left] in Hr; try lia. destruct (word (x k) =? c); lia.
    - destruct (HF k i p Hp) as (k' & Hk' & Hw').
      { destruct Hh as [->|[->|[c ->]]]; discriminate. }
      destruct (Walk (k' - k)%nat k i p) as [H|(k1 & H1 & H2 & H3 & H4 & H5)]; auto.
      { rewrite <- Hw'. f_equal. lia. }
      pose proof (HC k1) as HC1. rewrite H2 in HC1.
      destruct (holder_turn Hn (HR k1) HC1 H3 Hh) as [A|(p' & A & Hh' & Hw2 & Hl)].
      + destruct (step_cases Hn (HR k1) (HC k1)) as [[m' H]|[H|[Hw Ht]]].
        * exists k1. split; auto. left. eauto.
        * exists (S k1). split; [lia|]. right. lia.
        * exfalso. destruct (holders_mid Sh HC1) as (c1 & q1 & q1' & P1 & P2 & P3 & P4).
          destruct (holders_mid Ex HC1) as (c2 & q2 & q2' & Q1 & Q2 & Q3 & Q4).
          assert (q1 = p) by congruence. assert (q2 = p) by congruence. assert (q1' = Idle) by congruence. assert (q2' = Idle) by congruence. subst q1 q2 q1' q2'.
          unfold total in Ht. rewrite P3, P4, Q3, Q4 in Ht. apply holdsb_iff in Hh. destruct m; rewrite Hh in Ht; cbn in Ht; lia.
      + assert (Ht : total (x (S k1)) = total (x k1) \/ Done k (total (x k))).
        { destruct (step_cases Hn (HR k1) (HC k1)) as [[m' H]|[H|[Hw Ht]]]; auto.
          - right. exists k1. split; auto. left. eauto.
          - right. exists (S k1). split; [lia|]. right. lia. }
        destruct Ht as [Ht|Ht]; auto.
        destruct (IH (S k1) i p' m A Hh') as (k2 & H6 & H7).
        { rewrite Hw2 in *. rewrite <- H4 in Hr. lia. }
        exists k2. split; [lia|]. rewrite Ht, H5 in H7. auto. }
  assert (G : forall h k, (total (x k) <= h)%nat -> exists k' i m, (k <= k')%nat /\ acquires m (x k') (x (S k')) i).
  { induction h as [|h IH]; intros k Hh.
    - destruct (@C67_free_lock_is_taken n x who k (k + 3 * n + 1) Hn (HE _)) as (k' & m & H1 & H2); try lia.
      + intros j m. apply none_holds. unfold total in Hh. destruct m; lia.
      + exists k', (who k'), m. split; [lia|auto].
    - destruct (total (x k)) as [|t] eqn:Et; [apply IH; lia|].
      assert (E : exists i p m, at_ (x k) i = Some p /\ holds m p).
      { assert (F : forall m, (1 <= holders m (x k))%nat -> exists i p m, at_ (x k) i = Some p /\ holds m p).
        { intros m H. unfold holders in H. destruct (filter (holdsb m) (clients (x k))) as [|p l] eqn:E; [cbn in H; lia|].
          assert (B : List.In p (filter (holdsb m) (clients (x k)))) by (rewrite E; left; auto).
          apply filter_In in B. destruct B as [B1 B2]. apply In_nth_error in B1. destruct B1 as [j B1].
          exists j, p, m. split; auto. apply holdsb_iff; auto. }
        unfold total in Et. destruct (holders Sh (x k)) eqn:E1; [apply (F Ex); lia|apply (F Sh); lia]. }
      destruct E as (i & p & m & Hp & HhP).
      destruct (Hold 3%nat k i p m Hp HhP) as (k' & H1 & [(i' & m' & H2)|H2]).
      + destruct p; cbn [rel_left]; try lia. destruct (word (x k) =? c); lia.
      + exists k', i', m'. auto.
      + destruct (IH k') as (k2 & i2 & m2 & H3 & H4); [lia|]. exists k2, i2, m2. split; [lia|auto]. }
  intros a. apply (G (total (x a))). auto.
Qed.

(** ** Nobody in particular is promised it *)
(** A cycle of eight steps: client 0 reads the state; client 1 calls and acquires in mode [m']; client 0's
    exchange fails; client 1 gives the lock back; and again. *)
Inductive phase := F0 | F1 | F2 | F3 | F4 | F5 | F6 | F7.
Definition next (f : phase) : phase :=
  match f with F0 => F1 | F1 => F2 | F2 => F3 | F3 => F4 | F4 => F5 | F5 => F6 | F6 => F7 | F7 => F0 end.
Definition turn_of (m' : mode) (f : phase) : nat :=
  match f with F0 | F4 => 0 | F6 => match m' with Sh => 1 | Ex => 0 end | _ => 1 end%nat.
Definition pair_at (m m' : mode) (f : phase) : N * (pc * pc) :=
  match f with
  | F0 => (0, (Load m true, Idle))
  | F1 => (0, (Cas m true 0, Idle))
  | F2 => (0, (Cas m true 0, Load m' true))
  | F3 => (0, (Cas m true 0, Cas m' true 0))
  | F4 => (cas_new m' 0, (Cas m true 0, Hold m'))
  | F5 => (cas_new m' 0, (Load m true, Hold m'))
  | F6 => (cas_new m' 0, (Load m true, Unl1 m'))
  | F7 => (cas_new m' 0, (Load m true, match m' with Sh => Unl2 Sh 1 | Ex => Unl1 Ex end))
  end.
Fixpoint phase_at (k : nat) : phase := match k with O => F0 | S k => next (phase_at k) end.
Definition starving (n : nat) (m m' : mode) (k : nat) : lsys :=
  match k with
  | O => linit n
  | S k => let '(w, (p, q)) := pair_at m m' (phase_at k) in mkSys w (p :: q :: repeat Idle (n - 2))
  end.
Definition starver (m' : mode) (k : nat) : nat := match k with O => 0%nat | S k => turn_of m' (phase_at k) end.

Lemma phase_reach f k : exists k', (k <= k')%nat /\ phase_at k' = f.
Proof.
  assert (H : exists d, phase_at (d + k) = f).
  { assert (N : forall d, phase_at (d + k) = Nat.iter d next (phase_at k)) by (induction d as [|d IHd]; [reflexivity|change (next (phase_at (d + k)) = next (Nat.iter d next (phase_at k))); congruence]).
    destruct (phase_at k) eqn:E; destruct f;
      first [exists 0%nat; rewrite N; reflexivity|exists 1%nat; rewrite N; reflexivity|exists 2%nat; rewrite N; reflexivity|exists 3%nat; rewrite N; reflexivity
            |exists 4%nat; rewrite N; reflexivity|exists 5%nat; rewrite N; reflexivity|exists 6%nat; rewrite N; reflexivity|exists 7%nat; rewrite N; reflexivity]. }
  destruct H as [d H]. exists (d + k)%nat. split; [lia|auto].
Qed.
Lemma first_moves w p w' p' r : astep false w p w' p' -> cstep 0 (mkSys w (p :: r)) (mkSys w' (p' :: r)).
Proof. intros H. apply (@C_step 0 w w' [] p p' r); auto. Qed.
Lemma second_moves w o p w' p' r : astep false w p w' p' -> cstep 1 (mkSys w (o :: p :: r)) (mkSys w' (o :: p' :: r)).
Proof. intros H. apply (@C_step 1 w w' [o] p p' r); auto. Qed.

Lemma starving_executes n m m' b : (2 <= n)%nat -> executes n (starving n m m') (starver m') b.
Proof.
  intros Hn. split; [reflexivity|]. intros k _. destruct k as [|k].
  - cbn. destruct n as [|[|n]]; try lia. cbn. rewrite Nat.sub_0_r.
    apply first_moves. constructor.
  - cbn [starving starver phase_at]. destruct (phase_at k); cbn [pair_at turn_of next].
    + apply first_moves. apply A_load_go; reflexivity.
    + apply second_moves. constructor.
    + apply second_moves. apply A_load_go; reflexivity.
    + apply second_moves. apply (A_cas_ok m' true 0). destruct m'; reflexivity.
    + apply first_moves. apply (@A_cas_fail _ m true 0). destruct m, m'; discriminate.
    + apply second_moves. constructor.
    + destruct m'.
      * apply second_moves. apply (@A_unl1_fail 1 Sh). discriminate.
      * apply first_moves. apply (@A_load_block _ m true); [reflexivity|discriminate].
    + destruct m'.
      * apply second_moves. apply (@A_unl2_ok 1 Sh 1). reflexivity.
      * apply second_moves. apply (@A_unl1_ok EXCLUSIVE Ex). reflexivity.
Qed.

(** C67, refuted for a single client: with two clients or more, whatever the mode [m] it asks for and the
    mode [m'] the other one asks for, there is a fair execution in which one client stays inside
    [lock()] or [lock_mut()] for ever, getting turn after turn, while another acquires and gives back the
    lock again and again.  With [m = Sh] and [m' = Sh] the lock is never even held exclusively. *)
Theorem C67_starvation_refuted : forall n m m', (2 <= n)%nat ->
  exists x who, (forall b, executes n x who b) /\ fair x who /\
    (forall k, waits m (x (S k)) 0) /\ (forall a, exists k, (a <= k)%nat /\ who k = 0%nat) /\
    (forall a, exists k, (a <= k)%nat /\ acquires m' (x k) (x (S k)) 1) /\
    (forall a, exists k, (a <= k)%nat /\ gives_back m' (x k) (x (S k)) 1) /\
    (forall a, exists k, (a <= k)%nat /\ forall j m0, ~ has m0 (x k) j) /\
    (forall k j m0, has m0 (x k) j -> m0 = m').
Proof.
  intros n m m' Hn. exists (starving n m m'), (starver m').
  assert (Rest : forall j p, nth_error (repeat Idle (n - 2)) j = Some p -> p = Idle).
  { intros j p H. apply nth_error_In in H. apply repeat_spec in H. auto. }
  assert (Init : forall j p, at_ (linit n) j = Some p -> p = Idle).
  { intros j p H. unfold at_, linit in H; cbn [clients] in H. apply nth_error_In in H. apply repeat_spec in H. auto. }
  assert (T0 : forall a, exists k, (a <= k)%nat /\ starver m' k = 0%nat).
  { intros a. destruct (phase_reach F0 a) as (k & H1 & H2). exists (S k). split; [lia|]. cbn. rewrite H2. reflexivity. }
  assert (T1 : forall a, exists k, (a <= k)%nat /\ starver m' k = 1%nat).
  { intros a. destruct (phase_reach F1 a) as (k & H1 & H2). exists (S k). split; [lia|]. cbn. rewrite H2. reflexivity. }
  assert (At : forall k f j p, phase_at k = f -> at_ (starving n m m' (S k)) j = Some p ->
    (j = 0%nat /\ p = fst (snd (pair_at m m' f))) \/ (j = 1%nat /\ p = snd (snd (pair_at m m' f))) \/ p = Idle).
  { intros k f j p E H. unfold at_ in H. cbn [starving] in H. rewrite E in H.
    destruct (pair_at m m' f) as [w [u v]]. cbn [clients fst snd] in *.
    destruct j as [|[|j]]; cbn in H; [left; split; congruence|right; left; split; congruence|right; right; eauto]. }
  split; [intros b; apply starving_executes; auto|]. split.
  { intros k i p Hp Hi. destruct k as [|k].
    - apply Init in Hp. congruence.
    - destruct (At k _ i p eq_refl Hp) as [[-> _]|[[-> _]|E]]; auto. congruence. }
  split.
  { intros k. unfold waits, at_. cbn [starving]. destruct (phase_at k); cbn; eauto. }
  split; [exact T0|]. split; [|split; [|split]].
  - intros a. destruct (phase_reach F3 a) as (k & H1 & H2). exists (S k). split; [lia|].
    split.
    + intros (p & Hp & Hh). destruct (At k F3 1%nat p H2 Hp) as [[E _]|[[_ -> ]| -> ]]; [discriminate| |].
      * destruct Hh as [A|[A|[c A]]]; discriminate.
      * destruct Hh as [A|[A|[c A]]]; discriminate.
    + exists (Hold m'). split; [|red; auto]. unfold at_. cbn [starving phase_at]. rewrite H2. reflexivity.
  - intros a. destruct (phase_reach F7 a) as (k & H1 & H2). exists (S k). split; [lia|].
    split.
    + unfold has, at_. cbn [starving phase_at]. rewrite H2. cbn. eexists. split; [reflexivity|]. destruct m'; red; eauto.
    + intros (p & Hp & Hh). unfold at_ in Hp. cbn [starving phase_at] in Hp. rewrite H2 in Hp. cbn in Hp. injection Hp as <-.
      destruct Hh as [A|[A|[c A]]]; discriminate.
  - intros a. destruct (phase_reach F0 a) as (k & H1 & H2). exists (S k). split; [lia|].
    intros j m0 (p & Hp & Hh). destruct (At k F0 j p H2 Hp) as [[_ -> ]|[[_ -> ]| -> ]]; destruct Hh as [A|[A|[c A]]]; discriminate.
  - intros k j m0 (p & Hp & Hh). destruct k as [|k].
    + apply Init in Hp. subst. destruct Hh as [A|[A|[c A]]]; discriminate.
    + destruct (At k _ j p eq_refl Hp) as [[_ E]|[[_ E]|E]].
      * destruct (phase_at k); cbn in E; subst; destruct Hh as [A|[A|[c A]]]; discriminate.
      * destruct (phase_at k); cbn in E; subst p; destruct m', m0; destruct Hh as [A|[A|[c A]]]; congruence.
      * subst. destruct Hh as [A|[A|[c A]]]; discriminate.
Qed.

(** The hypotheses of the positive theorems are met: the starving execution is fair, and in it client 1
    gets the lock undisturbed in its three turns from step 2 to step 5 although client 0 is waiting too,
    and gives it back undisturbed in its three turns from step 6 to step 9. *)
Example C67_wait_example :
  let x := starving 3 Ex Sh in let who := starver Sh in
  executes 3 x who 9 /\ at_ (x 3%nat) 1 = Some (Load Sh true) /\ at_ (x 5%nat) 1 = Some (Hold Sh) /\
  turns who 1 3 5 = 2%nat /\ turns who 1 6 9 = 3%nat /\ at_ (x 9%nat) 1 = Some Idle.
Proof. cbv zeta. split; [apply starving_executes; lia|]. repeat split. Qed.

(** C67.  The code between two attempts looks as if a waiting thread slept longer and longer, then
    yielded.  It never does either: [nanos] starts at 1 and is only doubled above 32, so [lock()] and
    [lock_mut()] try again at once, however often they failed. *)
Theorem C67_waiting_never_pauses : forall k, pauses k first_nanos = repeat NoPause k.
Proof. induction k as [|k IH]; [reflexivity|].
  change (NoPause :: pauses k first_nanos = NoPause :: repeat NoPause k). congruence. Qed.
