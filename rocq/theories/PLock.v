(** PLock.v -- property theorems: C27, C28. *)
From Coq Require Import NArith.
From Verif Require Import Base Lock.
Set Implicit Arguments.
Local Open Scope N_scope.

Lemma P_val : POISONED = 9223372036854775808. Proof. reflexivity. Qed.
Lemma E_val : EXCLUSIVE = 4611686018427387904. Proof. reflexivity. Qed.

Lemma land_pow2 w k : (N.land w (2 ^ k) = 0) <-> N.testbit w k = false.
Proof.
  split; intros H.
  - assert (A : N.testbit (N.land w (2 ^ k)) k = false) by (rewrite H; apply N.bits_0).
    rewrite N.land_spec, N.pow2_bits_true, andb_true_r in A. exact A.
  - apply N.bits_inj. intros j. rewrite N.land_spec, N.bits_0. destruct (N.eq_dec j k) as [->|Hn].
    + rewrite H. reflexivity.
    + rewrite N.pow2_bits_false; [apply andb_false_r|congruence].
Qed.
Lemma bit63 w : w < 2 ^ 64 -> N.testbit w 63 = (POISONED <=? w).
Proof.
  intros H. rewrite N.testbit_eqb. fold POISONED. change (2 ^ 64) with (2 * POISONED) in H.
  destruct (POISONED <=? w) eqn:E.
  - apply N.leb_le in E. replace (w / POISONED) with 1; [reflexivity|].
    apply N.div_unique with (w - POISONED); rewrite P_val in *; lia.
  - apply N.leb_gt in E. rewrite (N.div_small w) by auto. reflexivity.
Qed.
Lemma bit62_small w : w < POISONED -> N.testbit w 62 = (EXCLUSIVE <=? w).
Proof.
  intros H. rewrite N.testbit_eqb. fold EXCLUSIVE. change POISONED with (2 * EXCLUSIVE) in H.
  destruct (EXCLUSIVE <=? w) eqn:E.
  - apply N.leb_le in E. replace (w / EXCLUSIVE) with 1; [reflexivity|].
    apply N.div_unique with (w - EXCLUSIVE); rewrite E_val in *; lia.
  - apply N.leb_gt in E. rewrite (N.div_small w) by auto. reflexivity.
Qed.
Lemma not_poisoned w : w < 2 ^ 64 -> (N.land w POISONED = 0 <-> w < POISONED).
Proof.
  intros H. unfold POISONED at 1. rewrite land_pow2, bit63 by auto. rewrite N.leb_gt. reflexivity.
Qed.
Lemma not_exclusive w : w < POISONED -> (N.land w EXCLUSIVE = 0 <-> w < EXCLUSIVE).
Proof.
  intros H. unfold EXCLUSIVE at 1. rewrite land_pow2, bit62_small by auto. rewrite N.leb_gt. reflexivity.
Qed.
Lemma lor_poison w : w < 2 ^ 64 -> N.lor w POISONED = if POISONED <=? w then w else w + POISONED.
Proof.
  intros H. destruct (POISONED <=? w) eqn:E.
  - apply N.bits_inj. intros j. rewrite N.lor_spec. unfold POISONED.
    destruct (N.eq_dec j 63) as [->|Hn].
    + rewrite N.pow2_bits_true, orb_true_r, bit63, E by auto. reflexivity.
    + rewrite N.pow2_bits_false by congruence. apply orb_false_r.
  - apply N.leb_gt in E. rewrite N.add_nocarry_lxor.
    + symmetry. apply N.lxor_lor. apply not_poisoned; auto.
    + apply not_poisoned; auto.
Qed.

Lemma holdsb_iff m p : holdsb m p = true <-> holds m p.
Proof.
  unfold holds. split.
  - destruct p as [| | |[]|[]|[] c], m; cbn; try discriminate; eauto.
  - intros [->|[->|[c ->]]]; destruct m; reflexivity.
Qed.

(** The invariant: [w] against the numbers of shared and exclusive holders. *)
Definition word_ok (w : N) (s x : nat) : Prop :=
  (w = N.of_nat s /\ x = 0%nat) \/
  (w = EXCLUSIVE /\ s = 0%nat /\ (x <= 1)%nat) \/
  (w = POISONED + N.of_nat s /\ x = 0%nat) \/
  (w = POISONED + EXCLUSIVE /\ s = 0%nat /\ (x <= 1)%nat) \/
  (w = POISONED + EXCLUSIVE - 1 /\ s = 0%nat /\ x = 0%nat).
Definition pc_ok (p : pc) : Prop :=
  match p with
  | Unl2 _ c => c <> 0 /\ c <> EXCLUSIVE
  | Cas _ _ c => c < EXCLUSIVE
  | _ => True
  end.
Definition sys_ok (s : lsys) : Prop :=
  N.of_nat (length (clients s)) < EXCLUSIVE /\
  word_ok (word s) (holders Sh s) (holders Ex s) /\ Forall pc_ok (clients s).

Lemma unlock_test_ok m c : pc_ok (unlock_test m c).
Proof.
  unfold unlock_test. destruct (c =? 0) eqn:A; cbn [orb]; [exact I|].
  destruct (c =? EXCLUSIVE) eqn:B; [exact I|].
  apply N.eqb_neq in A, B. split; auto.
Qed.
Lemma unlock_test_cases m c :
  (unlock_test m c = Idle /\ (c = 0 \/ c = EXCLUSIVE)) \/ (unlock_test m c = Unl2 m c /\ c <> 0 /\ c <> EXCLUSIVE).
Proof.
  unfold unlock_test. destruct (c =? 0) eqn:A; cbn [orb].
  - apply N.eqb_eq in A. auto.
  - destruct (c =? EXCLUSIVE) eqn:B.
    + apply N.eqb_eq in B. auto.
    + apply N.eqb_neq in A, B. auto.
Qed.
Lemma would_block_ok m blk : pc_ok (would_block m blk).
Proof. destruct blk; exact I. Qed.

Lemma word_bound w s x : N.of_nat s < EXCLUSIVE -> word_ok w s x -> w < 2 ^ 64.
Proof. intros Hs H. change (2 ^ 64) with (2 * POISONED). unfold word_ok in H. rewrite P_val, E_val in *. lia. Qed.

Definition nb (b : bool) : nat := if b then 1%nat else 0%nat.
Lemma count_split m l1 p l2 :
  length (filter (holdsb m) (l1 ++ p :: l2)) =
  (nb (holdsb m p) + length (filter (holdsb m) (l1 ++ l2)))%nat.
Proof.
  rewrite !filter_app, !app_length. cbn [filter]. destruct (holdsb m p); cbn [length nb]; lia.
Qed.
Lemma count_le m l : (length (filter (holdsb m) l) <= length l)%nat.
Proof. induction l as [|p l IH]; cbn; auto. destruct (holdsb m p); cbn; lia. Qed.

Lemma holders_sum l : (length (filter (holdsb Sh) l) + length (filter (holdsb Ex) l) <= length l)%nat.
Proof.
  induction l as [|p l IH]; cbn; auto. destruct p as [| | |[]|[]|[] c]; cbn; lia.
Qed.

(** One atomic step keeps the invariant; [s], [x] count the other clients' holds. *)
Lemma astep_ok spur w p w' p' s x :
  astep spur w p w' p' ->
  N.of_nat s + N.of_nat x + 1 < EXCLUSIVE ->
  pc_ok p -> word_ok w (nb (holdsb Sh p) + s) (nb (holdsb Ex p) + x) ->
  pc_ok p' /\ word_ok w' (nb (holdsb Sh p') + s) (nb (holdsb Ex p') + x).
Proof.
  intros HA Hb Hp Hw.
  assert (W : w < 2 ^ 64).
  { apply word_bound with (2:=Hw). destruct (holdsb Sh p); cbn [nb]; lia. }
  destruct HA as [w m blk|w m blk H|w m blk H1 H2|w m blk H1 H2|w m blk c H|w m blk c H|w m blk c H
    |w m|w m H|w m H|w m H|w m c H|w m c y H Hy|w m c H].
  - split; [exact I|exact Hw].
  - split; [exact I|exact Hw].
  - split; [apply would_block_ok|destruct blk; exact Hw].
  - split; [|exact Hw]. cbn. apply not_poisoned in H1; auto. apply not_exclusive; auto.
  - subst w. cbn [pc_ok] in Hp. split; [exact I|]. destruct m; cbn [cas_expect cas_new holdsb nb Nat.add] in *.
    + unfold word_ok in *. rewrite P_val, E_val in *. lia.
    + unfold word_ok in *. rewrite P_val, E_val in *. lia.
  - split; [apply would_block_ok|destruct blk; exact Hw].
  - split; [apply would_block_ok|destruct blk; exact Hw].
  - split; [exact I|]. destruct m; exact Hw.
  - split; [apply unlock_test_ok|]. subst w. unfold unlock_test. rewrite N.eqb_refl, orb_true_r.
    destruct m; cbn [holdsb nb Nat.add] in *; unfold word_ok in *; rewrite P_val, E_val in *; lia.
  - split; [apply unlock_test_ok|]. destruct (unlock_test_cases m w) as [[-> Hc]|[-> Hc]].
    + destruct m; cbn [holdsb nb Nat.add] in *; unfold word_ok in *; rewrite P_val, E_val in *; lia.
    + destruct m; exact Hw.
  - split; [apply unlock_test_ok|]. destruct (unlock_test_cases m w) as [[-> Hc]|[-> Hc]].
    + destruct m; cbn [holdsb nb Nat.add] in *; unfold word_ok in *; rewrite P_val, E_val in *; lia.
    + destruct m; exact Hw.
  - split; [exact I|]. subst w. cbn in Hp.
    destruct m; cbn [holdsb nb Nat.add] in *; unfold word_ok in *; rewrite P_val, E_val in *; lia.
  - subst y. split; [apply unlock_test_ok|]. destruct (unlock_test_cases m w) as [[-> Hc]|[-> Hc]].
    + destruct m; cbn [holdsb nb Nat.add] in *; unfold word_ok in *; rewrite P_val, E_val in *; lia.
    + destruct m; exact Hw.
  - subst w. split; [apply unlock_test_ok|]. destruct (unlock_test_cases m c) as [[-> Hc]|[-> Hc]].
    + cbn in Hp. tauto.
    + destruct m; exact Hw.
Qed.

Lemma lstep_ok e s s' : lstep e s s' -> sys_ok s -> sys_ok s'.
Proof.
  intros HL [Hn [Hw Hp]]. destruct HL as [spur w w' l1 p p' l2 HA|w l]; unfold sys_ok, holders in *; cbn [word clients] in *.
  - rewrite count_split in Hw. rewrite (count_split Ex) in Hw.
    pose proof (holders_sum (l1 ++ l2)) as HS. rewrite app_length in Hn, HS. cbn [length] in Hn.
    apply Forall_app in Hp. destruct Hp as [Hp1 Hp2]. inversion Hp2 as [|? ? Hp3 Hp4]; subst.
    edestruct astep_ok as [A1 A2]; [exact HA| |exact Hp3|exact Hw|]; [lia|].
    split; [rewrite app_length; cbn [length]; exact Hn|]. split.
    + rewrite !count_split. exact A2.
    + apply Forall_app. auto.
  - split; auto. split; auto.
    assert (W : w < 2 ^ 64).
    { apply word_bound with (2:=Hw). pose proof (count_le Sh l). lia. }
    rewrite lor_poison by auto. destruct (POISONED <=? w) eqn:E; auto.
    apply N.leb_gt in E. unfold word_ok in *. rewrite P_val, E_val in *. lia.
Qed.
Lemma linit_ok n : N.of_nat n < EXCLUSIVE -> sys_ok (linit n).
Proof.
  intros H. assert (Z : forall m k, length (filter (holdsb m) (repeat Idle k)) = 0%nat).
  { intros m k; induction k; cbn; auto; destruct m; auto. }
  unfold sys_ok, linit, holders; cbn [word clients]. rewrite repeat_length, !Z. split; auto. split.
  - left. auto.
  - induction n; cbn; constructor; [exact I|apply IHn; lia].
Qed.
Lemma lsteps_ok ok s s' : lsteps ok s s' -> sys_ok s -> sys_ok s'.
Proof. induction 1; auto. intros H2. eapply lstep_ok; eauto. Qed.

Lemma nth_split_holder m l i p : nth_error l i = Some p -> holds m p ->
  (1 <= length (filter (holdsb m) l))%nat.
Proof.
  intros Hi Hh. destruct (nth_error_split l i Hi) as (l1 & l2 & -> & _). rewrite count_split.
  apply holdsb_iff in Hh. rewrite Hh. cbn; lia.
Qed.
Lemma two_holders m l i j p q : nth_error l i = Some p -> nth_error l j = Some q -> i <> j ->
  holds m p -> holds m q -> (2 <= length (filter (holdsb m) l))%nat.
Proof.
  intros Hi Hj Hn Hp Hq. destruct (nth_error_split l i Hi) as (l1 & l2 & -> & L). rewrite count_split.
  apply holdsb_iff in Hp. rewrite Hp. cbn [nb].
  assert (A : exists k, nth_error (l1 ++ l2) k = Some q).
  { destruct (Nat.lt_ge_cases j (length l1)) as [J|J].
    - exists j. rewrite nth_error_app1 in * by auto. auto.
    - rewrite nth_error_app2 in Hj by auto. destruct (j - length l1)%nat as [|d] eqn:D; [lia|].
      cbn in Hj. exists (length l1 + d)%nat. rewrite nth_error_app2 by lia.
      replace (length l1 + d - length l1)%nat with d by lia. auto. }
  destruct A as [k Hk]. pose proof (nth_split_holder _ _ Hk Hq). lia.
Qed.

(** C27.  Any number of clients below 2^62, any interleaving of the atomic steps, any spurious failure
    of the weak exchanges, any clone dropped by a panicking thread at any time: a client that holds the
    lock exclusively is the only holder. *)
Theorem C27_writer_excludes_everyone : forall n s i j p q m,
  N.of_nat n < EXCLUSIVE -> lsteps (fun _ => True) (linit n) s ->
  nth_error (clients s) i = Some p -> nth_error (clients s) j = Some q -> i <> j ->
  holds Ex p -> ~ holds m q.
Proof.
  intros n s i j p q m Hn HR Hi Hj Hij Hp Hq.
  destruct (lsteps_ok HR (linit_ok n Hn)) as [_ [Hw _]]. unfold holders in Hw.
  destruct m.
  - pose proof (nth_split_holder _ _ Hi Hp). pose proof (nth_split_holder _ _ Hj Hq).
    unfold word_ok in Hw. lia.
  - pose proof (two_holders _ Hi Hj Hij Hp Hq). unfold word_ok in Hw. lia.
Qed.

(** Without any event but normal steps the word is exactly the holders. *)
Definition exact (s : lsys) : Prop :=
  (word s = N.of_nat (holders Sh s) /\ holders Ex s = 0%nat) \/
  (word s = EXCLUSIVE /\ holders Sh s = 0%nat /\ holders Ex s = 1%nat).
Definition quiet (e : event) : Prop := e = Normal.

Definition quiet_pc (p : pc) : Prop := match p with Unl2 Ex _ => False | _ => True end.
Lemma astep_exact w p w' p' s x :
  astep false w p w' p' -> N.of_nat s + N.of_nat x + 1 < EXCLUSIVE -> pc_ok p -> quiet_pc p ->
  let ex w p := (w = N.of_nat (nb (holdsb Sh p) + s) /\ nb (holdsb Ex p) + x = 0)%nat \/
            (w = EXCLUSIVE /\ nb (holdsb Sh p) + s = 0 /\ nb (holdsb Ex p) + x = 1)%nat in
  ex w p -> ex w' p' /\ quiet_pc p'.
Proof.
  intros HA Hb Hp Hqp ex Hw. unfold ex in *; clear ex. remember false as spur eqn:Es.
  destruct HA as [w m blk|w m blk H|w m blk H1 H2|w m blk H1 H2|w m blk c H|w m blk c H|w m blk c H
    |w m|w m H|w m H|w m H|w m c H|w m c y H Hy|w m c H]; try discriminate Es; try (split; [exact Hw|exact I]).
  - destruct blk; (split; [exact Hw|exact I]).
  - subst w. split; [|exact I]. destruct m; cbn [cas_expect cas_new holdsb nb Nat.add pc_ok] in *; rewrite E_val in *; lia.
  - destruct blk; (split; [exact Hw|exact I]).
  - subst w. unfold unlock_test. rewrite N.eqb_refl, orb_true_r. split; [|exact I].
    destruct m; cbn [holdsb nb Nat.add] in *; rewrite E_val in *; lia.
  - destruct (unlock_test_cases m w) as [[-> Hc]|[-> Hc]].
    + split; [|exact I]. destruct m; cbn [holdsb nb Nat.add] in *; rewrite E_val in *; lia.
    + destruct m; (split; [exact Hw|try exact I]). cbn [holdsb nb Nat.add quiet_pc] in *; rewrite E_val in *; lia.
  - subst w. split; [|exact I]. destruct Hp. destruct m; [|destruct Hqp]. cbn [holdsb nb Nat.add] in *; rewrite E_val in *; lia.
  - subst y. destruct m; [|destruct Hqp]. destruct (unlock_test_cases Sh w) as [[-> Hc]|[-> Hc]].
    + split; [|exact I]. cbn [holdsb nb Nat.add] in *; rewrite E_val in *; lia.
    + split; [exact Hw|exact I].
Qed.
Lemma quiet_exact n s : N.of_nat n < EXCLUSIVE -> lsteps quiet (linit n) s ->
  sys_ok s /\ exact s /\ Forall quiet_pc (clients s).
Proof.
  intros Hn. remember (linit n) as s0 eqn:E0. induction 1 as [s|e s s' s'' HR IH He HL].
  - subst. split; [apply linit_ok; auto|]. pose proof (linit_ok n Hn) as [_ [H _]]. split.
    + left. unfold holders, linit in *. cbn [word clients] in *.
      unfold word_ok in H. rewrite P_val, E_val in H. lia.
    + cbn. clear. induction n; cbn; constructor; auto. exact I.
  - destruct (IH E0) as (OK & EX & QP). split; [eapply lstep_ok; eauto|]. red in He; subst e.
    inversion HL as [spur w w' l1 p p' l2 HA|]; subst. destruct spur; [discriminate|].
    destruct OK as [Hl [_ Hp]]. unfold exact, holders in *. cbn [word clients] in *.
    rewrite !count_split in EX. rewrite !count_split.
    pose proof (holders_sum (l1 ++ l2)) as HS. rewrite app_length in Hl, HS. cbn [length] in Hl.
    apply Forall_app in Hp. destruct Hp as [_ Hp2]. inversion Hp2; subst.
    apply Forall_app in QP. destruct QP as [Q1 Q2]. inversion Q2; subst.
    edestruct astep_exact with (1:=HA) as [A1 A2]; [|eassumption|eassumption|exact EX|]; [lia|].
    split; [exact A1|]. apply Forall_app; auto.
Qed.

Lemma normal_step w p w' p' l1 l2 : astep false w p w' p' ->
  lstep Normal (mkSys w (l1 ++ p :: l2)) (mkSys w' (l1 ++ p' :: l2)).
Proof. intros H. exact (L_client l1 l2 H). Qed.
Lemma spurious_step w p w' p' l1 l2 : astep true w p w' p' ->
  lstep Spurious (mkSys w (l1 ++ p :: l2)) (mkSys w' (l1 ++ p' :: l2)).
Proof. intros H. exact (L_client l1 l2 H). Qed.

(** C28, first half, when no weak exchange fails spuriously and nobody panics: the state of the lock is
    exactly the set of holders -- the number of shared holders, or the exclusive bit if there is one
    exclusive holder.  So each completed unlock leaves exactly one holder fewer in the state. *)
Theorem C28_state_is_holders_partial : forall n s,
  N.of_nat n < EXCLUSIVE -> lsteps quiet (linit n) s ->
  (word s = N.of_nat (holders Sh s) /\ holders Ex s = 0%nat) \/
  (word s = EXCLUSIVE /\ holders Sh s = 0%nat /\ holders Ex s = 1%nat).
Proof. intros n s Hn HR. apply (quiet_exact Hn HR). Qed.

(** ... so a lock that nobody holds can be acquired, in either mode, by two steps of a client about to
    try, and one that nobody holds exclusively can be acquired shared. *)
Theorem C28_free_lock_can_be_acquired : forall n s l1 m blk l2,
  N.of_nat n < EXCLUSIVE -> lsteps quiet (linit n) s ->
  clients s = l1 ++ Load m blk :: l2 ->
  holders Ex s = 0%nat -> (m = Ex -> holders Sh s = 0%nat) ->
  exists s', lsteps quiet s s' /\ clients s' = l1 ++ Hold m :: l2.
Proof.
  intros n [w cl] l1 m blk l2 Hn HR Hc HX HS. cbn in Hc; subst cl.
  destruct (quiet_exact Hn HR) as ([Hl _] & EX & _).
  assert (W : w = N.of_nat (holders Sh (mkSys w (l1 ++ Load m blk :: l2)))).
  { destruct EX as [[A _]|(_ & _ & A)]; [exact A|congruence]. }
  assert (B : w < EXCLUSIVE).
  { rewrite W. unfold holders; cbn [clients] in *. pose proof (count_le Sh (l1 ++ Load m blk :: l2)). lia. }
  assert (B2 : w < POISONED) by (rewrite P_val, E_val in *; lia).
  assert (S1 : lstep Normal (mkSys w (l1 ++ Load m blk :: l2)) (mkSys w (l1 ++ Cas m blk w :: l2))).
  { apply normal_step. apply A_load_go.
    - apply not_poisoned; auto. change (2 ^ 64) with (2 * POISONED). rewrite P_val in *; lia.
    - apply not_exclusive; auto. }
  assert (S2 : lstep Normal (mkSys w (l1 ++ Cas m blk w :: l2)) (mkSys (cas_new m w) (l1 ++ Hold m :: l2))).
  { apply normal_step. apply A_cas_ok.
    destruct m; cbn; auto. rewrite W, (HS eq_refl). reflexivity. }
  exists (mkSys (cas_new m w) (l1 ++ Hold m :: l2)). split; [|reflexivity].
  econstructor; [econstructor; [constructor| |exact S1]| |exact S2]; reflexivity.
Qed.

(** ... and unlock can always complete, whatever the state: run alone, it needs at most two atomic
    operations. *)
Theorem C28_unlock_completes : forall n s l1 m l2,
  N.of_nat n < EXCLUSIVE -> lsteps quiet (linit n) s -> clients s = l1 ++ Unl1 m :: l2 ->
  exists s', lsteps quiet s s' /\ clients s' = l1 ++ Idle :: l2 /\
    (holders m s = S (holders m s'))%nat.
Proof.
  intros n [w cl] l1 m l2 Hn HR Hc. cbn in Hc; subst cl.
  destruct (quiet_exact Hn HR) as ([Hl _] & EX & _).
  unfold exact, holders in *; cbn [word clients] in *. rewrite !count_split in EX.
  pose proof (holders_sum (l1 ++ l2)) as HS. rewrite app_length in Hl, HS. cbn [length] in Hl.
  assert (Count : holders m (mkSys w (l1 ++ Unl1 m :: l2)) = S (holders m (mkSys 0 (l1 ++ Idle :: l2)))).
  { unfold holders; cbn [clients]. rewrite !count_split. destruct m; reflexivity. }
  destruct (N.eq_dec w EXCLUSIVE) as [E|E].
  - exists (mkSys 0 (l1 ++ Idle :: l2)). split; [|split; [reflexivity|exact Count]].
    econstructor; [constructor|reflexivity|].
    replace Idle with (unlock_test m EXCLUSIVE) by (unfold unlock_test; rewrite N.eqb_refl, orb_true_r; reflexivity).
    apply normal_step. constructor. auto.
  - assert (Z : w <> 0) by (destruct m; cbn [holdsb nb Nat.add] in *; rewrite E_val in *; lia).
    exists (mkSys (w - 1) (l1 ++ Idle :: l2)). split; [|split; [reflexivity|exact Count]].
    assert (T : unlock_test m w = Unl2 m w).
    { destruct (unlock_test_cases m w) as [[_ [A|A]]|[-> _]]; tauto. }
    apply ls_step with (e := Normal) (s' := mkSys w (l1 ++ Unl2 m w :: l2)); [|reflexivity|].
    + apply ls_step with (e := Normal) (s' := mkSys w (l1 ++ Unl1 m :: l2)); [constructor|reflexivity|].
      rewrite <- T. apply normal_step. constructor. auto.
    + apply normal_step. constructor. reflexivity.
Qed.

(** C28, second half: a poisoned lock stays poisoned, whatever happens next, and nobody acquires it
    through a load made after that. *)
Lemma poisoned_iff n s : N.of_nat n < EXCLUSIVE -> lsteps (fun _ => True) (linit n) s ->
  (poisoned s <-> POISONED <= word s).
Proof.
  intros Hn HR. destruct (lsteps_ok HR (linit_ok n Hn)) as [Hl [Hw _]].
  assert (W : word s < 2 ^ 64).
  { apply word_bound with (2:=Hw). unfold holders. pose proof (count_le Sh (clients s)). lia. }
  unfold poisoned. rewrite (not_poisoned W). rewrite N.nlt_ge. reflexivity.
Qed.
Lemma lsteps_trans ok a b c : lsteps ok a b -> lsteps ok b c -> lsteps ok a c.
Proof. intros H1 H2. induction H2 as [|e x y z HS IH He HL]; auto. apply ls_step with e y; auto. Qed.

Theorem C28_poisoned_stays_poisoned : forall n s s',
  N.of_nat n < EXCLUSIVE -> lsteps (fun _ => True) (linit n) s -> poisoned s ->
  lsteps (fun _ => True) s s' -> poisoned s'.
Proof.
  intros n s s' Hn HR HP HS. induction HS as [s|e s s' s'' HS IH He HL]; auto.
  specialize (IH HR HP). pose proof (lsteps_trans HR HS) as HR'.
  assert (HR'' : lsteps (fun _ => True) (linit n) s'') by (econstructor; eauto).
  apply (poisoned_iff Hn HR''). apply (poisoned_iff Hn HR') in IH.
  pose proof (lsteps_ok HR' (linit_ok n Hn)) as [Hl [Hw Hp]].
  destruct HL as [spur w w' l1 p p' l2 HA|w l]; cbn [word clients] in *.
  - apply Forall_app in Hp. destruct Hp as [_ Hp]. inversion Hp as [|? ? Hq _]; subst.
    unfold holders in Hw; cbn [clients] in Hw. rewrite !count_split in Hw.
    destruct HA as [w m blk|w m blk H|w m blk H1 H2|w m blk H1 H2|w m blk c H|w m blk c H|w m blk c H
    |w m|w m H|w m H|w m H|w m c H|w m c y H Hy|w m c H]; auto.
    + subst w. destruct m; cbn [cas_expect cas_new pc_ok] in *; rewrite P_val, E_val in *; lia.
    + subst w. rewrite P_val, E_val in *; lia.
    + subst w. cbn in Hq. pose proof (holders_sum (l1 ++ l2)) as HC. rewrite app_length in Hl, HC. cbn [length] in Hl.
      destruct m; cbn [holdsb nb Nat.add] in *; unfold word_ok in Hw; rewrite P_val, E_val in *; lia.
  - assert (W : w < 2 ^ 64).
    { apply word_bound with (2:=Hw). unfold holders; cbn [clients]. pose proof (count_le Sh l). lia. }
    rewrite lor_poison by auto. destruct (POISONED <=? w) eqn:E; auto. lia.
Qed.

(** In a poisoned lock no acquisition succeeds: the holders only become fewer. *)
Theorem C28_poisoned_never_acquired : forall n s s' e m,
  N.of_nat n < EXCLUSIVE -> lsteps (fun _ => True) (linit n) s -> poisoned s ->
  lstep e s s' -> (holders m s' <= holders m s)%nat.
Proof.
  intros n s s' e m Hn HR HP HL.
  pose proof (lsteps_ok HR (linit_ok n Hn)) as [Hl [Hw Hp]]. apply (poisoned_iff Hn HR) in HP.
  destruct HL as [spur w w' l1 p p' l2 HA|w l]; cbn [word clients] in *; [|reflexivity].
  unfold holders; cbn [clients]. rewrite !count_split. apply Nat.add_le_mono_r.
  apply Forall_app in Hp. destruct Hp as [_ Hp]. inversion Hp as [|? ? Hq _]; subst.
  destruct HA as [w m' blk|w m' blk H|w m' blk H1 H2|w m' blk H1 H2|w m' blk c H|w m' blk c H|w m' blk c H
    |w m'|w m' H|w m' H|w m' H|w m' c H|w m' c y H Hy|w m' c H];
    try (destruct blk); try (destruct m'); try (destruct m); cbn [holdsb nb] in *; auto;
    try (unfold unlock_test; match goal with |- context [if ?b then _ else _] => destruct b end; cbn; auto; fail);
    cbn [cas_expect cas_new pc_ok] in *; rewrite ?P_val, ?E_val in *; lia.
Qed.

(** C28 is false of the code when the weak exchange may fail spuriously: one spurious failure of the first
    exchange of [unlock] in exclusive mode makes unlock return without releasing ([Err(EXCLUSIVE)] is
    taken for success, lock.rs:292-298).  From then on nobody ever holds the lock again, although nobody
    does hold it. *)
Definition stuck (s : lsys) : Prop :=
  (word s = EXCLUSIVE \/ POISONED <= word s) /\ holders Sh s = 0%nat /\ holders Ex s = 0%nat /\ sys_ok s.
Lemma stuck_step e s s' : lstep e s s' -> stuck s -> stuck s'.
Proof.
  intros HL (Hw & HS & HX & OK). pose proof (lstep_ok HL OK) as OK'.
  cut ((word s' = EXCLUSIVE \/ POISONED <= word s') /\ holders Sh s' = 0%nat /\ holders Ex s' = 0%nat); [unfold stuck; tauto|].
  destruct HL as [spur w w' l1 p p' l2 HA|w l]; cbn [word clients] in *.
  - destruct OK as [Hl [_ Hp]].
    apply Forall_app in Hp. destruct Hp as [_ Hp]. inversion Hp as [|? ? Hq _]; subst.
    unfold holders in *; cbn [clients] in *. rewrite !count_split in *.
    assert (N1 : holdsb Sh p = false) by (destruct (holdsb Sh p); cbn in HS; [discriminate HS|auto]).
    assert (N2 : holdsb Ex p = false) by (destruct (holdsb Ex p); cbn in HX; [discriminate HX|auto]).
    rewrite N1 in HS. rewrite N2 in HX. cbn [nb Nat.add] in HS, HX. rewrite HS, HX.
    destruct HA as [w m' blk|w m' blk H|w m' blk H1 H2|w m' blk H1 H2|w m' blk c H|w m' blk c H|w m' blk c H
    |w m'|w m' H|w m' H|w m' H|w m' c H|w m' c y H Hy|w m' c H];
    try (destruct blk); try (destruct m'); cbn [holdsb nb] in *; try discriminate; auto;
    cbn [cas_expect cas_new pc_ok] in *; rewrite ?P_val, ?E_val in *; lia.
  - destruct OK as [Hl [Hk _]].
    assert (W : w < 2 ^ 64).
    { apply word_bound with (2:=Hk). unfold holders; cbn [clients]. pose proof (count_le Sh l). cbn [clients] in Hl. lia. }
    split; [|split; auto]. right. rewrite lor_poison by auto.
    destruct (POISONED <=? w) eqn:E; [apply N.leb_le in E; auto|]. lia.
Qed.
Lemma stuck_steps ok s s' : lsteps ok s s' -> stuck s -> stuck s'.
Proof. induction 1; auto. intros; eapply stuck_step; eauto. Qed.

Theorem C28_spurious_failure_refuted : forall n, N.of_nat n < EXCLUSIVE -> (1 <= n)%nat ->
  exists s, lsteps (fun e => e <> Poison) (linit n) s /\
    clients s = repeat Idle n /\
    forall s', lsteps (fun _ => True) s s' -> holders Sh s' = 0%nat /\ holders Ex s' = 0%nat.
Proof.
  intros n Hn H1. destruct n as [|n]; [lia|].
  pose (rest := repeat Idle n). pose (f := fun w p => mkSys w ([] ++ p :: rest)).
  assert (R : lsteps (fun e => e <> Poison) (linit (S n)) (f EXCLUSIVE Idle)).
  { assert (st : forall w p w' p', astep false w p w' p' -> lsteps (fun e => e <> Poison) (linit (S n)) (f w p) ->
      lsteps (fun e => e <> Poison) (linit (S n)) (f w' p')).
    { intros w p w' p' HA HR. eapply ls_step with (e := Normal); eauto; [discriminate|].
      unfold f. apply normal_step. auto. }
    eapply ls_step with (e := Spurious) (s' := f EXCLUSIVE (Unl1 Ex)); [|discriminate|].
    - apply st with EXCLUSIVE (Hold Ex); [constructor|].
      apply st with 0 (Cas Ex false 0); [apply (A_cas_ok Ex false 0); reflexivity|].
      apply st with 0 (Load Ex false); [apply A_load_go; reflexivity|].
      apply st with 0 Idle; [constructor|]. constructor.
    - unfold f. 
      change Idle with (unlock_test Ex EXCLUSIVE) at 1. apply spurious_step. constructor. reflexivity. }
  exists (f EXCLUSIVE Idle). split; auto. split; [reflexivity|].
  intros s' HS. cut (stuck s'); [unfold stuck; tauto|]. apply (stuck_steps HS).
  assert (OK : sys_ok (f EXCLUSIVE Idle)) by (apply (lsteps_ok R), linit_ok; auto).
  assert (Z : forall m k, length (filter (holdsb m) (repeat Idle k)) = 0%nat).
  { intros m k; induction k; cbn; auto; destruct m; auto. }
  split; [left; reflexivity|]. unfold holders, f; cbn [clients]. rewrite !count_split, !app_nil_l. unfold rest.
  rewrite !Z. split; [reflexivity|]. split; [reflexivity|exact OK].
Qed.

(** A non-trivial reachable state for C27 and C28: of three clients, one acquires exclusively, releases,
    then two acquire shared. *)
Theorem lock_example : exists s, lsteps quiet (linit 3) s /\ holders Sh s = 2%nat /\ holders Ex s = 0%nat /\ word s = 2.
Proof.
  assert (st : forall w p w' p' l1 l2 s0, lsteps quiet s0 (mkSys w (l1 ++ p :: l2)) -> astep false w p w' p' ->
      lsteps quiet s0 (mkSys w' (l1 ++ p' :: l2))).
  { intros. eapply ls_step with (e := Normal); eauto; [reflexivity|].
    apply normal_step. auto. }
  pose proof (ls_refl quiet (linit 3)) as R.
  pose proof (st _ _ _ _ [] [Idle; Idle] _ R (A_call 0 Ex true)) as R1.
  pose proof (st _ _ _ _ [] [Idle; Idle] _ R1 (A_load_go 0 Ex true eq_refl eq_refl)) as R2.
  pose proof (st _ _ _ _ [] [Idle; Idle] _ R2 (A_cas_ok Ex true 0 eq_refl)) as R3.
  pose proof (st _ _ _ _ [] [Idle; Idle] _ R3 (A_unlock _ Ex)) as R4.
  pose proof (st _ _ _ _ [] [Idle; Idle] _ R4 (A_unl1_ok Ex eq_refl)) as R5.
  pose proof (st _ _ _ _ [Idle] [Idle] _ R5 (A_call 0 Sh true)) as R6.
  pose proof (st _ _ _ _ [Idle] [Idle] _ R6 (A_load_go 0 Sh true eq_refl eq_refl)) as R7.
  pose proof (st _ _ _ _ [Idle] [Idle] _ R7 (A_cas_ok Sh true 0 eq_refl)) as R8.
  pose proof (st _ _ _ _ [Idle; Hold Sh] [] _ R8 (A_call _ Sh false)) as R9.
  pose proof (st _ _ _ _ [Idle; Hold Sh] [] _ R9 (A_load_go 1 Sh false eq_refl eq_refl)) as R10.
  pose proof (st _ _ _ _ [Idle; Hold Sh] [] _ R10 (A_cas_ok Sh false 1 eq_refl)) as R11.
  eexists. split; [exact R11|]. repeat split.
Qed.
