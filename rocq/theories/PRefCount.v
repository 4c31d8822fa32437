(** PRefCount.v -- property theorems: C30, C31, C32. *)
From Coq Require Import NArith.
From Verif Require Import Base Lock PLock RefCount.
Set Implicit Arguments.

(** ** C30 *)
Definition is_owner (c : ptr_client) : bool := match c with Owner => true | _ => false end.
Definition is_destroying (c : ptr_client) : bool := match c with Destroying => true | _ => false end.
Definition cnt {T} (f : T -> bool) (l : list T) : nat := length (filter f l).
Lemma cnt_app {T} (f : T -> bool) l1 l2 : cnt f (l1 ++ l2) = cnt f l1 + cnt f l2.
Proof. unfold cnt. rewrite filter_app, app_length. reflexivity. Qed.
Lemma cnt_cons {T} (f : T -> bool) x l : cnt f (x :: l) = (if f x then 1 else 0) + cnt f l.
Proof. unfold cnt; cbn. destruct (f x); reflexivity. Qed.
Lemma cnt_pos {T} (f : T -> bool) l x : List.In x l -> f x = true -> 1 <= cnt f l.
Proof.
  induction l as [|y l IH]; cbn [List.In]; [tauto|]. rewrite cnt_cons. intros [->|H] E; [rewrite E; lia|].
  specialize (IH H E). lia.
Qed.
Lemma cnt_zero {T} (f : T -> bool) l : Forall (fun x => f x = false) l -> cnt f l = 0.
Proof. induction 1 as [|x l H _ IH]; [reflexivity|]. rewrite cnt_cons, H. auto. Qed.

Definition ptr_ok (s : ptrs) : Prop :=
  strong s = cnt is_owner (owners s) /\
  cnt is_destroying (owners s) + destroyed s = (if strong s =? 0 then 1 else 0).
Lemma ptr_step_ok s s' : ptr_step s s' -> ptr_ok s -> ptr_ok s'.
Proof.
  unfold ptr_ok. intros H [H1 H2]. destruct H as [n l1 l2 d|n l1 l2 d|n l1 l2 d]; cbn [strong owners destroyed] in *;
   rewrite ?cnt_app, ?cnt_cons in *; cbn [is_owner is_destroying] in *.
  - split; [lia|]. destruct (n =? 0) eqn:E; [apply Nat.eqb_eq in E; lia|]. cbn [Nat.eqb]. lia.
  - destruct (n =? 0) eqn:E; [apply Nat.eqb_eq in E; lia|]. apply Nat.eqb_neq in E.
    destruct (n =? 1) eqn:E1; cbn [is_owner is_destroying].
    + apply Nat.eqb_eq in E1. rewrite ?cnt_cons. cbn [is_owner is_destroying]. replace (n - 1 =? 0) with true by (symmetry; apply Nat.eqb_eq; lia). lia.
    + apply Nat.eqb_neq in E1. rewrite ?cnt_cons. cbn [is_owner is_destroying].
      destruct (n - 1 =? 0) eqn:E2; [apply Nat.eqb_eq in E2; lia|]. lia.
  - split; auto. destruct (n =? 0); lia.
Qed.
Lemma ptr_steps_ok s : ptr_steps ptr_init s -> ptr_ok s.
Proof.
  intros H. remember ptr_init as s0 eqn:E. induction H as [s|s s' s'' H IH H']; [subst; split; reflexivity|].
  eapply ptr_step_ok; eauto.
Qed.
(** C30: over any interleaving of clones and drops, the value is not destroyed while any clone lives, it is destroyed
    at most once, and once all clones are dropped (and their drops have returned) exactly once. *)
Theorem C30_shared_ptr_destroyed_once : forall s, ptr_steps ptr_init s ->
  (List.In Owner (owners s) -> destroyed s = 0) /\
  destroyed s <= 1 /\
  (Forall (fun c => c = PtrGone) (owners s) -> destroyed s = 1).
Proof.
  intros s H. destruct (ptr_steps_ok H) as [H1 H2]. split; [|split].
  - intros HO. pose proof (cnt_pos is_owner _ _ HO eq_refl). destruct (strong s =? 0) eqn:E; [apply Nat.eqb_eq in E; lia|lia].
  - destruct (strong s =? 0); lia.
  - intros HF. rewrite (cnt_zero is_owner) in H1.
    + rewrite (cnt_zero is_destroying) in H2; [rewrite H1 in H2; exact H2|].
      eapply Forall_impl; [|exact HF]. intros a ->; reflexivity.
    + eapply Forall_impl; [|exact HF]. intros a ->; reflexivity.
Qed.
Theorem C30_example : exists s, ptr_steps ptr_init s /\ owners s = [PtrGone; PtrGone] /\ destroyed s = 1.
Proof.
  exists (mkPtrs 0 [PtrGone; PtrGone] 1). split; [|split; reflexivity].
  pose proof (ps_refl ptr_init) as R.
  pose proof (ps_step R (P_clone 1 [] [] 0)) as R1.
  pose proof (ps_step R1 (P_drop 2 [] [Owner] 0)) as R2.
  pose proof (ps_step R2 (P_drop 1 [PtrGone] [] 0)) as R3.
  exact (ps_step R3 (P_destroy 0 [PtrGone] [] 0)).
Qed.

(** ** C31 *)
Local Open Scope N_scope.
Definition counted (h : handle) : bool :=
  match h with Live | Cloning _ | Keeping _ | Unlocking _ => true | _ => false end.
Definition is_removing (h : handle) : bool := match h with Removing => true | _ => false end.
Definition is_trying (h : handle) : bool := match h with Trying _ => true | _ => false end.
(** Where each call can be. *)
Definition h_ok (h : handle) : Prop :=
  match h with
  | Cloning p | Keeping p => p = Load Sh true \/ exists c, p = Cas Sh true c /\ c < EXCLUSIVE
  | Unlocking p => p = Unl1 Sh \/ exists c, p = Unl2 Sh c /\ c <> 0 /\ c <> EXCLUSIVE
  | Trying p => p = Load Ex false \/ exists c, p = Cas Ex false c
  | _ => True
  end.
(** The count, or the exclusive bit once somebody won the right to remove the file. *)
Definition f_word (s : files) : Prop :=
  let n := (cnt counted (handles s) + kept s)%nat in
  (rcw s = N.of_nat n /\ (cnt is_removing (handles s) + removed s = 0)%nat) \/
  (rcw s = EXCLUSIVE /\ n = 0%nat /\ (cnt is_removing (handles s) + removed s = 1)%nat).
(** Fewer than 2^62 handles and do_not_delete calls. *)
Definition f_small (s : files) : Prop := N.of_nat (cnt counted (handles s) + kept s) < EXCLUSIVE.
Definition f_ok (s : files) : Prop := f_word s /\ Forall h_ok (handles s).
(** Without spurious failures: if the count is zero, somebody is about to remove the file. *)
Definition f_live (s : files) : Prop := rcw s = 0 -> (1 <= cnt is_trying (handles s))%nat.

Ltac fsplit := unfold f_word in *; cbn [rcw handles kept removed] in *; rewrite ?cnt_app, ?cnt_cons in *;
  cbn [counted is_removing is_trying] in *.

Lemma acq_sh sp w p w' p' : astep sp w p w' p' -> (p = Load Sh true \/ exists c, p = Cas Sh true c /\ c < EXCLUSIVE) -> w < POISONED ->
  (w' = w /\ p' <> Hold Sh /\ (p' = Load Sh true \/ exists c, p' = Cas Sh true c /\ c < EXCLUSIVE)) \/
  (w < EXCLUSIVE /\ w' = w + 1 /\ p' = Hold Sh).
Proof.
  intros HA Hp Hw. assert (W : w < 2 ^ 64) by (change (2 ^ 64) with (2 * POISONED); rewrite P_val in *; lia).
  destruct Hp as [->|(c & -> & Hc)]; inversion HA; subst; cbn [cas_expect cas_new would_block] in *.
  - exfalso. match goal with H : N.land _ _ <> 0 |- _ => apply H end. apply not_poisoned; auto.
  - left; repeat split; auto. discriminate.
  - left; repeat split; auto; [discriminate|]. right. eexists; split; eauto. apply not_exclusive; auto.
  - right. auto.
  - left; repeat split; auto. discriminate.
  - left; repeat split; auto. discriminate.
Qed.
Lemma unl_sh sp w p w' p' : astep sp w p w' p' -> (p = Unl1 Sh \/ exists c, p = Unl2 Sh c /\ c <> 0 /\ c <> EXCLUSIVE) ->
  w <> 0 -> w <> EXCLUSIVE ->
  (w' = w /\ p' <> Idle /\ (p' = Unl1 Sh \/ exists c, p' = Unl2 Sh c /\ c <> 0 /\ c <> EXCLUSIVE)) \/
  (w' = w - 1 /\ p' = Idle).
Proof.
  intros HA Hp H0 HE.
  assert (T : unlock_test Sh w = Unl2 Sh w).
  { destruct (unlock_test_cases Sh w) as [[_ [A|A]]|[-> _]]; tauto. }
  destruct Hp as [->|(c & -> & Hc0 & HcE)]; inversion HA; subst; try congruence; rewrite ?T.
  - left. split; auto. split; [discriminate|]. eauto.
  - right. auto.
  - left. split; auto. split; [discriminate|]. eauto.
  - left. split; auto. split; [discriminate|]. eauto.
Qed.
Lemma try_ex sp w p w' p' : astep sp w p w' p' -> (p = Load Ex false \/ exists c, p = Cas Ex false c) -> w < POISONED ->
  (w' = w /\ p' <> Idle /\ p' <> Hold Ex /\ (p' = Load Ex false \/ exists c, p' = Cas Ex false c)) \/
  (w' = w /\ p' = Idle /\ (sp = false -> w <> 0)) \/
  (w = 0 /\ w' = EXCLUSIVE /\ p' = Hold Ex).
Proof.
  intros HA Hp Hw. assert (W : w < 2 ^ 64) by (change (2 ^ 64) with (2 * POISONED); rewrite P_val in *; lia).
  destruct Hp as [->|(c & ->)]; inversion HA; subst; cbn [cas_expect cas_new would_block] in *.
  - exfalso. match goal with H : N.land _ _ <> 0 |- _ => apply H end. apply not_poisoned; auto.
  - right; left. repeat split; auto. intros _ ->. match goal with H : N.land 0 _ <> 0 |- _ => apply H end. reflexivity.
  - left. repeat split; auto; try discriminate. eauto.
  - right; right; auto.
  - right; left. auto.
  - right; left. repeat split; auto. discriminate.
Qed.

Lemma f_bound s : f_word s -> f_small s -> rcw s < POISONED.
Proof. unfold f_word, f_small. rewrite P_val, E_val. intros [[-> _]|[-> _]] H; lia. Qed.

Ltac finv HF a b c := apply Forall_app in HF; destruct HF as [a HF]; inversion HF as [|? ? b c]; subst; clear HF.

Lemma fstep_ok sp s s' : fstep sp s s' -> f_small s -> f_ok s -> f_ok s' /\ (sp = false -> f_live s -> f_live s').
Proof.
  intros HS SM [HW HF]. pose proof (f_bound HW SM) as HB. unfold f_small in SM. unfold f_ok, f_live.
  destruct HS; fsplit; finv HF HF1 HF2 HF3.
  all: try match goal with H : h_ok _ |- _ => cbn [h_ok] in H end.
  - split; [split|].
    + exact HW.
    + apply Forall_app; split; auto. constructor; auto. cbn. auto.
    + auto.
  - destruct (acq_sh H HF2 HB) as [(-> & _ & A)|(_ & _ & ->)]; [|congruence].
    split; [split|]; auto. apply Forall_app; split; auto; constructor; auto; try exact I.
  - destruct (acq_sh H HF2 HB) as [(_ & A & _)|(A & -> & _)]; [congruence|].
    split; [split|].
    + rewrite P_val, E_val in *. lia.
    + apply Forall_app; split; auto. constructor; [exact I|]. constructor; [exact I|auto].
    + lia.
  - split; [split|].
    + exact HW.
    + apply Forall_app; split; auto. constructor; auto. cbn. auto.
    + auto.
  - destruct (acq_sh H HF2 HB) as [(-> & _ & A)|(_ & _ & ->)]; [|congruence].
    split; [split|]; auto. apply Forall_app; split; auto; constructor; auto; try exact I.
  - destruct (acq_sh H HF2 HB) as [(_ & A & _)|(A & -> & _)]; [congruence|].
    split; [split|].
    + rewrite P_val, E_val in *. lia.
    + apply Forall_app; split; auto; constructor; [exact I|auto].
    + lia.
  - split; [split|].
    + exact HW.
    + apply Forall_app; split; auto. constructor; auto. cbn. auto.
    + auto.
  - assert (N0 : w <> 0 /\ w <> EXCLUSIVE) by (rewrite P_val, E_val in *; lia). destruct N0 as [N0 N1].
    destruct (unl_sh H HF2 N0 N1) as [(-> & _ & A)|(_ & ->)]; [|congruence].
    split; [split|]; auto. apply Forall_app; split; auto; constructor; auto; try exact I.
  - assert (N0 : w <> 0 /\ w <> EXCLUSIVE) by (rewrite P_val, E_val in *; lia). destruct N0 as [N0 N1].
    destruct (unl_sh H HF2 N0 N1) as [(_ & A & _)|(-> & _)]; [congruence|].
    split; [split|].
    + rewrite P_val, E_val in *. lia.
    + apply Forall_app; split; auto. constructor; auto. cbn; auto.
    + lia.
  - destruct (try_ex H HF2 HB) as [(-> & _ & _ & A)|[(_ & -> & _)|(_ & _ & ->)]]; try congruence.
    split; [split|]; auto. apply Forall_app; split; auto; constructor; auto; try exact I.
  - destruct (try_ex H HF2 HB) as [(_ & A & _)|[(-> & _ & A)|(_ & _ & A)]]; try congruence.
    split; [split|]; auto.
    + apply Forall_app; split; auto; constructor; auto; try exact I.
    + intros ->. specialize (A eq_refl). tauto.
  - destruct (try_ex H HF2 HB) as [(_ & _ & A & _)|[(_ & A & _)|(-> & -> & _)]]; try congruence.
    split; [split|].
    + rewrite P_val, E_val in *. lia.
    + apply Forall_app; split; auto; constructor; auto; try exact I.
    + rewrite E_val in *. lia.
  - split; [split|].
    + rewrite P_val, E_val in *. lia.
    + apply Forall_app; split; auto; constructor; auto; try exact I.
    + auto.
Qed.

(** Executions in which there are never 2^62 handles. *)
Inductive fsteps_small (spur : bool) : files -> files -> Prop :=
| fss_refl : forall s, fsteps_small spur s s
| fss_step : forall sp s s' s'', fsteps_small spur s s' -> (sp = true -> spur = true) -> f_small s' -> fstep sp s' s'' ->
    fsteps_small spur s s''.
Lemma fsteps_ok spur s : fsteps_small spur f_init s -> f_ok s /\ (spur = false -> f_live s).
Proof.
  intros H. remember f_init as s0 eqn:E. induction H as [s|sp s s' s'' H IH Hsp HSM HS].
  - subst. split; [split|].
    + left. split; reflexivity.
    + constructor; [exact I|constructor].
    + intros _ A. discriminate A.
  - destruct (IH E) as [A B]. destruct (fstep_ok HS HSM A) as [C D]. split; auto.
    intros ->. apply D; auto. destruct sp; auto. discriminate (Hsp eq_refl).
Qed.

(** C31, safety: whatever the interleaving, spurious failures included, the file is removed at most once, never while a
    handle is alive, never after do_not_delete. *)
Theorem C31_never_removed_too_early : forall s, fsteps_small true f_init s ->
  (removed s <= 1)%nat /\
  ((exists h, List.In h (handles s) /\ alive h = true) -> removed s = 0%nat) /\
  ((0 < kept s)%nat -> removed s = 0%nat).
Proof.
  intros s H. destruct (fsteps_ok H) as [[HW _] _]. unfold f_word in HW. split; [lia|]. split.
  - intros (h & Hh & HA). assert (C : counted h = true) by (destruct h; auto; discriminate).
    pose proof (cnt_pos counted _ _ Hh C). lia.
  - lia.
Qed.
(** C31, without spurious failures: once all the handles are dropped and their drops have returned, the file is removed,
    exactly if do_not_delete was never called. *)
Theorem C31_removed_after_last_drop_partial : forall s, fsteps_small false f_init s ->
  Forall (fun h => h = HGone) (handles s) -> removed s = (if (kept s =? 0)%nat then 1 else 0)%nat.
Proof.
  intros s H HF. destruct (fsteps_ok H) as [[HW _] HL]. specialize (HL eq_refl). unfold f_word, f_live in *.
  rewrite (cnt_zero counted), (cnt_zero is_removing) in HW by (eapply Forall_impl; [|exact HF]; intros a ->; reflexivity).
  rewrite (cnt_zero is_trying) in HL by (eapply Forall_impl; [|exact HF]; intros a ->; reflexivity).
  destruct (kept s =? 0)%nat eqn:E.
  - apply Nat.eqb_eq in E. rewrite E in *. cbn in HW. destruct HW as [[A _]|[A B]]; [|lia].
    exfalso. specialize (HL A). lia.
  - apply Nat.eqb_neq in E. lia.
Qed.

(** One spurious failure in the last drop leaves the file for ever. *)
Theorem C31_spurious_failure_leaks_refuted : exists s, fsteps_small true f_init s /\
  handles s = [HGone] /\ kept s = 0%nat /\ removed s = 0%nat.
Proof.
  exists (mkFiles 0 [HGone] 0 0). split; [|auto].
  assert (SM : forall w h, f_small (mkFiles w [h] 0 0)).
  { intros w h. unfold f_small, cnt; cbn [handles kept]. destruct h; cbn; reflexivity. }
  assert (st : forall sp s s', fstep sp s s' -> f_small s -> fsteps_small true f_init s -> fsteps_small true f_init s').
  { intros sp s s' H1 H2 H3. apply (fss_step (sp := sp) H3); auto. }
  eapply st with (sp := true) (s := mkFiles 0 ([] ++ [Trying (Cas Ex false 0)]) 0 0).
  { apply (F_try_err (sp := true) (w := 0) (p := Cas Ex false 0) [] [] 0 0). apply (A_cas_spurious Ex false 0). reflexivity. }
  { apply SM. }
  eapply st with (sp := false) (s := mkFiles 0 ([] ++ [Trying (Load Ex false)]) 0 0).
  { apply F_try_step with (sp := false); try discriminate. apply A_load_go; reflexivity. }
  { apply SM. }
  eapply st with (sp := false) (s := mkFiles 1 ([] ++ [Unlocking (Unl2 Sh 1)]) 0 0).
  { apply F_unlock_done. apply (A_unl2_ok Sh (w := 1) (c := 1)). reflexivity. }
  { apply SM. }
  eapply st with (sp := false) (s := mkFiles 1 ([] ++ [Unlocking (Unl1 Sh)]) 0 0).
  { apply F_unlock_step; try discriminate. change (Unl2 Sh 1) with (unlock_test Sh 1). constructor. discriminate. }
  { apply SM. }
  eapply st with (sp := false) (s := mkFiles 1 ([] ++ [Live]) 0 0).
  { apply F_drop. }
  { apply SM. }
  constructor.
Qed.

(** A temporary stream has no name in the directory any more when it is handed to the user, long before its last clone is
    dropped: the [NamedTempFile] it was opened from removes the name when [create] returns. *)
Theorem C31_temp_file_name_removed_at_creation_refuted : forall dir name,
  let '(dir', (n, s)) := temp_create dir name in
  n = name /\ handles s = [Live] /\ ~ List.In name dir'.
Proof.
  intros dir name. cbn. split; auto. split; auto. rewrite Nat.eqb_refl. cbn. rewrite filter_In, Nat.eqb_refl.
  cbn. intros [_ A]; discriminate.
Qed.

(** A run with two handles where the file ends removed once. *)
Theorem C31_example : exists s, fsteps_small false f_init s /\ handles s = [HGone; HGone] /\ removed s = 1%nat.
Proof.
  exists (mkFiles EXCLUSIVE [HGone; HGone] 0 1). split; [|auto].
  assert (SM : forall w h h', f_small (mkFiles w [h; h'] 0 0)).
  { intros w h h'. unfold f_small, cnt; cbn [handles kept]. destruct h, h'; cbn; reflexivity. }
  assert (SM1 : forall w h, f_small (mkFiles w [h] 0 0)).
  { intros w h. unfold f_small, cnt; cbn [handles kept]. destruct h; cbn; reflexivity. }
  assert (st : forall s s', fstep false s s' -> f_small s -> fsteps_small false f_init s -> fsteps_small false f_init s').
  { intros s s' H1 H2 H3. apply (fss_step (sp := false) H3); auto. }
  eapply st; [apply (F_remove EXCLUSIVE [HGone] [])|apply SM|].
  eapply st; [apply (F_try_ok (w := 0) (w' := EXCLUSIVE) (p := Cas Ex false 0) [HGone] []); apply (A_cas_ok Ex false 0); reflexivity|apply SM|].
  eapply st; [apply (F_try_step (w := 0) (p := Load Ex false) [HGone] []); [apply A_load_go; reflexivity|discriminate|discriminate]|apply SM|].
  eapply st; [apply (F_unlock_done (w := 1) (w' := 0) (p := Unl2 Sh 1) [HGone] []); apply (A_unl2_ok Sh (w := 1) (c := 1)); reflexivity|apply SM|].
  eapply st; [apply (F_unlock_step (w := 1) (w' := 1) (p := Unl1 Sh) (p' := unlock_test Sh 1) [HGone] []); [constructor; discriminate|discriminate]|apply SM|].
  eapply st; [apply (F_drop 1 [HGone] [])|apply SM|].
  eapply st; [apply (F_try_err (w := 1) (w' := 1) (p := Cas Ex false 1) [] [Live]); apply (A_cas_fail Ex false 1); discriminate|apply SM|].
  eapply st; [apply (F_try_step (w := 1) (p := Load Ex false) [] [Live]); [apply A_load_go; reflexivity|discriminate|discriminate]|apply SM|].
  eapply st; [apply (F_unlock_done (w := 2) (w' := 1) (p := Unl2 Sh 2) [] [Live]); apply (A_unl2_ok Sh (w := 2) (c := 2)); reflexivity|apply SM|].
  eapply st; [apply (F_unlock_step (w := 2) (w' := 2) (p := Unl1 Sh) (p' := unlock_test Sh 2) [] [Live]); [constructor; discriminate|discriminate]|apply SM|].
  eapply st; [apply (F_drop 2 [] [Live])|apply SM|].
  eapply st; [apply (F_clone_done (w := 1) (w' := 2) (p := Cas Sh true 1) [] []); apply (A_cas_ok Sh true 1); reflexivity|apply SM1|].
  eapply st; [apply (F_clone_step (w := 1) (p := Load Sh true) [] []); [apply A_load_go; reflexivity|discriminate]|apply SM1|].
  eapply st; [apply (F_clone 1 [] [])|apply SM1|].
  constructor.
Qed.

(** ** C32 *)
Definition d_ok (s : dyns) : Prop :=
  dw s = 1 /\ freed s = 0%nat /\
  Forall (fun c => match c with DLive | DGone => True | DTrying p => p = Load Ex false \/ exists c, p = Cas Ex false c | _ => False end) (dcl s).
Lemma dstep_ok s s' : dstep s s' -> d_ok s -> d_ok s'.
Proof.
  unfold d_ok. intros HS (H1 & H2 & HF). destruct HS; cbn [dw freed dcl] in *; subst; finv HF HF1 HF2 HF3; cbn in *; try contradiction.
  - repeat split; auto. apply Forall_app; split; auto.
  - repeat split; auto. apply Forall_app; split; auto.
  - destruct (try_ex H HF2 eq_refl) as [(-> & _ & _ & A)|[(_ & -> & _)|(A & _)]]; try congruence.
    repeat split; auto. apply Forall_app; split; auto.
  - destruct (try_ex H HF2 eq_refl) as [(_ & A & _)|[(-> & _ & A)|(A & _)]]; try congruence.
    repeat split; auto. apply Forall_app; split; auto.
  - destruct (try_ex H HF2 eq_refl) as [(_ & _ & A & _)|[(_ & A & _)|(A & _)]]; congruence.
Qed.
Lemma dsteps_ok s : dsteps d_init s -> d_ok s.
Proof.
  intros H. remember d_init as s0 eqn:E. induction H as [s|s s' s'' H IH HS].
  - subst. repeat split. repeat constructor.
  - eapply dstep_ok; eauto.
Qed.
(** C32, first half (a container is never freed while a clone is alive) holds because, refuting the second half, it
    is never freed at all: the count taken by [new] is never given back, so no [try_lock_mut] in [drop] succeeds. *)
Theorem C32_never_freed_while_alive : forall s, dsteps d_init s -> List.In DLive (dcl s) -> freed s = 0%nat.
Proof. intros s H _. apply (dsteps_ok H). Qed.
Theorem C32_never_freed_refuted : forall s, dsteps d_init s -> freed s = 0%nat.
Proof. intros s H. apply (dsteps_ok H). Qed.
(** ... although every clone can be dropped, for any number of clones. *)
Theorem C32_all_dropped : exists s, dsteps d_init s /\ dcl s = [DGone; DGone] /\ freed s = 0%nat.
Proof.
  exists (mkDyns 1 [DGone; DGone] 0). split; [|auto].
  assert (drop : forall l1 l2 s0, dsteps s0 (mkDyns 1 (l1 ++ DLive :: l2) 0) -> dsteps s0 (mkDyns 1 (l1 ++ DGone :: l2) 0)).
  { intros l1 l2 s0 R. 
    pose proof (ds_step R (D_drop 1 l1 l2 0)) as R1.
    assert (H2 : dstep (mkDyns 1 (l1 ++ DTrying (Load Ex false) :: l2) 0) (mkDyns 1 (l1 ++ DTrying (Cas Ex false 1) :: l2) 0)).
    { apply D_step with (sp := false); try discriminate. apply A_load_go; reflexivity. }
    pose proof (ds_step R1 H2) as R2.
    eapply ds_step; [exact R2|]. apply D_err with (sp := false) (p := Cas Ex false 1). apply (A_cas_fail Ex false 1). discriminate. }
  apply (drop [DGone] []). apply (drop [] [DLive]).
  eapply ds_step; [apply ds_refl|]. apply (D_clone 1 [] [] 0).
Qed.
