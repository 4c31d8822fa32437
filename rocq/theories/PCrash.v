(** PCrash.v -- C66: one thread's panic and the others. *)
From Verif Require Import Base PermSolve Block Spec LawsProof Sim Lock SeqConc PSeqConc Linear PLinear Array PArray Arch ArchProof PArch Crash.
Set Implicit Arguments.

Section Proof.
Context {K V : Type}.
Variable B : Block K V.
Notation thread := (thread B).
Notation psys := (psys B).

(** A live thread whose call took effect has its answer. *)
Definition answered (t : thread) : Prop := match t with Busy _ p false _ _ r => ~ List.In CallEnd p -> r <> None | _ => True end.
Record pinv (st : St B) (n : nat) (s : psys) : Prop := {
  pi_lin : linv st (p_sys s);
  pi_length : length (l_threads (p_sys s)) = n;
  pi_answered : Forall answered (l_threads (p_sys s));
  pi_gone : forall i, List.In i (p_gone s) -> exists t, nth_error (l_threads (p_sys s)) i = Some t /\ has_panicked t;
  pi_poison : p_gone s <> [] -> p_poison s = true;
  pi_dropped : p_dropped s <> [] -> p_poison s = true;
  pi_run : run B st (calls_made (l_effects (p_sys s))) = Ok (l_st (p_sys s), pairs_back (l_effects (p_sys s)))
}.

Lemma lstep_length (s s' : lsys B) : lstep s s' -> length (l_threads s') = length (l_threads s).
Proof. intros H. destruct H; cbn [l_threads]; try apply len_mid. destruct (modifies (method a)); cbn [l_threads]; apply len_mid. Qed.
(** A thread that has panicked takes no step. *)
Lemma lstep_panicked (s s' : lsys B) i t : lstep s s' -> nth_error (l_threads s) i = Some t -> has_panicked t -> nth_error (l_threads s') i = Some t.
Proof.
  assert (N : forall l1 (x y : thread) l2, ~ has_panicked x -> nth_error (l1 ++ x :: l2) i = Some t -> has_panicked t -> nth_error (l1 ++ y :: l2) i = Some t).
  { intros l1 x y l2 Hx Hi Ht. destruct (nth_replace _ _ y _ _ Hi) as [[-> ->]|[_ H]]; [contradiction|auto]. }
  intros H Hi Ht. destruct H; cbn [l_threads] in *; try (eapply N; eauto; cbn; tauto).
  destruct (modifies (method a)); cbn [l_threads]; eapply N; eauto; cbn; tauto.
Qed.
Lemma lstep_answered (s s' : lsys B) : lstep s s' -> Forall answered (l_threads s) -> Forall answered (l_threads s').
Proof.
  assert (N : forall l1 (x y : thread) l2, (answered x -> answered y) -> Forall answered (l1 ++ x :: l2) -> Forall answered (l1 ++ y :: l2)).
  { intros l1 x y l2 H F. apply Forall_app in F as [F1 F2]. inversion F2; subst. apply Forall_app; split; auto. }
  intros H. destruct H; cbn [l_threads]; try (apply N; cbn; auto; fail).
  - apply N. cbn. intros _ H1. exfalso. apply H1. destruct a; cbn; auto 10.
  - apply N. cbn. intros HA HI. apply HA. intros [->|HX]; [contradiction H|auto].
  - apply N. cbn. intros HA HI. apply HA. intros [HX|HX]; [discriminate|auto].
  - apply N. cbn. congruence.
  - destruct (modifies (method a)); cbn [l_threads]; apply N; cbn; auto.
Qed.
Lemma lstep_run st (s s' : lsys B) : lstep s s' -> linv st s ->
  run B st (calls_made (l_effects s)) = Ok (l_st s, pairs_back (l_effects s)) ->
  run B st (calls_made (l_effects s')) = Ok (l_st s', pairs_back (l_effects s')).
Proof.
  intros H' HI IH. destruct H' as [| | | |sh ex rd wr st0 l1 a p t v r l2 now es rs st' q HA| |]; auto.
  - cbn [l_effects l_st] in *.
    assert (Hv : v = st0).
    { destruct HI as (_ & HT & _). cbn [l_threads l_now l_st] in HT. apply Forall_app in HT. destruct HT as [_ HT].
      inversion HT as [|? ? HT1 HT2]; subst. destruct HT1 as (T1 & T2 & T3 & T4).
      destruct (T3 _ eq_refl eq_refl) as (v' & E & ->). congruence. }
    subst v.
    assert (Hst : (if modifies (method a) then st' else st0) = st').
    { destruct (modifies (method a)) eqn:M; auto. symmetry; eapply method_modifies_answer; eauto. }
    rewrite Hst. unfold calls_made, pairs_back in *. rewrite !flat_map_app. cbn [flat_map e_ask e_saw]. rewrite !app_nil_r.
    rewrite run_app, IH. cbn [bind]. rewrite (step_answer _ _ _ HA). reflexivity.
  - destruct (modifies (method a)); auto.
Qed.
(** What waits for the lock holds nothing. *)
Lemma waiting_free c m p : suffix_of c (Acq m :: p) -> p = tl (script c) /\ script c = Acq m :: p.
Proof.
  intros H. apply suffix_in in H.
  destruct c as [| | | | | | | |[]|[]]; unfold suffixes in H; cbn in H;
    repeat match goal with H : _ \/ _ |- _ => destruct H as [H|H] end; try discriminate H; try contradiction;
    injection H as <- <-; auto.
Qed.
Lemma linv_thread st sh ex rd wr s0 l1 (x : thread) l2 now es rs : linv st (mkL sh ex rd wr s0 (l1 ++ x :: l2) now es rs) -> thread_ok now s0 x.
Proof. intros (_ & HT & _). cbn [l_threads l_now l_st] in HT. apply Forall_app in HT as [_ HT]. inversion HT; auto. Qed.

Lemma pstep_inv st n e (s s' : psys) : uncaught e -> pstep e s s' -> pinv st n s -> pinv st n s'.
Proof.
  intros HE HS [H1 H2 H3 H4 H5 H6 H7]. inversion HS; subst; cbn [p_sys p_poison p_gone p_dropped] in *.
  - constructor; cbn [p_sys p_poison p_gone p_dropped]; auto.
    + eapply lstep_inv; eauto.
    + rewrite (lstep_length H). auto.
    + eapply lstep_answered; eauto.
    + intros i Hi. destruct (H4 i Hi) as (t & E & P). exists t. split; auto. eapply lstep_panicked; eauto.
    + eapply lstep_run; eauto.
  - pose proof H1 as TO; eapply linv_thread in TO; destruct TO as (T1 & T2 & T3 & T4). cbn [method] in T2.
    assert (W := waiting_free T2). destruct W as [_ W].
    constructor; cbn [p_sys p_poison p_gone p_dropped l_threads l_effects l_st] in *; auto.
    + eapply linv_quiet; [exact H1| | |].
      * destruct H1 as (HQ & _). unfold qof in HQ. cbn [l_sh l_ex l_rd l_wr l_threads] in HQ. rewrite map_app in *. cbn [map client_of] in *.
        eapply qok_swap; [exact HQ| | |reflexivity]; cbn [todo what]; rewrite <- W; intros x.
        -- symmetry. apply (proj1 (script_free CPush x Rd)).
        -- symmetry. apply (proj2 (script_free CPush Sh x)).
      * exact I.
      * cbn. intros i e. destruct r as [q|]; auto. exfalso. apply T4; [discriminate|]. rewrite <- W. cbn. auto 10.
    + rewrite (len_mid l1 l2 Idle (Busy (AskPush vs) (Acq m :: p) false t v r)). auto.
    + apply Forall_app in H3 as [F1 F2]. inversion F2; subst. apply Forall_app; split; auto. constructor; auto. exact I.
    + intros i Hi. destruct (H4 i Hi) as (u & E & P). exists u. split; auto.
      destruct (nth_replace _ _ Idle _ _ E) as [[-> ->]|[_ X]]; [contradiction|auto].
  - pose proof H1 as TO; eapply linv_thread in TO; destruct TO as (T1 & T2 & T3 & T4).
    constructor; cbn [p_sys p_poison p_gone p_dropped l_threads l_effects l_st] in *; auto.
    + eapply linv_quiet; [exact H1| | |].
      * destruct H1 as (HQ & _). unfold qof in HQ. cbn [l_sh l_ex l_rd l_wr l_threads] in HQ. rewrite map_app in *. cbn [map client_of] in *.
        eapply qok_swap; [exact HQ|reflexivity|reflexivity|].
        destruct HQ as (_ & _ & _ & _ & _ & _ & _ & _ & HF). cbn [cl] in HF. apply Forall_app in HF. destruct HF as [_ HF]. inversion HF; subst. auto.
      * split; [lia|]. split; [auto|]. split; [intros; discriminate|auto].
      * cbn. auto.
    + rewrite (len_mid l1 l2 _ (Busy a (Acq m :: p) false t v r)). auto.
    + apply Forall_app in H3 as [F1 F2]. inversion F2; subst. apply Forall_app; split; auto. constructor; auto. exact I.
    + intros i Hi. destruct (H4 i Hi) as (u & E & P). exists u. split; auto.
      destruct (nth_replace _ _ (Busy a (Acq m :: p) true t v r) _ _ E) as [[-> ->]|[_ X]]; [contradiction|auto].
  - constructor; cbn [p_sys p_poison p_gone p_dropped] in *; auto.
    + intros j Hj. apply in_app_or in Hj as [Hj|[<-|[]]]; [auto|]. eexists. split; [eassumption|exact I].
  - constructor; cbn [p_sys p_poison p_gone p_dropped] in *; auto.
  - destruct HE. reflexivity.
Qed.
Lemma pinit_inv st n : pinv st n (pinit B st n).
Proof.
  constructor; cbn [pinit p_sys p_poison p_gone p_dropped]; auto.
  - apply linit_inv.
  - cbn. apply repeat_length.
  - apply Forall_forall. intros t Ht. cbn in Ht. apply repeat_spec in Ht. subst. exact I.
  - intros i [].
Qed.
Lemma psteps_inv st n s : psteps uncaught (pinit B st n) s -> pinv st n s.
Proof.
  intros H. remember (pinit B st n) as s1 eqn:E. induction H as [s|s s' s'' e H IH He H']; subst; [apply pinit_inv|].
  eapply pstep_inv; eauto.
Qed.
Lemma calls_only_uncaught (s s' : psys) : psteps calls_only s s' -> psteps uncaught s s'.
Proof. intros H. induction H as [s|s s' s'' e H IH He H']; [constructor|]. econstructor; [exact IH| |exact H']. rewrite He. discriminate. Qed.
(** Only the panic of a call poisons, then. *)
Lemma poison_of_a_call st n s : psteps calls_only (pinit B st n) s -> p_poison s = true -> p_gone s <> [].
Proof.
  intros H. remember (pinit B st n) as s1 eqn:E. induction H as [s|s s' s'' e H IH He H']; subst; [discriminate|].
  specialize (IH eq_refl). inversion H'; subst; cbn [p_poison p_gone] in *; auto; try discriminate.
  intros _ E. destruct gone; discriminate E.
Qed.

(** Whatever the panics, the calls that returned an answer of the container got the answers of a sequential execution, as
    in C54 (pushes refused because of the poison are not in [l_returns] but in [p_dropped]). *)
Theorem C66_answers_are_sequential : forall (st : St B) n s, psteps uncaught (pinit B st n) s ->
  run B st (calls_made (l_effects (p_sys s))) = Ok (l_st (p_sys s), pairs_back (l_effects (p_sys s))) /\
  (forall h, watch B st (map e_ask (l_effects (p_sys s)) ++ h) = map e_saw (l_effects (p_sys s)) ++ watch B (l_st (p_sys s)) h) /\
  in_order (l_effects (p_sys s)) /\
  forall i, i < n -> exists done pending,
    filter (fun e => e_who e =? i) (l_effects (p_sys s)) = done ++ pending /\
    Forall2 effect_of done (filter (fun r => r_who r =? i) (l_returns (p_sys s))) /\
    length pending <= 1 /\ (nth_error (l_threads (p_sys s)) i = Some Idle -> pending = []).
Proof.
  intros st n s H. destruct (psteps_inv H) as [H1 H2 _ _ _ _ H7]. destruct H1 as (_ & _ & A3 & A4 & _ & A6 & _).
  split; [auto|]. split; [auto|]. split; [auto|]. rewrite <- H2.
  intros i Hi. destruct (nth_error (l_threads (p_sys s)) i) as [t|] eqn:E; [|apply nth_error_None in E; lia].
  destruct (A6 _ _ E) as (e1 & e2 & E1 & E2 & E3). exists e1, e2. split; [auto|]. split; [auto|].
  destruct t as [|a p d t0 v [q|]]; cbn in E3.
  - subst. cbn. auto.
  - destruct E3 as (e & -> & _). split; [cbn; auto|discriminate].
  - subst. cbn. auto.
Qed.

(** As long as no thread has panicked, in a call or elsewhere, no push is refused. *)
Theorem C66_no_panic_no_loss : forall (st : St B) n s, psteps calls_only (pinit B st n) s ->
  Forall (fun t => ~ has_panicked t) (l_threads (p_sys s)) -> p_poison s = false /\ p_dropped s = [].
Proof.
  intros st n s H F. destruct (psteps_inv (calls_only_uncaught H)) as [_ _ _ H4 _ H6 _]. pose proof (poison_of_a_call H) as H5.
  assert (G : p_gone s = []).
  { destruct (p_gone s) as [|i g] eqn:E; auto. exfalso. destruct (H4 i) as (t & Et & P); [left; auto|].
    rewrite Forall_forall in F. apply (F t); auto. eapply nth_error_In; eauto. }
  assert (P : p_poison s = false) by (destruct (p_poison s); auto; exfalso; apply H5; auto).
  split; auto. destruct (p_dropped s); auto. rewrite H6 in P by discriminate. discriminate P.
Qed.

(** ** Nobody waits for ever *)
Lemma work_app gone (l1 l2 : list thread) i : work_from gone i (l1 ++ l2) = work_from gone i l1 + work_from gone (i + length l1) l2.
Proof. revert i. induction l1 as [|t l1 IH]; intros i; cbn [work_from app length]; [rewrite Nat.add_0_r; auto|]. rewrite IH. replace (S i + length l1) with (i + S (length l1)) by lia. lia. Qed.
Definition weigh (gone : list nat) (i : nat) (t : thread) : nat :=
  match t with Idle => 0 | Busy _ p false _ _ _ => length p + 2 | Busy _ _ true _ _ _ => if existsb (Nat.eqb i) gone then 0 else 1 end.
Lemma work_mid gone (l1 : list thread) t l2 i : work_from gone i (l1 ++ t :: l2) = work_from gone i l1 + (weigh gone (i + length l1) t + work_from gone (S (i + length l1)) l2).
Proof. rewrite work_app. reflexivity. Qed.
Lemma weigh_dead gone i a p t v r : weigh gone i (Busy a p true t v r) <= 1.
Proof. cbn. destruct (existsb _ gone); lia. Qed.
Lemma lstep_work gone (s s' : lsys B) : lstep s s' -> (exists i, nth_error (l_threads s) i = Some Idle /\ nth_error (l_threads s') i <> Some Idle) \/
  work_from gone 0 (l_threads s') < work_from gone 0 (l_threads s).
Proof.
  intros H. destruct H; cbn [l_threads]; try (right; rewrite !work_mid; cbn [weigh length]; lia).
  - left. exists (length l1). rewrite !nth_mid. split; [auto|discriminate].
  - right. rewrite !work_mid. pose proof (@weigh_dead gone (0 + length l1) a (x :: p) t v r). cbn [weigh length] in *. lia.
  - right. destruct (modifies (method a)); cbn [l_threads]; rewrite !work_mid;
      match goal with |- context [weigh gone ?i (Busy a ?p true t (Some v) r)] => pose proof (@weigh_dead gone i a p t (Some v) r) end; cbn [weigh length] in *; lia.
Qed.
Lemma work_gone gone j (ts : list thread) : forall i, (forall k, j <> i + k \/ length ts <= k) -> work_from (gone ++ [j]) i ts = work_from gone i ts.
Proof.
  induction ts as [|t ts IH]; intros i H; cbn [work_from]; auto. rewrite IH.
  - f_equal. destruct t as [|a p [] t0 v r]; auto. rewrite existsb_app. cbn [existsb]. rewrite orb_false_r.
    destruct (Nat.eqb_spec i j) as [->|]; [|rewrite orb_false_r; auto]. destruct (H 0) as [X|X]; [lia|cbn in X; lia].
  - intros k. destruct (H (S k)) as [X|X]; [left; lia|right; cbn in X; lia].
Qed.
Lemma pstep_work (s s' : psys) : pstep Plain s s' -> ~ new_call s s' -> work s' < work s.
Proof.
  intros H N. inversion H; subst; unfold work; cbn [p_sys p_gone l_threads] in *.
  - destruct (lstep_work gone H0) as [X|X]; [exfalso; apply N; exact X|exact X].
  - rewrite !work_mid. cbn [weigh length]. lia.
  - rewrite !work_mid. pose proof (@weigh_dead gone (0 + length l1) a (Acq m :: p) t v r). cbn [weigh length] in *. lia.
  - destruct (nth_error_split _ _ H0) as (l1 & l2 & E & <-). rewrite E, !work_mid.
    rewrite work_gone by (intros k; lia). rewrite work_gone by (intros k; lia). cbn [weigh Nat.add].
    rewrite existsb_app. cbn [existsb]. rewrite Nat.eqb_refl, orb_true_r.
    assert (X : existsb (Nat.eqb (length l1)) gone = false).
    { destruct (existsb _ gone) eqn:X; auto. exfalso. apply existsb_exists in X as (y & Hy & Ey). apply Nat.eqb_eq in Ey. subst. auto. }
    rewrite X. lia.
Qed.

(** A live thread that does not wait for the lock can go on. *)
Lemma same_len_mid {T} (l1 l2 : list T) x y k : nth_error (l1 ++ x :: l2) k = Some y -> k <> length l1 -> forall z, nth_error (l1 ++ z :: l2) k = Some y.
Proof. intros H N z. destruct (nth_replace _ _ z _ _ H) as [[-> _]|[_ X]]; [congruence|auto]. Qed.
Lemma not_new sh ex rd wr st0 l1 (x y : thread) l2 now es rs sh' ex' rd' wr' st1 now' es' rs' p g d p' g' d' : x <> Idle ->
  ~ new_call (mkPs (mkL sh ex rd wr st0 (l1 ++ x :: l2) now es rs) p g d) (mkPs (mkL sh' ex' rd' wr' st1 (l1 ++ y :: l2) now' es' rs') p' g' d').
Proof.
  intros Hx (i & H1 & H2). cbn [p_sys l_threads] in *. apply H2. apply (@same_len_mid _ l1 l2 x Idle i H1).
  intros ->. rewrite nth_mid in H1. congruence.
Qed.
Lemma moves st n s i a x p t v r : pinv st n s -> nth_error (l_threads (p_sys s)) i = Some (Busy a (x :: p) false t v r) ->
  (forall m, x <> Acq m) -> exists s', pstep Plain s s' /\ ~ new_call s s'.
Proof.
  intros H E Hx. destruct s as [[sh ex rd wr st0 ts now es rs] poison gone ds]. cbn [p_sys l_threads] in E.
  destruct (nth_error_split _ _ E) as (l1 & l2 & -> & <-). pose proof (pi_lin H) as HL. cbn [p_sys] in HL. pose proof HL as TO.
  eapply linv_thread in TO. destruct TO as (T1 & T2 & T3 & T4).
  assert (A : forall sh' ex' rd' wr', plain x -> act x sh ex rd wr = Some (sh', ex', rd', wr') -> sh' <= sh -> ex' <= ex ->
    exists s', pstep Plain (mkPs (mkL sh ex rd wr st0 (l1 ++ Busy a (x :: p) false t v r :: l2) now es rs) poison gone ds) s' /\
      ~ new_call (mkPs (mkL sh ex rd wr st0 (l1 ++ Busy a (x :: p) false t v r :: l2) now es rs) poison gone ds) s').
  { intros sh' ex' rd' wr' Hp Ha L1 L2. eexists. split; [apply P_run; [apply L_act; eassumption|cbn; auto]|apply not_new; discriminate]. }
  destruct x as [m|m|acc|acc| | | | |].
  - destruct (Hx m). reflexivity.
  - destruct m; eapply A; cbn; eauto; lia.
  - destruct (act (In acc) sh ex rd wr) as [[[[sh' ex'] rd'] wr']|] eqn:Ea.
    + assert (Hle : sh' = sh /\ ex' = ex) by (destruct acc; cbn in Ea; destruct (_ =? 0); cbn in Ea; try discriminate; try (destruct (_ =? 0); cbn in Ea; try discriminate); inversion Ea; auto).
      destruct Hle; subst. eapply A; cbn; eauto.
    + eexists. split; [apply P_run; [apply L_panic; [reflexivity|exact Ea]|cbn; auto]|apply not_new; discriminate].
  - destruct acc; eapply A; cbn; eauto; lia.
  - eexists. split; [apply P_run; [apply L_begin|cbn; auto]|apply not_new; discriminate].
  - destruct (T3 _ eq_refl eq_refl) as (v' & -> & _). destruct (answer B v' a) as [[st' q]|] eqn:Ea.
    + eexists. split; [apply P_run; [eapply L_end; exact Ea|cbn; auto]|apply not_new; discriminate].
    + eexists. split; [apply P_run; [eapply L_end_panic; exact Ea|]|].
      * destruct (modifies (method a)); cbn; auto.
      * destruct (modifies (method a)); apply not_new; discriminate.
  - eapply A; cbn; eauto.
  - eapply A; cbn; eauto.
  - eapply A; cbn; eauto.
Qed.
Lemma holder m (l : list client) : cntO m l <> 0 -> exists i c, nth_error l i = Some c /\ hasO m (todo c) = true.
Proof.
  intros H. unfold cntO in H. destruct (filter (fun c => hasO m (todo c)) l) as [|c f] eqn:E; [cbn in H; lia|].
  assert (X : List.In c (filter (fun c => hasO m (todo c)) l)) by (rewrite E; left; auto).
  apply filter_In in X as [X1 X2]. apply In_nth_error in X1 as [i Hi]. eauto.
Qed.
Lemma holder_moves st n (s : psys) m : pinv st n s -> p_poison s = false -> cntO m (map (@client_of K V B) (l_threads (p_sys s))) <> 0 ->
  exists s', pstep Plain s s' /\ ~ new_call s s'.
Proof.
  intros H Hp Hc. destruct (holder _ _ Hc) as (i & c & E & Ho). rewrite nth_error_map in E.
  destruct (nth_error (l_threads (p_sys s)) i) as [u|] eqn:Eu; [|discriminate]. cbn in E. injection E as <-.
  destruct u as [|a p d t v r]; [discriminate Ho|]. cbn [client_of todo] in Ho.
  destruct d.
  - destruct s as [l poison gone ds]. cbn [p_sys p_poison] in *. subst poison.
    assert (G : gone = []) by (destruct gone; auto; exfalso; assert (X := pi_poison H); cbn in X; specialize (X ltac:(discriminate)); discriminate).
    subst gone. eexists. split; [eapply P_unwind; [exact Eu|intros []]|].
    intros (j & J1 & J2). cbn [p_sys] in *. auto.
  - destruct p as [|x p]; [discriminate Ho|]. apply (@moves st n s i a x p t v r H Eu).
    intros m' ->. destruct (pi_lin H) as (_ & HT & _). rewrite Forall_forall in HT. pose proof (HT _ (nth_error_In _ _ Eu)) as (_ & T2 & _).
    destruct (waiting_free T2) as [_ W]. rewrite <- W in Ho. rewrite (proj1 (script_free (method a) m Rd)) in Ho. discriminate Ho.
Qed.
Theorem C66_no_thread_waits_for_ever : forall (st : St B) n s, psteps uncaught (pinit B st n) s ->
  (forall t, List.In t (l_threads (p_sys s)) -> live_busy t -> exists s', pstep Plain s s' /\ ~ new_call s s') /\
  (forall k s', goes_on k s s' -> k + work s' <= work s).
Proof.
  intros st n s HR. split.
  - intros t Ht Hl. pose proof (psteps_inv HR) as H. destruct (In_nth_error _ _ Ht) as [i Ei].
    destruct t as [|a p [] t v r]; try contradiction. destruct p as [|x p].
    + destruct s as [[sh ex rd wr st0 ts now es rs] poison gone ds]. cbn [p_sys l_threads] in *.
      assert (Hr : exists q, r = Some q).
      { pose proof (pi_answered H) as F. rewrite Forall_forall in F. specialize (F _ Ht). cbn in F. destruct r; eauto. exfalso. apply F; auto. }
      destruct Hr as [q ->]. destruct (nth_error_split _ _ Ei) as (l1 & l2 & -> & <-).
      eexists. split; [apply P_run; [apply L_return|cbn; auto]|apply not_new; discriminate].
    + destruct x as [m|m|acc|acc| | | | |]; try (apply (@moves st n s i a _ p t v r H Ei); intros; discriminate).
      destruct (p_poison s) eqn:Hp.
      * destruct s as [[sh ex rd wr st0 ts now es rs] poison gone ds]. cbn [p_sys l_threads p_poison] in *. subst poison.
        destruct (nth_error_split _ _ Ei) as (l1 & l2 & -> & <-).
        assert (D : (exists vs, a = AskPush vs) \/ forall vs, a <> AskPush vs) by (destruct a; eauto; right; intros; discriminate).
        destruct D as [[vs ->]|D].
        -- eexists. split; [apply P_push_refused|apply not_new; discriminate].
        -- eexists. split; [apply P_refused; exact D|apply not_new; discriminate].
      * destruct (pi_lin H) as ((Q1 & Q2 & _) & _). unfold qof in *. cbn [nsh nex cl] in *.
        destruct (act (Acq m) (l_sh (p_sys s)) (l_ex (p_sys s)) (l_rd (p_sys s)) (l_wr (p_sys s))) as [[[[sh' ex'] rd'] wr']|] eqn:Ea.
        -- destruct s as [[sh ex rd wr st0 ts now es rs] poison gone ds]. cbn [p_sys l_threads l_sh l_ex l_rd l_wr p_poison] in *. subst poison.
           destruct (nth_error_split _ _ Ei) as (l1 & l2 & -> & <-).
           eexists. split; [apply P_run; [apply L_act; [exact I|exact Ea]|discriminate]|apply not_new; discriminate].
        -- assert (C : cntO Sh (map (@client_of K V B) (l_threads (p_sys s))) <> 0 \/ cntO Ex (map (@client_of K V B) (l_threads (p_sys s))) <> 0).
           { rewrite <- Q1, <- Q2. destruct m; cbn in Ea.
             - destruct (l_ex (p_sys s)); [discriminate|right; discriminate].
             - destruct (l_ex (p_sys s)); [|right; discriminate]. destruct (l_sh (p_sys s)); [discriminate|left; discriminate]. }
           destruct C as [C|C]; eapply holder_moves; eauto.
  - intros k s' G. induction G as [s|k s s1 s2 G IH P N|k s s1 s2 G IH P]; [lia| |]; specialize (IH HR); [pose proof (pstep_work P N)|inversion P; subst; unfold work in *; cbn [p_sys p_gone] in *]; lia.
Qed.

(** ** Poison is final *)
Definition outside (t : thread) : Prop := match t with Busy a p false _ _ _ => p = script (method a) | _ => True end.
Theorem C66_poison_is_final : forall ok (s s' : psys), p_poison s = true -> Forall outside (l_threads (p_sys s)) -> psteps ok s s' ->
  p_poison s' = true /\ l_st (p_sys s') = l_st (p_sys s) /\ l_effects (p_sys s') = l_effects (p_sys s) /\ l_returns (p_sys s') = l_returns (p_sys s).
Proof.
  intros ok s s' Hp Ho HS.
  enough (X : (p_poison s' = true /\ l_st (p_sys s') = l_st (p_sys s) /\ l_effects (p_sys s') = l_effects (p_sys s) /\ l_returns (p_sys s') = l_returns (p_sys s)) /\ Forall outside (l_threads (p_sys s'))) by tauto.
  induction HS as [s|s s1 s2 e HS IH _ H]; [auto|]. destruct (IH Hp Ho) as ((P & E1 & E2 & E3) & F). clear IH.
  assert (N : forall l1 (x y : thread) l2, outside y -> Forall outside (l1 ++ x :: l2) -> Forall outside (l1 ++ y :: l2)).
  { intros l1 x y l2 H1 H2. apply Forall_app in H2 as [F1 F2]. inversion F2; subst. apply Forall_app; split; auto. }
  assert (Hd : forall a x p t v r l1 l2, Forall outside (l1 ++ Busy a (x :: p) false t v r :: l2) -> exists m, x = Acq m).
  { intros a x p t v r l1 l2 H1. apply Forall_app in H1 as [_ H1]. inversion H1; subst. cbn in *. destruct a; cbn in *; match goal with H : _ = _ |- _ => injection H as -> _ end; eauto. }
  inversion H; subst; cbn [p_sys p_poison p_dropped] in *.
  - destruct H0; cbn [l_st l_effects l_returns l_threads l_sh l_ex] in *.
    + repeat split; auto. eapply N; eauto. reflexivity.
    + destruct (Hd _ _ _ _ _ _ _ _ F) as [m ->]. exfalso. match goal with Hz : _ = true -> _ /\ _ |- _ => destruct (Hz P) as [X Y] end. match goal with Ha : act _ _ _ _ _ = Some _ |- _ => rename Ha into H3 end. destruct m; cbn in H3.
      * destruct (ex =? 0); inversion H3; subst. lia.
      * destruct (ex =? 0) eqn:Z; [|discriminate]. apply Nat.eqb_eq in Z. subst. destruct (sh =? 0); inversion H3; subst. lia.
    + destruct (Hd _ _ _ _ _ _ _ _ F) as [m ->]. match goal with Ha : is_in _ = true |- _ => discriminate Ha end.
    + destruct (Hd _ _ _ _ _ _ _ _ F) as [m X]. discriminate X.
    + destruct (Hd _ _ _ _ _ _ _ _ F) as [m X]. discriminate X.
    + destruct (Hd _ _ _ _ _ _ _ _ F) as [m X]. discriminate X.
    + exfalso. apply Forall_app in F as [_ F]. inversion F; subst. cbn in *. destruct a; discriminate.
  - repeat split; auto. eapply N; eauto. exact I.
  - repeat split; auto. eapply N; eauto. exact I.
  - auto.
  - auto.
  - repeat split; auto. eapply N; eauto. exact I.
Qed.
End Proof.

(** ** What is false: the pushes of the other threads are lost *)
Section Refuted.
Context {K V : Type}.
Variable B : Block K V.
Variables (st st1 : St B) (x y z o1 : list (K * V)).
Hypothesis Hx : push B st x = Ok (st1, o1).

(** Thread 0 pushes [x] and has released the lock, not yet the container; thread 1, pushing [z], gets the lock, finds the
    container borrowed and panics, still holding the lock. *)
Definition P0 : thread B := Busy (AskPush x) [Out Wr] false 0 (Some st) (Some (SawPairs o1)).
Definition P1 : thread B := Busy (AskPush z) [In Wr; CallBegin; CallEnd; Rel Ex; Out Wr] true 6 None None.
Definition e1 : took_effect (K := K) (V := V) := mkEff 0 (AskPush x) (SawPairs o1) 4.
Definition r1 : returned (K := K) (V := V) := mkRet 0 (AskPush x) (SawPairs o1) 0 10.
Definition clash : psys B := mkPs (mkL 0 1 0 1 st1 [P0; P1] 9 [e1] []) false [] [].
(** Then thread 0 returns. *)
Definition back : psys B := mkPs (mkL 0 1 0 0 st1 [Idle; P1] 11 [e1] [r1]) false [] [].
Lemma clash_reached (ok : event -> Prop) : ok Plain -> psteps ok (pinit B st 2) back.
Proof.
  intros Hk.
  assert (go : forall s s1 s2, psteps ok s s1 -> pstep (K := K) (V := V) (B := B) Plain s1 s2 -> psteps ok s s2) by (intros; econstructor; eauto).
  assert (A : forall sh ex rd wr stt l l' now es rs sh' ex' rd' wr' st' now' es' rs', lstep (mkL sh ex rd wr stt l now es rs) (mkL sh' ex' rd' wr' st' l' now' es' rs') ->
     psteps ok (pinit B st 2) (mkPs (mkL sh ex rd wr stt l now es rs) false [] []) -> psteps ok (pinit B st 2) (mkPs (mkL sh' ex' rd' wr' st' l' now' es' rs') false [] [])).
  { intros. eapply go; [eassumption|]. apply P_run; [assumption|discriminate]. }
  pose (b0 := fun p v r => Busy (B := B) (AskPush x) p false 0 v r). pose (b1 := fun p => Busy (B := B) (AskPush z) p false 6 None None).
  assert (S0 : psteps ok (pinit B st 2) (mkPs (mkL 0 0 0 0 st [Idle; Idle] 0 [] []) false [] [])) by constructor.
  apply (A _ _ _ _ _ _ [b0 [Acq Ex; In Wr; CallBegin; CallEnd; Rel Ex; Out Wr] None None; Idle] _ _ _ 0 0 0 0 st 1 [] []) in S0; [|exact (@L_call K V B 0 0 0 0 st [] [Idle] (AskPush x) 0 [] [])].
  apply (A _ _ _ _ _ _ [b0 [In Wr; CallBegin; CallEnd; Rel Ex; Out Wr] None None; Idle] _ _ _ 0 1 0 0 st 2 [] []) in S0; [|exact (@L_act K V B 0 0 0 0 0 1 0 0 st [] (AskPush x) (Acq Ex) _ 0 None None [Idle] 1 [] [] I eq_refl)].
  apply (A _ _ _ _ _ _ [b0 [CallBegin; CallEnd; Rel Ex; Out Wr] None None; Idle] _ _ _ 0 1 0 1 st 3 [] []) in S0; [|exact (@L_act K V B 0 1 0 0 0 1 0 1 st [] (AskPush x) (In Wr) _ 0 None None [Idle] 2 [] [] I eq_refl)].
  apply (A _ _ _ _ _ _ [b0 [CallEnd; Rel Ex; Out Wr] (Some st) None; Idle] _ _ _ 0 1 0 1 st 4 [] []) in S0; [|exact (@L_begin K V B 0 1 0 1 st [] (AskPush x) _ 0 None None [Idle] 3 [] [])].
  apply (A _ _ _ _ _ _ [b0 [Rel Ex; Out Wr] (Some st) (Some (SawPairs o1)); Idle] _ _ _ 0 1 0 1 st1 5 [e1] []) in S0;
    [|refine (@L_end K V B 0 1 0 1 st [] (AskPush x) _ 0 st None [Idle] 4 [] [] st1 (SawPairs o1) _); cbn [answer]; rewrite Hx; reflexivity].
  apply (A _ _ _ _ _ _ [P0; Idle] _ _ _ 0 0 0 1 st1 6 [e1] []) in S0; [|exact (@L_act K V B 0 1 0 1 0 0 0 1 st1 [] (AskPush x) (Rel Ex) _ 0 (Some st) (Some (SawPairs o1)) [Idle] 5 [e1] [] I eq_refl)].
  apply (A _ _ _ _ _ _ [P0; b1 [Acq Ex; In Wr; CallBegin; CallEnd; Rel Ex; Out Wr]] _ _ _ 0 0 0 1 st1 7 [e1] []) in S0; [|exact (@L_call K V B 0 0 0 1 st1 [P0] [] (AskPush z) 6 [e1] [])].
  apply (A _ _ _ _ _ _ [P0; b1 [In Wr; CallBegin; CallEnd; Rel Ex; Out Wr]] _ _ _ 0 1 0 1 st1 8 [e1] []) in S0; [|exact (@L_act K V B 0 0 0 1 0 1 0 1 st1 [P0] (AskPush z) (Acq Ex) _ 6 None None [] 7 [e1] [] I eq_refl)].
  apply (A _ _ _ _ _ _ [P0; P1] _ _ _ 0 1 0 1 st1 9 [e1] []) in S0; [|exact (@L_panic K V B 0 1 0 1 st1 [P0] (AskPush z) (In Wr) _ 6 None None [] 8 [e1] [] eq_refl eq_refl)].
  apply (A _ _ _ _ _ _ [Busy (AskPush x) [] false 0 (Some st) (Some (SawPairs o1)); P1] _ _ _ 0 1 0 0 st1 10 [e1] []) in S0; [|exact (@L_act K V B 0 1 0 1 0 1 0 0 st1 [] (AskPush x) (Out Wr) _ 0 (Some st) (Some (SawPairs o1)) [P1] 9 [e1] [] I eq_refl)].
  apply (A _ _ _ _ _ _ [Idle; P1] _ _ _ 0 1 0 0 st1 11 [e1] [r1]) in S0; [|exact (@L_return K V B 0 1 0 0 st1 [] (AskPush x) 0 (Some st) (SawPairs o1) [P1] 10 [e1] [])].
  exact S0.
Qed.
End Refuted.
(** Two threads that only push, on any container: one panics because of the contention, its clone is dropped, and from
    then on a push by the other returns nothing and stores nothing: its elements are lost. *)
Theorem C66_pushes_are_lost_refuted : forall K V (B : Block K V) st st1 x y o1, push B st x = Ok (st1, o1) ->
  exists s, psteps uncaught (pinit B st 2) s /\ nth_error (l_threads (p_sys s)) 0 = Some Idle /\
    map (fun d => (d_who d, d_pairs d)) (p_dropped s) = [(0, y)] /\
    map (fun r => (r_who r, r_ask r, r_saw r)) (l_returns (p_sys s)) = [(0, AskPush x, SawPairs o1)] /\
    calls_made (l_effects (p_sys s)) = [OpPush x] /\ l_st (p_sys s) = st1.
Proof.
  intros K V B st st1 x y o1 Hx.
  exists (mkPs (mkL 0 1 0 0 st1 [Idle; P1 B y] 13 [e1 x o1] [r1 x o1]) true [1] [mkDropped 0 y 11 12]). split; [|repeat split].
  eapply (@ps_step _ _ _ _ _ _ _ Plain); [|intros ?; discriminate|exact (@P_push_refused K V B 0 1 0 0 st1 [] y Ex [In Wr; CallBegin; CallEnd; Rel Ex; Out Wr] 11 None None [P1 B y] 12 [e1 x o1] [r1 x o1] [1] [])].
  eapply (@ps_step _ _ _ _ _ _ _ Plain); [|intros ?; discriminate|apply P_run; [exact (@L_call K V B 0 1 0 0 st1 [] [P1 B y] (AskPush y) 11 [e1 x o1] [r1 x o1])|cbn; lia]].
  eapply (@ps_step _ _ _ _ _ _ _ Plain); [apply (@clash_reached K V B st st1 x y o1 Hx); intros ?; discriminate|intros ?; discriminate|]. apply (@P_unwind K V B (mkL 0 1 0 0 st1 [Idle; P1 B y] 11 [e1 x o1] [r1 x o1]) false [] [] 1 (AskPush y) [In Wr; CallBegin; CallEnd; Rel Ex; Out Wr] 6 None None eq_refl). intros [].
Qed.

(** One thread that only pushes, and a panic that has nothing to do with the container, in a thread that merely owns a
    clone: no call has panicked, the lock is free, and what is pushed from then on is lost. *)
Theorem C66_unrelated_panic_loses_refuted : forall K V (B : Block K V) st y,
  exists s, psteps uncaught (pinit B st 1) s /\ l_threads (p_sys s) = [Idle] /\ l_sh (p_sys s) = 0 /\ l_ex (p_sys s) = 0 /\
    map (fun d => (d_who d, d_pairs d)) (p_dropped s) = [(0, y)] /\ l_returns (p_sys s) = [] /\ l_st (p_sys s) = st.
Proof.
  intros K V B st y. exists (mkPs (mkL 0 0 0 0 st [Idle] 2 [] []) true [] [mkDropped 0 y 0 1]). split; [|repeat split].
  eapply (@ps_step _ _ _ _ _ _ _ Plain); [|intros ?; discriminate|exact (@P_push_refused K V B 0 0 0 0 st [] y Ex [In Wr; CallBegin; CallEnd; Rel Ex; Out Wr] 0 None None [] 1 [] [] [] [])].
  eapply (@ps_step _ _ _ _ _ _ _ Plain); [|intros ?; discriminate|apply P_run; [exact (@L_call K V B 0 0 0 0 st [] [] (AskPush y) 0 [] [])|cbn; lia]].
  eapply (@ps_step _ _ _ _ _ _ _ Elsewhere); [|intros ?; discriminate|exact (@P_elsewhere K V B (linit B st 1) false [] [])]. constructor.
Qed.

(** If the thread catches the panic, or its clone belongs to another thread, the lock is never released: whatever the other
    thread calls, it waits for ever (unless an owner of a clone panics elsewhere, which poisons the lock). *)
Definition stuck {K V} (B : Block K V) (t : thread B) : Prop := match t with Idle => True | Busy a p d _ _ _ => d = false /\ p = script (method a) end.
Theorem C66_caught_panic_blocks_refuted : forall K V (B : Block K V) st st1 x o1 a, push B st x = Ok (st1, o1) ->
  exists s t, psteps (fun e => e <> Elsewhere) (pinit B st 2) s /\ nth_error (l_threads (p_sys s)) 0 = Some (Busy a (script (method a)) false t None None) /\
    forall s', psteps (fun e => e <> Elsewhere) s s' ->
      nth_error (l_threads (p_sys s')) 0 = Some (Busy a (script (method a)) false t None None) /\ l_returns (p_sys s') = l_returns (p_sys s) /\ p_dropped s' = p_dropped s.
Proof.
  intros K V B st st1 x o1 a Hx.
  exists (mkPs (mkL 0 1 0 0 st1 [Busy a (script (method a)) false 12 None None; Idle] 13 [e1 x o1] [r1 x o1]) false [] []), 12. split; [|split; [reflexivity|]].
  - eapply (@ps_step _ _ _ _ _ _ _ Plain); [|discriminate|apply P_run; [exact (@L_call K V B 0 1 0 0 st1 [] [Idle] a 12 [e1 x o1] [r1 x o1])|discriminate]].
    eapply (@ps_step _ _ _ _ _ _ _ Catch); [apply (@clash_reached K V B st st1 x x o1 Hx); discriminate|discriminate|].
    apply (@P_catch K V B 0 1 0 0 st1 [Idle] (AskPush x) [In Wr; CallBegin; CallEnd; Rel Ex; Out Wr] 6 None None [] 11 [e1 x o1] [r1 x o1] false [] []). intros [].
  - intros s' HS.
    enough (X : (nth_error (l_threads (p_sys s')) 0 = Some (Busy a (script (method a)) false 12 None None) /\ l_returns (p_sys s') = [r1 x o1] /\ p_dropped s' = []) /\
       p_poison s' = false /\ l_ex (p_sys s') = 1 /\ Forall (@stuck K V B) (l_threads (p_sys s'))) by (cbn [l_returns p_sys p_dropped]; tauto).
    match goal with HS : psteps _ ?s s' |- _ => remember s as s0 eqn:Es end. induction HS as [s|s s1 s2 e HS IH He H]; subst.
    { cbn. repeat split; auto. constructor; [cbn; auto|]. constructor; [exact I|constructor]. }
    destruct (IH eq_refl) as ((N0 & R & D) & P & X & F). clear IH HS.
    assert (N : forall l1 (t u : thread B) l2, t <> Busy a (script (method a)) false 12 None None -> nth_error (l1 ++ t :: l2) 0 = Some (Busy a (script (method a)) false 12 None None) ->
       nth_error (l1 ++ u :: l2) 0 = Some (Busy a (script (method a)) false 12 None None)).
    { intros l1 t u l2 Ht Hn. destruct l1; cbn in *; [congruence|auto]. }
    assert (Hd : forall (a : ask K V) x p t v r l1 l2, Forall (@stuck K V B) (l1 ++ Busy a (x :: p) false t v r :: l2) -> exists m, x = Acq m).
    { intros a0 x0 p t v r l1 l2 H1. apply Forall_app in H1 as [_ H1]. inversion H1 as [|? ? E0 ?]; subst. destruct E0 as [_ E]. destruct a0; cbn in E; injection E as -> _; eauto. }
    inversion H; subst; cbn [p_sys p_poison p_dropped] in *; try discriminate P.
    + match goal with Hl : lstep _ _ |- _ => destruct Hl end; cbn [l_threads l_returns l_ex] in *.
      * repeat split; auto; [eapply N; eauto; discriminate|]. apply Forall_app in F as [F1 F2]. inversion F2; subst. apply Forall_app; split; auto. constructor; auto. cbn. auto.
      * destruct (Hd _ _ _ _ _ _ _ _ F) as [m ->]. exfalso. subst ex. match goal with Ha : act _ _ _ _ _ = Some _ |- _ => destruct m; discriminate Ha end.
      * destruct (Hd _ _ _ _ _ _ _ _ F) as [m ->]. match goal with Ha : is_in _ = true |- _ => discriminate Ha end.
      * destruct (Hd _ _ _ _ _ _ _ _ F) as [m E]. discriminate E.
      * destruct (Hd _ _ _ _ _ _ _ _ F) as [m E]. discriminate E.
      * destruct (Hd _ _ _ _ _ _ _ _ F) as [m E]. discriminate E.
      * exfalso. apply Forall_app in F as [_ F]. inversion F as [|? ? E0 ?]; subst. destruct E0 as [_ E]. destruct a0; discriminate E.
    + exfalso. match goal with Hn : nth_error _ _ = Some (Busy _ _ true _ _ _) |- _ => apply nth_error_In in Hn; rewrite Forall_forall in F; destruct (F _ Hn); discriminate end.
    + exfalso. apply He. reflexivity.
    + exfalso. apply Forall_app in F as [_ F]. inversion F as [|? ? E0 ?]; subst. destruct E0 as [E _]. discriminate E.
Qed.

(** Architectures: at every moment, whatever panics, what the calls that took effect pushed and did not get back is held. *)
Theorem C66_what_is_kept : forall K (OK : Ord K) (EK : OrdEq K) V dup (a : arch K V) n s,
  psteps uncaught (pinit (block a) (init a) n) s -> used dup a (calls_made (l_effects (p_sys s))) ->
  Permutation (pairs_back (l_effects (p_sys s)) ++ held a (l_st (p_sys s))) (pairs_given (l_effects (p_sys s))) /\
  size (block a) (l_st (p_sys s)) <= capacity (block a) (l_st (p_sys s)).
Proof.
  intros K OK EK V dup a n s HL HU. destruct (C66_answers_are_sequential HL) as [HR _].
  destruct (used_run HU) as (s1 & o1 & U1 & U2 & U3 & U4). rewrite HR in U1. injection U1 as <- <-.
  rewrite all_given_calls in U4. pose proof (arch_laws a (proj1 HU)) as L. split; [auto|]. apply (law_size L); auto.
Qed.

(** Non-vacuity: two threads over an Array of three elements. *)
Definition c66_arr : arch nat nat := ar 3.
Example C66_example : exists s, psteps uncaught (pinit (block c66_arr) (init c66_arr) 2) s /\ p_dropped s <> [] /\
  contains (block c66_arr) (l_st (p_sys s)) 1 = Ok true /\ contains (block c66_arr) (l_st (p_sys s)) 2 = Ok false /\
  used true c66_arr (calls_made (l_effects (p_sys s))).
Proof.
  assert (Hp : exists st1, push (block c66_arr) (init c66_arr) [(1, 10)] = Ok (st1, []) /\ contains (block c66_arr) st1 1 = Ok true /\ contains (block c66_arr) st1 2 = Ok false).
  { eexists. vm_compute. auto. }
  destruct Hp as (st1 & Hp & C1 & C2).
  destruct (@C66_pushes_are_lost_refuted nat nat (block c66_arr) (init c66_arr) st1 [(1, 10)] [(2, 20)] [] Hp) as (s & H & _ & H2 & H3 & H4 & <-).
  exists s. split; [exact H|]. split; [intros E; rewrite E in H2; discriminate H2|]. split; [auto|]. split; [auto|].
  rewrite H4. split; [reflexivity|]. apply allowedb_ok. vm_compute. reflexivity.
Qed.

Print Assumptions C66_answers_are_sequential.
Print Assumptions C66_no_panic_no_loss.
Print Assumptions C66_no_thread_waits_for_ever.
Print Assumptions C66_poison_is_final.
Print Assumptions C66_pushes_are_lost_refuted.
Print Assumptions C66_unrelated_panic_loses_refuted.
Print Assumptions C66_caught_panic_blocks_refuted.
Print Assumptions C66_what_is_kept.
