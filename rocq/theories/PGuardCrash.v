(** PGuardCrash.v -- C66 for threads that hold guards of get and get_mut: panics, and the others. *)
From Verif Require Import Base Block Sim Lock SeqConc PSeqConc Linear PLinear Array Get Arch PGet Sim GuardConc PGuardConc InPlace PInPlace PCrash SeqConc GuardCrash.
Set Implicit Arguments.

Section Proof.
Context {K V : Type}.
Variable B : Block K V.
Variable G : Cells B.
Variable g : bool -> Getter B.
Hypothesis IP : in_place G g.
Notation gthread := (gthread G).
Notation gsys := (gsys G).
Notation hsys := (hsys G).

Definition g_dead (t : gthread) : Prop := match t with GBusy _ _ _ true _ _ _ _ _ => True | _ => False end.
(** A live thread whose call took effect has its answer or its guard. *)
Definition g_answered (t : gthread) : Prop :=
  match t with GBusy _ _ p false _ _ None _ r => ~ List.In CallEnd p -> r <> None | _ => True end.
Definition has_guard (t : gthread) : Prop := match t with GBusy _ _ _ _ _ _ (Some _) _ _ => True | _ => False end.
Record hinv (st : St B) (n : nat) (s : hsys) : Prop := {
  hi_lin : exists ref, ginv_at g ref st (h_sys s);
  hi_length : length (g_threads (h_sys s)) = n;
  hi_answered : Forall g_answered (g_threads (h_sys s));
  hi_gone : forall i, List.In i (h_gone s) -> exists t, nth_error (g_threads (h_sys s)) i = Some t /\ g_dead t;
  hi_poison : h_gone s <> [] -> h_poison s = true;
  hi_refused : h_refused s <> [] -> h_poison s = true;
  hi_doomed : forall i, List.In i (h_doomed s) -> exists t, nth_error (g_threads (h_sys s)) i = Some t /\ has_guard t
}.

Lemma gstep_length allowed (s s' : gsys) : gstep allowed s s' -> length (g_threads s') = length (g_threads s).
Proof. intros H. destruct H; cbn [g_threads]; try apply len_mid. destruct (modifies _); cbn [g_threads]; apply len_mid. Qed.
(** A step is a step of one live thread. *)
Lemma gstep_one allowed (s s' : gsys) : gstep allowed s s' -> exists l1 x y l2, g_threads s = l1 ++ x :: l2 /\ g_threads s' = l1 ++ y :: l2 /\ ~ g_dead x.
Proof. intros H. destruct H; try (do 4 eexists; split; [reflexivity|]; split; [reflexivity|]; intros []). destruct (modifies _); do 4 eexists; (split; [reflexivity|]); (split; [reflexivity|]); intros []. Qed.
Lemma gstep_dead allowed (s s' : gsys) i t : gstep allowed s s' -> nth_error (g_threads s) i = Some t -> g_dead t -> nth_error (g_threads s') i = Some t.
Proof.
  intros H Hi Ht. destruct (gstep_one H) as (l1 & x & y & l2 & E1 & E2 & N). rewrite E1 in Hi. rewrite E2.
  destruct (nth_replace _ _ y _ _ Hi) as [[-> ->]|[_ X]]; [contradiction|auto].
Qed.
Lemma answered_mid l1 (x y : gthread) l2 : (g_answered x -> g_answered y) -> Forall g_answered (l1 ++ x :: l2) -> Forall g_answered (l1 ++ y :: l2).
Proof. intros H F. apply Forall_app in F as [F1 F2]. inversion F2; subst. apply Forall_app; split; auto. Qed.
Lemma gstep_answered allowed (s s' : gsys) : gstep allowed s s' -> Forall g_answered (g_threads s) -> Forall g_answered (g_threads s').
Proof.
  intros H. destruct H; cbn [g_threads]; try (apply answered_mid; cbn; auto; fail).
  - apply answered_mid. cbn. intros _ H1. exfalso. apply H1. destruct a as [[]|[] ?]; cbn; auto 10.
  - apply answered_mid. destruct g0; cbn; auto. intros HA HI. apply HA. intros [->|HX]; [contradiction H|auto].
  - apply answered_mid. destruct g0; cbn; auto. intros HA HI. apply HA. intros [HX|HX]; [discriminate|auto].
  - apply answered_mid. destruct g0; cbn; auto. congruence.
  - destruct (modifies _); cbn [g_threads]; apply answered_mid; cbn; auto.
  - apply answered_mid. destruct g0; cbn; auto. congruence.
  - apply answered_mid. destruct g0; cbn; auto. intros HA HI. apply HA. intros [HX|HX]; [discriminate|auto].
  - apply answered_mid. destruct g0; cbn; auto. intros HA HI. apply HA. intros [HX|HX]; [discriminate|auto].
Qed.

Lemma doomed_mid l1 (x y : gthread) l2 (doomed : list nat) : (has_guard x -> has_guard y) ->
  (forall i, List.In i doomed -> exists t, nth_error (l1 ++ x :: l2) i = Some t /\ has_guard t) -> forall i, List.In i doomed -> exists t, nth_error (l1 ++ y :: l2) i = Some t /\ has_guard t.
Proof.
  intros Hx H i Hi. destruct (H i Hi) as (u & E & P). destruct (nth_replace _ _ y _ _ E) as [[-> ->]|[_ X]]; [|eauto].
  exists y. rewrite nth_mid. auto.
Qed.
Lemma gstep_doomed allowed (s s' : gsys) (doomed : list nat) : gstep allowed s s' ->
  (forall i, List.In i doomed -> nth_error (g_threads s') i <> Some (GIdle G)) ->
  (forall i, List.In i doomed -> exists t, nth_error (g_threads s) i = Some t /\ has_guard t) -> forall i, List.In i doomed -> exists t, nth_error (g_threads s') i = Some t /\ has_guard t.
Proof.
  intros H N HD. destruct H; cbn [g_threads] in *; try (apply doomed_mid with (2 := HD); cbn; tauto).
  - destruct (modifies _); cbn [g_threads] in *; apply doomed_mid with (2 := HD); cbn; tauto.
  - intros i Hi. destruct (HD i Hi) as (u & E & P). destruct (nth_replace _ _ (GIdle G) _ _ E) as [[-> ->]|[_ X]]; [|eauto].
    exfalso. apply (N _ Hi). apply nth_mid.
Qed.

(** A thread refused by the poisoned lock. *)
Lemma ends_in c : List.In CallEnd (script c).
Proof. destruct c as [| | | | | | | |[]|[]]; cbn; auto 10. Qed.
Lemma waits_free now ref st a m p d t v c log r : gthread_ok now ref st (GBusy G a (Acq m :: p) d t v c log r) -> c = None /\ log = [] /\ r = None /\ script (gmethod a false) = Acq m :: p.
Proof.
  intros (T1 & T2 & T3 & T4 & T5 & T6). destruct (waiting_free T3) as [_ W].
  assert (HE : List.In CallEnd (Acq m :: p)) by (rewrite <- W; apply ends_in).
  destruct c as [c|]. { destruct T6 as (? & ? & _ & T6 & _). contradiction. }
  split; [auto|]. split; [exact T6|]. split; [|exact W]. destruct r; auto. exfalso. apply T5; [discriminate|exact HE].
Qed.
Lemma refused_inv ref st sh ex rd wr s0 l1 a m p t v c log r l2 now es rs y :
  ginv_at g ref st (mkG sh ex rd wr s0 (l1 ++ GBusy G a (Acq m :: p) false t v c log r :: l2) now es rs) ->
  y = GIdle G \/ y = GBusy G a (Acq m :: p) true t v c log r ->
  ginv_at g ref st (mkG sh ex rd wr s0 (l1 ++ y :: l2) (S now) es rs).
Proof.
  intros HI Hy. pose proof HI as HH. apply thread_at in HH as (TO & _ & HQ). destruct (waits_free TO) as (-> & -> & -> & W). cbn [found] in *. destruct TO as (T1 & T2 & T3 & T4 & T5 & T6).
  eapply step_quiet; [exact HI| | | |].
  - rewrite map_app. cbn [map]. destruct Hy as [->| ->]; cbn [gclient] in *.
    + eapply qok_swap; [exact HQ| | |reflexivity]; cbn [todo what]; rewrite <- W; intros x; symmetry.
      * apply (proj1 (script_free _ x Rd)).
      * apply (proj2 (script_free _ Sh x)).
    + eapply qok_swap; [exact HQ|reflexivity|reflexivity|].
      destruct HQ as (_ & _ & _ & _ & _ & _ & _ & _ & HF). cbn [cl] in HF. apply Forall_app in HF. destruct HF as [_ HF]. inversion HF; subst. auto.
  - destruct Hy as [->| ->]; [exact I|]. split; [lia|]. split; [auto|]. split; [auto|]. split; [intros; discriminate|auto].
  - destruct Hy as [->| ->]; cbn; auto.
  - destruct a as [|[] ?]; intros [].
Qed.
Lemma gone_mid l1 (x y : gthread) l2 (gone : list nat) : ~ g_dead x ->
  (forall i, List.In i gone -> exists t, nth_error (l1 ++ x :: l2) i = Some t /\ g_dead t) -> forall i, List.In i gone -> exists t, nth_error (l1 ++ y :: l2) i = Some t /\ g_dead t.
Proof.
  intros Hx H i Hi. destruct (H i Hi) as (u & E & P). exists u. split; auto. destruct (nth_replace _ _ y _ _ E) as [[-> ->]|[_ X]]; [contradiction|auto].
Qed.
Lemma hstep_inv st n (s s' : hsys) : hstep gentle s s' -> hinv st n s -> hinv st n s'.
Proof.
  intros HS [H1 H2 H3 H4 H5 H6 H7]. destruct H1 as (ref & H1). inversion HS; subst; cbn [h_sys h_poison h_gone h_doomed h_refused] in *.
  - constructor; cbn [h_sys h_poison h_gone h_doomed h_refused]; auto.
    + eapply gstep_inv; eauto.
    + eapply gstep_length; eauto.
    + eapply gstep_answered; eauto.
    + intros i Hi. destruct (H4 i Hi) as (t & E & P). exists t. split; auto. eapply gstep_dead; eauto.
    + eapply gstep_doomed; eauto.
  - constructor; cbn [h_sys h_poison h_gone h_doomed h_refused g_threads] in *; auto.
    + exists ref. eapply refused_inv; [exact H1|auto].
    + apply len_mid.
    + eapply answered_mid; [|exact H3]. cbn; auto.
    + eapply gone_mid; [|exact H4]. intros [].
    + pose proof H1 as HH. apply thread_at in HH as (TO & _). destruct (waits_free TO) as (-> & _). eapply doomed_mid; [|exact H7]. intros [].
  - constructor; cbn [h_sys h_poison h_gone h_doomed h_refused g_threads] in *; auto.
    + exists ref. eapply refused_inv; [exact H1|auto].
    + apply len_mid.
    + eapply answered_mid; [|exact H3]. cbn; auto.
    + eapply gone_mid; [|exact H4]. intros [].
    + eapply doomed_mid; [|exact H7]. cbn. auto.
  - constructor; cbn [h_sys h_poison h_gone h_doomed h_refused] in *; eauto.
    + intros j Hj. apply in_app_or in Hj as [Hj|[<-|[]]]; [auto|]. eexists. split; [eassumption|exact I].
  - pose proof (G_done gentle sh ex rd wr st0 l1 a p t v (Some c) log r l2 now es rs) as ST.
    constructor; cbn [h_sys h_poison h_gone h_doomed h_refused g_threads] in *; auto.
    + eapply gstep_inv; [exact IP|exact ST|eauto].
    + apply len_mid.
    + exact (gstep_answered ST H3).
    + eapply gone_mid; [|exact H4]. intros [].
    + intros i [<-|Hi]; [rewrite nth_mid; eexists; split; [reflexivity|exact I]|]. revert i Hi. eapply doomed_mid; [|exact H7]. cbn. auto.
  - pose proof (G_return gentle sh ex rd wr st0 l1 a t v g0 log q l2 now es rs) as ST.
    constructor; cbn [h_sys h_poison h_gone h_doomed h_refused g_threads] in *; auto.
    + eapply gstep_inv; [exact IP|exact ST|eauto].
    + apply len_mid.
    + exact (gstep_answered ST H3).
    + eapply gone_mid; [|exact H4]. intros [].
    + intros i Hi. apply in_remove in Hi as [Hi N]. destruct (H7 i Hi) as (u & E & P). exists u. split; auto. destruct (nth_replace _ _ (GIdle G) _ _ E) as [[X _]|[_ X]]; congruence.
  - constructor; cbn [h_sys h_poison h_gone h_doomed h_refused] in *; eauto.
Qed.
Lemma hinit_inv st n : hinv st n (hinit G st n).
Proof.
  constructor; cbn [hinit h_sys h_poison h_gone h_doomed h_refused]; try tauto.
  - exists st. apply ginit_inv.
  - cbn. apply repeat_length.
  - apply Forall_forall. intros t Ht. cbn in Ht. apply repeat_spec in Ht. subst. exact I.
  - intros i [].
  - intros i [].
Qed.
Lemma hsteps_inv st n s : hsteps gentle (hinit G st n) s -> hinv st n s.
Proof.
  intros H. remember (hinit G st n) as s1 eqn:E. induction H as [s|s s' s'' H IH H']; subst; [apply hinit_inv|].
  eapply hstep_inv; eauto.
Qed.

Lemma crashed_guards_atomic st n s : hsteps gentle (hinit G st n) s -> exists ref,
  in_turn g st (map pair_of (g_effects (h_sys s))) ref /\ by_time (g_effects (h_sys s)) /\
  (Forall (fun t => ~ writing t) (g_threads (h_sys s)) -> g_st (h_sys s) = ref) /\
  (h_refused s <> [] -> h_poison s = true) /\
  forall i, i < n -> exists finished pending,
    filter (fun e => ge_who e =? i) (g_effects (h_sys s)) = finished ++ pending /\
    Forall2 geffect_of finished (filter (fun r => gr_who r =? i) (g_returns (h_sys s))) /\
    length pending <= 1 /\ (nth_error (g_threads (h_sys s)) i = Some (GIdle G) -> pending = []).
Proof.
  intros H. destruct (hsteps_inv H) as [(ref & A1 & A2 & _ & _ & _ & A4 & _ & A6 & _) L _ _ _ R _]. exists ref. split; [auto|]. split; [auto|]. split; [auto|]. split; [auto|].
  intros i Hi. destruct (nth_error (g_threads (h_sys s)) i) as [t|] eqn:E; [|apply nth_error_None in E; lia].
  destruct (A6 _ _ E) as (e1 & e2 & E1 & E2 & E3). exists e1, e2. split; [auto|]. split; [auto|].
  destruct t as [|a p d t0 v c log r]; cbn [gpend] in E3; [subst e2; split; [cbn; lia|auto]|].
  destruct r; [destruct E3 as (e & -> & _)|subst e2]; split; cbn; try lia; discriminate.
Qed.

(** ** Nobody waits for ever *)
Lemma g_work_app gone (l1 l2 : list gthread) i : g_work_from gone i (l1 ++ l2) = g_work_from gone i l1 + g_work_from gone (i + length l1) l2.
Proof. revert i. induction l1 as [|t l1 IH]; intros i; cbn [g_work_from app length]; [rewrite Nat.add_0_r; auto|]. rewrite IH. replace (S i + length l1) with (i + S (length l1)) by lia. lia. Qed.
Lemma g_work_mid gone (l1 : list gthread) t l2 i : g_work_from gone i (l1 ++ t :: l2) = g_work_from gone i l1 + (g_left gone (i + length l1) t + g_work_from gone (S (i + length l1)) l2).
Proof. rewrite g_work_app. reflexivity. Qed.
Lemma less_left gone l1 (x y : gthread) l2 : g_left gone (length l1) y < g_left gone (length l1) x -> g_work_from gone 0 (l1 ++ y :: l2) < g_work_from gone 0 (l1 ++ x :: l2).
Proof. intros H. rewrite !g_work_mid. cbn [Nat.add]. lia. Qed.
Lemma left_dead gone i a p t v c log r : g_left gone i (GBusy G a p true t v c log r) <= 1.
Proof. cbn. destruct (existsb _ gone); lia. Qed.
Lemma gstep_work gone allowed (s s' : gsys) : gstep allowed s s' ->
  (exists i, nth_error (g_threads s) i = Some (GIdle G) /\ nth_error (g_threads s') i <> Some (GIdle G)) \/
  g_work_from gone 0 (g_threads s') < g_work_from gone 0 (g_threads s) \/
  (g_work_from gone 0 (g_threads s') = g_work_from gone 0 (g_threads s) /\ exists i a p d t v c log r c' e,
    nth_error (g_threads s) i = Some (GBusy G a (GuardUse :: p) d t v (Some c) log r) /\
    nth_error (g_threads s') i = Some (GBusy G a (GuardUse :: p) d t v (Some c') (log ++ [e]) r)).
Proof.
  intros H. destruct H; cbn [g_threads].
  all: try (right; right; split; [rewrite !g_work_mid; reflexivity|exists (length l1); rewrite !nth_mid; repeat eexists; fail]).
  - left. exists (length l1). rewrite !nth_mid. split; [auto|discriminate].
  - right; left. apply less_left. destruct x; try contradiction H; cbn [g_left length existsb g_ends orb]; destruct a; lia.
  - right; left. apply less_left. pose proof (@left_dead gone (length l1) a (x :: p) t v g0 log r). cbn [g_left length] in *. lia.
  - right; left. apply less_left. cbn [g_left length existsb g_ends orb]. destruct a; lia.
  - right; left. apply less_left. cbn [g_left length]. lia.
  - right; left. destruct (modifies _); cbn [g_threads]; apply less_left;
      match goal with |- g_left gone ?i (GBusy _ ?a ?p true t ?w g0 log r) < _ => pose proof (@left_dead gone i a p t w g0 log r) end; cbn [g_left length] in *; lia.
  - right; left. apply less_left. cbn [g_left length existsb g_ends orb]. destruct (existsb _ p); lia.
  - right; left. apply less_left. cbn [g_left length existsb g_ends orb]. destruct m; cbn; lia.
  - right; left. apply less_left. match goal with |- g_left gone ?i (GBusy _ ?a ?p true t ?w g0 log r) < _ => pose proof (@left_dead gone i a p t w g0 log r) end; cbn [g_left length] in *; lia.
  - right; left. apply less_left. cbn [g_left length existsb g_ends orb]. destruct a; lia.
  - right; left. apply less_left. cbn [g_left length existsb g_ends orb]. destruct a; lia.
  - right; left. apply less_left. cbn [g_left length existsb g_ends orb]. destruct a; lia.
  - right; left. apply less_left. cbn [g_left length existsb g_ends orb]. destruct a; lia.
  - right; left. apply less_left. match goal with |- g_left gone ?i (GBusy _ ?a ?p true t ?w ?c log r) < _ => pose proof (@left_dead gone i a p t w c log r) end; cbn [g_left length] in *; lia.
  - right; left. apply less_left. cbn [g_left length]. lia.
Qed.
Lemma g_work_gone gone j (ts : list gthread) : forall i, (forall k, j <> i + k \/ length ts <= k) -> g_work_from (gone ++ [j]) i ts = g_work_from gone i ts.
Proof.
  induction ts as [|t ts IH]; intros i H; cbn [g_work_from]; auto. rewrite IH.
  - f_equal. destruct t as [|a p [] t0 v c log r]; auto. cbn [g_left]. rewrite existsb_app. cbn [existsb]. rewrite orb_false_r.
    destruct (Nat.eqb_spec i j) as [->|]; [|rewrite orb_false_r; auto]. destruct (H 0) as [X|X]; [lia|cbn in X; lia].
  - intros k. destruct (H (S k)) as [X|X]; [left; lia|right; cbn in X; lia].
Qed.
(** Every step is a new call, a use of a guard, a panic elsewhere, or leaves less to do. *)
Lemma hstep_work allowed (s s' : hsys) : hstep allowed s s' ->
  g_new_call s s' \/ g_work s' < g_work s \/ (g_work s' = g_work s /\ (g_uses s s' \/ g_elsewhere s s')).
Proof.
  intros H. inversion H; subst; unfold g_work, g_new_call, g_uses, g_elsewhere; cbn [h_sys h_gone g_threads] in *; auto.
  - destruct (gstep_work gone H0) as [X|[X|[X Y]]]; auto.
  - right; left. apply less_left. cbn [g_left length]. lia.
  - right; left. apply less_left. pose proof (@left_dead gone (length l1) a (Acq m :: p) t v g0 log r). cbn [g_left length] in *. lia.
  - right; left. destruct (nth_error_split _ _ H0) as (l1 & l2 & E & <-). rewrite E, !g_work_mid.
    rewrite g_work_gone by (intros k; lia). rewrite g_work_gone by (intros k; lia). cbn [g_left Nat.add].
    rewrite existsb_app. cbn [existsb]. rewrite Nat.eqb_refl, orb_true_r.
    assert (X : existsb (Nat.eqb (length l1)) gone = false).
    { destruct (existsb _ gone) eqn:X; auto. exfalso. apply existsb_exists in X as (y & Hy & Ey). apply Nat.eqb_eq in Ey. subst. auto. }
    rewrite X. lia.
  - right; left. apply less_left. cbn [g_left length existsb g_ends orb]. destruct a; lia.
  - right; left. apply less_left. cbn [g_left length]. lia.
  - right; right. split; [reflexivity|]. right. split; reflexivity.
Qed.
(** The log of a thread only grows when it uses its guard. *)
Definition g_log (t : gthread) : nat := match t with GBusy _ _ _ _ _ _ _ log _ => length log | GIdle _ => 0 end.
Lemma not_uses l1 (x y : gthread) l2 sh ex rd wr st0 now es rs sh' ex' rd' wr' st1 now' es' rs' p1 g1 d1 f1 p2 g2 d2 f2 : g_log y <= g_log x ->
  ~ g_uses (mkH (mkG sh ex rd wr st0 (l1 ++ x :: l2) now es rs) p1 g1 d1 f1) (mkH (mkG sh' ex' rd' wr' st1 (l1 ++ y :: l2) now' es' rs') p2 g2 d2 f2).
Proof.
  intros HL (i & a & p & d & t & v & c & log & r & c' & e & E1 & E2). cbn [h_sys g_threads] in *.
  destruct (nth_replace _ _ y _ _ E1) as [[-> Hx]|[_ X]].
  - subst x. rewrite nth_mid in E2. injection E2 as ->. cbn [g_log] in HL. rewrite app_length in HL. cbn in HL. lia.
  - rewrite X in E2. injection E2 as _ E2. apply (f_equal (@length _)) in E2. rewrite app_length in E2. cbn in E2. lia.
Qed.
Lemma not_new_call l1 (x y : gthread) l2 sh ex rd wr st0 now es rs sh' ex' rd' wr' st1 now' es' rs' p1 g1 d1 f1 p2 g2 d2 f2 : x <> GIdle G ->
  ~ g_new_call (mkH (mkG sh ex rd wr st0 (l1 ++ x :: l2) now es rs) p1 g1 d1 f1) (mkH (mkG sh' ex' rd' wr' st1 (l1 ++ y :: l2) now' es' rs') p2 g2 d2 f2).
Proof.
  intros Hx (i & H1 & H2). cbn [h_sys g_threads] in *. apply H2. apply (@same_len_mid _ l1 l2 x (GIdle G) i H1).
  intros ->. rewrite nth_mid in H1. congruence.
Qed.
Lemma uses_work allowed (s s' : hsys) : hstep allowed s s' -> g_uses s s' -> g_work s' <= g_work s.
Proof.
  intros H U. destruct (hstep_work H) as [N|[X|[X _]]]; try lia.
  destruct N as (i & N1 & N2). destruct U as (j & a & p & d & t & v & c & log & r & c' & e & E1 & E2).
  inversion H; subst; cbn [h_sys g_threads] in *; try contradiction.
  - destruct (gstep_one H0) as (l1 & x & y & l2 & L1 & L2 & _). rewrite L1, L2 in *.
    destruct (nth_replace _ _ y _ _ N1) as [[-> Hx]|[_ X]]; [subst x|congruence].
    destruct (nth_replace _ _ y _ _ E1) as [[-> X]|[_ X]]; [discriminate|]. rewrite X in E2. injection E2 as _ E2.
    apply (f_equal (@length _)) in E2. rewrite app_length in E2. cbn in E2. lia.
  - exfalso. apply N2. apply (@same_len_mid _ _ _ _ _ _ N1). intros ->. rewrite nth_mid in N1. discriminate.
  - exfalso. apply N2. apply (@same_len_mid _ _ _ _ _ _ N1). intros ->. rewrite nth_mid in N1. discriminate.
  - exfalso. apply N2. apply (@same_len_mid _ _ _ _ _ _ N1). intros ->. rewrite nth_mid in N1. discriminate.
  - exfalso. apply N2. apply (@same_len_mid _ _ _ _ _ _ N1). intros ->. rewrite nth_mid in N1. discriminate.
Qed.

(** A live thread that does not wait for the lock can go on. *)
Notation progress s := (exists s', hstep gentle s s' /\ ~ g_new_call s s' /\ ~ g_uses s s' /\ ~ g_elsewhere s s').
Lemma other_thread l1 (x y : gthread) l2 : y <> x -> l1 ++ y :: l2 <> l1 ++ x :: l2.
Proof. intros H E. apply app_inv_head in E. congruence. Qed.
Lemma changed (s s' : hsys) : g_threads (h_sys s') <> g_threads (h_sys s) -> ~ g_elsewhere s s'.
Proof. intros H [E _]. apply H. congruence. Qed.
Lemma goes (sh ex rd wr : nat) st0 l1 (x : gthread) l2 now es rs sh' ex' rd' wr' st1 y now' es' rs' poison gone doomed rf :
  x <> GIdle G -> y <> x -> g_log y <= g_log x -> y <> GIdle G \/ ~ List.In (length l1) doomed ->
  (forall i, List.In i doomed -> exists t, nth_error (l1 ++ x :: l2) i = Some t /\ has_guard t) ->
  gstep gentle (mkG sh ex rd wr st0 (l1 ++ x :: l2) now es rs) (mkG sh' ex' rd' wr' st1 (l1 ++ y :: l2) now' es' rs') -> (poison = true -> sh' <= sh /\ ex' <= ex) ->
  progress (mkH (mkG sh ex rd wr st0 (l1 ++ x :: l2) now es rs) poison gone doomed rf).
Proof.
  intros H1 H2 H3 H4 H5 H6 H7. eexists. split; [apply H_run; [exact H6|exact H7|]|].
  - intros i Hi E. cbn [g_threads] in E. destruct (H5 i Hi) as (u & Eu & Pu). destruct (nth_replace _ _ x _ _ E) as [[-> X]|[_ X]].
    + destruct H4 as [H4|H4]; [congruence|contradiction].
    + rewrite X in Eu. injection Eu as <-. contradiction.
  - split; [apply not_new_call; exact H1|]. split; [apply not_uses; exact H3|]. apply changed. cbn [h_sys g_threads]. apply other_thread. exact H2.
Qed.
Lemma tail_neq {T} (x : T) l : l <> x :: l.
Proof. intros E. apply (f_equal (@length _)) in E. cbn in E. lia. Qed.
Lemma back_guard (a : gask K V) f p : suffix_of (gmethod a f) (BackEnd :: p) -> f = true.
Proof.
  intros H. apply suffix_in in H. destruct f; auto. exfalso.
  destruct a as [[]|[] ?]; unfold suffixes in H; cbn in H; repeat match goal with H : _ \/ _ |- _ => destruct H as [H|H] end; try discriminate H; contradiction.
Qed.
Lemma g_moves st n s i a x p t v c log r : hinv st n s -> nth_error (g_threads (h_sys s)) i = Some (GBusy G a (x :: p) false t v c log r) ->
  (forall m, x <> Acq m) -> progress s.
Proof.
  intros H E Hx. destruct s as [[sh ex rd wr st0 ts now es rs] poison gone doomed rf]. cbn [h_sys g_threads] in E.
  destruct (nth_error_split _ _ E) as (l1 & l2 & -> & <-). destruct (hi_lin H) as (ref & HL). cbn [h_sys] in HL. apply thread_at in HL as (TO & _).
  destruct TO as (T1 & T2 & T3 & T4 & T5 & T6). pose proof (hi_doomed H) as HD. cbn [h_doomed h_sys g_threads] in HD.
  assert (A : forall sh' ex' rd' wr', locks x -> (releases x = true -> c = None) -> act x sh ex rd wr = Some (sh', ex', rd', wr') -> sh' <= sh -> ex' <= ex ->
    progress (mkH (mkG sh ex rd wr st0 (l1 ++ GBusy G a (x :: p) false t v c log r :: l2) now es rs) poison gone doomed rf)).
  { intros sh' ex' rd' wr' Hp Hr Ha L1 L2. eapply goes; [| | | | |eapply G_act; [exact Hp|exact Ha|exact Hr]|]; auto; try discriminate; try (left; discriminate).
    intros Ee. injection Ee as Ee. eapply tail_neq; exact Ee. }
  destruct x as [m|m|acc|acc| | | | |].
  - destruct (Hx m). reflexivity.
  - destruct c as [c|].
    + destruct m; (eapply goes; [| | | | |eapply G_release; reflexivity|]); auto; try discriminate; try (left; discriminate); try lia;
        intros Ee; injection Ee as Ee _; eapply tail_neq; exact Ee.
    + destruct m; eapply A; cbn; eauto; lia.
  - destruct (act (In acc) sh ex rd wr) as [[[[sh' ex'] rd'] wr']|] eqn:Ea.
    + assert (Hle : sh' = sh /\ ex' = ex) by (destruct acc; cbn in Ea; destruct (_ =? 0); cbn in Ea; try discriminate; try (destruct (_ =? 0); cbn in Ea; try discriminate); inversion Ea; auto).
      destruct Hle; subst. eapply A; cbn; eauto; discriminate.
    + eapply goes; [| | | | |eapply G_refused; [reflexivity|exact Ea]|]; auto; try discriminate; left; discriminate.
  - destruct acc; eapply A; cbn; eauto; try lia; discriminate.
  - eapply goes; [| | | | |eapply G_begin|]; auto; try discriminate; try (left; discriminate). intros Ee. injection Ee as Ee _. eapply tail_neq; exact Ee.
  - destruct (T4 _ eq_refl eq_refl) as (v' & -> & _). destruct a as [a|m k].
    + destruct (answer B v' a) as [[st' q]|] eqn:Ea.
      * eapply goes; [| | | | |eapply G_end; exact Ea|]; auto; try discriminate; try (left; discriminate). intros Ee. injection Ee as Ee _. eapply tail_neq; exact Ee.
      * pose proof (G_end_panic (G := G) gentle sh ex rd wr st0 l1 a p t v' c log r l2 now es rs Ea) as S. destruct (modifies (method a));
          (eapply goes; [| | | | |exact S|]); auto; try discriminate; left; discriminate.
    + destruct (open_cell G m v' k) as [[st' [c'|]]|] eqn:Ea.
      * eapply goes; [| | | | |eapply G_hit; exact Ea|]; auto; try discriminate; try (left; discriminate). destruct m; discriminate.
      * eapply goes; [| | | | |eapply G_miss; exact Ea|]; auto; try discriminate; try (left; discriminate). intros Ee. injection Ee as Ee _. eapply tail_neq; exact Ee.
      * eapply goes; [| | | | |eapply G_lookup_panic; exact Ea|]; auto; try discriminate; left; discriminate.
  - eapply goes; [| | | | |eapply G_done|]; auto; try discriminate; try (left; discriminate). intros Ee. injection Ee as Ee. eapply tail_neq; exact Ee.
  - eapply goes; [| | | | |eapply G_back|]; auto; try discriminate; try (left; discriminate). intros Ee. injection Ee as Ee. eapply tail_neq; exact Ee.
  - assert (F := back_guard _ _ T3). destruct c as [c|]; [|discriminate].
    eapply goes; [| | | | |eapply G_close; apply (ip_close IP)|]; auto; try discriminate; try (left; discriminate). intros Ee. injection Ee as Ee. eapply tail_neq; exact Ee.
Qed.
Lemma holder_goes st n (s : hsys) m : hinv st n s -> h_poison s = false -> cntO m (map (@gclient K V B G) (g_threads (h_sys s))) <> 0 -> progress s.
Proof.
  intros H Hp Hc. destruct (holder _ _ Hc) as (i & c & E & Ho). rewrite nth_error_map in E.
  destruct (nth_error (g_threads (h_sys s)) i) as [u|] eqn:Eu; [|discriminate]. cbn in E. injection E as <-.
  destruct u as [|a p d t v c log r]; [discriminate Ho|]. cbn [gclient todo] in Ho.
  destruct d.
  - destruct s as [l poison gone doomed rf]. cbn [h_sys h_poison] in *. subst poison.
    assert (X : gone = []) by (destruct gone; auto; exfalso; assert (X := hi_poison H); cbn in X; specialize (X ltac:(discriminate)); discriminate).
    subst gone. eexists. split; [eapply H_unwind; [exact Eu|intros []]|]. split; [|split].
    + intros (j & J1 & J2). cbn [h_sys] in *. auto.
    + intros (j & a' & p' & d' & t' & v' & c' & log' & r' & c'' & e & E1 & E2). cbn [h_sys] in *. rewrite E1 in E2. injection E2 as _ E2.
      apply (f_equal (@length _)) in E2. rewrite app_length in E2. cbn in E2. lia.
    + intros [_ X]. discriminate X.
  - destruct p as [|x p]; [discriminate Ho|]. apply (@g_moves st n s i a x p t v c log r H Eu).
    intros m' ->. destruct (hi_lin H) as (ref & _ & _ & _ & _ & HT & _). rewrite Forall_forall in HT. pose proof (HT _ (nth_error_In _ _ Eu)) as TO.
    destruct (waits_free TO) as (_ & _ & _ & W). rewrite <- W in Ho. rewrite (proj1 (script_free _ m Rd)) in Ho. discriminate Ho.
Qed.
Lemma crashed_guards_go_on st n s : hsteps gentle (hinit G st n) s ->
  (forall t, List.In t (g_threads (h_sys s)) -> g_live t -> progress s) /\
  (forall k s', g_goes_on gentle k s s' -> k + g_work s' <= g_work s).
Proof.
  intros HR. split.
  - intros t Ht Hl. pose proof (hsteps_inv HR) as H. destruct (In_nth_error _ _ Ht) as [i Ei].
    destruct t as [|a p [] t v c log r]; try contradiction. destruct p as [|x p].
    + assert (Hr : exists q, r = Some q).
      { destruct c as [c|].
        - destruct (hi_lin H) as (ref & _ & _ & _ & _ & HT & _). rewrite Forall_forall in HT. destruct (HT _ Ht) as (_ & _ & _ & _ & _ & (m & k & _ & _ & [(_ & X & _)|[X _]])); [destruct m; discriminate X|].
          destruct r; eauto. congruence.
        - pose proof (hi_answered H) as F. rewrite Forall_forall in F. specialize (F _ Ht). cbn in F. destruct r; eauto. exfalso. apply F; auto. }
      destruct Hr as [q ->]. pose proof (hi_doomed H) as HD. destruct s as [[sh ex rd wr st0 ts now es rs] poison gone doomed rf]. cbn [h_sys g_threads h_doomed] in *.
      destruct (nth_error_split _ _ Ei) as (l1 & l2 & -> & <-).
      destruct (in_dec Nat.eq_dec (length l1) doomed) as [D|D].
      * eexists. split; [apply H_leaves; exact D|]. split; [apply not_new_call; discriminate|]. split; [apply not_uses; cbn; lia|].
        apply changed. cbn [h_sys g_threads]. apply other_thread. discriminate.
      * eapply goes; [| | | | |eapply G_return|]; auto; try discriminate. cbn. lia.
    + destruct x as [m|m|acc|acc| | | | |]; try (apply (@g_moves st n s i a _ p t v c log r H Ei); intros; discriminate).
      destruct (h_poison s) eqn:Hp.
      * destruct s as [[sh ex rd wr st0 ts now es rs] poison gone doomed rf]. cbn [h_sys g_threads h_poison] in *. subst poison.
        destruct (nth_error_split _ _ Ei) as (l1 & l2 & -> & <-).
        destruct (gives_up a) eqn:GU.
        -- eexists. split; [apply H_gives_up; exact GU|]. split; [apply not_new_call; discriminate|]. split; [apply not_uses; cbn; lia|].
           apply changed. cbn [h_sys g_threads]. apply other_thread. discriminate.
        -- eexists. split; [apply H_refused; exact GU|]. split; [apply not_new_call; discriminate|]. split; [apply not_uses; cbn; lia|].
           apply changed. cbn [h_sys g_threads]. apply other_thread. discriminate.
      * destruct (hi_lin H) as (ref & _ & _ & _ & (Q1 & Q2 & _) & _). unfold gq in *. cbn [nsh nex cl] in *.
        destruct (act (Acq m) (g_sh (h_sys s)) (g_ex (h_sys s)) (g_rd (h_sys s)) (g_wr (h_sys s))) as [[[[sh' ex'] rd'] wr']|] eqn:Ea.
        -- pose proof (hi_doomed H) as HD. destruct s as [[sh ex rd wr st0 ts now es rs] poison gone doomed rf]. cbn [h_sys g_threads g_sh g_ex g_rd g_wr h_poison h_doomed] in *. subst poison.
           destruct (nth_error_split _ _ Ei) as (l1 & l2 & -> & <-).
           eapply goes; [| | | | |eapply G_act; [exact I|exact Ea|discriminate]|]; auto; try discriminate; try (left; discriminate).
           intros Ee. injection Ee as Ee. eapply tail_neq; exact Ee.
        -- assert (C : cntO Sh (map (@gclient K V B G) (g_threads (h_sys s))) <> 0 \/ cntO Ex (map (@gclient K V B G) (g_threads (h_sys s))) <> 0).
           { rewrite <- Q1, <- Q2. destruct m; cbn in Ea.
             - destruct (g_ex (h_sys s)); [discriminate|right; discriminate].
             - destruct (g_ex (h_sys s)); [|right; discriminate]. destruct (g_sh (h_sys s)); [discriminate|left; discriminate]. }
           destruct C as [C|C]; eapply holder_goes; eauto.
  - intros k s' X. induction X as [s|k s s1 s2 X IH P N1 N2 N3|k s s1 s2 X IH P U|k s s1 s2 X IH P [E1 E2]]; [lia| | |]; specialize (IH HR).
    + destruct (hstep_work P) as [Y|[Y|[_ [Y|Y]]]]; try contradiction. lia.
    + pose proof (uses_work P U). lia.
    + unfold g_work in *. rewrite E1, E2. lia.
Qed.
End Proof.

(** C66 with guards, for the containers of C70: whatever the panics of the threads, in the calls, using a guard or elsewhere,
    the answers and what the guards show are still those of one thread alone making the calls that took effect in turn --
    what was written through a guard before the panic included --, and nothing is refused before a panic.
    Missing: take, take_multiple, pop and flush and the other containers, as for C70. *)
Theorem C66_guards_stay_atomic_partial : forall K (OK : Ord K) (EK : OrdEq K) V (a : arch K V), placed a -> forall st n s,
  hsteps gentle (hinit (acells a) st n) s -> exists ref,
  in_turn (fun m => aget m a) st (map pair_of (g_effects (h_sys s))) ref /\ by_time (g_effects (h_sys s)) /\
  (Forall (fun t => ~ writing t) (g_threads (h_sys s)) -> g_st (h_sys s) = ref) /\
  (h_refused s <> [] -> h_poison s = true) /\
  forall i, i < n -> exists finished pending,
    filter (fun e => ge_who e =? i) (g_effects (h_sys s)) = finished ++ pending /\
    Forall2 geffect_of finished (filter (fun r => gr_who r =? i) (g_returns (h_sys s))) /\
    length pending <= 1 /\ (nth_error (g_threads (h_sys s)) i = Some (GIdle (acells a)) -> pending = []).
Proof. intros K OK EK V a HP st n s H. exact (crashed_guards_atomic (pointed_in_place (placed_pointed a HP)) H). Qed.

(** No thread waits for ever, though threads panic while they have a guard: as long as a call or a guard is under way
    something can be done that is neither a new call, nor the use of a guard, nor a panic elsewhere, and only so many such
    steps can be made before there is nothing left to do. *)
Theorem C66_guards_no_thread_waits_for_ever_partial : forall K (OK : Ord K) (EK : OrdEq K) V (a : arch K V), placed a -> forall st n s,
  hsteps gentle (hinit (acells a) st n) s ->
  (forall t, List.In t (g_threads (h_sys s)) -> g_live t -> exists s', hstep gentle s s' /\ ~ g_new_call s s' /\ ~ g_uses s s' /\ ~ g_elsewhere s s') /\
  (forall k s', g_goes_on gentle k s s' -> k + g_work s' <= g_work s).
Proof. intros K OK EK V a HP st n s H. exact (crashed_guards_go_on (pointed_in_place (placed_pointed a HP)) H). Qed.

(** ** Poison is final *)
Section Final.
Context {K V : Type} {B : Block K V} (G : Cells B).
Definition g_outside (t : gthread G) : Prop := match t with GBusy _ a p false _ _ c _ _ => p = script (gmethod a false) | _ => True end.
Theorem C66_guards_poison_is_final : forall allowed (s s' : hsys G), h_poison s = true -> Forall g_outside (g_threads (h_sys s)) -> hsteps allowed s s' ->
  h_poison s' = true /\ g_st (h_sys s') = g_st (h_sys s) /\ g_effects (h_sys s') = g_effects (h_sys s) /\ g_returns (h_sys s') = g_returns (h_sys s).
Proof.
  intros allowed s s' Hp Ho HS.
  enough (X : (h_poison s' = true /\ g_st (h_sys s') = g_st (h_sys s) /\ g_effects (h_sys s') = g_effects (h_sys s) /\ g_returns (h_sys s') = g_returns (h_sys s)) /\ Forall g_outside (g_threads (h_sys s'))) by tauto.
  induction HS as [s|s s1 s2 HS IH H]; [auto|]. destruct (IH Hp Ho) as ((P & E1 & E2 & E3) & F). clear IH.
  assert (N : forall l1 (x y : gthread G) l2, g_outside y -> Forall g_outside (l1 ++ x :: l2) -> Forall g_outside (l1 ++ y :: l2)).
  { intros l1 x y l2 H1 H2. apply Forall_app in H2 as [F1 F2]. inversion F2; subst. apply Forall_app; split; auto. }
  assert (Hd : forall a p t v c log r l1 l2, Forall g_outside (l1 ++ GBusy G a p false t v c log r :: l2) -> exists m p', p = Acq m :: p').
  { intros a p t v c log r l1 l2 H1. apply Forall_app in H1 as [_ H1]. inversion H1 as [|? ? X _]; subst. cbn in X. destruct a as [[]|[] ?]; cbn in X; subst p; eauto. }
  inversion H; subst; cbn [h_sys h_poison] in *.
  - destruct H0; cbn [g_st g_effects g_returns g_threads g_sh g_ex] in *;
      try (destruct (Hd _ _ _ _ _ _ _ _ _ F) as (mm & pp & X); discriminate X).
    + repeat split; auto. eapply N; eauto. reflexivity.
    + destruct (Hd _ _ _ _ _ _ _ _ _ F) as (m & pp & X). injection X as -> ->. exfalso. match goal with Hz : _ = true -> _ /\ _ |- _ => destruct (Hz P) as [X Y] end. match goal with Ha : act _ _ _ _ _ = Some _ |- _ => rename Ha into H3' end. destruct m; cbn in H3'.
      * destruct (ex =? 0); inversion H3'; subst. lia.
      * destruct (ex =? 0) eqn:Z; [|discriminate]. apply Nat.eqb_eq in Z. subst. destruct (sh =? 0); inversion H3'; subst. lia.
    + destruct (Hd _ _ _ _ _ _ _ _ _ F) as (m & pp & X). injection X as -> ->. match goal with Ha : is_in _ = true |- _ => discriminate Ha end.
  - repeat split; auto. eapply N; eauto. exact I.
  - repeat split; auto. eapply N; eauto. exact I.
  - repeat split; auto.
  - destruct (Hd _ _ _ _ _ _ _ _ _ F) as (mm & pp & X); discriminate X.
  - destruct (Hd _ _ _ _ _ _ _ _ _ F) as (mm & pp & X); discriminate X.
  - repeat split; auto.
Qed.

(** ** Executions *)
Inductive hmove : Type := HM (m : gmove K V) | HPanics | HLeaves | HGivesUp.
Definition hmove_at (s : hsys G) (i : nat) (m : hmove) : option (hsys G) :=
  match s with mkH (mkG sh ex rd wr st ths now es rs as gs) poison gone doomed rf =>
  let l1 := firstn i ths in let l2 := skipn (S i) ths in
  match m, nth_error ths i with
  | HM m, _ => match gmove_at gs i m with
      | Some s' => if (negb poison || ((g_sh s' <=? sh) && (g_ex s' <=? ex))) && forallb (fun j => match nth_error (g_threads s') j with Some (GIdle _) => false | _ => true end) doomed
                   then Some (mkH s' poison gone doomed rf) else None
      | None => None
      end
  | HPanics, Some (GBusy _ a (GuardUse :: p) false t v (Some c) log r) =>
      Some (mkH (mkG sh ex rd wr st (l1 ++ GBusy G a p false t v (Some c) log r :: l2) (S now) es rs) poison gone (length l1 :: doomed) rf)
  | HLeaves, Some (GBusy _ a [] false t v c log (Some q)) =>
      if in_dec Nat.eq_dec (length l1) doomed then Some (mkH (mkG sh ex rd wr st (l1 ++ GIdle G :: l2) (S now) es (rs ++ [mkGR (length l1) a q t now])) true gone (remove Nat.eq_dec (length l1) doomed) rf) else None
  | HGivesUp, Some (GBusy _ a (Acq _ :: _) false t _ _ _ _) =>
      if poison && gives_up a then Some (mkH (mkG sh ex rd wr st (l1 ++ GIdle G :: l2) (S now) es rs) true gone doomed (rf ++ [mkRefused (length l1) a t now])) else None
  | _, _ => None
  end end.
Fixpoint hplay (s : hsys G) (l : list (nat * hmove)) : option (hsys G) :=
  match l with [] => Some s | (i, m) :: l' => match hmove_at s i m with Some s' => hplay s' l' | None => None end end.
Definition hmove_ok (P : gask K V -> Prop) (x : nat * hmove) : Prop := match snd x with HM m => move_ok P (fst x, m) | _ => True end.
Lemma hmove_at_ok (P : gask K V -> Prop) s i m s' : hmove_at s i m = Some s' -> hmove_ok P (i, m) -> hstep P s s'.
Proof.
  destruct s as [[sh ex rd wr st ths now es rs] poison gone doomed rf]. unfold hmove_at. destruct m as [m| | |].
  - intros H A. destruct (gmove_at _ i m) as [s1|] eqn:E; [|discriminate].
    destruct (_ && _) eqn:C in H; [|discriminate]. injection H as <-. apply andb_true_iff in C as [C1 C2]. apply H_run.
    + eapply gmove_at_ok; [exact E|exact A].
    + intros ->. cbn [negb orb] in C1. apply andb_true_iff in C1 as [C1 C3]. apply Nat.leb_le in C1, C3. auto.
    + intros j Hj X. rewrite forallb_forall in C2. specialize (C2 j Hj). rewrite X in C2. discriminate.
  - destruct (nth_error ths i) as [[|a p d t v c log r]|] eqn:E; try discriminate. intros H _. apply PSeqConc.nth_split in E.
    remember (firstn i ths) as l1 eqn:E1. remember (skipn (S i) ths) as l2 eqn:E2. clear E1 E2. subst ths.
    destruct p as [|[] p]; try discriminate H. destruct d; [discriminate H|]. destruct c as [c|]; [|discriminate H]. injection H as <-. apply H_panics.
  - destruct (nth_error ths i) as [[|a p d t v c log r]|] eqn:E; try discriminate. intros H _. apply PSeqConc.nth_split in E.
    remember (firstn i ths) as l1 eqn:E1. remember (skipn (S i) ths) as l2 eqn:E2. clear E1 E2. subst ths.
    destruct p as [|x p]; [|discriminate H]. destruct d; [discriminate H|]. destruct r as [q|]; [|discriminate H].
    destruct (in_dec Nat.eq_dec (length l1) doomed) as [D|D]; [|discriminate H]. injection H as <-. apply H_leaves. exact D.
  - destruct (nth_error ths i) as [[|a p d t v c log r]|] eqn:E; try discriminate. intros H _. apply PSeqConc.nth_split in E.
    remember (firstn i ths) as l1 eqn:E1. remember (skipn (S i) ths) as l2 eqn:E2. clear E1 E2. subst ths.
    destruct p as [|[] p]; try discriminate H. destruct d; [discriminate H|]. destruct poison; [|discriminate H]. cbn [andb] in H.
    destruct (gives_up a) eqn:GU; [|discriminate H]. injection H as <-. apply H_gives_up. exact GU.
Qed.
Lemma hplay_ok (P : gask K V -> Prop) l s s' : hplay s l = Some s' -> Forall (hmove_ok P) l -> hsteps P s s'.
Proof.
  revert s. induction l as [|[i m] l IH]; cbn [hplay]; intros s H F.
  - injection H as <-. constructor.
  - inversion F; subst. destruct (hmove_at s i m) as [s1|] eqn:E; [|discriminate]. eapply hmove_at_ok in E; [|eassumption]. apply IH in H; [|auto]. clear IH F.
    induction H as [s1|s1 s2 s3 H IH H']; [econstructor; [constructor|]; auto|]. econstructor; eauto.
Qed.
End Final.
Arguments hmove : clear implicits.
Arguments HM {K V} m.
Arguments HPanics {K V}.
Arguments HLeaves {K V}.
Arguments HGivesUp {K V}.

(** Thread 0 writes 21 to key 2 and panics while it has the guard.  What it wrote is kept, and the panic is over; but from
    then on thread 1, which looks up key 1, and has nothing to do with key 2, is told that 1 is absent: false of the code. *)
Definition panic_with_guard : list (nat * hmove nat nat) :=
  map (fun x => (fst x, HM (snd x))) (grab 0 (GGet true 2) ++ [(0, MRead); (0, MWrite 21)]) ++
  [(1, HM (MCall (GGet false 1)))] ++
  [(0, HPanics); (0, HM MStep); (0, HM MStep); (0, HM MStep); (0, HLeaves)] ++ [(1, HGivesUp)].
Theorem C66_guard_panic_hides_keys_refuted : exists s,
  hsteps (only [GGet true 2; GGet false 1]) (hinit nat_array two 2) s /\ all_idle (h_sys s) = true /\
  a_vals (g_st (h_sys s)) = [(1, 10); (2, 21)] /\
  map pair_of (g_effects (h_sys s)) = [(GGet true 2, GUsed [Saw 20; Wrote 21])] /\
  map (fun r => (rf_who r, rf_ask r)) (h_refused s) = [(1, GGet false 1)].
Proof.
  assert (E : match hplay (hinit nat_array two 2) panic_with_guard with
    | Some s => all_idle (h_sys s) = true /\ a_vals (g_st (h_sys s)) = [(1, 10); (2, 21)] /\
        map pair_of (g_effects (h_sys s)) = [(GGet true 2, GUsed [Saw 20; Wrote 21])] /\
        map (fun r => (rf_who r, rf_ask r)) (h_refused s) = [(1, GGet false 1)]
    | None => False end) by (vm_compute; repeat split).
  destruct (hplay (hinit nat_array two 2) panic_with_guard) as [s|] eqn:P; [|destruct E].
  exists s. split; [|exact E]. eapply hplay_ok; [exact P|]. unfold panic_with_guard, grab, steps, only. cbn [repeat app map fst snd].
  repeat (constructor; [cbn; auto|]). constructor.
Qed.

(** The hypotheses are met: while the guard is dropped by the panic another lookup is waiting, so that there is work
    to do; the same execution over a container of the family. *)
Definition small_arch : arch nat nat := leaf 4.
Definition small_state : St (block small_arch) := match push (block small_arch) (init small_arch) [(1, 10); (2, 20)] with Ok (s, _) => s | Panic => init small_arch end.
Example c66_guards_placed : placed small_arch.
Proof. exact I. Qed.
Example c66_guards_case : match hplay (hinit (acells small_arch) small_state 2) (firstn 11 panic_with_guard) with
  | Some s => g_work s = 4 + 18 /\ h_doomed s = [0] /\ h_poison s = false /\ existsb (fun t => match t with GBusy _ _ _ false _ _ _ _ _ => true | _ => false end) (g_threads (h_sys s)) = true
  | None => False
  end.
Proof. vm_compute. repeat split. Qed.
Example c66_guards_case_ok : Forall (hmove_ok (only [GGet true 2; GGet false 1])) panic_with_guard.
Proof. unfold panic_with_guard, grab, steps, only. cbn [repeat app map fst snd]. repeat (constructor; [cbn; auto|]). constructor. Qed.
