(** PRemote.v -- property theorems: C74, clients of several servers over clones of one container. *)
From Verif Require Import Base Block Spec LawsProof Sim Lock SeqConc PSeqConc Linear Arch ArchProof PArch PLinear Remote.
From Coq Require Import Permutation.
Set Implicit Arguments.

Section Proof.
Context {K V : Type}.
Variable B : Block K V.
Notation hist := (list (noted (K := K) (V := V))).
Notation rsys := (rsys B).

(** ** The servers are the threads of Linear.v *)
Lemma rstep_lsteps b (s s' : rsys) : rstep b s s' -> r_sys s' = r_sys s \/ lstep (r_sys s) (r_sys s').
Proof. intros H. destruct H; cbn [r_sys]; auto; right; constructor. Qed.
Lemma rsteps_lsteps ok (s0 s : rsys) : rsteps ok s0 s -> lsteps (r_sys s0) (r_sys s).
Proof.
  induction 1 as [s|b s s' s'' H IH Hb HS]; [constructor|].
  destruct (rstep_lsteps HS) as [->|HL]; auto. econstructor; eauto.
Qed.

(** A call of a thread is over before its next one begins. *)
Definition apart (rs : list (returned (K := K) (V := V))) : Prop :=
  forall j k r r', j < k -> nth_error rs j = Some r -> nth_error rs k = Some r' -> r_who r = r_who r' -> r_end r <= r_start r'.
Definition before_calls (x : lsys B) : Prop :=
  forall i th a t0, nth_error (l_threads x) i = Some th -> calling th = Some (a, t0) ->
  t0 <= l_now x /\ forall r, List.In r (l_returns x) -> r_who r = i -> r_end r <= t0.
Definition ended (x : lsys B) : Prop := forall r, List.In r (l_returns x) -> r_end r < l_now x.

Lemma lstep_shape (x x' : lsys B) : lstep x x' ->
  l_now x' = S (l_now x) /\ exists l1 th th' l2, l_threads x = l1 ++ th :: l2 /\ l_threads x' = l1 ++ th' :: l2 /\
  ((calling th' = calling th /\ l_returns x' = l_returns x) \/
   (calling th = None /\ (exists a, calling th' = Some (a, l_now x)) /\ l_returns x' = l_returns x) \/
   (exists a q t0, calling th = Some (a, t0) /\ calling th' = None /\ l_returns x' = l_returns x ++ [mkRet (length l1) a q t0 (l_now x)])).
Proof.
  intros H. destruct H as [sh ex rd wr st l1 l2 a now es rs|sh ex rd wr sh' ex' rd' wr' st l1 a y p t v r l2 now es rs HP HA
    |sh ex rd wr st l1 a y p t v r l2 now es rs HI HA|sh ex rd wr st l1 a p t v r l2 now es rs
    |sh ex rd wr st l1 a p t v r l2 now es rs st' q HA|sh ex rd wr st l1 a p t v r l2 now es rs HA
    |sh ex rd wr st l1 a t v q l2 now es rs]; try (destruct (modifies (method a)));
    cbn [l_now l_threads l_returns]; (split; [reflexivity|]);
    eexists l1, _, _, l2; (split; [reflexivity|]); (split; [reflexivity|]); cbn [calling]; eauto 10.
Qed.

Lemma calls_ok_step (x x' : lsys B) : lstep x x' ->
  apart (l_returns x) /\ before_calls x /\ ended x -> apart (l_returns x') /\ before_calls x' /\ ended x'.
Proof.
  intros H (HA & HB & HE). destruct (lstep_shape H) as (Hn & l1 & th & th' & l2 & T & T' & C).
  assert (Mid : nth_error (l_threads x) (length l1) = Some th) by (rewrite T; apply nth_mid).
  unfold before_calls, ended in *. rewrite Hn, T'.
  destruct C as [[C1 C2]|[(C1 & (a & C2) & C3)|(a & q & t0 & C1 & C2 & C3)]].
  - rewrite C2. split; auto. split.
    + intros i th1 a t0 Hi Hc. destruct (nth_replace _ _ th _ _ Hi) as [[-> ->]|[Hne Hi']].
      * rewrite C1 in Hc. destruct (HB _ _ _ _ Mid Hc) as [A1 A2]. split; [lia|auto].
      * rewrite <- T in Hi'. destruct (HB _ _ _ _ Hi' Hc) as [A1 A2]. split; [lia|auto].
    + intros r Hr. specialize (HE r Hr). lia.
  - rewrite C3. split; auto. split.
    + intros i th1 a1 t0 Hi Hc. destruct (nth_replace _ _ th _ _ Hi) as [[-> ->]|[Hne Hi']].
      * rewrite C2 in Hc. injection Hc as <- <-. split; [lia|]. intros r Hr _. specialize (HE r Hr). lia.
      * rewrite <- T in Hi'. destruct (HB _ _ _ _ Hi' Hc) as [A1 A2]. split; [lia|auto].
    + intros r Hr. specialize (HE r Hr). lia.
  - rewrite C3. destruct (HB _ _ _ _ Mid C1) as [A1 A2]. split; [|split].
    + intros j k r r' Hjk Hj Hk Hw.
      assert (Lk : k < length (l_returns x) \/ k = length (l_returns x)).
      { assert (k < length (l_returns x ++ [mkRet (length l1) a q t0 (l_now x)])) by (apply nth_error_Some; congruence).
        rewrite app_length in H0. cbn in H0. lia. }
      destruct Lk as [Lk| ->].
      * rewrite nth_error_app1 in Hj, Hk by lia. eapply HA; [exact Hjk| | |]; eauto.
      * rewrite nth_error_app1 in Hj by lia. rewrite nth_error_app2, Nat.sub_diag in Hk by lia. cbn in Hk. injection Hk as <-.
        cbn [r_who r_start] in *. apply A2; auto. eapply nth_error_In; eauto.
    + intros i th1 a1 t1 Hi Hc. destruct (nth_replace _ _ th _ _ Hi) as [[-> ->]|[Hne Hi']].
      * rewrite C2 in Hc. discriminate.
      * rewrite <- T in Hi'. destruct (HB _ _ _ _ Hi' Hc) as [D1 D2]. split; [lia|].
        intros r Hr Hw. apply in_app_iff in Hr. destruct Hr as [Hr|[<-|[]]]; auto. cbn [r_who] in Hw. congruence.
    + intros r Hr. apply in_app_iff in Hr. destruct Hr as [Hr|[<-|[]]]; [specialize (HE r Hr)|cbn [r_end]]; lia.
Qed.
Lemma calls_ok (st : St B) n x : lsteps (linit B st n) x -> apart (l_returns x) /\ before_calls x /\ ended x.
Proof.
  intros H. remember (linit B st n) as x0 eqn:E. induction H as [x|x x' x'' H IH H']; subst.
  - split; [intros j k r r' _ A; destruct j; discriminate A|]. split; [|intros r []].
    intros i th a t0 Hi Hc. cbn [linit l_threads] in Hi. apply nth_error_In in Hi. apply repeat_spec in Hi. subst. discriminate.
  - eapply calls_ok_step; eauto.
Qed.

(** ** The invariant *)
Definition stamp (e : noted (K := K) (V := V)) : nat := match e with HSent _ _ u => u | HGot _ _ _ _ _ u => u end.
Definition ts (h : hist) : list nat := flat_map (fun x => match x with HGot _ _ _ t _ _ => [t] | _ => [] end) h.
Definition ks (h : hist) : list nat := flat_map (fun x => match x with HGot _ _ _ _ k _ => [k] | _ => [] end) h.

(** Request [t] of client [i], made at [u0], was served as return number [k] between [u0] and [u]. *)
Definition served (x : lsys B) (h : hist) (i : nat) (a : ask K V) (q : saw K V) (t k u : nat) : Prop :=
  exists u0 r, nth_error h t = Some (HSent i a u0) /\ nth_error (l_returns x) k = Some r /\
    r_who r = i /\ r_ask r = a /\ over_socket a (r_saw r) = q /\ u0 <= r_start r /\ r_end r < u.
Definition pipe_ok (x : lsys B) (h : hist) (i : nat) (th : thread B) (l : line (K := K) (V := V)) : Prop :=
  match ln_pipe l with
  | Rest => calling th = None /\ (ln_client l = None \/ ln_client l = Some None)
  | Down => calling th = None /\ ln_client l = None
  | Incoming a t => calling th = None /\ (exists u0, nth_error h t = Some (HSent i a u0)) /\ ~ List.In t (ts h) /\
      (ln_client l = None \/ ln_client l = Some (Some (a, t)))
  | Serving a t => (exists u0 t0, nth_error h t = Some (HSent i a u0) /\ calling th = Some (a, t0) /\ u0 <= t0) /\ ~ List.In t (ts h) /\
      (ln_client l = None \/ ln_client l = Some (Some (a, t)))
  | Outgoing a q t k => calling th = None /\ served x h i a q t k (l_now x) /\ ~ List.In t (ts h) /\ ~ List.In k (ks h) /\
      (ln_client l = None \/ ln_client l = Some (Some (a, t)))
  end.
Definition hist_ok (x : lsys B) (h : hist) : Prop :=
  (forall p e, nth_error h p = Some e -> stamp e <= l_now x) /\
  (forall p p' e e', p < p' -> nth_error h p = Some e -> nth_error h p' = Some e' -> stamp e <= stamp e') /\
  (forall p i a q t k u, nth_error h p = Some (HGot i a q t k u) -> t < p /\ served x h i a q t k u) /\
  NoDup (ts h) /\ NoDup (ks h).
Definition rinv (s : rsys) : Prop :=
  length (r_lines s) = length (l_threads (r_sys s)) /\ hist_ok (r_sys s) (r_hist s) /\
  forall i th l, nth_error (l_threads (r_sys s)) i = Some th -> nth_error (r_lines s) i = Some l ->
    pipe_ok (r_sys s) (r_hist s) i th l.

Lemma nth_app_l {T} (l l' : list T) i x : nth_error l i = Some x -> nth_error (l ++ l') i = Some x.
Proof. intros H. rewrite nth_error_app1; auto. apply nth_error_Some. congruence. Qed.
Lemma served_later x x' h h' i a q t k u u' : served x h i a q t k u ->
  (exists r, l_returns x' = l_returns x ++ r) -> (exists e, h' = h ++ e) -> u <= u' -> served x' h' i a q t k u'.
Proof.
  intros (u0 & r & H1 & H2 & H3 & H4 & H5 & H6 & H7) [rs Hr] [e ->] Hu. exists u0, r.
  split; [apply nth_app_l; auto|]. split; [rewrite Hr; apply nth_app_l; auto|]. repeat split; auto. lia.
Qed.
Lemma ts_app h h' : ts (h ++ h') = ts h ++ ts h'.
Proof. apply flat_map_app. Qed.
Lemma ks_app h h' : ks (h ++ h') = ks h ++ ks h'.
Proof. apply flat_map_app. Qed.

(** What the other servers see of a step. *)
Lemma pipe_ok_later x x' h i th th' l : pipe_ok x h i th l -> calling th' = calling th ->
  (exists r, l_returns x' = l_returns x ++ r) -> l_now x <= l_now x' -> pipe_ok x' h i th' l.
Proof.
  unfold pipe_ok. intros H C R N. destruct (ln_pipe l); rewrite C; auto.
  destruct H as (H1 & H2 & H3). split; auto. split; auto. eapply served_later; eauto. exists []. rewrite app_nil_r; auto.
Qed.
Lemma hist_ok_later x x' h : hist_ok x h -> (exists r, l_returns x' = l_returns x ++ r) -> l_now x <= l_now x' -> hist_ok x' h.
Proof.
  intros (H1 & H2 & H3 & H4 & H5) R N. split; [|split; [|split; [|split]]]; auto.
  - intros p e He. specialize (H1 p e He). lia.
  - intros p i a q t k u He. destruct (H3 p i a q t k u He) as [A1 A2]. split; auto. eapply served_later; eauto.
    exists []. rewrite app_nil_r; auto.
Qed.
Lemma nth_snoc {T} (l : list T) y p e : nth_error (l ++ [y]) p = Some e -> nth_error l p = Some e \/ (p = length l /\ e = y).
Proof.
  intros H. destruct (Nat.lt_ge_cases p (length l)) as [A|A].
  - left. rewrite nth_error_app1 in H; auto.
  - right. rewrite nth_error_app2 in H by auto. destruct (p - length l) as [|d] eqn:E; cbn in H.
    + split; [lia|congruence].
    + destruct d; discriminate.
Qed.
Lemma nodup_snoc (l : list nat) y : NoDup l -> ~ List.In y l -> NoDup (l ++ [y]).
Proof.
  intros H1 H2. apply NoDup_rev in H1. rewrite <- (rev_involutive (l ++ [y])). apply NoDup_rev.
  rewrite rev_app_distr. cbn. constructor; auto. rewrite <- in_rev. auto.
Qed.

Lemma rstep_inv b (s s' : rsys) : ended (r_sys s) -> rstep b s s' -> rinv s -> rinv s'.
Proof.
  intros HE H (HL & HH & HP).
  assert (Keep : forall (x : lsys B) m1 l l' m2 h,
     (forall i th y, nth_error (l_threads x) i = Some th -> nth_error (m1 ++ l :: m2) i = Some y -> pipe_ok x h i th y) ->
     (forall th, pipe_ok x h (length m1) th l -> pipe_ok x h (length m1) th l') ->
     forall i th y, nth_error (l_threads x) i = Some th -> nth_error (m1 ++ l' :: m2) i = Some y -> pipe_ok x h i th y).
  { intros x m1 l l' m2 h H0 H1 i th y Ht Hy. destruct (nth_replace _ _ l _ _ Hy) as [[-> ->]|[Hn Hy']]; auto.
    apply H1. apply H0; auto. apply nth_mid. }
  destruct H as [x m1 m2 h|x m1 m2 h a|x m1 c p m2 h|x m1 a t m2 h|sh ex rd wr st l1 l2 now es rs m1 c a t m2 h EL
    |x x' m h HS HC|sh ex rd wr st l1 a t0 v q l2 now es rs m1 c t m2 h EL|x m1 a0 t0 a q t k m2 h|x m1 a q t k m2 h|x m1 a q t k m2 h];
    unfold rinv in *; cbn [r_sys r_lines r_hist] in *; rewrite ?(len_mid m1 m2 _ (mkLine None Rest)) in *.
  - (* connect *) split; [rewrite <- HL; apply len_mid|]. split; auto. eapply Keep; [exact HP|].
    intros th. unfold pipe_ok; cbn. tauto.
  - (* send *)
    split; [rewrite <- HL; apply len_mid|].
    pose proof HH as (H1 & H2 & H3 & H4 & H5).
    assert (TN : ~ List.In (length h) (ts h)).
    { unfold ts. intros HI. apply in_flat_map in HI. destruct HI as (e & I1 & I2). destruct e as [|i a1 q t k u]; [destruct I2|].
      destruct I2 as [->|[]]. apply In_nth_error in I1. destruct I1 as [p I1]. destruct (H3 _ _ _ _ _ _ _ I1) as [A _].
      assert (p < length h) by (apply nth_error_Some; congruence). lia. }
    assert (ET : ts (h ++ [HSent (length m1) a (l_now x)]) = ts h) by (rewrite ts_app; apply app_nil_r).
    assert (EK : ks (h ++ [HSent (length m1) a (l_now x)]) = ks h) by (rewrite ks_app; apply app_nil_r).
    split.
    + split; [|split; [|split; [|split]]].
      * intros p e He. apply nth_snoc in He. destruct He as [He|[-> ->]]; [apply H1 in He; auto|cbn; auto].
      * intros p p' e e' Hp He He'. apply nth_snoc in He. apply nth_snoc in He'. destruct He as [He|[-> ->]], He' as [He'|[-> ->]].
        -- eapply H2; [exact Hp| |]; eauto.
        -- cbn. eapply H1; eauto.
        -- assert (p' < length h) by (apply nth_error_Some; congruence). lia.
        -- lia.
      * intros p i a1 q t k u He. apply nth_snoc in He. destruct He as [He|[_ He]]; [|discriminate].
        destruct (H3 _ _ _ _ _ _ _ He) as [A1 A2]. split; auto. eapply served_later; eauto. exists []. rewrite app_nil_r; auto.
      * rewrite ET; auto.
      * rewrite EK; auto.
    + intros i th y Ht Hy. destruct (nth_replace _ _ (mkLine (Some None) Rest) _ _ Hy) as [[-> ->]|[Hn Hy']].
      * specialize (HP _ _ _ Ht (nth_mid m1 m2 _)). unfold pipe_ok in *; cbn [ln_pipe ln_client] in *. rewrite ET.
        split; [tauto|]. split; [eexists; rewrite nth_error_app2, Nat.sub_diag by auto; reflexivity|]. auto.
      * specialize (HP _ _ _ Ht Hy'). unfold pipe_ok in *. rewrite ET, EK. destruct (ln_pipe y); auto.
        -- destruct HP as (P1 & (u0 & P2) & P3). split; auto. split; auto. exists u0. apply nth_app_l; auto.
        -- destruct HP as ((u0 & t0 & P1 & P2) & P3). split; auto. exists u0, t0. split; auto. apply nth_app_l; auto.
        -- destruct HP as (P1 & P2 & P3). split; auto. split; auto. eapply served_later; eauto. exists []. rewrite app_nil_r; auto.
  - (* leave *) split; [rewrite <- HL; apply len_mid|]. split; auto. eapply Keep; [exact HP|].
    intros th. unfold pipe_ok; cbn [ln_pipe ln_client]. destruct p; intuition.
  - (* lose request *) split; [rewrite <- HL; apply len_mid|]. split; auto. eapply Keep; [exact HP|].
    intros th. unfold pipe_ok; cbn [ln_pipe ln_client]. intuition.
  - (* start *)
    cbn [l_threads] in *. split; [rewrite (len_mid l1 l2 _ Idle), <- HL; apply len_mid|].
    split; [eapply hist_ok_later; [exact HH|exists []; rewrite app_nil_r; auto|cbn; lia]|].
    pose proof (fun y => HP _ _ y (nth_mid l1 l2 _)) as HM. rewrite EL in HM. specialize (HM _ (nth_mid m1 m2 _)).
    intros i th y Ht Hy.
    destruct (nth_replace _ _ (mkLine c (Incoming a t)) _ _ Hy) as [[-> ->]|[Hn Hy']];
      destruct (nth_replace _ _ Idle _ _ Ht) as [[E ->]|[Hn' Ht']]; try congruence.
    + unfold pipe_ok in *; cbn [ln_pipe ln_client calling] in *. destruct HM as (P1 & (u0 & P2) & P3 & P4).
      split; [|auto]. exists u0, now. split; auto. split; auto. destruct HH as (H1 & _). apply H1 in P2. exact P2.
    + eapply pipe_ok_later; [apply (HP _ _ _ Ht' Hy')|reflexivity|exists []; rewrite app_nil_r; auto|cbn; lia].
  - (* inner *)
    destruct (lstep_shape HS) as (Hnow & l1 & th1 & th2 & l2 & T1 & T2 & C).
    assert (C' : calling th2 = calling th1).
    { rewrite T1, T2, !map_app in HC. apply app_inv_head in HC. cbn [map] in HC. congruence. }
    assert (R : l_returns x' = l_returns x).
    { destruct C as [[_ R]|[(_ & _ & R)|(a & q & t0 & C1 & C2 & _)]]; auto. congruence. }
    assert (RE : exists r, l_returns x' = l_returns x ++ r) by (exists []; rewrite app_nil_r; auto).
    assert (NE : l_now x <= l_now x') by lia.
    split; [rewrite T2, HL, T1; apply len_mid|]. split; [eapply hist_ok_later; eauto|].
    intros i th y Ht Hy. rewrite T2 in Ht. destruct (nth_replace _ _ th1 _ _ Ht) as [[-> ->]|[Hn Ht']].
    + eapply pipe_ok_later; [apply (HP (length l1) th1 y)| | |]; auto. rewrite T1. apply nth_mid.
    + rewrite <- T1 in Ht'. eapply pipe_ok_later; [apply (HP _ _ _ Ht' Hy)|reflexivity| |]; auto.
  - (* finish *)
    cbn [l_threads] in *. split; [rewrite !app_length in *; cbn [length] in *; lia|].
    set (x := mkL sh ex rd wr st (l1 ++ Busy a [] false t0 v (Some q) :: l2) now es rs) in *.
    set (x' := mkL sh ex rd wr st (l1 ++ Idle :: l2) (S now) es (rs ++ [mkRet (length l1) a q t0 now])).
    assert (RE : exists r, l_returns x' = l_returns x ++ r) by (cbn; eauto).
    assert (NE : l_now x <= l_now x') by (cbn; lia).
    split; [eapply hist_ok_later; eauto|].
    pose proof (fun y => HP _ _ y (nth_mid l1 l2 _)) as HM. rewrite EL in HM. specialize (HM _ (nth_mid m1 m2 _)).
    intros i th y Ht Hy.
    destruct (nth_replace _ _ (mkLine c (Serving a t)) _ _ Hy) as [[-> ->]|[Hn Hy']];
      destruct (nth_replace _ _ (Busy a [] false t0 v (Some q)) _ _ Ht) as [[E ->]|[Hn' Ht']]; try congruence.
    + unfold pipe_ok in *; cbn [ln_pipe ln_client calling] in *. destruct HM as ((u0 & t1 & P1 & P2 & P3) & P4 & P5).
      injection P2 as <-. split; auto. split; [|split; [auto|split; [|auto]]].
      * exists u0, (mkRet (length l1) a q t0 now). split; auto. split; [cbn; rewrite nth_error_app2, Nat.sub_diag by auto; reflexivity|].
        cbn. rewrite EL. repeat split; auto.
      * intros HI. unfold ks in HI. apply in_flat_map in HI. destruct HI as (e & I1 & I2). destruct e as [|i a1 q1 t1 k u]; [destruct I2|].
        destruct I2 as [->|[]]. apply In_nth_error in I1. destruct I1 as [p I1].
        destruct HH as (_ & _ & H3 & _). destruct (H3 _ _ _ _ _ _ _ I1) as (_ & u1 & r & _ & A & _). cbn in A.
        assert (length rs < length rs) by (apply nth_error_Some; congruence). lia.
    + eapply pipe_ok_later; [apply (HP _ _ _ Ht' Hy')|reflexivity| |]; auto.
  - (* deliver *)
    split; [rewrite <- HL; apply len_mid|].
    pose proof HH as (H1 & H2 & H3 & H4 & H5).
    destruct (nth_error (l_threads x) (length m1)) as [th0|] eqn:E0.
    2:{ apply nth_error_None in E0. rewrite <- HL, app_length in E0. cbn in E0. lia. }
    pose proof (HP _ _ _ E0 (nth_mid m1 m2 _)) as HM. unfold pipe_ok in HM; cbn [ln_pipe ln_client] in HM.
    destruct HM as (M1 & M2 & M3 & M4 & [M5|M5]); [discriminate|]. injection M5 as -> ->.
    pose proof M2 as (u0 & r & S1 & S2 & S3 & S4 & S5 & S6 & S7).
    assert (TB : t < length h) by (apply nth_error_Some; congruence).
    assert (ET : ts (h ++ [HGot (length m1) a q t k (l_now x)]) = ts h ++ [t]) by (apply ts_app).
    assert (EK : ks (h ++ [HGot (length m1) a q t k (l_now x)]) = ks h ++ [k]) by (apply ks_app).
    split.
    + split; [|split; [|split; [|split]]].
      * intros p e He. apply nth_snoc in He. destruct He as [He|[-> ->]]; [apply H1 in He; auto|cbn; auto].
      * intros p p' e e' Hp He He'. apply nth_snoc in He. apply nth_snoc in He'. destruct He as [He|[-> ->]], He' as [He'|[-> ->]].
        -- eapply H2; [exact Hp| |]; eauto.
        -- cbn. eapply H1; eauto.
        -- assert (p' < length h) by (apply nth_error_Some; congruence). lia.
        -- lia.
      * intros p i a1 q1 t1 k1 u1 He. apply nth_snoc in He. destruct He as [He|[-> He]].
        -- destruct (H3 _ _ _ _ _ _ _ He) as [A1 A2]. split; auto. eapply served_later; eauto. exists []. rewrite app_nil_r; auto.
        -- injection He as -> -> -> -> -> ->. split; auto. eapply served_later; eauto. exists []. rewrite app_nil_r; auto.
      * rewrite ET. apply nodup_snoc; auto.
      * rewrite EK. apply nodup_snoc; auto.
    + intros i th y Ht Hy. destruct (nth_replace _ _ (mkLine (Some (Some (a, t))) (Outgoing a q t k)) _ _ Hy) as [[-> ->]|[Hn Hy']].
      * unfold pipe_ok; cbn [ln_pipe ln_client]. split; auto. congruence.
      * specialize (HP _ _ _ Ht Hy'). unfold pipe_ok in *. rewrite ET, EK.
        assert (NT : forall t', (exists a' u', nth_error h t' = Some (HSent i a' u')) -> ~ List.In t' (ts h) -> ~ List.In t' (ts h ++ [t])).
        { intros t' (a' & u' & A) A1 A2. apply in_app_iff in A2. destruct A2 as [A2|[->|[]]]; auto. rewrite S1 in A. congruence. }
        destruct (ln_pipe y); auto.
        -- destruct HP as (P1 & (u1 & P2) & P3 & P4). split; auto. split; [|split; eauto]. exists u1. apply nth_app_l; auto.
        -- destruct HP as ((u1 & t2 & P1 & P2 & P3) & P4 & P5). split; [|split; eauto]. exists u1, t2. split; auto. apply nth_app_l; auto.
        -- destruct HP as (P1 & P2 & P3 & P4 & P5). split; auto. pose proof P2 as (u1 & r1 & Q1 & Q2 & Q3 & _).
           split; [eapply served_later; eauto; exists []; rewrite app_nil_r; auto|]. split; [eauto|]. split; auto.
           intros HI. apply in_app_iff in HI. destruct HI as [HI|[->|[]]]; auto. rewrite S2 in Q2. congruence.
  - (* lose response *) split; [rewrite <- HL; apply len_mid|]. split; auto. eapply Keep; [exact HP|].
    intros th. unfold pipe_ok; cbn [ln_pipe ln_client]. intuition.
  - (* down *) split; [rewrite <- HL; apply len_mid|]. split; auto. eapply Keep; [exact HP|].
    intros th. unfold pipe_ok; cbn [ln_pipe ln_client]. intuition.
Qed.

Lemma rinit_inv (st : St B) n : rinv (rinit B st n).
Proof.
  unfold rinv, rinit; cbn [r_sys r_lines r_hist linit l_threads]. split; [rewrite !repeat_length; auto|]. split.
  - split; [intros p e H; destruct p; discriminate|]. split; [intros p p' e e' _ H; destruct p; discriminate|].
    split; [intros p i a q t k u H; destruct p; discriminate|]. split; constructor.
  - intros i th l H1 H2. apply nth_error_In in H1, H2. apply repeat_spec in H1, H2. subst. unfold pipe_ok; cbn. auto.
Qed.
Lemma rsteps_inv ok (st : St B) n s : rsteps ok (rinit B st n) s -> rinv s /\ lsteps (linit B st n) (r_sys s).
Proof.
  intros H. split; [|apply (rsteps_lsteps H)]. remember (rinit B st n) as s0 eqn:E.
  induction H as [s|b s s' s'' H IH Hb HS]; subst; [apply rinit_inv|].
  eapply rstep_inv; [|exact HS|auto]. apply (calls_ok (rsteps_lsteps H)).
Qed.

Lemma finite_choice (P : nat -> nat -> Prop) n : (forall k, k < n -> exists j, P k j) -> exists f, forall k, k < n -> P k (f k).
Proof.
  induction n as [|n IH]; intros H; [exists (fun k => k); intros; lia|].
  destruct IH as [f Hf]; [intros; apply H; lia|]. destruct (H n ltac:(lia)) as [j Hj].
  exists (fun k => if k =? n then j else f k). intros k Hk. destruct (Nat.eqb_spec k n) as [->|Hn]; auto. apply Hf. lia.
Qed.
(** Each return has its effect. *)
Lemma ret_effects (st : St B) n x : lsteps (linit B st n) x ->
  exists g, (forall k r, nth_error (l_returns x) k = Some r -> exists e, nth_error (l_effects x) (g k) = Some e /\ effect_of e r) /\
    (forall k k' r r', k <> k' -> nth_error (l_returns x) k = Some r -> nth_error (l_returns x) k' = Some r' -> g k <> g k').
Proof.
  intros H. destruct (C54_linearizable H) as (_ & HO & _ & HW & HP).
  destruct (@finite_choice (fun k j => forall r, nth_error (l_returns x) k = Some r -> exists e, nth_error (l_effects x) j = Some e /\ effect_of e r)
    (length (l_returns x))) as [g Hg].
  { intros k Hk. destruct (nth_error (l_returns x) k) as [r|] eqn:E; [|exists 0; discriminate].
    assert (Hr : List.In r (l_returns x)) by (eapply nth_error_In; eauto).
    rewrite Forall_forall in HW. destruct (HP (r_who r) (HW _ Hr)) as (d & p & E1 & E2 & _).
    destruct (Forall2_pick r E2) as (e & I1 & I2).
    { apply filter_In. split; auto. apply Nat.eqb_refl. }
    assert (I3 : List.In e (l_effects x)).
    { assert (Y : List.In e (filter (fun e => e_who e =? r_who r) (l_effects x))) by (rewrite E1; apply in_or_app; auto).
      apply filter_In in Y. tauto. }
    apply In_nth_error in I3. destruct I3 as [i Hi]. exists i. intros r0 [= <-]. eauto. }
  assert (Hg' : forall k r, nth_error (l_returns x) k = Some r -> exists e, nth_error (l_effects x) (g k) = Some e /\ effect_of e r).
  { intros k r Hr. apply Hg; auto. apply nth_error_Some. congruence. }
  exists g. split; auto. intros k k' r r' Hkk Hk Hk' HE.
  destruct (Hg' _ _ Hk) as (e & E1 & W1 & _ & _ & T1). destruct (Hg' _ _ Hk') as (e' & E2 & W2 & _ & _ & T2).
  rewrite HE in E1. rewrite E1 in E2. injection E2 as <-.
  destruct (calls_ok H) as (HA & _ & _).
  destruct (Nat.lt_trichotomy k k') as [L|[L|L]]; [|contradiction|].
  - pose proof (HA _ _ _ _ L Hk Hk' ltac:(congruence)). lia.
  - pose proof (HA _ _ _ _ L Hk' Hk ltac:(congruence)). lia.
Qed.
Lemma in_ts h p i a q t k u : nth_error h p = Some (HGot i a q t k u) -> List.In t (ts h).
Proof. intros H. apply in_flat_map. exists (HGot i a q t k u). split; [eapply nth_error_In; eauto|left; auto]. Qed.
Lemma got_distinct h : NoDup (ts h) -> NoDup (ks h) -> forall p p' i a q t k u i' a' q' t' k' u', p <> p' ->
  nth_error h p = Some (HGot i a q t k u) -> nth_error h p' = Some (HGot i' a' q' t' k' u') -> t <> t' /\ k <> k'.
Proof.
  assert (G : forall (f : noted (K := K) (V := V) -> list nat), (forall e, length (f e) <= 1) -> forall (h : hist), NoDup (flat_map f h) -> forall p p' e e' y, p < p' ->
    nth_error h p = Some e -> nth_error h p' = Some e' -> List.In y (f e) -> List.In y (f e') -> False).
  { intros f Hf h0. induction h0 as [|x h0 IH]; intros ND p p' e e' y Hp He He' I1 I2; [destruct p; discriminate|].
    cbn [flat_map] in ND. destruct p' as [|p']; [lia|]. cbn in He'. destruct p as [|p]; cbn in He.
    - injection He as ->. assert (List.In y (flat_map f h0)) by (apply in_flat_map; exists e'; split; auto; eapply nth_error_In; eauto).
      clear - ND I1 H. revert ND I1. induction (f e) as [|z l IHl]; intros ND I1; [destruct I1|].
      cbn in ND. inversion ND as [|? ? N1 N2]; subst. destruct I1 as [->|I1]; auto. apply N1. apply in_or_app; auto.
    - eapply (IH ltac:(clear - ND; revert ND; induction (f x) as [|z l IHl]; cbn; auto; intros ND; inversion ND; auto) p p'); eauto. lia. }
  intros N1 N2 p p' i a q t k u i' a' q' t' k' u' Hp He He'.
  assert (Main : forall (f : noted (K := K) (V := V) -> list nat), (forall e, length (f e) <= 1) -> NoDup (flat_map f h) ->
    forall y, List.In y (f (HGot i a q t k u)) -> List.In y (f (HGot i' a' q' t' k' u')) -> False).
  { intros f Hf ND y I1 I2. destruct (Nat.lt_ge_cases p p') as [L|L].
    - eapply (G f Hf h ND p p'); eauto.
    - eapply (G f Hf h ND p' p); eauto. lia. }
  split; intros ->.
  - eapply (Main (fun x => match x with HGot _ _ _ t _ _ => [t] | _ => [] end)); [intros []; cbn; lia|exact N1| |]; left; reflexivity.
  - eapply (Main (fun x => match x with HGot _ _ _ _ k _ => [k] | _ => [] end)); [intros []; cbn; lia|exact N2| |]; left; reflexivity.
Qed.

(** C74.  Any number of servers over clones of one container behind a Sequential, each with one client at a time, in any
    interleaving, whatever clients leave in the middle of a call: there is one order of the calls that took effect --
    [l_effects] -- such that a single user of the container making them in that order gets the same answers and leaves
    the same container; every answer a client got is that of a call of its own in this order, made by the request it
    answers, no two answers being of the same call; and a call whose answer came before another one was made precedes it. *)
Theorem C74_linearizable : forall (st : St B) n s, rsteps (fun _ => True) (rinit B st n) s ->
  let es := l_effects (r_sys s) in let h := r_hist s in
  (forall more, watch B st (map e_ask es ++ more) = map e_saw es ++ watch B (l_st (r_sys s)) more) /\
  exists f : nat -> nat,
    (forall p i a q t k u, nth_error h p = Some (HGot i a q t k u) ->
       t < p /\ (exists u0, nth_error h t = Some (HSent i a u0)) /\
       exists e, nth_error es (f p) = Some e /\ e_who e = i /\ e_ask e = a /\ over_socket a (e_saw e) = q) /\
    (forall p p' i a q t k u i' a' q' t' k' u', p <> p' ->
       nth_error h p = Some (HGot i a q t k u) -> nth_error h p' = Some (HGot i' a' q' t' k' u') -> f p <> f p' /\ t <> t') /\
    (forall p p' i a q t k u i' a' q' t' k' u',
       nth_error h p = Some (HGot i a q t k u) -> nth_error h p' = Some (HGot i' a' q' t' k' u') -> p < t' -> f p < f p').
Proof.
  intros st n s HR es h. destruct (rsteps_inv HR) as ((_ & HH & _) & HL). fold h in HH.
  destruct (C54_linearizable HL) as (HW & HO & _). split; [exact HW|].
  destruct (ret_effects HL) as (g & G1 & G2). destruct HH as (H1 & H2 & H3 & H4 & H5).
  exists (fun p => match nth_error h p with Some (HGot _ _ _ _ k _) => g k | _ => 0 end). split; [|split].
  - intros p i a q t k u Hp. rewrite Hp. destruct (H3 _ _ _ _ _ _ _ Hp) as (A & u0 & r & S1 & S2 & S3 & S4 & S5 & S6 & S7).
    split; auto. split; eauto. destruct (G1 _ _ S2) as (e & E1 & W & EA & ES & _). exists e. split; auto.
    split; [congruence|]. split; [congruence|]. rewrite ES. auto.
  - intros p p' i a q t k u i' a' q' t' k' u' Hpp Hp Hp'. rewrite Hp, Hp'.
    destruct (got_distinct h H4 H5 Hpp Hp Hp') as [D1 D2]. split; auto.
    destruct (H3 _ _ _ _ _ _ _ Hp) as (_ & u0 & r & _ & S2 & _). destruct (H3 _ _ _ _ _ _ _ Hp') as (_ & u0' & r' & _ & S2' & _).
    eapply G2; eauto.
  - intros p p' i a q t k u i' a' q' t' k' u' Hp Hp' Hlt. rewrite Hp, Hp'.
    destruct (H3 _ _ _ _ _ _ _ Hp) as (_ & u0 & r & S1 & S2 & S3 & S4 & S5 & S6 & S7).
    destruct (H3 _ _ _ _ _ _ _ Hp') as (_ & u0' & r' & S1' & S2' & S3' & S4' & S5' & S6' & S7').
    destruct (G1 _ _ S2) as (e & E1 & _ & _ & _ & T1). destruct (G1 _ _ S2') as (e' & E1' & _ & _ & _ & T1').
    pose proof (H2 _ _ _ _ Hlt Hp S1') as ST. cbn in ST.
    destruct (Nat.lt_trichotomy (g k) (g k')) as [L|[L|L]]; auto; exfalso.
    + rewrite L in E1. rewrite E1 in E1'. injection E1' as <-. lia.
    + pose proof (HO _ _ _ _ L E1' E1). lia.
Qed.

(** ** When nobody leaves *)
Definition carries (p : pipe (K := K) (V := V)) : option nat :=
  match p with Incoming _ t | Serving _ t | Outgoing _ _ t _ => Some t | _ => None end.
Definition returns_as (p : pipe (K := K) (V := V)) : option nat := match p with Outgoing _ _ _ k => Some k | _ => None end.
Definition cov (s : rsys) : Prop :=
  (forall k, k < length (l_returns (r_sys s)) -> List.In k (ks (r_hist s)) \/ exists l, List.In l (r_lines s) /\ returns_as (ln_pipe l) = Some k) /\
  (forall t i a u, nth_error (r_hist s) t = Some (HSent i a u) -> List.In t (ts (r_hist s)) \/ exists l, List.In l (r_lines s) /\ carries (ln_pipe l) = Some t) /\
  (forall l, List.In l (r_lines s) -> ln_client l = None -> ln_pipe l = Rest).
Lemma in_mid {T} (m1 m2 : list T) x : List.In x (m1 ++ x :: m2).
Proof. apply in_or_app. right; left; auto. Qed.
Lemma in_swap {T} (m1 m2 : list T) x y l : List.In l (m1 ++ x :: m2) -> l = x \/ List.In l (m1 ++ y :: m2).
Proof. intros H. apply in_app_iff in H. destruct H as [H|[H|H]]; [right|left; auto|right]; apply in_or_app; [left|right; right]; auto. Qed.
Lemma rstep_cov (s s' : rsys) : rinv s -> rstep false s s' -> cov s -> cov s'.
Proof.
  intros (HL & _ & HP) H (C1 & C2 & C3). remember false as b eqn:Eb.
  assert (Swap : forall (m1 m2 : list (line (K := K) (V := V))) l l', (forall v, returns_as (ln_pipe l) = Some v -> returns_as (ln_pipe l') = Some v) ->
     forall k, (exists y, List.In y (m1 ++ l :: m2) /\ returns_as (ln_pipe y) = Some k) -> exists y, List.In y (m1 ++ l' :: m2) /\ returns_as (ln_pipe y) = Some k).
  { intros m1 m2 l l' Hl k (y & I1 & I2). destruct (in_swap m1 m2 l l' y I1) as [->|I3]; eauto using in_mid. }
  assert (SwapT : forall (m1 m2 : list (line (K := K) (V := V))) l l', (forall v, carries (ln_pipe l) = Some v -> carries (ln_pipe l') = Some v) ->
     forall k, (exists y, List.In y (m1 ++ l :: m2) /\ carries (ln_pipe y) = Some k) -> exists y, List.In y (m1 ++ l' :: m2) /\ carries (ln_pipe y) = Some k).
  { intros m1 m2 l l' Hl k (y & I1 & I2). destruct (in_swap m1 m2 l l' y I1) as [->|I3]; eauto using in_mid. }
  assert (SwapN : forall (m1 m2 : list (line (K := K) (V := V))) l l', (ln_client l' = None -> ln_pipe l' = Rest) ->
     (forall y, List.In y (m1 ++ l :: m2) -> ln_client y = None -> ln_pipe y = Rest) ->
     forall y, List.In y (m1 ++ l' :: m2) -> ln_client y = None -> ln_pipe y = Rest).
  { intros m1 m2 l l' Hl H0 y I1 I2. destruct (in_swap m1 m2 l' l y I1) as [->|I3]; auto. }
  destruct H as [x m1 m2 h|x m1 m2 h a|x m1 c p m2 h|x m1 a t m2 h|sh ex rd wr st l1 l2 now es rs m1 c a t m2 h EL
    |x x' m h HS HC|sh ex rd wr st l1 a t0 v q l2 now es rs m1 c t m2 h EL|x m1 a0 t0 a q t k m2 h|x m1 a q t k m2 h|x m1 a q t k m2 h];
    try discriminate Eb; unfold cov in *; cbn [r_sys r_lines r_hist l_returns l_threads] in *.
  - split; [|split].
    + intros k Hk. destruct (C1 k Hk) as [A|A]; auto. right. revert A. apply Swap. auto.
    + intros t i a u Ht. destruct (C2 _ _ _ _ Ht) as [A|A]; auto. right. revert A. apply SwapT. auto.
    + eapply SwapN; [|exact C3]. discriminate.
  - rewrite ts_app, ks_app. cbn [ts ks flat_map]. rewrite !app_nil_r. split; [|split].
    + intros k Hk. destruct (C1 k Hk) as [A|A]; auto. right. revert A. apply Swap. discriminate.
    + intros t i a1 u Ht. apply nth_snoc in Ht. destruct Ht as [Ht|[-> _]].
      * destruct (C2 _ _ _ _ Ht) as [A|A]; auto. right. revert A. apply SwapT. discriminate.
      * right. eexists. split; [apply in_mid|reflexivity].
    + eapply SwapN; [|exact C3]. discriminate.
  - specialize (C3 _ (in_mid m1 m2 _) eq_refl). discriminate.
  - split; [|split].
    + intros k Hk. destruct (C1 k Hk) as [A|A]; auto. right. revert A. apply Swap. auto.
    + intros t1 i a1 u Ht. destruct (C2 _ _ _ _ Ht) as [A|A]; auto. right. revert A. apply SwapT. auto.
    + eapply SwapN; [|exact C3]. cbn. intros ->. specialize (C3 _ (in_mid m1 m2 _) eq_refl). discriminate.
  - destruct (lstep_shape HS) as (_ & l1 & th1 & th2 & l2 & T1 & T2 & C).
    assert (R : l_returns x' = l_returns x).
    { rewrite T1, T2, !map_app in HC. apply app_inv_head in HC. cbn [map] in HC. injection HC as HC.
      destruct C as [[_ R]|[(_ & _ & R)|(a & q & t0 & D1 & D2 & _)]]; auto. congruence. }
    rewrite R. auto.
  - rewrite app_length. cbn [length]. split; [|split].
    + intros k Hk. destruct (Nat.eq_dec k (length rs)) as [->|Hn].
      * right. eexists. split; [apply in_mid|reflexivity].
      * destruct (C1 k ltac:(lia)) as [A|A]; auto. right. revert A. apply Swap. discriminate.
    + intros t1 i a1 u Ht. destruct (C2 _ _ _ _ Ht) as [A|A]; auto. right. revert A. apply SwapT. auto.
    + eapply SwapN; [|exact C3]. cbn. intros ->. specialize (C3 _ (in_mid m1 m2 _) eq_refl). discriminate.
  - assert (E : a0 = a /\ t0 = t).
    { destruct (nth_error (l_threads x) (length m1)) as [th0|] eqn:E0.
      2:{ apply nth_error_None in E0. rewrite <- HL, app_length in E0. cbn in E0. lia. }
      pose proof (HP _ _ _ E0 (nth_mid m1 m2 _)) as HM. unfold pipe_ok in HM; cbn [ln_pipe ln_client] in HM.
      destruct HM as (M1 & M2 & M3 & M4 & [M5|M5]); [discriminate|]. injection M5 as -> ->. auto. }
    destruct E as [-> ->]. rewrite ts_app, ks_app. cbn [ts ks flat_map app]. split; [|split].
    + intros k1 Hk. destruct (C1 k1 Hk) as [A|(y & I1 & I2)]; [left; apply in_or_app; auto|].
      destruct (in_swap m1 m2 _ (mkLine (Some None) Rest) y I1) as [->|I3]; [|eauto].
      cbn in I2. injection I2 as ->. left. apply in_or_app. right; left; auto.
    + intros t1 i a1 u Ht. apply nth_snoc in Ht. destruct Ht as [Ht|[_ Ht]]; [|discriminate].
      destruct (C2 _ _ _ _ Ht) as [A|(y & I1 & I2)]; [left; apply in_or_app; auto|].
      destruct (in_swap m1 m2 _ (mkLine (Some None) Rest) y I1) as [->|I3]; [|eauto].
      cbn in I2. injection I2 as ->. left. apply in_or_app. right; left; auto.
    + eapply SwapN; [|exact C3]. discriminate.
  - specialize (C3 _ (in_mid m1 m2 _) eq_refl). discriminate.
  - specialize (C3 _ (in_mid m1 m2 _) eq_refl). discriminate.
Qed.
Lemma rsteps_cov (st : St B) n s : rsteps (fun b => b = false) (rinit B st n) s -> cov s.
Proof.
  intros H. remember (rinit B st n) as s0 eqn:E. induction H as [s|b s s' s'' H IH -> HS]; subst.
  - unfold cov, rinit; cbn [r_sys r_lines r_hist linit l_returns]. split; [cbn; lia|]. split; [intros t i a u Ht; destruct t; discriminate|].
    intros l Hl _. apply repeat_spec in Hl. subst. reflexivity.
  - eapply rstep_cov; [|exact HS|auto]. apply (rsteps_inv H).
Qed.

Lemma by_who {T} (who : T -> nat) n (l : list T) : Forall (fun x => who x < n) l ->
  Permutation l (flat_map (fun i => filter (fun x => who x =? i) l) (seq 0 n)).
Proof.
  induction l as [|x l IH]; intros HF.
  - cbn. induction (seq 0 n) as [|i q IHq]; cbn; auto.
  - inversion HF as [|? ? F1 F2]; subst. specialize (IH F2).
    assert (G : forall q, NoDup q -> List.In (who x) q ->
      Permutation (x :: flat_map (fun i => filter (fun x => who x =? i) l) q) (flat_map (fun i => filter (fun x => who x =? i) (x :: l)) q)).
    { clear. intros q. induction q as [|i q IH]; intros ND HI; [destruct HI|].
      inversion ND as [|? ? N1 N2]; subst. cbn [flat_map filter]. destruct (Nat.eqb_spec (who x) i) as [E|E].
      - cbn [app]. constructor. apply Permutation_app_head.
        assert (EQ : forall q, ~ List.In i q -> flat_map (fun i => filter (fun x => who x =? i) l) q = flat_map (fun i => if who x =? i then x :: filter (fun x => who x =? i) l else filter (fun x => who x =? i) l) q).
        { intros q0. induction q0 as [|j q0 IH0]; intros Hq; cbn; auto. rewrite IH0 by (intros A; apply Hq; right; auto).
          destruct (Nat.eqb_spec (who x) j) as [E2|E2]; auto. exfalso. apply Hq. left. congruence. }
        rewrite <- EQ by auto. auto.
      - destruct HI as [HI|HI]; [congruence|]. rewrite <- IH by auto. apply Permutation_middle. }
    rewrite <- G; [constructor; exact IH|apply seq_NoDup|apply in_seq; lia].
Qed.

Definition as_got (a : ask K V) (q : saw K V) : ask K V * saw K V := (a, over_socket a q).
Lemma effects_returns (st : St B) n x : lsteps (linit B st n) x -> Forall (fun th => calling th = None) (l_threads x) ->
  Permutation (map (fun e => as_got (e_ask e) (e_saw e)) (l_effects x)) (map (fun r => as_got (r_ask r) (r_saw r)) (l_returns x)).
Proof.
  intros H HF. destruct (C54_linearizable H) as (_ & _ & HW1 & HW2 & HP). pose proof (lsteps_threads H) as L.
  rewrite (Permutation_map _ (by_who (@e_who K V) HW1)), (Permutation_map _ (by_who (@r_who K V) HW2)).
  assert (G : forall q, (forall i, List.In i q -> i < n) ->
    map (fun e => as_got (e_ask e) (e_saw e)) (flat_map (fun i => filter (fun e => e_who e =? i) (l_effects x)) q) =
    map (fun r => as_got (r_ask r) (r_saw r)) (flat_map (fun i => filter (fun r => r_who r =? i) (l_returns x)) q)).
  { induction q as [|i q IH]; intros Hq; [reflexivity|]. cbn [flat_map]. rewrite !map_app, IH by (intros; apply Hq; right; auto). f_equal.
    destruct (HP i) as (d & p & E1 & E2 & _ & E3); [apply Hq; left; auto|].
    rewrite E3 in E1.
    2:{ destruct (nth_error (l_threads x) i) as [th|] eqn:E; [|apply nth_error_None in E; specialize (Hq i (or_introl eq_refl)); lia].
        apply nth_error_In in E. rewrite Forall_forall in HF. specialize (HF _ E). destruct th; [reflexivity|discriminate]. }
    rewrite app_nil_r in E1. rewrite E1. clear - E2. induction E2 as [|e r d l (A1 & A2 & A3 & _) _ IH]; cbn; auto. congruence. }
  rewrite G; auto. intros i Hi. apply in_seq in Hi. lia.
Qed.

Lemma map_nth_seq {T U} (f : option T -> U) (l : list T) : map (fun k => f (nth_error l k)) (seq 0 (length l)) = map (fun y => f (Some y)) l.
Proof.
  induction l as [|y l IH]; cbn; auto. f_equal. rewrite <- seq_shift, map_map. cbn. exact IH.
Qed.
Lemma got_by_ks (x : lsys B) (h : hist) (F : option (returned (K := K) (V := V)) -> ask K V * saw K V) :
  (forall r, F (Some r) = as_got (r_ask r) (r_saw r)) ->
  (forall p i a q t k u, nth_error h p = Some (HGot i a q t k u) -> served x h i a q t k u) ->
  got h = map (fun k => F (nth_error (l_returns x) k)) (ks h).
Proof.
  intros HF HS.
  assert (G : forall l, (forall e, List.In e l -> exists p, nth_error h p = Some e) -> got l = map (fun k => F (nth_error (l_returns x) k)) (ks l)).
  { induction l as [|e l IH]; intros Hl; auto. unfold got, ks in *. cbn [flat_map]. rewrite map_app, <- IH by (intros; apply Hl; right; auto). f_equal.
    destruct e as [|i a q t k u]; [reflexivity|]. destruct (Hl _ (or_introl eq_refl)) as [p Hp].
    destruct (HS _ _ _ _ _ _ _ Hp) as (u0 & r & _ & S2 & _ & S4 & S5 & _). cbn. rewrite S2, HF. unfold as_got. congruence. }
  apply G. intros e He. apply In_nth_error in He. auto.
Qed.
Lemma asks_by_ts (x : lsys B) (h : hist) (F : option (noted (K := K) (V := V)) -> list (ask K V)) :
  (forall i a u, F (Some (HSent i a u)) = [a]) ->
  (forall p i a q t k u, nth_error h p = Some (HGot i a q t k u) -> served x h i a q t k u) ->
  map fst (got h) = flat_map (fun t => F (nth_error h t)) (ts h).
Proof.
  intros HF HS.
  assert (G : forall l, (forall e, List.In e l -> exists p, nth_error h p = Some e) -> map fst (got l) = flat_map (fun t => F (nth_error h t)) (ts l)).
  { induction l as [|e l IH]; intros Hl; auto. unfold got, ts in *. cbn [flat_map]. rewrite map_app, flat_map_app, <- IH by (intros; apply Hl; right; auto). f_equal.
    destruct e as [|i a q t k u]; [reflexivity|]. destruct (Hl _ (or_introl eq_refl)) as [p Hp].
    destruct (HS _ _ _ _ _ _ _ Hp) as (u0 & r & S1 & _). cbn. rewrite S1, HF. reflexivity. }
  apply G. intros e He. apply In_nth_error in He. auto.
Qed.

(** C74.  As long as no client leaves: when nothing is under way, the clients have got an answer to each call they made,
    and these are exactly the calls that took effect on the container. *)
Theorem C74_everyone_is_answered : forall (st : St B) n s, rsteps (fun b => b = false) (rinit B st n) s ->
  Forall quiet_line (r_lines s) ->
  Permutation (map fst (got (r_hist s))) (sent (r_hist s)) /\
  Permutation (got (r_hist s)) (map (fun e => (e_ask e, over_socket (e_ask e) (e_saw e))) (l_effects (r_sys s))).
Proof.
  intros st n s HR HQ. destruct (rsteps_inv HR) as ((HLen & HH & HP) & HL). destruct (rsteps_cov HR) as (C1 & C2 & _).
  assert (NQ : forall l, List.In l (r_lines s) -> ln_pipe l = Rest) by (intros l Hl; rewrite Forall_forall in HQ; apply HQ; auto).
  assert (HI : Forall (fun th => calling th = None) (l_threads (r_sys s))).
  { apply Forall_forall. intros th Ht. apply In_nth_error in Ht. destruct Ht as [i Hi].
    destruct (nth_error (r_lines s) i) as [l|] eqn:El.
    2:{ apply nth_error_None in El. assert (i < length (l_threads (r_sys s))) by (apply nth_error_Some; congruence). lia. }
    specialize (HP _ _ _ Hi El). unfold pipe_ok in HP. rewrite (NQ l) in HP by (eapply nth_error_In; eauto). tauto. }
  destruct HH as (H1 & H2 & H3 & H4 & H5). set (h := r_hist s) in *. set (x := r_sys s) in *.
  assert (HS : forall p i a q t k u, nth_error h p = Some (HGot i a q t k u) -> served x h i a q t k u) by (intros p i a q t k u Hp; apply (H3 _ _ _ _ _ _ _ Hp)).
  split.
  - pose (F := fun o : option (noted (K := K) (V := V)) => match o with Some (HSent _ a _) => [a] | _ => [] end).
    rewrite (asks_by_ts F ltac:(reflexivity) HS).
    pose (issent := fun t => match nth_error h t with Some (HSent _ _ _) => true | _ => false end).
    assert (E : sent h = flat_map (fun t => F (nth_error h t)) (filter issent (seq 0 (length h)))).
    { transitivity (flat_map (fun t => F (nth_error h t)) (seq 0 (length h))).
      - unfold sent. rewrite !flat_map_concat_map. f_equal. rewrite (map_nth_seq F h). apply map_ext. intros []; reflexivity.
      - clear. induction (seq 0 (length h)) as [|t l IH]; cbn [flat_map filter]; auto. rewrite IH. unfold issent at 2.
        destruct (nth_error h t) as [[]|] eqn:Et; cbn [flat_map]; [rewrite Et|cbn [F app]|cbn [F app]]; reflexivity. }
    rewrite E. apply Permutation_flat_map. apply NoDup_Permutation; auto.
    + apply NoDup_filter. apply seq_NoDup.
    + intros t. rewrite filter_In, in_seq. unfold issent. split.
      * intros Ht. unfold ts in Ht. apply in_flat_map in Ht. destruct Ht as (e & I1 & I2).
        destruct e as [|i a q t1 k u]; [destruct I2|]. destruct I2 as [->|[]]. apply In_nth_error in I1. destruct I1 as [p I1].
        destruct (HS _ _ _ _ _ _ _ I1) as (u0 & r & S1 & _). rewrite S1. split; auto.
        assert (t < length h) by (apply nth_error_Some; congruence). lia.
      * intros [_ Ht]. destruct (nth_error h t) as [[i a u|]|] eqn:Et; try discriminate.
        destruct (C2 _ _ _ _ Et) as [A|(l & I1 & I2)]; auto. rewrite NQ in I2 by auto. discriminate.
  - pose (F := fun o : option (returned (K := K) (V := V)) => match o with Some r => as_got (r_ask r) (r_saw r) | None => as_got AskSize SawPanic end).
    rewrite (got_by_ks F ltac:(reflexivity) HS).
    change (fun e => (e_ask e, over_socket (e_ask e) (e_saw e))) with (fun e : took_effect (K := K) (V := V) => as_got (e_ask e) (e_saw e)).
    rewrite (effects_returns HL HI). transitivity (map (fun k => F (nth_error (l_returns x) k)) (seq 0 (length (l_returns x))));
      [|rewrite (map_nth_seq F (l_returns x)); reflexivity]. apply Permutation_map.
    apply NoDup_Permutation; auto; [apply seq_NoDup|].
    intros k. rewrite in_seq. split.
    + intros Hk. unfold ks in Hk. apply in_flat_map in Hk. destruct Hk as (e & I1 & I2).
      destruct e as [|i a q t1 k1 u]; [destruct I2|]. destruct I2 as [->|[]]. apply In_nth_error in I1. destruct I1 as [p I1].
      destruct (HS _ _ _ _ _ _ _ I1) as (u0 & r & _ & S2 & _).
      assert (k < length (l_returns x)) by (apply nth_error_Some; congruence). lia.
    + intros [_ Hk]. destruct (C1 k Hk) as [A|(l & I1 & I2)]; auto. rewrite NQ in I2 by auto. discriminate.
Qed.
End Proof.

(** C74.  And nothing is lost: the pairs the clients pushed, all servers together, are those they got back and those in
    the container. *)
Theorem C74_nothing_lost : forall K (OK : Ord K) (EK : OrdEq K) V dup (a : arch K V) n s,
  rsteps (fun b => b = false) (rinit (block a) (init a) n) s -> Forall quiet_line (r_lines s) ->
  used dup a (calls_made (l_effects (r_sys s))) ->
  Permutation (flat_map (fun x => pairs_in (snd x)) (got (r_hist s)) ++ held a (l_st (r_sys s)))
    (flat_map (fun c => match c with AskPush vs => vs | _ => [] end) (sent (r_hist s))).
Proof.
  intros K OK EK V dup a n s HR HQ HU. destruct (rsteps_inv HR) as (_ & HL).
  destruct (@C54_nothing_lost _ _ EK _ _ _ _ _ HL HU) as (HP & _). destruct (C74_everyone_is_answered HR HQ) as [P1 P2].
  assert (E1 : Permutation (flat_map (fun x => pairs_in (snd x)) (got (r_hist s))) (pairs_back (l_effects (r_sys s)))).
  { rewrite (Permutation_flat_map _ P2). unfold pairs_back. rewrite !flat_map_concat_map, map_map.
    erewrite map_ext; [reflexivity|]. intros e. cbn [snd]. destruct (e_ask e), (e_saw e); reflexivity. }
  assert (E2 : Permutation (flat_map (fun c => match c with AskPush vs => vs | _ => [] end) (sent (r_hist s))) (pairs_given (l_effects (r_sys s)))).
  { rewrite <- (Permutation_flat_map _ P1). 
    rewrite (Permutation_flat_map _ (Permutation_map fst P2)). unfold pairs_given. rewrite !flat_map_concat_map, !map_map. reflexivity. }
  rewrite E1, E2. exact HP.
Qed.

(** ** Two servers at work at the same time *)
Section Contention.
Context {K V : Type}.
Variable B : Block K V.
Lemma two {T} (m1 m2 : list T) x y z : m1 ++ x :: m2 = [y; z] -> (m1 = [] /\ x = y /\ m2 = [z]) \/ (m1 = [y] /\ x = z /\ m2 = []).
Proof.
  destruct m1 as [|m [|m' m1]]; cbn; intros H.
  - injection H as -> ->. auto.
  - injection H as -> -> ->. auto.
  - injection H as _ _ H. destruct m1; discriminate.
Qed.
Definition corpse (vs : list (K * V)) t v r : thread B := Busy (AskPush vs) [In Wr; CallBegin; CallEnd; Rel Ex; Out Wr] true t v r.
Definition almost (vs : list (K * V)) (th : thread B) (p : pipe (K := K) (V := V)) : Prop :=
  (exists t v r, th = Busy (AskPush vs) [Out Wr] false t v r /\ p = Serving (AskPush vs) 0) \/
  (exists t v r, th = Busy (AskPush vs) [] false t v r /\ p = Serving (AskPush vs) 0) \/
  (th = Idle /\ (p = Rest \/ p = Down \/ (exists a t, p = Incoming a t) \/ (exists a q k, p = Outgoing a q 0 k))) \/
  (exists a t t', th = Busy a (script (method a)) false t None None /\ p = Serving a t').
Definition only0 (h : list (noted (K := K) (V := V))) : Prop := forall p i a q t k u, nth_error h p = Some (HGot i a q t k u) -> t = 0.
Definition stuck (vs vs' : list (K * V)) (s : rsys B) : Prop :=
  exists th0 t v r c0 p0 c1, l_ex (r_sys s) = 1 /\ l_threads (r_sys s) = [th0; corpse vs' t v r] /\
  r_lines s = [mkLine c0 p0; mkLine c1 (Serving (AskPush vs') 1)] /\ almost vs th0 p0 /\ only0 (r_hist s).
Lemma first_acq (a : ask K V) : exists m p, script (method a) = Acq m :: p.
Proof. destruct a; cbn; eauto. Qed.
Lemma only0_snoc h e : only0 h -> (forall i a q t k u, e = HGot i a q t k u -> t = 0) -> only0 (h ++ [e]).
Proof. intros H0 He p i a q t k u Hp. apply nth_snoc in Hp. destruct Hp as [Hp|[_ Hp]]; eauto. Qed.
Ltac both E := apply two in E; destruct E as [(? & E & ?)|(? & E & ?)]; try discriminate E; subst.
Ltac again := do 7 eexists; (split; [reflexivity|]); (split; [reflexivity|]); (split; [reflexivity|]).

Lemma stuck_step vs vs' b (s s' : rsys B) : rinv s -> stuck vs vs' s -> rstep b s s' -> stuck vs vs' s'.
Proof.
  intros HV (th0 & t & v & r & c0 & p0 & c1 & E1 & E2 & E3 & HA & HO) H. unfold stuck.
  destruct H as [x m1 m2 h|x m1 m2 h a|x m1 c p m2 h|x m1 a t1 m2 h|sh ex rd wr st l1 l2 now es rs m1 c a t1 m2 h EL
    |x x' m h HS HC|sh ex rd wr st l1 a t0 v1 q l2 now es rs m1 c t1 m2 h EL|x m1 a0 t0 a q t1 k m2 h|x m1 a q t1 k m2 h|x m1 a q t1 k m2 h];
    cbn [r_sys r_lines r_hist l_ex l_threads] in *.
  - both E3. injection E3 as <- <-. rewrite E1, E2. again. auto.
  - both E3. injection E3 as <- <-. rewrite E1, E2. again. split; [|apply only0_snoc; auto; discriminate].
    destruct HA as [(? & ? & ? & _ & A)|[(? & ? & ? & _ & A)|[[A _]|(? & ? & ? & _ & A)]]]; try discriminate A. right; right; left. split; auto. right; right; left; eauto.
  - both E3; injection E3 as <- <-; rewrite E1, E2; again; auto.
  - both E3. injection E3 as <- <-. rewrite E1, E2. again. split; auto.
    destruct HA as [(? & ? & ? & _ & A)|[(? & ? & ? & _ & A)|[[A _]|(? & ? & ? & _ & A)]]]; try discriminate A. right; right; left. auto.
  - both E3. injection E3 as <- <-. both E2. again. split; auto. right; right; right. eauto.
  - rewrite E3. destruct HS as [sh ex rd wr st l1 l2 a now es rs|sh ex rd wr sh' ex' rd' wr' st l1 a y p t1 v1 r1 l2 now es rs HP HX
    |sh ex rd wr st l1 a y p t1 v1 r1 l2 now es rs HI HX|sh ex rd wr st l1 a p t1 v1 r1 l2 now es rs
    |sh ex rd wr st l1 a p t1 v1 r1 l2 now es rs st' q HX|sh ex rd wr st l1 a p t1 v1 r1 l2 now es rs HX
    |sh ex rd wr st l1 a t1 v1 q l2 now es rs]; cbn [l_ex l_threads] in *; subst.
    + exfalso. rewrite !map_app in HC. apply app_inv_head in HC. discriminate HC.
    + both E2. destruct HA as [(? & ? & ? & A & ->)|[(? & ? & ? & A & _)|[[A _]|(? & ? & ? & A & _)]]]; try discriminate A.
      * injection A as -> -> -> -> -> ->. cbn in HX. injection HX as <- <- <- <-. again. split; auto. right; left. eauto.
      * destruct (first_acq a) as (m0 & p1 & F). injection A as -> A -> -> ->. rewrite F in A. injection A as -> ->. destruct m0; discriminate HX.
    + both E2. destruct HA as [(? & ? & ? & A & _)|[(? & ? & ? & A & _)|[[A _]|(? & ? & ? & A & _)]]]; try discriminate A.
      * injection A as -> -> -> -> -> ->. discriminate.
      * destruct (first_acq a) as (m0 & p1 & F). injection A as -> A -> -> ->. rewrite F in A. injection A as -> ->. discriminate HI.
    + both E2. destruct HA as [(? & ? & ? & A & _)|[(? & ? & ? & A & _)|[[A _]|(? & ? & ? & A & _)]]]; try discriminate A.
      destruct (first_acq a) as (m0 & p1 & F). injection A as -> A _ _ _. rewrite F in A. discriminate.
    + both E2. destruct HA as [(? & ? & ? & A & _)|[(? & ? & ? & A & _)|[[A _]|(? & ? & ? & A & _)]]]; discriminate A.
    + both E2. destruct HA as [(? & ? & ? & A & _)|[(? & ? & ? & A & _)|[[A _]|(? & ? & ? & A & _)]]]; discriminate A.
    + exfalso. rewrite !map_app in HC. apply app_inv_head in HC. discriminate HC.
  - both E2; both E3; try discriminate EL. injection E3 as <- <-. again. split; auto. right; right; left. split; auto. right; right; right.
    destruct HA as [(? & ? & ? & A & _)|[(? & ? & ? & _ & A)|[[A _]|(? & ? & ? & A & _)]]]; try discriminate A.
    injection A as -> ->. eauto.
  - destruct HV as (HL & _ & HV). both E3. injection E3 as <- <-. rewrite E1, E2. again.
    specialize (HV 0). cbn [r_sys r_lines r_hist] in HV. rewrite E2 in HV. specialize (HV _ _ eq_refl eq_refl).
    unfold pipe_ok in HV. cbn [ln_pipe ln_client] in HV. destruct HV as (_ & _ & _ & _ & [V5|V5]); [discriminate|]. injection V5 as -> ->.
    destruct HA as [(? & ? & ? & _ & A)|[(? & ? & ? & _ & A)|[[A1 A]|(? & ? & ? & _ & A)]]]; try discriminate A.
    destruct A as [A|[A|[(? & ? & A)|(? & ? & ? & A)]]]; try discriminate A. injection A as -> -> -> ->.
    split; [right; right; left; auto|]. apply only0_snoc; auto. congruence.
  - both E3. injection E3 as <- <-. rewrite E1, E2. again. split; auto.
    destruct HA as [(? & ? & ? & _ & A)|[(? & ? & ? & _ & A)|[[A _]|(? & ? & ? & _ & A)]]]; try discriminate A. right; right; left. auto.
  - both E3. injection E3 as <- <-. rewrite E1, E2. again. split; auto.
    destruct HA as [(? & ? & ? & _ & A)|[(? & ? & ? & _ & A)|[[A _]|(? & ? & ? & _ & A)]]]; try discriminate A. right; right; left. auto.
Qed.
Lemma rsteps_trans ok (s1 s2 s3 : rsys B) : rsteps ok s1 s2 -> rsteps ok s2 s3 -> rsteps ok s1 s3.
Proof. intros H1 H2. induction H2 as [s|b s s' s'' H2 IH Hb HS]; auto. eapply rs_step; [apply IH; auto| |]; eauto. Qed.
Lemma rsteps_any ok (s1 s2 : rsys B) : rsteps ok s1 s2 -> rsteps (fun _ => True) s1 s2.
Proof. induction 1 as [s|b s s' s'' H2 IH Hb HS]; [constructor|]. eapply rs_step; [exact IH|exact I|exact HS]. Qed.

Lemma stuck_steps vs vs' st n (s s' : rsys B) : rsteps (fun _ => True) (rinit B st n) s -> stuck vs vs' s ->
  rsteps (fun _ => True) s s' -> stuck vs vs' s'.
Proof.
  intros R H0 HR. induction HR as [s|b s s1 s2 HR IH _ HS]; auto.
  eapply stuck_step; [|apply IH; auto|exact HS].
  destruct (@rsteps_inv _ _ B (fun _ => True) st n s1) as [V0 _]; auto. eapply rsteps_trans; eauto.
Qed.

(** C74 (refuted): two clients of two servers push at the same time.  The thread of one server has given the lock back
    and not yet the borrow when the other one asks for it, which panics holding the lock: the calls of the clients of
    both servers, this one and all later ones, are not answered any more, but for the first. *)
Theorem C74_contention_stops_all_servers_refuted : forall (st st' : St B) vs vs' back,
  push B st vs = Ok (st', back) ->
  exists s, rsteps (fun b => b = false) (rinit B st 2) s /\ sent (r_hist s) = [AskPush vs; AskPush vs'] /\
  forall s', rsteps (fun _ => True) s s' ->
  forall p i a q t k u, nth_error (r_hist s') p = Some (HGot i a q t k u) -> t = 0.
Proof.
  intros st st' vs vs' back HP.
  pose (A0 := AskPush vs : ask K V). pose (A1 := AskPush vs' : ask K V).
  pose (h := [HSent 0 A0 0; HSent 1 A1 0] : list (noted (K := K) (V := V))).
  pose (e := mkEff 0 A0 (SawPairs back) 4).
  exists (mkR (mkL 0 1 0 1 st' [Busy A0 [Out Wr] false 0 (Some st) (Some (SawPairs back)); corpse vs' 6 None None] 9 [e] [])
     [mkLine (Some (Some (A0, 0))) (Serving A0 0); mkLine (Some (Some (A1, 1))) (Serving A1 1)] h).
  assert (R : rsteps (fun b => b = false) (rinit B st 2) (mkR (mkL 0 1 0 1 st' [Busy A0 [Out Wr] false 0 (Some st) (Some (SawPairs back)); corpse vs' 6 None None] 9 [e] [])
     [mkLine (Some (Some (A0, 0))) (Serving A0 0); mkLine (Some (Some (A1, 1))) (Serving A1 1)] h)).
  { unfold rinit, linit. cbn [repeat].
    eapply rs_step; [|reflexivity|].
    2:{ eapply R_inner; [apply (@L_panic _ _ B 0 1 0 1 st' [Busy A0 [Out Wr] false 0 (Some st) (Some (SawPairs back))] A1 (In Wr) [CallBegin; CallEnd; Rel Ex; Out Wr] 6 None None [] 8 [e] []); reflexivity|reflexivity]. }
    eapply rs_step; [|reflexivity|].
    2:{ eapply R_inner; [apply (@L_act _ _ B 0 0 0 1 0 1 0 1 st' [Busy A0 [Out Wr] false 0 (Some st) (Some (SawPairs back))] A1 (Acq Ex) [In Wr; CallBegin; CallEnd; Rel Ex; Out Wr] 6 None None [] 7 [e] []); [exact I|reflexivity]|reflexivity]. }
    eapply rs_step; [|reflexivity|].
    2:{ apply (@R_start _ _ B 0 0 0 1 st' [Busy A0 [Out Wr] false 0 (Some st) (Some (SawPairs back))] [] 6 [e] [] [mkLine (Some (Some (A0, 0))) (Serving A0 0)] (Some (Some (A1, 1))) A1 1 [] h); reflexivity. }
    eapply rs_step; [|reflexivity|].
    2:{ eapply R_inner; [apply (@L_act _ _ B 0 1 0 1 0 0 0 1 st' [] A0 (Rel Ex) [Out Wr] 0 (Some st) (Some (SawPairs back)) [Idle] 5 [e] []); [exact I|reflexivity]|reflexivity]. }
    eapply rs_step; [|reflexivity|].
    2:{ eapply R_inner; [apply (@L_end _ _ B 0 1 0 1 st [] A0 [Rel Ex; Out Wr] 0 st None [Idle] 4 [] [] st' (SawPairs back)); cbn [answer A0]; rewrite HP; reflexivity|reflexivity]. }
    eapply rs_step; [|reflexivity|].
    2:{ eapply R_inner; [apply (@L_begin _ _ B 0 1 0 1 st [] A0 [CallEnd; Rel Ex; Out Wr] 0 None None [Idle] 3 [] [])|reflexivity]. }
    eapply rs_step; [|reflexivity|].
    2:{ eapply R_inner; [apply (@L_act _ _ B 0 1 0 0 0 1 0 1 st [] A0 (In Wr) [CallBegin; CallEnd; Rel Ex; Out Wr] 0 None None [Idle] 2 [] []); [exact I|reflexivity]|reflexivity]. }
    eapply rs_step; [|reflexivity|].
    2:{ eapply R_inner; [apply (@L_act _ _ B 0 0 0 0 0 1 0 0 st [] A0 (Acq Ex) [In Wr; CallBegin; CallEnd; Rel Ex; Out Wr] 0 None None [Idle] 1 [] []); [exact I|reflexivity]|reflexivity]. }
    eapply rs_step; [|reflexivity|].
    2:{ apply (@R_start _ _ B 0 0 0 0 st [] [Idle] 0 [] [] [] (Some (Some (A0, 0))) A0 0 [mkLine (Some (Some (A1, 1))) (Incoming A1 1)] h); reflexivity. }
    eapply rs_step; [|reflexivity|].
    2:{ apply (@R_send _ _ B (mkL 0 0 0 0 st [Idle; Idle] 0 [] []) [mkLine (Some (Some (A0, 0))) (Incoming A0 0)] [] [HSent 0 A0 0] A1). }
    eapply rs_step; [|reflexivity|].
    2:{ apply (@R_send _ _ B (mkL 0 0 0 0 st [Idle; Idle] 0 [] []) [] [mkLine (Some None) Rest] [] A0). }
    eapply rs_step; [|reflexivity|].
    2:{ apply (@R_connect _ _ B (mkL 0 0 0 0 st [Idle; Idle] 0 [] []) [mkLine (Some None) Rest] [] []). }
    eapply rs_step; [|reflexivity|].
    2:{ apply (@R_connect _ _ B (mkL 0 0 0 0 st [Idle; Idle] 0 [] []) [] [mkLine None Rest] []). }
    constructor. }
  split; [exact R|]. split; [reflexivity|].
  intros s' HR. assert (G : stuck vs vs' s'); [|destruct G as (? & ? & ? & ? & ? & ? & ? & _ & _ & _ & _ & G); exact G].
  eapply stuck_steps; [eapply rsteps_any; exact R| |exact HR].
  unfold stuck. cbn [r_sys r_lines r_hist l_ex l_threads]. again.
  split; [left; do 3 eexists; split; reflexivity|]. intros p i a q t k u Hp. destruct p as [|[|[|p]]]; discriminate Hp.
Qed.
End Contention.

(** ** One call at a time *)
Section Alone.
Context {K V : Type}.
Variable B : Block K V.
Lemma rsteps_cons (ok : bool -> Prop) b (s1 s2 s3 : rsys B) : ok b -> rstep b s1 s2 -> rsteps ok s2 s3 -> rsteps ok s1 s3.
Proof. intros Hb H1 H2. eapply rsteps_trans; [|exact H2]. eapply rs_step; [constructor|exact Hb|exact H1]. Qed.
Lemma at_rest (st : St B) n x : lsteps (linit B st n) x -> Forall (fun th => th = Idle) (l_threads x) ->
  l_sh x = 0 /\ l_ex x = 0 /\ l_rd x = 0 /\ l_wr x = 0.
Proof.
  intros H HF. destruct (lsteps_inv H) as (Q & _).
  assert (R : Forall resting (map (@client_of _ _ B) (l_threads x))).
  { apply Forall_forall. intros c Hc. apply in_map_iff in Hc. destruct Hc as (th & <- & Ht). rewrite Forall_forall in HF.
    rewrite (HF _ Ht). split; reflexivity. }
  unfold qof in Q. destruct Q as (H1 & H2 & H3 & H4 & _). cbn [nsh nex nrd nwr cl] in *.
  destruct (resting_cnt Sh Rd R) as [A1 A2]. destruct (resting_cnt Ex Wr R) as [A3 A4]. lia.
Qed.

(** C74.  When no server is serving anybody and the container does not panic, a request sent is answered. *)
Theorem C74_served_alone : forall ok (st : St B) n s m1 a t m2 st' q,
  rsteps ok (rinit B st n) s -> Forall (fun th => th = Idle) (l_threads (r_sys s)) ->
  r_lines s = m1 ++ mkLine (Some (Some (a, t))) (Incoming a t) :: m2 ->
  answer B (l_st (r_sys s)) a = Ok (st', q) ->
  exists s', rsteps (fun b => b = false) s s' /\ l_st (r_sys s') = st' /\ Forall (fun th => th = Idle) (l_threads (r_sys s')) /\
    r_lines s' = m1 ++ mkLine (Some None) Rest :: m2 /\
    exists k u, r_hist s' = r_hist s ++ [HGot (length m1) a (over_socket a q) t k u].
Proof.
  intros ok st n s m1 a t m2 st' q HR HF HL HA. destruct (rsteps_inv HR) as [(HN & _ & _) HS].
  destruct (at_rest HS HF) as (E1 & E2 & E3 & E4). destruct s as [[sh ex rd wr st0 ths now es rs] ls h].
  cbn [r_sys r_lines r_hist l_sh l_ex l_rd l_wr l_threads l_st] in *. subst.
  assert (LT : exists l1 l2, ths = l1 ++ Idle :: l2 /\ length l1 = length m1).
  { destruct (nth_error ths (length m1)) as [th|] eqn:E.
    - exists (firstn (length m1) ths), (skipn (S (length m1)) ths). split.
      + rewrite Forall_forall in HF. rewrite <- (HF th) at 1 by (eapply nth_error_In; eauto). apply PSeqConc.nth_split. auto.
      + apply firstn_length_le. assert (length m1 < length ths) by (apply nth_error_Some; congruence). lia.
    - apply nth_error_None in E. rewrite app_length in HN. cbn in HN. lia. }
  destruct LT as (l1 & l2 & -> & LL).
  assert (MA : modifies (method a) = false -> st' = st0) by (intros HM; eapply method_modifies_answer; eauto).
  assert (MV : (if modifies (method a) then st' else st0) = st') by (destruct (modifies (method a)); auto; symmetry; auto).
  exists (mkR (mkL 0 0 0 0 st' (l1 ++ Idle :: l2) (S (S (S (S (S (S (S (S now)))))))) (es ++ [mkEff (length l1) a q
     (match a with AskPush _ | AskFlush => S (S (S (S now))) | _ => S (S (S (S (S now)))) end)]) (rs ++ [mkRet (length l1) a q now (S (S (S (S (S (S (S now))))))) ]))
     (m1 ++ mkLine (Some None) Rest :: m2) (h ++ [HGot (length m1) a (over_socket a q) t (length rs) (S (S (S (S (S (S (S (S now))))))))])).
  cbn [r_sys r_lines r_hist l_threads l_st]. split; [|split; [reflexivity|split; [exact HF|split; [reflexivity|eauto]]]].
  eapply rsteps_cons; [reflexivity|apply R_start; exact LL|].
  eapply rsteps_trans.
  2:{ eapply rsteps_cons; [reflexivity|apply (@R_finish _ _ B 0 0 0 0 st' l1 a now (Some st0) q l2 (S (S (S (S (S (S (S now)))))))
        (es ++ [mkEff (length l1) a q (match a with AskPush _ | AskFlush => S (S (S (S now))) | _ => S (S (S (S (S now)))) end)]) rs m1 (Some (Some (a, t))) t m2 h); exact LL|].
      eapply rsteps_cons; [reflexivity|apply R_deliver|]. constructor. }
  destruct a; cbn [method script modifies] in *; subst;
  repeat (eapply rsteps_cons; [reflexivity|eapply R_inner;
    [first [eapply L_act; [exact I|reflexivity] | eapply L_begin | eapply L_end; exact HA]|cbn [l_threads]; rewrite !map_app; reflexivity]|]);
  cbn [modifies method]; apply rs_refl.
Qed.
End Alone.

(** A case that meets the hypotheses: two clients; both have sent their request before any server reads one. *)
Definition ex_arch : arch nat nat := ar 2.
Definition ex_push : ask nat nat := AskPush [(1, 10); (2, 20)].
Definition ex_take : ask nat nat := AskTakeMultiple [2; 7].
Example C74_example : exists s, rsteps (fun b => b = false) (rinit (block ex_arch) (init ex_arch) 2) s /\
  Forall quiet_line (r_lines s) /\ sent (r_hist s) = [ex_take; ex_push] /\
  got (r_hist s) = [(ex_push, SawPairs []); (ex_take, SawKeys [2; 7] [(2, 20)])] /\
  contains (block ex_arch) (l_st (r_sys s)) 1 = Ok true /\ contains (block ex_arch) (l_st (r_sys s)) 2 = Ok false.
Proof.
  pose (B := block ex_arch). pose (st := init ex_arch).
  pose (s1 := mkR (linit B st 2) [mkLine (Some (Some (ex_push, 1))) (Incoming ex_push 1); mkLine (Some (Some (ex_take, 0))) (Incoming ex_take 0)] [HSent 1 ex_take 0; HSent 0 ex_push 0]).
  assert (R1 : rsteps (fun b => b = false) (rinit B st 2) s1).
  { eapply rsteps_cons; [reflexivity|apply (@R_connect _ _ B (linit B st 2) [] [mkLine None Rest] [])|].
    eapply rsteps_cons; [reflexivity|apply (@R_connect _ _ B (linit B st 2) [mkLine (Some None) Rest] [] [])|].
    eapply rsteps_cons; [reflexivity|apply (@R_send _ _ B (linit B st 2) [mkLine (Some None) Rest] [] [] ex_take)|].
    eapply rsteps_cons; [reflexivity|apply (@R_send _ _ B (linit B st 2) [] [mkLine (Some (Some (ex_take, 0))) (Incoming ex_take 0)] [HSent 1 ex_take 0] ex_push)|].
    constructor. }
  destruct (answer B st ex_push) as [[st1 q1]|] eqn:E1; [|exfalso; revert E1; vm_compute; discriminate].
  destruct (@C74_served_alone _ _ B (fun b => b = false) st 2 s1 [] ex_push 1 [mkLine (Some (Some (ex_take, 0))) (Incoming ex_take 0)] st1 q1 R1)
    as (s2 & R2 & S2 & I2 & L2 & k2 & u2 & H2); [repeat constructor|reflexivity|exact E1|].
  destruct (answer B st1 ex_take) as [[st2 q2]|] eqn:E2.
  2:{ exfalso. assert (X : match answer B st ex_push with Ok (st1, _) => match answer B st1 ex_take with Ok _ => true | Panic => false end | Panic => false end = true) by (vm_compute; reflexivity).
      rewrite E1, E2 in X. discriminate X. }
  destruct (@C74_served_alone _ _ B (fun b => b = false) st 2 s2 [mkLine (Some None) Rest] ex_take 0 [] st2 q2)
    as (s3 & R3 & S3 & I3 & L3 & k3 & u3 & H3); [eapply rsteps_trans; eauto|exact I2|exact L2|rewrite S2; exact E2|].
  exists s3. split; [eapply rsteps_trans; [exact R1|eapply rsteps_trans; eauto]|].
  assert (X : match answer B st ex_push with Ok (st1, q1) => match answer B st1 ex_take with Ok (st2, q2) =>
     (q1, q2, contains B st2 1, contains B st2 2) = (SawPairs [], SawKeys [7] [(2, 20)], Ok true, Ok false) | Panic => False end | Panic => False end)
    by (vm_compute; reflexivity).
  rewrite E1, E2 in X. injection X as -> -> X3 X4. subst B st. rewrite L3, H3, H2, S3. split; [repeat constructor|]. split; [reflexivity|]. split; [reflexivity|]. split; (etransitivity; [|apply (f_equal Ok); first [exact X3|exact X4]]); reflexivity.
Qed.
