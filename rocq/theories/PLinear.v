(** PLinear.v -- property theorems: threads sharing a container through clones of a Sequential get the answers of
    some sequential execution (C54). *)
From Verif Require Import Base Block Spec LawsProof Sim Lock SeqConc PSeqConc Linear Array PArray BTree PBTree Arch ArchProof PArch.
Set Implicit Arguments.

(** ** The specification: linearizability *)
Section Spec.
Context {K V : Type}.
(** [es] orders calls by the moments at which they took effect. *)
Definition in_order (es : list (took_effect (K := K) (V := V))) : Prop :=
  forall i j e f, i < j -> nth_error es i = Some e -> nth_error es j = Some f -> e_time e < e_time f.
(** The call that took effect as [e] is the one that returned as [r]: same thread, same call, same answer, and it
    took effect between the moment it was made and the moment it returned. *)
Definition effect_of (e : took_effect (K := K) (V := V)) (r : returned (K := K) (V := V)) : Prop :=
  e_who e = r_who r /\ e_ask e = r_ask r /\ e_saw e = r_saw r /\ r_start r <= e_time e < r_end r.
End Spec.

Section Proof.
Context {K V : Type}.
Variable B : Block K V.
Notation eff := (took_effect (K := K) (V := V)).
Notation ret := (returned (K := K) (V := V)).

(** The threads, seen as the clients of SeqConc.v. *)
Definition client_of (t : thread B) : client :=
  match t with
  | Idle => mkClient CCapacity [] false
  | Busy a p d _ _ _ => mkClient (method a) p d
  end.
Definition qof (s : lsys B) : qsys := mkQ (l_sh s) (l_ex s) (l_rd s) (l_wr s) (map client_of (l_threads s)).

Lemma qok_swap sh ex rd wr l1 c c' l2 : qok (mkQ sh ex rd wr (l1 ++ c :: l2)) ->
  (forall m, hasO m (todo c') = hasO m (todo c)) -> (forall a, hasI a (todo c') = hasI a (todo c)) ->
  wf (what c') (todo c') = true -> qok (mkQ sh ex rd wr (l1 ++ c' :: l2)).
Proof.
  intros (H1 & H2 & H3 & H4 & H5 & H6 & H7 & H8 & HF) HO HI HW.
  unfold qok, cntO, cntI in *; cbn [nsh nex nrd nwr cl] in *; rewrite !cnt_split in *. rewrite !HO, !HI.
  apply Forall_app in HF. destruct HF as [HF1 HF2]. inversion HF2 as [|? ? HF3 HF4]; subst.
  repeat split; auto. apply Forall_app; split; auto.
Qed.

Definition suf_ok (t : thread B) : Prop :=
  match t with Idle => True | Busy a p _ _ _ _ => suffix_of (method a) p end.

Lemma method_modifies_answer (s : St B) a s' q : modifies (method a) = false -> answer B s a = Ok (s', q) -> s' = s.
Proof.
  destruct a; cbn; try discriminate; intros _ H.
  - injection H as <- <-. auto.
  - injection H as <- <-. auto.
  - destruct (contains B s k); cbn in H; [|discriminate]. injection H as <- <-. auto.
Qed.
Lemma watch_answer (s : St B) a s' q h : answer B s a = Ok (s', q) -> watch B s (a :: h) = q :: watch B s' h.
Proof.
  destruct a; cbn [answer watch]; intros H.
  - injection H as <- <-. auto.
  - injection H as <- <-. auto.
  - destruct (contains B s k); cbn in H; [|discriminate]. injection H as <- <-. auto.
  - destruct (take B s k) as [[s1 o]|]; cbn in H; [|discriminate]. injection H as <- <-. auto.
  - destruct (take_multiple B s ks) as [[[s1 k1] l1]|]; cbn in H; [|discriminate]. injection H as <- <-. auto.
  - destruct (pop B s n) as [[s1 o]|]; cbn in H; [|discriminate]. injection H as <- <-. auto.
  - destruct (push B s vs) as [[s1 o]|]; cbn in H; [|discriminate]. injection H as <- <-. auto.
  - destruct (flush B s) as [[s1 o]|]; cbn in H; [|discriminate]. injection H as <- <-. auto.
Qed.

(** The effects of thread [i], and its returned calls. *)
Definition effs (i : nat) (es : list eff) : list eff := filter (fun e => e_who e =? i) es.
Definition rets (i : nat) (rs : list ret) : list ret := filter (fun r => r_who r =? i) rs.

(** What is pending of thread [i] at time [now]: an effect not yet returned. *)
Definition pend (i : nat) (t : thread B) (es : list eff) : Prop :=
  match t with
  | Idle => es = []
  | Busy a p _ t0 _ r =>
      match r with
      | None => es = []
      | Some q => exists e, es = [e] /\ e_who e = i /\ e_ask e = a /\ e_saw e = q /\ t0 <= e_time e
      end
  end.
Definition thread_ok (now : nat) (st : St B) (t : thread B) : Prop :=
  match t with
  | Idle => True
  | Busy a p d t0 v r =>
      t0 < now /\ suffix_of (method a) p /\
      (forall p', p = CallEnd :: p' -> d = false -> exists v', v = Some v' /\ v' = st) /\
      (r <> None -> ~ List.In CallEnd p)
  end.
Definition linked (es : list eff) (rs : list ret) (i : nat) (t : thread B) : Prop :=
  exists e1 e2, effs i es = e1 ++ e2 /\ Forall2 effect_of e1 (rets i rs) /\ pend i t e2.

Definition linv (s0 : St B) (s : lsys B) : Prop :=
  qok (qof s) /\
  Forall (thread_ok (l_now s) (l_st s)) (l_threads s) /\
  (forall h, watch B s0 (map e_ask (l_effects s) ++ h) = map e_saw (l_effects s) ++ watch B (l_st s) h) /\
  in_order (l_effects s) /\ Forall (fun e => e_time e < l_now s) (l_effects s) /\
  (forall i t, nth_error (l_threads s) i = Some t -> linked (l_effects s) (l_returns s) i t) /\
  Forall (fun e => e_who e < length (l_threads s)) (l_effects s) /\
  Forall (fun r => r_who r < length (l_threads s)) (l_returns s).

Lemma nth_replace {T} (l1 l2 : list T) x y i t : nth_error (l1 ++ y :: l2) i = Some t ->
  (i = length l1 /\ t = y) \/ (i <> length l1 /\ nth_error (l1 ++ x :: l2) i = Some t).
Proof.
  intros H. destruct (Nat.lt_trichotomy i (length l1)) as [L|[->|L]].
  - right. split; [lia|]. rewrite nth_error_app1 in * by auto. auto.
  - left. rewrite nth_error_app2, Nat.sub_diag in H by auto. injection H as <-. auto.
  - right. split; [lia|]. rewrite nth_error_app2 in * by lia. destruct (i - length l1) eqn:E; [lia|]. auto.
Qed.
Lemma nth_mid {T} (l1 l2 : list T) x : nth_error (l1 ++ x :: l2) (length l1) = Some x.
Proof. rewrite nth_error_app2, Nat.sub_diag by auto. reflexivity. Qed.
Lemma len_mid {T} (l1 l2 : list T) x y : length (l1 ++ x :: l2) = length (l1 ++ y :: l2).
Proof. rewrite !app_length. reflexivity. Qed.

Lemma thread_ok_later now st t : thread_ok now st t -> thread_ok (S now) st t.
Proof. destruct t; cbn; auto. intros (H1 & H2). split; [lia|auto]. Qed.

(** Steps that leave the container and the records alone. *)
Lemma linv_quiet s0 sh ex rd wr sh' ex' rd' wr' st l1 x y l2 now es rs :
  linv s0 (mkL sh ex rd wr st (l1 ++ x :: l2) now es rs) ->
  qok (mkQ sh' ex' rd' wr' (map client_of (l1 ++ y :: l2))) ->
  thread_ok (S now) st y -> (forall i e, pend i x e -> pend i y e) ->
  linv s0 (mkL sh' ex' rd' wr' st (l1 ++ y :: l2) (S now) es rs).
Proof.
  intros (H1 & H2 & H3 & H4 & H5 & H6 & H7 & H8) HQ HT HP. unfold linv in *. cbn [l_threads l_st l_now l_effects l_returns] in *.
  rewrite (len_mid l1 l2 y x).
  repeat match goal with |- _ /\ _ => split end; auto.
  - apply Forall_app in H2. destruct H2 as [F1 F2]. inversion F2; subst.
    apply Forall_app; split; [eapply Forall_impl; [|exact F1]; intros; apply thread_ok_later; auto|].
    constructor; auto. eapply Forall_impl; [|eassumption]; intros; apply thread_ok_later; auto.
  - eapply Forall_impl; [|exact H5]. cbn. lia.
  - intros i t Hi. destruct (nth_replace _ _ x _ _ Hi) as [[-> ->]|[Hn Hi']].
    + destruct (H6 _ _ (nth_mid l1 l2 x)) as (e1 & e2 & E1 & E2 & E3). exists e1, e2. auto.
    + apply H6; auto.
Qed.

Lemma qok_step q q' : qok q -> qstep q q' -> qok q'.
Proof. intros; eapply qstep_ok; eauto. Qed.

Lemma suffix_tail c x p : suffix_of c (x :: p) -> suffix_of c p.
Proof. intros [q Hq]. exists (q ++ [x]). rewrite <- app_assoc. exact Hq. Qed.

(** CallBegin is at once followed by CallEnd, and CallEnd comes only there. *)
Lemma begin_end c x p p' : suffix_of c (x :: p) -> p = CallEnd :: p' -> x = CallBegin.
Proof.
  intros H ->. apply suffix_in in H.
  destruct c as [| | | | | | | |[]|[]]; unfold suffixes in H; cbn in H;
    repeat match goal with H : _ \/ _ |- _ => destruct H as [H|H] end; try discriminate H; try contradiction;
    injection H as <- <-; reflexivity.
Qed.
Lemma end_once c p : suffix_of c (CallEnd :: p) -> ~ List.In CallEnd p.
Proof.
  intros H. apply suffix_in in H.
  destruct c as [| | | | | | | |[]|[]]; unfold suffixes in H; cbn in H;
    repeat match goal with H : _ \/ _ |- _ => destruct H as [H|H] end; try discriminate H; try contradiction;
    injection H as <-; cbn; intuition discriminate.
Qed.
Lemma read_only_end c p : modifies c = false -> suffix_of c (CallEnd :: p) -> p = [Out Rd].
Proof.
  intros M H. apply suffix_in in H.
  destruct c as [| | | | | | | |[]|[]]; try discriminate M; unfold suffixes in H; cbn in H;
    repeat match goal with H : _ \/ _ |- _ => destruct H as [H|H] end; try discriminate H; try contradiction;
    injection H as <-; reflexivity.
Qed.

Lemma in_length1 {T} (x : T) l : List.In x l -> 1 <= length l.
Proof. destruct l; cbn; [tauto|lia]. Qed.
(** Two calls of which one modifies are not both about to end. *)
Lemma no_two sh ex rd wr l1 c l2 d : qok (mkQ sh ex rd wr (l1 ++ c :: l2)) -> List.In d (l1 ++ l2) ->
  (exists p, todo c = CallEnd :: p) -> (exists p, todo d = CallEnd :: p) -> modifies (what c) = true -> False.
Proof.
  intros (_ & _ & H3 & H4 & _ & _ & H7 & H8 & HF) Hd [pc Hc] [pd Hd'] HM. cbn [nrd nwr cl] in *.
  rewrite Forall_forall in HF.
  assert (Wc := HF c ltac:(apply in_or_app; right; left; auto)).
  assert (Wd := HF d ltac:(apply in_app_or in Hd; apply in_or_app; destruct Hd; [left|right; right]; auto)).
  rewrite Hc in Wc. rewrite Hd' in Wd. apply in_call_access in Wc, Wd. rewrite <- Hc in Wc. rewrite <- Hd' in Wd.
  rewrite HM in Wc. unfold cntI in *. rewrite !cnt_split in *.
  rewrite Wc in *. cbn [nb] in *.
  assert (1 <= length (filter (fun c => hasI (if modifies (what d) then Wr else Rd) (todo c)) (l1 ++ l2))).
  { assert (X : List.In d (filter (fun c => hasI (if modifies (what d) then Wr else Rd) (todo c)) (l1 ++ l2))) by (apply filter_In; auto).
    apply in_length1 in X. exact X. }
  destruct (modifies (what d)); lia.
Qed.

Lemma effs_app i es e : effs i (es ++ [e]) = if e_who e =? i then effs i es ++ [e] else effs i es.
Proof. unfold effs. rewrite filter_app. cbn [filter]. destruct (_ =? i); auto. apply app_nil_r. Qed.
Lemma rets_app i rs r : rets i (rs ++ [r]) = if r_who r =? i then rets i rs ++ [r] else rets i rs.
Proof. unfold rets. rewrite filter_app. cbn [filter]. destruct (_ =? i); auto. apply app_nil_r. Qed.

Lemma in_order_app (es : list eff) e : in_order es -> Forall (fun f => e_time f < e_time e) es -> in_order (es ++ [e]).
Proof.
  intros H F i j x y Hij Hi Hj.
  assert (J : j < length (es ++ [e])) by (apply nth_error_Some; congruence). rewrite app_length in J; cbn in J.
  rewrite nth_error_app1 in Hi by lia.
  destruct (Nat.eq_dec j (length es)) as [->|N].
  - rewrite nth_error_app2, Nat.sub_diag in Hj by auto. injection Hj as <-.
    rewrite Forall_forall in F. apply F. eapply nth_error_In; eauto.
  - rewrite nth_error_app1 in Hj by lia. exact (H i j x y Hij Hi Hj).
Qed.

Lemma lstep_inv s0 s s' : lstep s s' -> linv s0 s -> linv s0 s'.
Proof.
  intros HS HI.
  destruct HS as [sh ex rd wr st l1 l2 a now es rs
    |sh ex rd wr sh' ex' rd' wr' st l1 a x p t v r l2 now es rs HP HA
    |sh ex rd wr st l1 a x p t v r l2 now es rs HP HA
    |sh ex rd wr st l1 a p t v r l2 now es rs
    |sh ex rd wr st l1 a p t v r l2 now es rs st' q HA
    |sh ex rd wr st l1 a p t v r l2 now es rs HA
    |sh ex rd wr st l1 a t v q l2 now es rs].
  - (* call *) eapply linv_quiet; [exact HI| | |].
    + destruct HI as (HQ & _). unfold qof in HQ. cbn [l_sh l_ex l_rd l_wr l_threads] in HQ.
      rewrite map_app in *. cbn [map client_of] in *. eapply qok_step; [exact HQ|]. apply Q_again.
    + split; [lia|]. split; [exists []; reflexivity|]. split; [intros p' Hp; destruct a; discriminate Hp|congruence].
    + cbn. auto.
  - (* a lock or a borrow *) eapply linv_quiet; [exact HI| | |].
    + destruct HI as (HQ & _). unfold qof in HQ. cbn [l_sh l_ex l_rd l_wr l_threads] in HQ.
      rewrite map_app in *. cbn [map client_of] in *. eapply qok_step; [exact HQ|]. apply Q_act; auto.
    + destruct HI as (_ & HT & _). cbn [l_threads l_now l_st] in HT. apply Forall_app in HT. destruct HT as [_ HT].
      inversion HT as [|? ? HT1 HT2]; subst. cbn in *. destruct HT1 as (T1 & T2 & T3 & T4).
      split; [lia|]. split; [eapply suffix_tail; eauto|]. split.
      * intros p' Hp _. exfalso. rewrite (begin_end T2 Hp) in HP. exact HP.
      * intros Hr Hin. apply T4; auto.
    + cbn. auto.
  - (* refused *) eapply linv_quiet; [exact HI| | |].
    + destruct HI as (HQ & _). unfold qof in HQ. cbn [l_sh l_ex l_rd l_wr l_threads] in HQ.
      rewrite map_app in *. cbn [map client_of] in *. eapply qok_step; [exact HQ|]. apply Q_panic; auto.
    + destruct HI as (_ & HT & _). cbn [l_threads l_now l_st] in HT. apply Forall_app in HT. destruct HT as [_ HT].
      inversion HT as [|? ? HT1 HT2]; subst. cbn in *. destruct HT1 as (T1 & T2 & T3 & T4).
      split; [lia|]. split; [auto|]. split; [intros; discriminate|auto].
    + cbn. auto.
  - (* begin *) eapply linv_quiet; [exact HI| | |].
    + destruct HI as (HQ & _). unfold qof in HQ. cbn [l_sh l_ex l_rd l_wr l_threads] in HQ.
      rewrite map_app in *. cbn [map client_of] in *. eapply qok_step; [exact HQ|]. eapply Q_act with (a := CallBegin). reflexivity.
    + destruct HI as (_ & HT & _). cbn [l_threads l_now l_st] in HT. apply Forall_app in HT. destruct HT as [_ HT].
      inversion HT as [|? ? HT1 HT2]; subst. cbn in *. destruct HT1 as (T1 & T2 & T3 & T4).
      split; [lia|]. split; [eapply suffix_tail; eauto|]. split; [intros; eexists; split; eauto|intros Hr Hin; apply T4; auto].
    + cbn. auto.
  - (* end *)
    assert (Hv : v = st).
    { destruct HI as (_ & HT & _). cbn [l_threads l_now l_st] in HT. apply Forall_app in HT. destruct HT as [_ HT].
      inversion HT as [|? ? HT1 HT2]; subst. destruct HT1 as (T1 & T2 & T3 & T4).
      destruct (T3 _ eq_refl eq_refl) as (v' & E & ->). congruence. }
    subst v.
    assert (Hst : (if modifies (method a) then st' else st) = st').
    { destruct (modifies (method a)) eqn:M; auto. symmetry; eapply method_modifies_answer; eauto. }
    destruct HI as (HQ & HT & H3 & H4 & H5 & H6 & H7 & H8). unfold linv, qof in *.
    cbn [l_sh l_ex l_rd l_wr l_threads l_st l_now l_effects l_returns] in *. rewrite Hst.
    rewrite (len_mid l1 l2 _ (Busy a (CallEnd :: p) false t (Some st) r)).
    rewrite map_app in *. cbn [map client_of] in HQ.
    apply Forall_app in HT. destruct HT as [F1 F2]. inversion F2 as [|? ? F3 F4]; subst.
    destruct F3 as (T1 & T2 & T3 & T4).
    assert (FX : Forall (thread_ok (S now) st') (l1 ++ l2)).
    { apply Forall_forall. intros u Hu.
      assert (OKu : thread_ok now st u).
      { apply in_app_or in Hu. rewrite Forall_forall in F1, F4. destruct Hu; auto. }
      destruct u as [|a' p' d' t' v' r']; [exact I|]. destruct OKu as (U1 & U2 & U3 & U4).
      split; [lia|]. split; [auto|]. split; [|auto]. intros p'' -> ->.
      destruct (modifies (method a)) eqn:M.
      - exfalso. eapply no_two with (d := mkClient (method a') (CallEnd :: p'') false) (c := mkClient (method a) (CallEnd :: p) false);
          [exact HQ| |eexists; reflexivity|eexists; reflexivity|exact M].
        rewrite <- map_app. apply in_map_iff. eexists; split; [|exact Hu]. reflexivity.
      - rewrite <- Hst. apply U3 with (p' := p''); auto. }
    assert (R0 : r = None) by (destruct r; auto; exfalso; apply T4; [discriminate|left; auto]). subst r.
    repeat match goal with |- _ /\ _ => split end.
    + cbn [map client_of]. eapply qok_step; [exact HQ|]. eapply Q_act with (a := CallEnd). reflexivity.
    + apply Forall_app in FX. destruct FX as [G1 G2]. apply Forall_app; split; auto. constructor; auto.
      split; [lia|]. split; [eapply suffix_tail; eauto|]. split.
      * intros p' Hp. exfalso. rewrite Hp in T2. apply (end_once T2). left; auto.
      * intros _. eapply end_once; eauto.
    + intros h. rewrite map_app, <- app_assoc. cbn [map app e_ask]. rewrite H3. rewrite (watch_answer _ _ _ HA).
      rewrite map_app, <- app_assoc. reflexivity.
    + apply in_order_app; auto.
    + apply Forall_app; split; [eapply Forall_impl; [|exact H5]; cbn; lia|]. constructor; [cbn; lia|constructor].
    + intros i u Hi. destruct (nth_replace _ _ (Busy a (CallEnd :: p) false t (Some st) None) _ _ Hi) as [[-> ->]|[Hn Hi']].
      * destruct (H6 _ _ (nth_mid l1 l2 _)) as (e1 & e2 & E1 & E2 & E3). cbn in E3. subst e2. rewrite app_nil_r in E1.
        exists e1, [mkEff (length l1) a q now]. rewrite effs_app. cbn [e_who]. rewrite Nat.eqb_refl, E1.
        split; [auto|]. split; [auto|]. cbn. eexists; split; [reflexivity|]. cbn. repeat split; auto; lia.
      * destruct (H6 _ _ Hi') as (e1 & e2 & E1 & E2 & E3). exists e1, e2. rewrite effs_app. cbn [e_who].
        destruct (Nat.eqb_spec (length l1) i); [congruence|auto].
    + apply Forall_app; split; auto. constructor; auto. cbn. rewrite app_length. cbn. lia.
    + auto.
  - (* panic inside *) destruct (modifies (method a)) eqn:M.
    + eapply linv_quiet; [exact HI| | |].
      * destruct HI as (HQ & _). unfold qof in HQ. cbn [l_sh l_ex l_rd l_wr l_threads] in HQ.
        rewrite map_app in *. cbn [map client_of] in *. eapply qok_swap; [exact HQ|reflexivity|reflexivity|].
        destruct HQ as (_ & _ & _ & _ & _ & _ & _ & _ & HF). cbn [cl] in HF. apply Forall_app in HF. destruct HF as [_ HF].
        inversion HF; subst. auto.
      * destruct HI as (_ & HT & _). cbn [l_threads l_now l_st] in HT. apply Forall_app in HT. destruct HT as [_ HT].
        inversion HT as [|? ? HT1 HT2]; subst. cbn in *. destruct HT1 as (T1 & T2 & T3 & T4).
        split; [lia|]. split; [auto|]. split; [intros; discriminate|auto].
      * cbn. auto.
    + assert (TO : thread_ok now st (Busy a (CallEnd :: p) false t (Some v) r)).
      { destruct HI as (_ & HT & _). cbn [l_threads l_now l_st] in HT. apply Forall_app in HT. destruct HT as [_ HT].
        inversion HT; subst; auto. }
      destruct TO as (T1 & T2 & T3 & T4). pose proof (@read_only_end _ _ M T2) as ->.
      eapply linv_quiet; [exact HI| | |].
      * destruct HI as (HQ & _). unfold qof in HQ. cbn [l_sh l_ex l_rd l_wr l_threads] in HQ.
        rewrite map_app in *. cbn [map client_of] in *.
        assert (Q1 : qok (mkQ sh ex rd wr (map client_of l1 ++ mkClient (method a) [Out Rd] false :: map client_of l2))).
        { eapply qok_step; [exact HQ|]. apply Q_act with (a := CallEnd). reflexivity. }
        assert (Q2 : qok (mkQ sh ex (rd - 1) wr (map client_of l1 ++ mkClient (method a) [] false :: map client_of l2))).
        { eapply qok_step; [exact Q1|]. apply Q_act with (a := Out Rd). reflexivity. }
        eapply qok_swap; [exact Q2|reflexivity|reflexivity|reflexivity].
      * split; [lia|]. split; [exists (script (method a)); rewrite app_nil_r; auto|]. split; [intros; discriminate|intros _ []].
      * cbn. auto.
  - (* return *)
    destruct HI as (HQ & HT & H3 & H4 & H5 & H6 & H7 & H8). unfold linv, qof in *.
    cbn [l_sh l_ex l_rd l_wr l_threads l_st l_now l_effects l_returns] in *.
    rewrite (len_mid l1 l2 _ (Busy a [] false t v (Some q))).
    apply Forall_app in HT. destruct HT as [F1 F2]. inversion F2 as [|? ? F3 F4]; subst.
    repeat match goal with |- _ /\ _ => split end; auto.
    + rewrite map_app in *. cbn [map client_of] in *. eapply qok_swap; [exact HQ|reflexivity|reflexivity|reflexivity].
    + apply Forall_app; split; [eapply Forall_impl; [|exact F1]; intros; apply thread_ok_later; auto|].
      constructor; [exact I|]. eapply Forall_impl; [|exact F4]; intros; apply thread_ok_later; auto.
    + eapply Forall_impl; [|exact H5]. cbn. lia.
    + intros i u Hi. destruct (nth_replace _ _ (Busy a [] false t v (Some q)) _ _ Hi) as [[-> ->]|[Hn Hi']].
      * destruct (H6 _ _ (nth_mid l1 l2 _)) as (e1 & e2 & E1 & E2 & E3). cbn in E3. destruct E3 as (e & -> & W1 & W2 & W3 & W4).
        exists (e1 ++ [e]), []. rewrite app_nil_r, rets_app. cbn [r_who]. rewrite Nat.eqb_refl.
        split; [auto|]. split; [|reflexivity]. apply Forall2_app; auto. constructor; auto.
        split; [auto|]. split; [auto|]. split; [auto|]. cbn. split; [auto|].
        assert (X : List.In e es). { assert (Y : List.In e (effs (length l1) es)) by (rewrite E1; apply in_or_app; right; left; auto). apply filter_In in Y. tauto. }
        rewrite Forall_forall in H5. apply H5; auto.
      * destruct (H6 _ _ Hi') as (e1 & e2 & E1 & E2 & E3). exists e1, e2. rewrite rets_app. cbn [r_who].
        destruct (Nat.eqb_spec (length l1) i); [congruence|auto].
    + apply Forall_app; split; auto. constructor; auto. cbn. rewrite app_length. cbn. lia.
Qed.

Lemma linit_inv st n : linv st (linit B st n).
Proof.
  unfold linv, linit, qof. cbn [l_sh l_ex l_rd l_wr l_threads l_st l_now l_effects l_returns].
  assert (R : forall t, List.In t (repeat (@Idle K V B) n) -> t = Idle) by (intros; eapply repeat_spec; eauto).
  repeat match goal with |- _ /\ _ => split end; auto.
  - assert (X : forall m a, cntO m (map client_of (repeat Idle n)) = 0 /\ cntI a (map client_of (repeat Idle n)) = 0).
    { intros m a. apply resting_cnt. apply Forall_forall. intros c Hc. apply in_map_iff in Hc.
      destruct Hc as (t & <- & Ht). apply R in Ht. subst. split; reflexivity. }
    unfold qok; cbn [nsh nex nrd nwr cl]. destruct (X Sh Rd) as [-> ->]. destruct (X Ex Wr) as [-> ->].
    repeat split; auto. apply Forall_forall. intros c Hc. apply in_map_iff in Hc.
    destruct Hc as (t & <- & Ht). apply R in Ht. subst. reflexivity.
  - apply Forall_forall. intros t Ht. apply R in Ht. subst. exact I.
  - intros i j e f _ H. destruct i; discriminate H.
  - intros i t Hi. apply nth_error_In, R in Hi. subst. exists [], []. split; [reflexivity|]. split; [constructor|reflexivity].
Qed.
Lemma lsteps_inv st n s : lsteps (linit B st n) s -> linv st s.
Proof.
  intros H. remember (linit B st n) as s1 eqn:E. induction H as [s|s s' s'' H IH H']; subst.
  - apply linit_inv.
  - eapply lstep_inv; eauto.
Qed.
Lemma lsteps_threads st n s : lsteps (linit B st n) s -> length (l_threads s) = n.
Proof.
  intros H. remember (linit B st n) as s1 eqn:E. induction H as [s|s s' s'' H IH H']; subst.
  - cbn. apply repeat_length.
  - rewrite <- (IH eq_refl). destruct H'; cbn [l_threads]; try apply len_mid.
    destruct (modifies (method a)); cbn [l_threads]; apply len_mid.
Qed.

(** C54.  The calls of all threads, ordered by the moments at which they took effect, are a sequential history of the
    container: made one after the other, in that order, on the container alone, they get the same answers, and leave
    it as it is.  Each thread's calls are in that order as the thread made them; each took effect between the moment
    it was made and the moment it returned; and at most one call of each thread, the one it is in, has taken effect
    without having returned. *)
Theorem C54_linearizable : forall (st : St B) n s, lsteps (linit B st n) s ->
  (forall h, watch B st (map e_ask (l_effects s) ++ h) = map e_saw (l_effects s) ++ watch B (l_st s) h) /\
  in_order (l_effects s) /\
  Forall (fun e => e_who e < n) (l_effects s) /\ Forall (fun r => r_who r < n) (l_returns s) /\
  forall i, i < n -> exists done pending,
    filter (fun e => e_who e =? i) (l_effects s) = done ++ pending /\
    Forall2 effect_of done (filter (fun r => r_who r =? i) (l_returns s)) /\
    length pending <= 1 /\ (nth_error (l_threads s) i = Some Idle -> pending = []).
Proof.
  intros st n s H. pose proof (lsteps_threads H) as L. destruct (lsteps_inv H) as (_ & _ & H3 & H4 & _ & H6 & H7 & H8).
  rewrite L in *. repeat match goal with |- _ /\ _ => split end; auto.
  intros i Hi. destruct (nth_error (l_threads s) i) as [t|] eqn:E; [|apply nth_error_None in E; lia].
  destruct (H6 _ _ E) as (e1 & e2 & E1 & E2 & E3). exists e1, e2. split; [auto|]. split; [auto|]. 
  destruct t as [|a p d t0 v [q|]]; cbn in E3.
  - subst. cbn. auto.
  - destruct E3 as (e & -> & _). split; [cbn; auto|discriminate].
  - subst. cbn. auto.
Qed.

(** In particular answers respect real time: a call that returned before another was made comes before it. *)
Lemma Forall2_pick {X Y} (R : X -> Y -> Prop) l m y : Forall2 R l m -> List.In y m -> exists x, List.In x l /\ R x y.
Proof. induction 1; cbn; [tauto|]. intros [->|H1]; eauto. destruct (IHForall2 H1) as (x1 & A & C). eauto. Qed.
Theorem C54_real_time_order : forall (st : St B) n s r r', lsteps (linit B st n) s ->
  List.In r (l_returns s) -> List.In r' (l_returns s) -> r_end r <= r_start r' ->
  exists i j e e', nth_error (l_effects s) i = Some e /\ nth_error (l_effects s) j = Some e' /\
    effect_of e r /\ effect_of e' r' /\ i < j.
Proof.
  intros st n s r r' H Hr Hr' Hlt. destruct (C54_linearizable H) as (_ & HO & _ & HW & HP).
  assert (A : forall r, List.In r (l_returns s) -> exists i e, nth_error (l_effects s) i = Some e /\ effect_of e r).
  { intros x Hx. rewrite Forall_forall in HW. destruct (HP (r_who x) (HW _ Hx)) as (d & p & E1 & E2 & _).
    destruct (Forall2_pick x E2) as (e & I1 & I2).
    { apply filter_In. split; auto. apply Nat.eqb_refl. }
    assert (I3 : List.In e (l_effects s)).
    { assert (Y : List.In e (filter (fun e => e_who e =? r_who x) (l_effects s))) by (rewrite E1; apply in_or_app; auto).
      apply filter_In in Y. tauto. }
    apply In_nth_error in I3. destruct I3 as [i Hi]. eauto. }
  destruct (A _ Hr) as (i & e & Ei & Re). destruct (A _ Hr') as (j & e' & Ej & Re').
  exists i, j, e, e'. repeat (split; [assumption|]).
  destruct (Nat.lt_ge_cases i j) as [L|L]; auto. exfalso.
  destruct Re as (_ & _ & _ & R1 & R2). destruct Re' as (_ & _ & _ & R1' & R2').
  assert (T : e_time e' <= e_time e).
  { destruct (Nat.eq_dec i j) as [->|N]; [replace e' with e by congruence; auto|].
    pose proof (HO j i e' e ltac:(lia) Ej Ei). lia. }
  lia.
Qed.
End Proof.

(** ** What the threads gave and what they got back *)
Section Given.
Context {K V : Type}.
(** The calls that change the container. *)
Definition as_ops (a : ask K V) : list (op K V) :=
  match a with
  | AskTake k => [OpTake k]
  | AskTakeMultiple ks => [OpTakeMultiple ks]
  | AskPop n => [OpPop n]
  | AskPush vs => [OpPush vs]
  | AskFlush => [OpFlush]
  | _ => []
  end.
Definition calls_made (es : list (took_effect (K := K) (V := V))) : list (op K V) := flat_map (fun e => as_ops (e_ask e)) es.
Definition pairs_in (q : saw K V) : list (K * V) :=
  match q with SawOne o => opt_list o | SawPairs l => l | SawKeys _ l => l | _ => [] end.
(** All pairs pushed, all pairs given back (evicted, taken, popped or flushed), whoever the thread. *)
Definition pairs_given (es : list (took_effect (K := K) (V := V))) : list (K * V) :=
  flat_map (fun e => match e_ask e with AskPush vs => vs | _ => [] end) es.
Definition pairs_back (es : list (took_effect (K := K) (V := V))) : list (K * V) := flat_map (fun e => pairs_in (e_saw e)) es.
Lemma all_given_calls es : all_given (calls_made es) = pairs_given es.
Proof.
  unfold all_given, calls_made, pairs_given. induction es as [|e es IH]; cbn [flat_map]; auto.
  rewrite flat_map_app, IH. f_equal. destruct (e_ask e); cbn; auto. apply app_nil_r.
Qed.
Lemma step_answer (B : Block K V) s a s' q : answer B s a = Ok (s', q) -> run B s (as_ops a) = Ok (s', pairs_in q).
Proof.
  destruct a; cbn [answer as_ops run step]; intros H.
  - injection H as <- <-. auto.
  - injection H as <- <-. auto.
  - destruct (contains B s k); cbn in H; [|discriminate]. injection H as <- <-. auto.
  - destruct (take B s k) as [[s1 o]|]; cbn in H |- *; [|discriminate]. injection H as <- <-. cbn. rewrite app_nil_r; auto.
  - destruct (take_multiple B s ks) as [[[s1 k1] l1]|]; cbn in H |- *; [|discriminate]. injection H as <- <-. cbn. rewrite app_nil_r; auto.
  - destruct (pop B s n) as [[s1 o]|]; cbn in H |- *; [|discriminate]. injection H as <- <-. cbn. rewrite app_nil_r; auto.
  - destruct (push B s vs) as [[s1 o]|]; cbn in H |- *; [|discriminate]. injection H as <- <-. cbn. rewrite app_nil_r; auto.
  - destruct (flush B s) as [[s1 o]|]; cbn in H |- *; [|discriminate]. injection H as <- <-. cbn. rewrite app_nil_r; auto.
Qed.
Theorem C54_same_as_sequential : forall (B : Block K V) st n s, lsteps (linit B st n) s ->
  run B st (calls_made (l_effects s)) = Ok (l_st s, pairs_back (l_effects s)).
Proof.
  intros B st n s H. remember (linit B st n) as s1 eqn:E. induction H as [s|s s' s'' H IH H']; subst; [reflexivity|].
  specialize (IH eq_refl). pose proof (lsteps_inv H) as HI.
  destruct H' as [| | | |sh ex rd wr st0 l1 a p t v r l2 now es rs st' q HA| |]; auto.
  - cbn [l_effects l_st] in *. 
    assert (Hv : v = st0).
    { destruct HI as (_ & HT & _). cbn [l_threads l_now l_st] in HT. apply Forall_app in HT. destruct HT as [_ HT].
      inversion HT as [|? ? HT1 HT2]; subst. destruct HT1 as (T1 & T2 & T3 & T4).
      destruct (T3 _ eq_refl eq_refl) as (v' & E & ->). congruence. }
    subst v.
    assert (Hst : (if modifies (method a) then st' else st0) = st').
    { destruct (modifies (method a)) eqn:M; auto. symmetry; eapply method_modifies_answer; eauto. }
    rewrite Hst. unfold calls_made, pairs_back in *. rewrite !flat_map_app. cbn [flat_map e_ask e_saw]. rewrite !app_nil_r.
    rewrite run_app, IH. cbn [bind]. rewrite (step_answer _ _ _ HA). reflexivity.
  - destruct (modifies (method a)); auto.
Qed.
End Given.

(** Any architecture shared by any number of threads, at any moment: what was pushed, by whichever thread, and has not
    been given back, to whichever thread, is held; and the size stays within the capacity.  [used] is the discipline
    of C19; architectures without BTree or Associative need none ([C19_any_history]). *)
Theorem C54_nothing_lost : forall K (OK : Ord K) (EK : OrdEq K) V dup (a : arch K V) n s,
  lsteps (linit (block a) (init a) n) s -> used dup a (calls_made (l_effects s)) ->
  Permutation (pairs_back (l_effects s) ++ held a (l_st s)) (pairs_given (l_effects s)) /\
  (forall k, contains (block a) (l_st s) k = Ok (has_key k (held a (l_st s)))) /\
  size (block a) (l_st s) <= capacity (block a) (l_st s) /\ capacity (block a) (l_st s) = leaves_capacity a /\
  (has_stopper a = false -> exists s' rest, flush (block a) (l_st s) = Ok (s', rest) /\
     Permutation (pairs_back (l_effects s) ++ rest) (pairs_given (l_effects s))).
Proof.
  intros K OK EK V dup a n s HL HU. pose proof (C54_same_as_sequential HL) as HR.
  destruct (used_run HU) as (s1 & o1 & U1 & U2 & U3 & U4). rewrite HR in U1. injection U1 as <- <-.
  rewrite all_given_calls in U4. pose proof (arch_laws a (proj1 HU)) as L.
  split; [auto|]. split; [intros; apply (law_contains L); auto|]. split; [apply (law_size L); auto|].
  split; [rewrite U3; apply init_capacity|].
  intros Hs. destruct (law_flush L _ U2) as (s' & o' & F1 & F2 & F3 & F4 & F5). rewrite Hs in F5. specialize (F5 eq_refl).
  rewrite F5, app_nil_r in F4. exists s', o'. split; auto. rewrite F4. auto.
Qed.

(** ** Executing a schedule: which thread steps, and the call it makes if it is idle. *)
Section Play.
Context {K V : Type}.
Variable B : Block K V.
Definition lplay1 (s : lsys B) (m : nat * ask K V) : option (lsys B) :=
  let (i, a) := m in
  match s with
  | mkL sh ex rd wr st ts now es rs =>
      let l1 := firstn i ts in
      let l2 := skipn (S i) ts in
      match nth_error ts i with
      | Some Idle => Some (mkL sh ex rd wr st (l1 ++ Busy a (script (method a)) false now None None :: l2) (S now) es rs)
      | Some (Busy a [] false t v (Some q)) =>
          Some (mkL sh ex rd wr st (l1 ++ Idle :: l2) (S now) es (rs ++ [mkRet i a q t now]))
      | Some (Busy a (CallBegin :: p) false t v r) =>
          Some (mkL sh ex rd wr st (l1 ++ Busy a p false t (Some st) r :: l2) (S now) es rs)
      | Some (Busy a (CallEnd :: p) false t (Some v) r) =>
          match answer B v a with
          | Ok (st', q) => Some (mkL sh ex rd wr (if modifies (method a) then st' else st)
                                     (l1 ++ Busy a p false t (Some v) (Some q) :: l2) (S now) (es ++ [mkEff i a q now]) rs)
          | Panic => None
          end
      | Some (Busy a (x :: p) false t v r) =>
          match x, act x sh ex rd wr with
          | (CallBegin | CallEnd), _ => None
          | _, Some (sh', ex', rd', wr') => Some (mkL sh' ex' rd' wr' st (l1 ++ Busy a p false t v r :: l2) (S now) es rs)
          | _, None => None
          end
      | _ => None
      end
  end.
Fixpoint lplay (s : lsys B) (h : list (nat * ask K V)) : option (lsys B) :=
  match h with [] => Some s | m :: h' => match lplay1 s m with Some s' => lplay s' h' | None => None end end.
Lemma lplay1_ok s m s' : lplay1 s m = Some s' -> lstep s s'.
Proof.
  destruct m as [i a0]. destruct s as [sh ex rd wr st ts now es rs]. unfold lplay1.
  destruct (nth_error ts i) as [th|] eqn:E; [|discriminate].
  assert (L : length (firstn i ts) = i).
  { apply firstn_length_le. assert (i < length ts) by (apply nth_error_Some; congruence). lia. }
  apply nth_split in E. revert E L. cbv zeta. generalize (firstn i ts) (skipn (S i) ts). intros l1 l2 -> <-.
  destruct th as [|a p d t v r].
  - intros H; injection H as <-. constructor.
  - destruct d; [destruct p as [|[] p]; discriminate|]. destruct p as [|x p].
    + destruct r; try discriminate. intros H; injection H as <-. apply L_return.
    + destruct x as [m|m|m|m| | | | |];
      try (match goal with |- context [act ?x sh ex rd wr] => destruct (act x sh ex rd wr) as [[[[? ?] ?] ?]|] eqn:EA end; [|discriminate];
           intros H; injection H as <-; eapply L_act; [exact I|exact EA]).
      * intros H; injection H as <-; constructor.
      * destruct v as [v|]; [|discriminate]. destruct (answer B v a) as [[st' q]|] eqn:EA; [|discriminate].
        intros H; injection H as <-; eapply L_end. exact EA.
Qed.
Lemma lplay_ok h s s' : lplay s h = Some s' -> lsteps s s'.
Proof.
  revert s. induction h as [|m h IH]; cbn; intros s H.
  - injection H as <-. constructor.
  - destruct (lplay1 s m) as [s1|] eqn:E; [|discriminate]. apply IH in H. apply lplay1_ok in E.
    clear IH. induction H as [s1|s1 s2 s3 H IH H']; [econstructor; [constructor|]; auto|].
    econstructor; eauto.
Qed.
End Play.

(** A non-trivial case: thread 1 asks to take the key 1 of an empty BTree, but thread 0, called later, pushes it
    before; thread 2 reads the size while thread 1, back, looks for the key 2. *)
Definition ex_h : list (nat * ask nat nat) :=
  let p := AskPush [(1, 10); (2, 20)] in
  let t := AskTake 1 in
  let c := AskContains 2 in
  let z := AskSize in
  [(1, t); (0, p); (0, p); (0, p); (0, p); (0, p); (0, p); (1, t); (1, t); (0, p); (1, t); (0, p); (1, t); (2, z); (1, t); (1, t); (1, t);
   (1, c); (1, c); (2, z); (1, c); (1, c); (2, z); (2, z); (1, c); (2, z); (1, c); (2, z); (1, c); (1, c); (2, z); (2, z)].
Example C54_example : exists s, lsteps (linit BTreeB (btree_new 2 (fun _ : nat * nat => 1)) 3) s /\
  map (fun e => (e_who e, e_saw e)) (l_effects s) =
    [(0, SawPairs []); (1, SawOne (Some (1, 10))); (1, SawBool true); (2, SawNum 1)] /\
  map (fun r => (r_who r, r_start r, r_end r)) (l_returns s) = [(0, 1, 11); (1, 0, 16); (1, 17, 29); (2, 13, 31)].
Proof.
  destruct (lplay (linit BTreeB (btree_new 2 (fun _ : nat * nat => 1)) 3) ex_h) as [s|] eqn:E.
  - exists s. split; [apply lplay_ok with (h := ex_h); exact E|].
    assert (X : option_map (fun s => (map (fun e => (e_who e, e_saw e)) (l_effects s), map (fun r => (r_who r, r_start r, r_end r)) (l_returns s)))
       (lplay (linit BTreeB (btree_new 2 (fun _ : nat * nat => 1)) 3) ex_h) = Some ([(0, SawPairs []); (1, SawOne (Some (1, 10))); (1, SawBool true); (2, SawNum 1)], [(0, 1, 11); (1, 0, 16); (1, 17, 29); (2, 13, 31)])) by (vm_compute; reflexivity).
    rewrite E in X. cbn [option_map] in X. injection X as X1 X2. auto.
  - exfalso. vm_compute in E. discriminate E.
Qed.
