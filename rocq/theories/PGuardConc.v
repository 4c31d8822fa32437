(** PGuardConc.v -- property theorems: what threads read and write through the guards of a shared Sequential (C70). *)
From Coq Require Import Init.Byte.
From Verif Require Import PCompressed.
From Verif Require Import Base Block Stream Compressed Guards Sim Lock SeqConc PSeqConc Linear PLinear Array BTree Get GuardConc.
Set Implicit Arguments.

(** ** The specification: one call of the single-threaded container for each guard *)
Section Spec.
Context {K V : Type}.
Variable B : Block K V.
(** get ([false]) and get_mut ([true]) of the container used by one thread, Get.v: state, key, what is written. *)
Variable g : bool -> Getter B.
(** A guard that showed [v] at first and [v'] at last: it shows what was written through it, and nothing else. *)
Fixpoint heard (v : V) (log : list (entry V)) (v' : V) : Prop :=
  match log with
  | [] => v' = v
  | Saw x :: log' => x = v /\ heard v log' v'
  | Wrote w :: log' => heard w log' v'
  | Dangling :: _ => False
  end.
(** One call, made by one thread alone. *)
Definition alone (s : St B) (a : gask K V) (q : gsaw K V) (s' : St B) : Prop :=
  match a, q with
  | GAsk a, GSaw q => answer B s a = Ok (s', q)
  | GGet m k, GNone => forall f, g m s k f = Ok (s', None)
  | GGet m k, GUsed log => exists v v', heard v log v' /\ (m = false -> Forall (fun e => e = Saw v) log) /\ g m s k (fun _ => v') = Ok (s', Some v)
  | _, _ => False
  end.
Fixpoint in_turn (s : St B) (l : list (gask K V * gsaw K V)) (s' : St B) : Prop :=
  match l with
  | [] => s' = s
  | (a, q) :: l' => exists s1, alone s a q s1 /\ in_turn s1 l' s'
  end.
Notation geffect := (@geffect K V).
Notation greturn := (@greturn K V).
Definition by_time (es : list geffect) : Prop :=
  forall i j e f, i < j -> nth_error es i = Some e -> nth_error es j = Some f -> ge_time e < ge_time f.
Definition geffect_of (e : geffect) (r : greturn) : Prop :=
  ge_who e = gr_who r /\ ge_ask e = gr_ask r /\ ge_saw e = gr_saw r /\ gr_start r <= ge_time e < gr_end r.
(** The calls that remove nothing. *)
Definition gentle (a : gask K V) : Prop :=
  match a with
  | GAsk (AskCapacity | AskSize | AskContains _ | AskPush _) => True
  | GAsk _ => False
  | GGet _ _ => True
  end.
(** The thread has a guard of get_mut. *)
Definition writing {G : Cells B} (t : gthread G) : Prop :=
  match t with GBusy _ (GGet true _) _ _ _ _ (Some _) _ None => True | _ => False end.
End Spec.
Definition pair_of {K V} (e : @geffect K V) : gask K V * gsaw K V := (ge_ask e, ge_saw e).

Section Proof.
Context {K V : Type}.
Variable B : Block K V.
Variable G : Cells B.
Variable g : bool -> Getter B.
Notation gthread := (gthread G).
Notation gsys := (gsys G).
Notation geffect := (@geffect K V).
Notation greturn := (@greturn K V).

(** Guards that point into the container, whose lookups leave it as it is. *)
Definition alike (s s' : St B) : Prop :=
  capacity B s = capacity B s' /\ size B s = size B s' /\ forall k, contains B s k = contains B s' k.
Record in_place : Prop := {
  ip_open : forall m s k s' o, open_cell G m s k = Ok (s', o) -> s' = s;
  ip_none : forall m s k, open_cell G m s k = Ok (s, None) -> forall f, g m s k f = Ok (s, None);
  ip_some : forall m s k c, open_cell G m s k = Ok (s, Some c) -> exists v, see G s c = Some v /\ put G s c v = Some (s, c) /\
    forall w, exists s', put G s c w = Some (s', c) /\ g m s k (fun _ => w) = Ok (s', Some v) /\ alike s' s;
  ip_put : forall s c w s' c', put G s c w = Some (s', c') -> c' = c /\ see G s' c = Some w /\ forall w', put G s' c w' = put G s c w';
  ip_close : forall s c, close_cell G s c = Ok s
}.
Hypothesis IP : in_place.

Definition found (c : option (cell G)) : bool := match c with Some _ => true | None => false end.
Definition gclient (t : gthread) : client :=
  match t with
  | GIdle _ => mkClient CCapacity [] false
  | GBusy _ a p d _ _ c _ _ => mkClient (gmethod a (found c)) p d
  end.
Definition gq (s : gsys) : qsys := mkQ (g_sh s) (g_ex s) (g_rd s) (g_wr s) (map gclient (g_threads s)).

Definition geffs (i : nat) (es : list geffect) : list geffect := filter (fun e => ge_who e =? i) es.
Definition grets (i : nat) (rs : list greturn) : list greturn := filter (fun r => gr_who r =? i) rs.
Definition gpend (i : nat) (t : gthread) (es : list geffect) : Prop :=
  match t with
  | GIdle _ => es = []
  | GBusy _ a p _ t0 _ _ _ r =>
      match r with
      | None => es = []
      | Some q => exists e, es = [e] /\ ge_who e = i /\ ge_ask e = a /\ ge_saw e = q /\ t0 <= ge_time e
      end
  end.
Definition glinked (es : list geffect) (rs : list greturn) (i : nat) (t : gthread) : Prop :=
  exists e1 e2, geffs i es = e1 ++ e2 /\ Forall2 geffect_of e1 (grets i rs) /\ gpend i t e2.
Definition lmode (m : bool) : mode := if m then Ex else Sh.
(** [ref]: the container as if the guard in use had not been given yet. *)
Definition session (ref st : St B) (m : bool) (k : K) (c : cell G) (log : list (entry V)) : Prop :=
  exists v w, open_cell G m ref k = Ok (ref, Some c) /\ see G ref c = Some v /\ heard v log w /\ put G ref c w = Some (st, c) /\ (m = false -> w = v /\ Forall (fun e => e = Saw v) log).
Definition gthread_ok (now : nat) (ref st : St B) (t : gthread) : Prop :=
  match t with
  | GIdle _ => True
  | GBusy _ a p d t0 v c log r =>
      t0 < now /\ gentle a /\ suffix_of (gmethod a (found c)) p /\
      (forall p', p = CallEnd :: p' -> d = false -> exists v', v = Some v' /\ if modifies (gmethod a false) then v' = st else alike v' st) /\
      (r <> None -> ~ List.In CallEnd p) /\
      match c with
      | None => log = []
      | Some c => exists m k, a = GGet m k /\ ~ List.In CallEnd p /\
          ((r = None /\ hasO (lmode m) p = true /\ session ref st m k c log) \/ (r <> None /\ forall m', hasO m' p = false))
      end
  end.
Definition ginv_at (ref s0 : St B) (s : gsys) : Prop :=
  in_turn g s0 (map pair_of (g_effects s)) ref /\
  (Forall (fun t => ~ writing t) (g_threads s) -> g_st s = ref) /\ alike (g_st s) ref /\
  qok (gq s) /\
  Forall (gthread_ok (g_now s) ref (g_st s)) (g_threads s) /\
  by_time (g_effects s) /\ Forall (fun e => ge_time e < g_now s) (g_effects s) /\
  (forall i t, nth_error (g_threads s) i = Some t -> glinked (g_effects s) (g_returns s) i t) /\
  Forall (fun e => ge_who e < length (g_threads s)) (g_effects s).

Lemma in_turn_app s l a q s1 s2 : in_turn g s l s1 -> alone g s1 a q s2 -> in_turn g s (l ++ [(a, q)]) s2.
Proof.
  revert s. induction l as [|[a' q'] l IH]; cbn [in_turn app]; intros s H1 H2.
  - subst s1. exists s2. auto.
  - destruct H1 as (s' & H1 & H3). exists s'. split; auto.
Qed.
Lemma heard_app (v : V) log w e : heard v log w -> forall w', heard w [e] w' -> heard v (log ++ [e]) w'.
Proof.
  revert v. induction log as [|x log IH]; cbn [app]; intros v H w' He.
  - cbn [heard] in H. subst w. exact He.
  - destruct x as [x|x|]; cbn [heard] in *; [destruct H; split; auto| |contradiction]; apply IH; auto.
Qed.
Lemma alike_refl s : alike s s.
Proof. repeat split. Qed.
Lemma alike_sym s s' : alike s s' -> alike s' s.
Proof. intros (H1 & H2 & H3). repeat split; auto. Qed.
Lemma alike_trans s s' s'' : alike s s' -> alike s' s'' -> alike s s''.
Proof. intros (H1 & H2 & H3) (H4 & H5 & H6). repeat split; congruence. Qed.

Lemma gok_later now ref st t : gthread_ok now ref st t -> gthread_ok (S now) ref st t.
Proof. destruct t; cbn; auto. intros (H1 & H2). split; [lia|auto]. Qed.
Lemma gmethod_modifies (a : gask K V) c : modifies (gmethod a c) = modifies (gmethod a false).
Proof. destruct a as [|[] k], c; reflexivity. Qed.

(** Who holds the lock alone. *)
Lemma ex_alone sh ex rd wr l1 c l2 d m : qok (mkQ sh ex rd wr (l1 ++ c :: l2)) -> hasO Ex (todo c) = true -> List.In d (l1 ++ l2) -> hasO m (todo d) = false.
Proof.
  intros (H1 & H2 & _ & _ & H5 & H6 & _) Hc Hd. cbn [nsh nex cl] in *. unfold cntO in *. rewrite cnt_split in H2. rewrite Hc in H2. cbn [nb] in H2.
  destruct (hasO m (todo d)) eqn:E; auto. exfalso.
  assert (X : List.In d (filter (fun c => hasO m (todo c)) (l1 ++ l2))) by (apply filter_In; auto). apply in_length1 in X.
  destruct m; [rewrite cnt_split in H1|]; lia.
Qed.
Lemma sh_no_ex sh ex rd wr l1 c l2 d m : qok (mkQ sh ex rd wr (l1 ++ c :: l2)) -> hasO m (todo c) = true -> List.In d (l1 ++ l2) -> hasO Ex (todo d) = false.
Proof.
  intros HQ Hc Hd. destruct m; [|eapply ex_alone; eauto].
  destruct HQ as (H1 & H2 & _ & _ & H5 & H6 & _). cbn [nsh nex cl] in *. unfold cntO in *. rewrite cnt_split in H1. rewrite Hc in H1. cbn [nb] in H1.
  destruct (hasO Ex (todo d)) eqn:E; auto. exfalso.
  assert (X : List.In d (filter (fun c => hasO Ex (todo c)) (l1 ++ l2))) by (apply filter_In; auto). apply in_length1 in X. rewrite cnt_split in H2. lia.
Qed.
(** A call that may modify the container holds the lock when it ends: push, get and get_mut. *)
Lemma ends_holding (a : gask K V) p : gentle a -> modifies (gmethod a false) = true -> suffix_of (gmethod a false) (CallEnd :: p) ->
  hasO (match a with GAsk _ => Ex | GGet m _ => lmode m end) (CallEnd :: p) = true.
Proof.
  intros Hg Hm Hs. apply suffix_in in Hs.
  destruct a as [[| | | | | | |]|[] k]; try discriminate Hm; try contradiction Hg; unfold suffixes in Hs; cbn in Hs;
    repeat match goal with H : _ \/ _ |- _ => destruct H as [H|H] end; try discriminate Hs; try contradiction;
    injection Hs as <-; reflexivity.
Qed.
Lemma end_guard now ref st a p d t v c log r : gthread_ok now ref st (GBusy G a (CallEnd :: p) d t v c log r) -> c = None /\ log = [] /\ r = None.
Proof.
  intros (_ & _ & _ & _ & T4 & T5). destruct c as [c|].
  - destruct T5 as (m & k & _ & T5 & _). exfalso. apply T5. left; auto.
  - destruct r; auto. exfalso. apply T4; [discriminate|left; auto].
Qed.
Lemma writing_holds now ref st t : gthread_ok now ref st t -> writing t -> hasO Ex (todo (gclient t)) = true.
Proof.
  destruct t as [|a p d t0 v c log r]; [intros _ []|]. intros (_ & _ & _ & _ & _ & T5) Hw. cbn [writing] in Hw.
  destruct a as [|[] k]; try contradiction. destruct c as [c|]; [|contradiction]. destruct r; [contradiction|].
  destruct T5 as (m & k' & E & _ & T5). injection E as <- <-. destruct T5 as [(_ & T5 & _)|[T5 _]]; [exact T5|congruence].
Qed.
(** Nobody else writes while a thread holds the lock. *)
Lemma nobody_writes ref s0 sh ex rd wr st l1 x l2 now es rs m : ginv_at ref s0 (mkG sh ex rd wr st (l1 ++ x :: l2) now es rs) ->
  hasO m (todo (gclient x)) = true -> Forall (fun t => ~ writing t) (l1 ++ l2).
Proof.
  intros (_ & _ & _ & HQ & HT & _) Hm. unfold gq in HQ. cbn [g_sh g_ex g_rd g_wr g_threads g_now g_st] in *. rewrite map_app in HQ. cbn [map] in HQ.
  apply Forall_forall. intros u Hu Hw.
  assert (OKu : gthread_ok now ref st u).
  { rewrite Forall_forall in HT. apply HT. apply in_app_or in Hu. apply in_or_app. destruct Hu; [left|right; right]; auto. }
  assert (Hh : hasO Ex (todo (gclient u)) = true) by (eapply writing_holds; eauto).
  rewrite (@sh_no_ex sh ex rd wr (map gclient l1) (gclient x) (map gclient l2) (gclient u) m HQ Hm) in Hh; [discriminate|].
  rewrite <- map_app. apply List.in_map. exact Hu.
Qed.
Lemma not_writing_all l1 (x : gthread) l2 : Forall (fun t => ~ writing t) (l1 ++ l2) -> ~ writing x -> Forall (fun t => ~ writing t) (l1 ++ x :: l2).
Proof. intros H Hx. apply Forall_app in H as [H1 H2]. apply Forall_app; split; auto. Qed.

(** Steps that leave the container and the records alone. *)
Lemma step_quiet ref s0 sh ex rd wr sh' ex' rd' wr' st l1 x y l2 now es rs :
  ginv_at ref s0 (mkG sh ex rd wr st (l1 ++ x :: l2) now es rs) ->
  qok (mkQ sh' ex' rd' wr' (map gclient (l1 ++ y :: l2))) ->
  gthread_ok (S now) ref st y -> (forall i e, gpend i x e -> gpend i y e) -> (writing x -> writing y) ->
  ginv_at ref s0 (mkG sh' ex' rd' wr' st (l1 ++ y :: l2) (S now) es rs).
Proof.
  intros (A1 & A2 & A3 & H1 & H2 & H4 & H5 & H6 & H7) HQ HT HP HW. unfold ginv_at in *. cbn [g_threads g_st g_now g_effects g_returns] in *.
  rewrite (len_mid l1 l2 y x). split; [auto|]. split.
  { intros F. apply A2. apply Forall_app in F as [F1 F2]. inversion F2; subst. apply Forall_app; split; auto. }
  split; [auto|]. split; [exact HQ|]. split.
  { apply Forall_app in H2. destruct H2 as [F1 F2]. inversion F2; subst.
    apply Forall_app; split; [eapply Forall_impl; [|exact F1]; intros; apply gok_later; auto|].
    constructor; auto. eapply Forall_impl; [|eassumption]; intros; apply gok_later; auto. }
  split; [auto|]. split; [eapply Forall_impl; [|exact H5]; cbn; lia|]. split; [|auto].
  intros i t Hi. destruct (nth_replace _ _ x _ _ Hi) as [[-> ->]|[Hn Hi']].
  - destruct (H6 _ _ (nth_mid l1 l2 x)) as (e1 & e2 & E1 & E2 & E3). exists e1, e2. auto.
  - apply H6; auto.
Qed.
Lemma geffs_app i es e : geffs i (es ++ [e]) = if ge_who e =? i then geffs i es ++ [e] else geffs i es.
Proof. unfold geffs. rewrite filter_app. cbn [filter]. destruct (_ =? i); auto. apply app_nil_r. Qed.
Lemma grets_app i rs r : grets i (rs ++ [r]) = if gr_who r =? i then grets i rs ++ [r] else grets i rs.
Proof. unfold grets. rewrite filter_app. cbn [filter]. destruct (_ =? i); auto. apply app_nil_r. Qed.
Lemma by_time_app (es : list geffect) e : by_time es -> Forall (fun f => ge_time f < ge_time e) es -> by_time (es ++ [e]).
Proof.
  intros H F i j x y Hij Hi Hj.
  assert (J : j < length (es ++ [e])) by (apply nth_error_Some; congruence). rewrite app_length in J; cbn in J.
  rewrite nth_error_app1 in Hi by lia.
  destruct (Nat.eq_dec j (length es)) as [->|N].
  - rewrite nth_error_app2, Nat.sub_diag in Hj by auto. injection Hj as <-.
    rewrite Forall_forall in F. apply F. eapply nth_error_In; eauto.
  - rewrite nth_error_app1 in Hj by lia. exact (H i j x y Hij Hi Hj).
Qed.
(** Steps by which a call takes effect. *)
Lemma step_effect ref ref' s0 sh ex rd wr sh' ex' rd' wr' st st' l1 a p d t v c log p' d' v' c' log' q l2 now es rs :
  ginv_at ref s0 (mkG sh ex rd wr st (l1 ++ GBusy G a p d t v c log None :: l2) now es rs) ->
  alone g ref a q ref' -> (Forall (fun t => ~ writing t) (l1 ++ l2) -> st' = ref') -> alike st' ref' ->
  qok (mkQ sh' ex' rd' wr' (map gclient (l1 ++ GBusy G a p' d' t v' c' log' (Some q) :: l2))) ->
  gthread_ok (S now) ref' st' (GBusy G a p' d' t v' c' log' (Some q)) -> Forall (gthread_ok (S now) ref' st') (l1 ++ l2) ->
  ginv_at ref' s0 (mkG sh' ex' rd' wr' st' (l1 ++ GBusy G a p' d' t v' c' log' (Some q) :: l2) (S now) (es ++ [mkGE (length l1) a q now]) rs).
Proof.
  intros (A1 & A2 & A3 & H1 & H2 & H4 & H5 & H6 & H7) HA HS HL HQ HT HF. unfold ginv_at in *. cbn [g_threads g_st g_now g_effects g_returns] in *.
  assert (T0 : t < now). { apply Forall_app in H2 as [_ H2]. inversion H2 as [|? ? X _]; subst. apply X. }
  rewrite (len_mid l1 l2 _ (GBusy G a p d t v c log None)).
  split. { rewrite map_app. cbn [map pair_of ge_ask ge_saw]. eapply in_turn_app; eauto. }
  split. { intros F. apply HS. apply Forall_app in F as [F1 F2]. inversion F2; subst. apply Forall_app; split; auto. }
  split; [auto|]. split; [exact HQ|]. split.
  { apply Forall_app in HF as [F1 F2]. apply Forall_app; split; auto. }
  split; [apply by_time_app; auto|]. split.
  { apply Forall_app; split; [eapply Forall_impl; [|exact H5]; cbn; lia|]. constructor; [cbn; lia|constructor]. }
  split.
  - intros i u Hi. destruct (nth_replace _ _ (GBusy G a p d t v c log None) _ _ Hi) as [[-> ->]|[Hn Hi']].
    + destruct (H6 _ _ (nth_mid l1 l2 _)) as (e1 & e2 & E1 & E2 & E3). cbn in E3. subst e2. rewrite app_nil_r in E1.
      exists e1, [mkGE (length l1) a q now]. rewrite geffs_app. cbn [ge_who]. rewrite Nat.eqb_refl, E1.
      split; [auto|]. split; [auto|]. cbn. eexists; split; [reflexivity|]. cbn. repeat split; auto; lia.
    + destruct (H6 _ _ Hi') as (e1 & e2 & E1 & E2 & E3). exists e1, e2. rewrite geffs_app. cbn [ge_who].
      destruct (Nat.eqb_spec (length l1) i); [congruence|auto].
  - apply Forall_app; split; auto. constructor; auto. cbn. rewrite app_length. cbn. lia.
Qed.
(** Steps that change the container only. *)
Lemma step_state ref s0 sh ex rd wr st st' l1 x y l2 now es rs :
  ginv_at ref s0 (mkG sh ex rd wr st (l1 ++ x :: l2) now es rs) ->
  (Forall (fun t => ~ writing t) (l1 ++ y :: l2) -> st' = ref) -> alike st' ref ->
  qok (mkQ sh ex rd wr (map gclient (l1 ++ y :: l2))) ->
  gthread_ok (S now) ref st' y -> Forall (gthread_ok (S now) ref st') (l1 ++ l2) -> (forall i e, gpend i x e -> gpend i y e) ->
  ginv_at ref s0 (mkG sh ex rd wr st' (l1 ++ y :: l2) (S now) es rs).
Proof.
  intros (A1 & A2 & A3 & H1 & H2 & H4 & H5 & H6 & H7) HS HL HQ HT HF HP. unfold ginv_at in *. cbn [g_threads g_st g_now g_effects g_returns] in *.
  rewrite (len_mid l1 l2 y x). split; [auto|]. split; [auto|]. split; [auto|]. split; [exact HQ|]. split.
  { apply Forall_app in HF as [F1 F2]. apply Forall_app; split; auto. }
  split; [auto|]. split; [eapply Forall_impl; [|exact H5]; cbn; lia|]. split; [|auto].
  intros i t Hi. destruct (nth_replace _ _ x _ _ Hi) as [[-> ->]|[Hn Hi']].
  - destruct (H6 _ _ (nth_mid l1 l2 x)) as (e1 & e2 & E1 & E2 & E3). exists e1, e2. auto.
  - apply H6; auto.
Qed.
Lemma reads_alike v st a st' q : alike v st -> modifies (method a) = false -> answer B v a = Ok (st', q) -> answer B st a = Ok (st, q).
Proof.
  intros (E1 & E2 & E3) M H. destruct a; try discriminate M; cbn [answer] in *.
  - injection H as <- <-. rewrite E1. auto.
  - injection H as <- <-. rewrite E2. auto.
  - rewrite <- E3. destruct (contains B v k); cbn [bind] in *; [|discriminate]. injection H as <- <-. auto.
Qed.

Lemma suffix_guard (a : gask K V) c p : suffix_of (gmethod a c) (GuardUse :: p) -> exists m k, a = GGet m k /\ p = [Rel (lmode m); BackBegin; BackEnd].
Proof.
  intros H. apply suffix_in in H.
  destruct a as [[| | | | | | |]|[] k]; destruct c; unfold suffixes in H; cbn in H;
    repeat match goal with H : _ \/ _ |- _ => destruct H as [H|H] end; try discriminate H; try contradiction;
    injection H as <-; eauto.
Qed.
Lemma suffix_end (a : gask K V) p : suffix_of (gmethod a false) (CallEnd :: p) -> forall m k, a = GGet m k -> p = [Rel (lmode m); Out Wr].
Proof.
  intros H m k ->. apply suffix_in in H.
  destruct m; unfold suffixes in H; cbn in H;
    repeat match goal with H : _ \/ _ |- _ => destruct H as [H|H] end; try discriminate H; try contradiction; injection H as <-; reflexivity.
Qed.
(** After a release nothing is released. *)
Lemma suffix_rel (a : gask K V) c m p : suffix_of (gmethod a c) (Rel m :: p) -> forall m', hasO m' p = false.
Proof.
  intros H m'. apply suffix_in in H.
  destruct a as [[| | | | | | |]|[] k]; destruct c; unfold suffixes in H; cbn in H;
    repeat match goal with H : _ \/ _ |- _ => destruct H as [H|H] end; try discriminate H; try contradiction;
    injection H as <- <-; destruct m'; reflexivity.
Qed.
Lemma acq_end c m p : suffix_of c (Acq m :: p) -> List.In CallEnd p.
Proof.
  intros H. apply suffix_in in H.
  destruct c as [| | | | | | | |[]|[]]; unfold suffixes in H; cbn in H;
    repeat match goal with H : _ \/ _ |- _ => destruct H as [H|H] end; try discriminate H; try contradiction; injection H as <- <-; cbn; auto 10.
Qed.
Lemma thread_at ref s0 sh ex rd wr st l1 x l2 now es rs : ginv_at ref s0 (mkG sh ex rd wr st (l1 ++ x :: l2) now es rs) ->
  gthread_ok now ref st x /\ Forall (gthread_ok now ref st) (l1 ++ l2) /\ qok (mkQ sh ex rd wr (map gclient l1 ++ gclient x :: map gclient l2)).
Proof.
  intros (_ & _ & _ & HQ & HT & _). unfold gq in HQ. cbn [g_threads g_now g_st g_sh g_ex g_rd g_wr] in *. rewrite map_app in HQ. cbn [map] in HQ.
  apply Forall_app in HT as [F1 F2]. inversion F2; subst. split; [auto|]. split; [apply Forall_app; auto|auto].
Qed.
(** The other threads, when the container changes from [st] to [st'] while one thread holds the lock for itself. *)
Lemma others_locked now ref ref' st st' sh ex rd wr l1 x l2 : qok (mkQ sh ex rd wr (map gclient l1 ++ gclient x :: map gclient l2)) -> hasO Ex (todo (gclient x)) = true ->
  (alike st' st \/ ((exists p, todo (gclient x) = CallEnd :: p) /\ modifies (what (gclient x)) = true)) -> Forall (gthread_ok now ref st) (l1 ++ l2) -> Forall (gthread_ok (S now) ref' st') (l1 ++ l2).
Proof.
  intros HQ Hx HL HF. apply Forall_forall. intros u Hu. rewrite Forall_forall in HF. pose proof (HF u Hu) as OKu.
  assert (Hin : List.In (gclient u) (map gclient l1 ++ map gclient l2)) by (rewrite <- map_app; apply List.in_map; exact Hu).
  assert (N : forall m, hasO m (todo (gclient u)) = false) by (intros m; eapply ex_alone; [exact HQ|exact Hx|exact Hin]).
  destruct u as [|a p d t v c log r]; [exact I|]. destruct OKu as (U1 & U2 & U3 & U4 & U5 & U6). cbn [gclient todo] in N.
  split; [lia|]. split; [auto|]. split; [auto|]. split; [|split; [auto|]].
  - intros p' -> ->. destruct (U4 p' eq_refl eq_refl) as (v' & -> & E). exists v'. split; auto.
    destruct (modifies (gmethod a false)) eqn:M.
    + exfalso. assert (c = None) as -> by (destruct c as [c|]; auto; destruct U6 as (? & ? & _ & U6 & _); exfalso; apply U6; left; auto).
      pose proof (@ends_holding a p' U2 M U3) as X. rewrite N in X. discriminate X.
    + destruct HL as [HL|[HL1 HL2]]; [eapply alike_trans; [exact E|]; apply alike_sym; exact HL|].
      exfalso. eapply no_two; [exact HQ|exact Hin|exact HL1|eexists; reflexivity|exact HL2].
  - destruct c as [c|]; auto. destruct U6 as (m & k & E1 & E2 & [(_ & E4 & _)|E3]); [rewrite N in E4; discriminate|].
    exists m, k. auto.
Qed.
Lemma gpend_same i a p d t v c log r p' d' v' c' log' e : gpend i (GBusy G a p d t v c log r) e -> gpend i (GBusy G a p' d' t v' c' log' r) e.
Proof. cbn. auto. Qed.

Lemma gstep_inv s0 s s' : gstep gentle s s' -> (exists ref, ginv_at ref s0 s) -> exists ref, ginv_at ref s0 s'.
Proof.
  intros HS (ref & HI).
  destruct HS as [sh ex rd wr st l1 l2 a now es rs HG
    |sh ex rd wr sh' ex' rd' wr' st l1 a x p t v c log r l2 now es rs HP HA HR
    |sh ex rd wr st l1 a x p t v c log r l2 now es rs HP HA
    |sh ex rd wr st l1 a p t v c log r l2 now es rs
    |sh ex rd wr st l1 a p t v c log r l2 now es rs st' q HA
    |sh ex rd wr st l1 a p t v c log r l2 now es rs HA
    |sh ex rd wr st l1 m k p t v c log r l2 now es rs st' HA
    |sh ex rd wr st l1 m k p t v c log r l2 now es rs st' c' HA
    |sh ex rd wr st l1 m k p t v c log r l2 now es rs HA
    |sh ex rd wr st l1 a p t v c log r l2 now es rs w HA
    |sh ex rd wr st l1 k p t v c log r l2 now es rs w st' c' HA
    |sh ex rd wr st l1 a p t v c log r l2 now es rs HA
    |sh ex rd wr st l1 a p t v c log r l2 now es rs
    |sh ex rd wr sh' ex' rd' wr' st l1 a m p t v c log r l2 now es rs HA
    |sh ex rd wr st l1 a p t v c log r l2 now es rs
    |sh ex rd wr st l1 a p t v c log r l2 now es rs st' HA
    |sh ex rd wr st l1 a p t v c log r l2 now es rs HA
    |sh ex rd wr st l1 a t v c log q l2 now es rs]; pose proof HI as HH; apply thread_at in HH; destruct HH as (TO & FO & HQ).
  - (* call *) exists ref. eapply step_quiet; [exact HI| | | |].
    + rewrite map_app. cbn [map gclient found]. eapply qok_step; [exact HQ|]. apply Q_again.
    + split; [lia|]. split; [auto|]. split; [exists []; reflexivity|]. split; [intros p' Hp; destruct a as [[| | | | | | |]|[]]; discriminate Hp|]. split; [congruence|auto].
    + cbn. auto.
    + intros [].
  - (* locks *) exists ref. destruct TO as (T1 & T2 & T3 & T4 & T5 & T6). eapply step_quiet; [exact HI| | |intros i e; apply gpend_same|].
    + rewrite map_app. cbn [map gclient]. eapply qok_step; [exact HQ|]. apply Q_act; auto.
    + split; [lia|]. split; [auto|]. split; [eapply suffix_tail; eauto|]. split.
      { intros p' Hp _. exfalso. rewrite (begin_end T3 Hp) in HP. exact HP. }
      split; [intros Hr Hin; apply (T5 Hr); right; auto|].
      destruct c as [c|]; auto. destruct T6 as (m & k & E1 & E2 & E3). exists m, k. split; [auto|]. split; [intros Hin; apply E2; right; auto|].
      destruct x as [m'|m'|b|b| | | | |]; try contradiction HP; auto.
      * exfalso. apply E2. right. eapply acq_end; eauto.
      * exfalso. specialize (HR eq_refl). discriminate.
    + destruct a as [|[] k]; cbn [writing]; auto.
  - (* refused *) exists ref. destruct TO as (T1 & T2 & T3 & T4 & T5 & T6). eapply step_quiet; [exact HI| | |intros i e; apply gpend_same|].
    + rewrite map_app. cbn [map gclient]. eapply qok_step; [exact HQ|]. apply Q_panic; auto.
    + split; [lia|]. split; [auto|]. split; [auto|]. split; [intros; discriminate|]. split; auto.
    + destruct a as [|[] k]; cbn [writing]; auto.
  - (* begin *) exists ref. destruct TO as (T1 & T2 & T3 & T4 & T5 & T6). eapply step_quiet; [exact HI| | |intros i e; apply gpend_same|].
    + rewrite map_app. cbn [map gclient]. eapply qok_step; [exact HQ|]. eapply Q_act with (a := CallBegin). reflexivity.
    + split; [lia|]. split; [auto|]. split; [eapply suffix_tail; eauto|]. split.
      { intros p' _ _. exists st. split; auto. destruct (modifies _); [auto|apply alike_refl]. }
      split; [intros Hr Hin; apply (T5 Hr); right; auto|].
      destruct c as [c|]; auto. destruct T6 as (m & k & E1 & E2 & E3). exists m, k. split; [auto|]. split; [intros Hin; apply E2; right; auto|exact E3].
    + destruct a as [|[] k]; cbn [writing]; auto.
  - (* end *) destruct (end_guard TO) as (-> & -> & ->). destruct TO as (T1 & T2 & T3 & T4 & T5 & _).
    destruct (T4 p eq_refl eq_refl) as (v' & E & Hv). injection E as <-. cbn [gmethod found] in T3, Hv.
    assert (OKy : forall ref' st'', gthread_ok (S now) ref' st'' (GBusy G (GAsk a) p false t (Some v) None [] (Some (GSaw q)))).
    { intros ref' st''. split; [lia|]. split; [auto|]. split; [eapply suffix_tail; eauto|]. split.
      - intros p' Hp. exfalso. rewrite Hp in T3. apply (end_once T3). left; auto.
      - split; [intros _; eapply end_once; eauto|auto]. }
    assert (HQ' : qok (mkQ sh ex rd wr (map gclient (l1 ++ GBusy G (GAsk a) p false t (Some v) None [] (Some (GSaw q)) :: l2)))).
    { rewrite map_app. cbn [map gclient]. eapply qok_step; [exact HQ|]. eapply Q_act with (a := CallEnd). reflexivity. }
    pose proof HI as (_ & A2 & A3 & _). cbn [g_st g_threads] in A2, A3.
    destruct (modifies (method a)) eqn:M.
    + subst v. assert (HH := @ends_holding (GAsk a) p T2 M T3). cbn match in HH.
      assert (NW := @nobody_writes ref s0 sh ex rd wr st l1 _ l2 now es rs Ex HI HH).
      assert (Es : st = ref) by (apply A2; apply not_writing_all; [exact NW|intros []]).
      exists st'. eapply step_effect; [exact HI| | |apply alike_refl|exact HQ'|apply OKy|].
      * cbn [alone]. rewrite <- Es. exact HA.
      * auto.
      * eapply others_locked; [exact HQ|exact HH| |exact FO]. right. split; [eexists; reflexivity|exact M].
    + exists ref. eapply step_effect; [exact HI| | |exact A3|exact HQ'|apply OKy|].
      * cbn [alone]. eapply reads_alike; [|exact M|exact HA]. eapply alike_trans; eauto.
      * intros NW. apply A2. apply not_writing_all; [exact NW|intros []].
      * eapply Forall_impl; [|exact FO]. intros; apply gok_later; auto.
  - (* end, panic *) destruct (end_guard TO) as (-> & -> & ->). destruct TO as (T1 & T2 & T3 & T4 & T5 & T6). cbn [gmethod found] in T3. exists ref. destruct (modifies (method a)) eqn:M.
    + eapply step_quiet; [exact HI| | |intros i e; apply gpend_same|intros []].
      * rewrite map_app. cbn [map gclient]. eapply qok_swap; [exact HQ|reflexivity|reflexivity|].
        destruct HQ as (_ & _ & _ & _ & _ & _ & _ & _ & HF). cbn [cl] in HF. apply Forall_app in HF. destruct HF as [_ HF]. inversion HF; subst. auto.
      * split; [lia|]. split; [auto|]. split; [auto|]. split; [intros; discriminate|]. split; auto.
    + pose proof (@read_only_end _ _ M T3) as ->. eapply step_quiet; [exact HI| | |intros i e; apply gpend_same|intros []].
      * rewrite map_app. cbn [map gclient gmethod found] in *.
        assert (Q1 : qok (mkQ sh ex rd wr (map gclient l1 ++ mkClient (method a) [Out Rd] false :: map gclient l2))).
        { eapply qok_step; [exact HQ|]. apply Q_act with (a := CallEnd). reflexivity. }
        assert (Q2 : qok (mkQ sh ex (rd - 1) wr (map gclient l1 ++ mkClient (method a) [] false :: map gclient l2))).
        { eapply qok_step; [exact Q1|]. apply Q_act with (a := Out Rd). reflexivity. }
        eapply qok_swap; [exact Q2|reflexivity|reflexivity|reflexivity].
      * split; [lia|]. split; [auto|]. split; [exists (script (method a)); rewrite app_nil_r; auto|]. split; [intros; discriminate|]. split; [intros _ []|auto].
  - (* miss *) destruct (end_guard TO) as (-> & -> & ->). destruct TO as (T1 & T2 & T3 & T4 & T5 & _).
    destruct (T4 p eq_refl eq_refl) as (v' & E & Hv). injection E as <-. assert (M : modifies (gmethod (GGet (V := V) m k) false) = true) by (destruct m; reflexivity).
    rewrite M in Hv. subst v. pose proof (ip_open IP _ _ _ HA) as ->. assert (HH := @ends_holding (GGet m k) p T2 M T3). cbn match in HH.
    assert (NW := @nobody_writes ref s0 sh ex rd wr st l1 _ l2 now es rs _ HI HH).
    pose proof HI as (_ & A2 & A3 & _). cbn [g_st g_threads] in A2, A3.
    assert (Es : st = ref) by (apply A2; apply not_writing_all; [exact NW|destruct m; intros []]).
    exists ref. eapply step_effect; [exact HI| |auto|exact A3| | |].
    + cbn [alone]. rewrite <- Es. apply (ip_none IP). exact HA.
    + rewrite map_app. cbn [map gclient]. eapply qok_step; [exact HQ|]. eapply Q_act with (a := CallEnd). reflexivity.
    + split; [lia|]. split; [auto|]. split; [eapply suffix_tail; eauto|]. split.
      { intros p' Hp. exfalso. rewrite Hp in T3. apply (end_once T3). left; auto. }
      split; [intros _; eapply end_once; eauto|auto].
    + eapply Forall_impl; [|exact FO]. intros; apply gok_later; auto.
  - (* hit *) destruct (end_guard TO) as (-> & -> & ->). destruct TO as (T1 & T2 & T3 & T4 & T5 & _).
    destruct (T4 p eq_refl eq_refl) as (v' & E & Hv). injection E as <-. assert (M : modifies (gmethod (GGet (V := V) m k) false) = true) by (destruct m; reflexivity).
    rewrite M in Hv. subst v. pose proof (ip_open IP _ _ _ HA) as ->. assert (HH := @ends_holding (GGet m k) p T2 M T3). cbn match in HH.
    assert (NW := @nobody_writes ref s0 sh ex rd wr st l1 _ l2 now es rs _ HI HH).
    pose proof HI as (_ & A2 & A3 & _). cbn [g_st g_threads] in A2, A3.
    assert (Es : st = ref) by (apply A2; apply not_writing_all; [exact NW|destruct m; intros []]). pose proof (suffix_end T3 eq_refl) as ->.
    exists ref. eapply step_state; [exact HI|auto|exact A3| | | |intros i e; apply gpend_same].
    + rewrite map_app. cbn [map gclient found gmethod] in *. eapply qok_swap; [exact HQ| | |]; destruct m; try intros []; reflexivity.
    + split; [lia|]. split; [exact I|]. split; [destruct m; eexists [_; _; _; _]; reflexivity|]. split; [destruct m; intros p' Hp; discriminate Hp|].
      split; [congruence|]. exists m, k. split; [auto|]. split; [destruct m; cbn; intuition discriminate|]. left. split; [auto|]. split; [destruct m; reflexivity|].
      subst st. destruct (ip_some IP _ _ HA) as (v & V1 & V2 & _). exists v, v. split; [exact HA|]. split; [exact V1|]. split; [reflexivity|]. split; [exact V2|auto].
    + eapply Forall_impl; [|exact FO]. intros; apply gok_later; auto.
  - (* lookup, panic *) exists ref. destruct TO as (T1 & T2 & T3 & T4 & T5 & T6). eapply step_quiet; [exact HI| | |intros i e; apply gpend_same|auto].
    + rewrite map_app. cbn [map gclient]. eapply qok_swap; [exact HQ|reflexivity|reflexivity|].
      destruct HQ as (_ & _ & _ & _ & _ & _ & _ & _ & HF). cbn [cl] in HF. apply Forall_app in HF. destruct HF as [_ HF]. inversion HF; subst. auto.
    + split; [lia|]. split; [auto|]. split; [auto|]. split; [intros; discriminate|]. split; auto.
  - (* read *) exists ref. destruct TO as (T1 & T2 & T3 & T4 & T5 & (m & k & E1 & E2 & E3)). pose proof (suffix_guard _ _ T3) as (m' & k' & E4 & ->). rewrite E4 in E1. injection E1 as <- <-.
    destruct E3 as [(E3 & E5 & (v1 & w1 & S1 & S2 & S3 & S4 & S5))|[_ E3]]; [|specialize (E3 (lmode m')); destruct m'; discriminate E3].
    destruct (ip_put IP _ _ _ S4) as (_ & P1 & _). rewrite HA in P1. injection P1 as ->.
    eapply step_quiet; [exact HI| | |intros i e; apply gpend_same|destruct a as [|[] ?]; cbn [writing]; auto].
    + rewrite map_app. cbn [map gclient]. exact HQ.
    + split; [lia|]. split; [auto|]. split; [auto|]. split; [intros p' Hp; discriminate Hp|]. split; [auto|].
      exists m', k'. split; [auto|]. split; [auto|]. left. split; [auto|]. split; [auto|]. exists v1, w1. split; [auto|]. split; [auto|].
      split; [eapply heard_app; [exact S3|cbn; auto]|]. split; [auto|]. intros Hm. destruct (S5 Hm) as [-> S6]. split; [auto|]. apply Forall_app; split; auto.
  - (* write *) exists ref. destruct TO as (T1 & T2 & T3 & T4 & T5 & (m & k0 & E1 & E2 & E3)). injection E1 as <- <-. pose proof (suffix_guard _ _ T3) as (m' & k' & E4 & ->). injection E4 as <- <-.
    destruct E3 as [(-> & E5 & (v1 & w1 & S1 & S2 & S3 & S4 & S5))|[_ E3]]; [|specialize (E3 Ex); discriminate E3].
    destruct (ip_put IP _ _ _ S4) as (_ & _ & P2). rewrite P2 in HA. destruct (ip_put IP _ _ _ HA) as (-> & _ & _).
    destruct (ip_some IP _ _ S1) as (v2 & _ & _ & P3). destruct (P3 w) as (s1 & P4 & P5 & P6). rewrite HA in P4. injection P4 as <-.
    destruct (P3 w1) as (s2 & P7 & _ & P8). rewrite S4 in P7. injection P7 as <-.
    eapply step_state; [exact HI| |exact P6| | | |intros i e; apply gpend_same].
    + intros F. exfalso. apply Forall_app in F as [_ F]. inversion F as [|? ? F1 _]; subst. apply F1. exact I.
    + rewrite map_app. cbn [map gclient]. exact HQ.
    + split; [lia|]. split; [auto|]. split; [auto|]. split; [intros p' Hp; discriminate Hp|]. split; [auto|].
      exists true, k. split; [auto|]. split; [auto|]. left. split; [auto|]. split; [auto|]. exists v1, w. split; [auto|]. split; [auto|].
      split; [eapply heard_app; [exact S3|reflexivity]|]. split; [auto|discriminate].
    + eapply others_locked; [exact HQ|exact E5| |exact FO]. left. eapply alike_trans; [exact P6|]. apply alike_sym. exact P8.
  - (* dangling *) exfalso. destruct TO as (T1 & T2 & T3 & T4 & T5 & (m & k & E1 & E2 & E3)). pose proof (suffix_guard _ _ T3) as (m' & k' & E4 & ->). rewrite E4 in E1. injection E1 as <- <-.
    destruct E3 as [(E3 & E5 & (v1 & w1 & S1 & S2 & S3 & S4 & S5))|[_ E3]]; [|specialize (E3 (lmode m')); destruct m'; discriminate E3].
    destruct (ip_put IP _ _ _ S4) as (_ & P1 & _). congruence.
  - (* done *) exists ref. destruct TO as (T1 & T2 & T3 & T4 & T5 & T6). eapply step_quiet; [exact HI| | |intros i e; apply gpend_same|destruct a as [|[] ?]; cbn [writing]; auto].
    + rewrite map_app. cbn [map gclient]. eapply qok_step; [exact HQ|]. eapply Q_act with (a := GuardUse). reflexivity.
    + split; [lia|]. split; [auto|]. split; [eapply suffix_tail; eauto|]. split; [intros p' Hp; exfalso; pose proof (begin_end T3 Hp); discriminate|].
      split; [intros Hr Hin; apply (T5 Hr); right; auto|].
      destruct c as [c|]; auto. destruct T6 as (m & k & E1 & E2 & E3). exists m, k. split; [auto|]. split; [intros Hin; apply E2; right; auto|exact E3].
  - (* release *) destruct TO as (T1 & T2 & T3 & T4 & T5 & (m1 & k & E1 & E2 & E3)). subst a.
    destruct E3 as [(-> & E5 & (v1 & w1 & S1 & S2 & S3 & S4 & S5))|[_ E3]]; [|specialize (E3 m); cbn [hasO] in E3; destruct m; discriminate E3].
    destruct (ip_some IP _ _ S1) as (v2 & P1 & P2 & P3). rewrite S2 in P1. injection P1 as <-. destruct (P3 w1) as (s1 & P4 & P5 & P6). rewrite S4 in P4. injection P4 as <-.
    exists st. eapply step_effect; [exact HI| |auto|apply alike_refl| | |].
    + cbn [alone]. exists v1, w1. split; [auto|]. split; [intros Hm; apply (S5 Hm)|auto].
    + rewrite map_app. cbn [map gclient]. eapply qok_step; [exact HQ|]. apply Q_act. exact HA.
    + split; [lia|]. split; [auto|]. split; [eapply suffix_tail; eauto|]. split; [intros p' Hp; exfalso; pose proof (begin_end T3 Hp); discriminate|].
      split; [intros _ Hin; apply E2; right; auto|].
      exists m1, k. split; [auto|]. split; [intros Hin; apply E2; right; auto|]. right. split; [discriminate|]. eapply suffix_rel; eauto.
    + destruct m1.
      * eapply others_locked; [exact HQ|exact E5|left; apply alike_refl|exact FO].
      * assert (st = ref) by (rewrite (proj1 (S5 eq_refl)), P2 in S4; injection S4 as ->; auto). subst ref. eapply Forall_impl; [|exact FO]. intros; apply gok_later; auto.
  - (* back *) exists ref. destruct TO as (T1 & T2 & T3 & T4 & T5 & T6). eapply step_quiet; [exact HI| | |intros i e; apply gpend_same|destruct a as [|[] ?]; cbn [writing]; auto].
    + rewrite map_app. cbn [map gclient]. eapply qok_step; [exact HQ|]. eapply Q_act with (a := BackBegin). reflexivity.
    + split; [lia|]. split; [auto|]. split; [eapply suffix_tail; eauto|]. split; [intros p' Hp; exfalso; pose proof (begin_end T3 Hp); discriminate|].
      split; [intros Hr Hin; apply (T5 Hr); right; auto|].
      destruct c as [c|]; auto. destruct T6 as (m & k & E1 & E2 & E3). exists m, k. split; [auto|]. split; [intros Hin; apply E2; right; auto|exact E3].
  - (* close *) rewrite (ip_close IP) in HA. injection HA as <-. exists ref. destruct TO as (T1 & T2 & T3 & T4 & T5 & T6). eapply step_quiet; [exact HI| | |intros i e; apply gpend_same|destruct a as [|[] ?]; cbn [writing]; auto].
    + rewrite map_app. cbn [map gclient]. eapply qok_step; [exact HQ|]. eapply Q_act with (a := BackEnd). reflexivity.
    + split; [lia|]. split; [auto|]. split; [eapply suffix_tail; eauto|]. split; [intros p' Hp; exfalso; pose proof (begin_end T3 Hp); discriminate|].
      split; [intros Hr Hin; apply (T5 Hr); right; auto|].
      destruct T6 as (m & k & E1 & E2 & E3). exists m, k. split; [auto|]. split; [intros Hin; apply E2; right; auto|exact E3].
  - rewrite (ip_close IP) in HA. discriminate.
  - (* return *) exists ref. destruct HI as (A1 & A2 & A3 & H1 & H2 & H4 & H5 & H6 & H7). unfold ginv_at. cbn [g_threads g_st g_now g_effects g_returns] in *.
    rewrite (len_mid l1 l2 _ (GBusy G a [] false t v c log (Some q))).
    split; [auto|]. split. { intros F. apply A2. apply Forall_app in F as [F1 F2]. inversion F2; subst. apply Forall_app; split; auto. constructor; auto. destruct a as [|[] ?], c; intros []. }
    split; [auto|]. split. { unfold gq. cbn [g_sh g_ex g_rd g_wr g_threads]. rewrite map_app. cbn [map gclient]. eapply qok_swap; [exact HQ|reflexivity|reflexivity|reflexivity]. }
    split. { apply Forall_app in FO as [F1 F2]. apply Forall_app; split; [eapply Forall_impl; [|exact F1]; intros; apply gok_later; auto|].
      constructor; [exact I|]. eapply Forall_impl; [|exact F2]; intros; apply gok_later; auto. }
    split; [auto|]. split; [eapply Forall_impl; [|exact H5]; cbn; lia|]. split; [|auto].
    intros i u Hi. destruct (nth_replace _ _ (GBusy G a [] false t v c log (Some q)) _ _ Hi) as [[-> ->]|[Hn Hi']].
    + destruct (H6 _ _ (nth_mid l1 l2 _)) as (e1 & e2 & E1 & E2 & E3). cbn in E3. destruct E3 as (e & -> & W1 & W2 & W3 & W4).
      exists (e1 ++ [e]), []. rewrite app_nil_r, grets_app. cbn [gr_who]. rewrite Nat.eqb_refl.
      split; [auto|]. split; [|reflexivity]. apply Forall2_app; auto. constructor; auto.
      split; [auto|]. split; [auto|]. split; [auto|]. cbn. split; [auto|].
      assert (X : List.In e es). { assert (Y : List.In e (geffs (length l1) es)) by (rewrite E1; apply in_or_app; right; left; auto). apply filter_In in Y. tauto. }
      rewrite Forall_forall in H5. apply H5; auto.
    + destruct (H6 _ _ Hi') as (e1 & e2 & E1 & E2 & E3). exists e1, e2. rewrite grets_app. cbn [gr_who].
      destruct (Nat.eqb_spec (length l1) i); [congruence|auto].
Qed.

Lemma ginit_inv st n : ginv_at st st (ginit G st n).
Proof.
  assert (R : forall t, List.In t (repeat (GIdle G) n) -> t = GIdle G) by (intros; eapply repeat_spec; eauto).
  unfold ginv_at, ginit, gq. cbn [g_sh g_ex g_rd g_wr g_threads g_st g_now g_effects g_returns].
  split; [reflexivity|]. split; [auto|]. split; [apply alike_refl|]. split.
  { assert (Z : forall f : client -> bool, f (mkClient CCapacity [] false) = false -> length (filter f (map gclient (repeat (GIdle G) n))) = 0).
    { intros f Hf. induction n as [|n' IH]; cbn; auto. rewrite Hf. apply IH. intros t Ht. apply R. right. exact Ht. }
    unfold qok, cntO, cntI. cbn [nsh nex nrd nwr cl]. rewrite !Z by reflexivity. repeat split; auto.
    apply Forall_forall. intros c Hc. apply in_map_iff in Hc as (t & <- & Ht). apply R in Ht. subst. reflexivity. }
  split. { apply Forall_forall. intros t Ht. apply R in Ht. subst. exact I. }
  split. { intros i j e f _ Hi. destruct i; discriminate. }
  split; [constructor|]. split; [|constructor].
  intros i t Hi. apply nth_error_In in Hi. apply R in Hi. subst. exists [], []. repeat split. constructor.
Qed.
Lemma gsteps_inv st n s : gsteps gentle (ginit G st n) s -> exists ref, ginv_at ref st s.
Proof.
  intros H. remember (ginit G st n) as s1 eqn:E. induction H as [s|s s' s'' H IH H']; subst; [eexists; apply ginit_inv|].
  eapply gstep_inv; eauto.
Qed.
Lemma gsteps_length allowed (s s' : gsys) : gsteps allowed s s' -> length (g_threads s') = length (g_threads s).
Proof.
  induction 1 as [|s s1 s2 H IH H']; auto. rewrite <- IH. clear - H'.
  destruct H'; cbn [g_threads]; try apply len_mid. destruct (modifies _); cbn [g_threads]; apply len_mid.
Qed.
(** Every execution is explained by the calls in the order in which they took effect, made by one thread alone. *)
Lemma atomic_guards st n s : gsteps gentle (ginit G st n) s -> exists ref,
  in_turn g st (map pair_of (g_effects s)) ref /\ by_time (g_effects s) /\
  (Forall (fun t => ~ writing t) (g_threads s) -> g_st s = ref) /\
  forall i, i < n -> exists finished pending,
    filter (fun e => ge_who e =? i) (g_effects s) = finished ++ pending /\
    Forall2 geffect_of finished (filter (fun r => gr_who r =? i) (g_returns s)) /\
    length pending <= 1 /\ (nth_error (g_threads s) i = Some (GIdle G) -> pending = []).
Proof.
  intros H. destruct (gsteps_inv H) as (ref & A1 & A2 & _ & _ & _ & A4 & _ & A6 & _). exists ref. split; [auto|]. split; [auto|]. split; [auto|].
  intros i Hi. pose proof (gsteps_length H) as L. cbn [ginit g_threads] in L. rewrite repeat_length in L.
  destruct (nth_error (g_threads s) i) as [t|] eqn:E; [|apply nth_error_None in E; lia].
  destruct (A6 _ _ E) as (e1 & e2 & E1 & E2 & E3). exists e1, e2. split; [auto|]. split; [auto|].
  destruct t as [|a p d t0 v c log r]; cbn [gpend] in E3; [subst e2; split; [cbn; lia|auto]|].
  destruct r; [destruct E3 as (e & -> & _)|subst e2]; split; cbn; try lia; discriminate.
Qed.
End Proof.

(** ** Array *)
Section OfArray.
Context {K V : Type} {OK : Ord K} {EK : OrdEq K} {OV : Ord V} (srt : Sorter (K * V) V snd) (bs : BSearch K).
Notation arr := (ArrayB srt bs).
Notation cells := (array_cells srt bs).
(** get and get_mut of an Array, Array.v. *)
Definition array_getter (m : bool) : Getter arr := fun s k f => a_get s k f.
Lemma update_at (l : list (K * V)) k w : match find_index (fun p => eqb (fst p) k) l with
  | None => find (fun p => eqb (fst p) k) l = None /\ forall f, update_first (fun p => eqb (fst p) k) f l = l
  | Some i => exists p, nth_error l i = Some p /\ find (fun p => eqb (fst p) k) l = Some p /\ update_first (fun p => eqb (fst p) k) (fun p => (fst p, w)) l = replace_nth i (fst p, w) l
  end.
Proof.
  induction l as [|p l IH]; cbn [find_index find update_first]; [auto|]. destruct (eqb (fst p) k) eqn:E; [exists p; auto|].
  destruct (find_index _ l) as [i|]; cbn [option_map].
  - destruct IH as (q & H1 & H2 & H3). exists q. cbn [nth_error replace_nth]. rewrite H3. auto.
  - destruct IH as [H1 H2]. split; auto. intros f. rewrite H2. auto.
Qed.
Lemma replace_twice {T} i (x y : T) l : replace_nth i x (replace_nth i y l) = replace_nth i x l.
Proof. revert i. induction l as [|z l IH]; intros [|i]; cbn [replace_nth]; auto. f_equal. auto. Qed.
Lemma nth_replaced {T} i (x : T) l y : nth_error l i = Some y -> nth_error (replace_nth i x l) i = Some x.
Proof. revert i. induction l as [|z l IH]; intros [|i] H; cbn in *; try discriminate; auto. Qed.
Lemma replace_self {T} i (x : T) l : nth_error l i = Some x -> replace_nth i x l = l.
Proof. revert i. induction l as [|z l IH]; intros [|i] H; cbn in *; try discriminate; [congruence|f_equal; auto]. Qed.
Lemma existsb_replace i p w (l : list (K * V)) k : nth_error l i = Some p -> existsb (fun q => eqb (fst q) k) (replace_nth i (fst p, w) l) = existsb (fun q => eqb (fst q) k) l.
Proof. revert i. induction l as [|z l IH]; intros [|i] H; cbn in *; try discriminate; [injection H as ->; auto|rewrite IH; auto]. Qed.
Lemma array_in_place : in_place cells array_getter.
Proof.
  constructor.
  - intros m s k s' o H. cbn in H. injection H as <- _. auto.
  - intros m s k H f. cbn in H. injection H as H. pose proof (update_at (a_vals s)) as U. unfold array_getter, a_get.
    specialize (U k). destruct (a_vals s) as [|p l] eqn:El.
    + cbn. destruct s; cbn in *; subst; auto.
    + specialize (U (snd p)). rewrite H in U. destruct U as [U1 U2]. rewrite U1, U2. rewrite <- El. destruct s; auto.
  - intros m s k c H. cbn in H. injection H as H. assert (U := fun w => update_at (a_vals s) k w). rewrite H in U.
    assert (E : exists p, nth_error (a_vals s) c = Some p /\ find (fun p => eqb (fst p) k) (a_vals s) = Some p).
    { destruct (find_index_some _ _ H) as (x & _). destruct (U (snd x)) as (p & U1 & U2 & _). eauto. }
    destruct E as (p & U1 & U2). exists (snd p). cbn [see array_cells put]. rewrite U1. cbn [option_map]. split; [auto|]. split.
    { rewrite replace_self by (rewrite U1; destruct p; auto). destruct s; auto. }
    intros w. eexists. split; [reflexivity|]. destruct (U w) as (p' & U3 & U4 & U5). rewrite U1 in U3. injection U3 as <-. split.
    + unfold array_getter, a_get. rewrite U2, U5. reflexivity.
    + repeat split. intros k'. cbn [contains ArrayB]. unfold a_contains. cbn [a_vals]. f_equal. apply existsb_replace. auto.
  - intros s c w s' c' H. cbn [put array_cells] in H. destruct (nth_error (a_vals s) c) as [p|] eqn:E; [|discriminate]. injection H as <- <-. split; [auto|].
    cbn [see put array_cells a_vals a_cap a_total a_esz]. rewrite (nth_replaced _ _ _ E). cbn [option_map snd fst]. split; [auto|].
    intros w'. rewrite replace_twice. rewrite E. auto.
  - reflexivity.
Qed.

(** C70, for the calls that remove nothing: whatever the threads do with their guards, the calls in the order in which they
    took effect are those of one thread alone -- a guard of get_mut being one call that replaces the value first seen by the
    one last written --, each took effect between its beginning and its return, and once nobody holds a guard of get_mut the
    container is as that one thread leaves it.
    Missing: take, take_multiple, pop and flush, for which it is false (below). *)
Theorem C70_guards_are_atomic_partial : forall st n s, gsteps gentle (ginit cells st n) s -> exists ref,
  in_turn array_getter st (map pair_of (g_effects s)) ref /\ by_time (g_effects s) /\
  (Forall (fun t => ~ writing t) (g_threads s) -> g_st s = ref) /\
  forall i, i < n -> exists finished pending,
    filter (fun e => ge_who e =? i) (g_effects s) = finished ++ pending /\
    Forall2 geffect_of finished (filter (fun r => gr_who r =? i) (g_returns s)) /\
    length pending <= 1 /\ (nth_error (g_threads s) i = Some (GIdle cells) -> pending = []).
Proof. intros st n s H. exact (atomic_guards array_in_place H). Qed.

(** What a guard shows, while it is alive and afterwards: never anything that is not the value; always the same value if it
    is a guard of get; the value last written through it, if any, if it is a guard of get_mut. *)
Theorem C70_reads_are_stable_partial : forall st n s, gsteps gentle (ginit cells st n) s ->
  (forall e m k log, List.In e (g_effects s) -> ge_ask e = GGet m k -> ge_saw e = GUsed log ->
     exists v v', heard v log v' /\ (m = false -> Forall (fun e => e = Saw v) log)) /\
  (forall m k p d t v c log, List.In (GBusy cells (GGet m k) p d t v (Some c) log None) (g_threads s) ->
     exists v v', heard v log v' /\ option_map snd (nth_error (a_vals (g_st s)) c) = Some v' /\ (m = false -> Forall (fun e => e = Saw v) log)).
Proof.
  intros st n s H. destruct (gsteps_inv array_in_place H) as (ref & A1 & A2 & A3 & A4 & A5 & _). split.
  - intros e m k log He E1 E2. assert (X : List.In (GGet m k, GUsed log) (map pair_of (g_effects s))).
    { apply in_map_iff. exists e. split; [|auto]. unfold pair_of. congruence. }
    clear - A1 X. revert st A1. induction (map pair_of (g_effects s)) as [|[a q] l IH]; intros st A1; [destruct X|].
    cbn [in_turn] in A1. destruct A1 as (s1 & B1 & B2). destruct X as [X|X]; [|eauto].
    injection X as -> ->. cbn [alone] in B1. destruct B1 as (v & v' & C1 & C2 & _). eauto.
  - intros m k p d t v c log Hin. rewrite Forall_forall in A5. specialize (A5 _ Hin). cbn [gthread_ok] in A5.
    destruct A5 as (_ & _ & _ & _ & _ & (m' & k' & E1 & _ & [(_ & _ & S)|[F _]])); [|congruence]. injection E1 as <- <-.
    destruct S as (v1 & w & _ & _ & S3 & S4 & S5). exists v1, w. split; [auto|]. split; [|intros Hm; apply (S5 Hm)].
    destruct (ip_put array_in_place _ _ _ S4) as (_ & P & _). exact P.
Qed.

(** ** Updates are not lost *)
(** The value of a key. *)
Definition value_of (s : array K V) (k : K) : option V := option_map snd (find (fun p => eqb (fst p) k) (a_vals s)).
End OfArray.

(** Calls that look only. *)
Definition looks {K V} (a : gask K V) : Prop :=
  match a with GAsk (AskCapacity | AskSize | AskContains _) => True | GAsk _ => False | GGet _ _ => True end.
Definition updates {K V} {OK : Ord K} (k : K) (e : @geffect K V) : bool :=
  match ge_ask e, ge_saw e with GGet true k', GUsed _ => eqb k' k | _, _ => false end.

Section Looks.
Context {K V : Type} {B : Block K V} {G : Cells B}.
Lemma gsteps_more (P Q : gask K V -> Prop) (s s' : gsys G) : (forall a, P a -> Q a) -> gsteps P s s' -> gsteps Q s s'.
Proof.
  intros H. induction 1 as [|s s' s'' H1 IH H2]; [constructor|]. eapply gs_step; [exact IH|].
  destruct H2; try (econstructor; eauto; fail).
Qed.
Definition asked (P : gask K V -> Prop) (t : gthread G) : Prop := match t with GIdle _ => True | GBusy _ a _ _ _ _ _ _ _ => P a end.
Lemma gsteps_allowed (P : gask K V -> Prop) st n (s : gsys G) : gsteps P (ginit G st n) s ->
  Forall (asked P) (g_threads s) /\ Forall (fun e => P (ge_ask e)) (g_effects s).
Proof.
  intros H. remember (ginit G st n) as s1 eqn:E. induction H as [s|s s' s'' H IH H']; subst.
  - split; [|constructor]. apply Forall_forall. intros t Ht. apply repeat_spec in Ht. subst t. exact I.
  - destruct (IH eq_refl) as [F1 F2]. clear IH H. destruct H'; cbn [g_threads g_effects] in *;
      try match goal with |- context [if ?b then mkG _ _ _ _ _ _ _ _ _ else _] => destruct b; cbn [g_threads g_effects] end;
      apply Forall_app in F1 as [X1 X2]; inversion X2 as [|? ? X3 X4]; subst; cbn [asked] in X3;
      (split; [apply Forall_app; split; [auto|constructor; auto; cbn; auto]|]); auto; apply Forall_app; split; auto.
Qed.
End Looks.

Section Updates.
Context {K : Type} {OK : Ord K} {EK : OrdEq K} (srt : Sorter (K * nat) nat snd) (bs : BSearch K).
Notation cells := (array_cells srt bs).
Lemma value_get (s : array K nat) k' f s' o k : a_get s k' f = Ok (s', o) ->
  o = value_of s k' /\ value_of s' k = if eqb k' k then option_map f (value_of s k) else value_of s k.
Proof.
  unfold a_get. intros H. injection H as <- <-. split; [reflexivity|]. unfold value_of. cbn [a_vals].
  induction (a_vals s) as [|[x v] l IH]; cbn [update_first find fst]; [destruct (eqb k' k); auto|].
  destruct (eqb x k') eqn:E1; cbn [find fst].
  - apply eqb_eq in E1. subst x. destruct (eqb k' k) eqn:E2; [reflexivity|]. auto.
  - destruct (eqb x k) eqn:E2; [|apply IH]. destruct (eqb k' k) eqn:E3; [|auto]. apply eqb_eq in E2, E3. subst. rewrite eqb_refl in E1. discriminate.
Qed.
Lemma tally (k : K) es : forall st ref v0, in_turn (@array_getter K nat OK _ srt bs) st (map pair_of es) ref ->
  Forall (fun e => looks (ge_ask e)) es -> value_of st k = Some v0 ->
  (forall e log, List.In e es -> ge_ask e = GGet true k -> ge_saw e = GUsed log -> exists v, log = [Saw v; Wrote (S v)]) ->
  value_of ref k = Some (v0 + length (filter (updates k) es)) /\ forall e m, List.In e es -> ge_ask e = GGet m k -> ge_saw e <> GNone.
Proof.
  induction es as [|[i a q t] es IH]; intros st ref v0 H F V0 L; cbn [map in_turn pair_of ge_ask ge_saw filter] in *.
  - subst ref. rewrite Nat.add_0_r. split; [auto|intros e m []].
  - destruct H as (s1 & H1 & H2). inversion F as [|? ? F1 F2]; subst. cbn [ge_ask] in F1.
    assert (X : (value_of s1 k = Some (v0 + if updates k (mkGE i a q t) then 1 else 0)) /\ (forall m, a = GGet m k -> q <> GNone)).
    { unfold updates. cbn [ge_ask ge_saw]. destruct a as [a|m k'].
      - split; [|discriminate]. rewrite Nat.add_0_r. destruct a; try contradiction; cbn [alone answer] in H1; destruct q as [q| |]; try contradiction.
        + injection H1 as <- _. auto.
        + injection H1 as <- _. auto.
        + cbn [contains ArrayB] in H1. match type of H1 with context [a_contains st ?x] => destruct (a_contains st x) end; [injection H1 as <- _; auto|discriminate].
      - destruct q as [q| |log]; cbn [alone] in H1; [destruct H1| |].
        + assert (E : (if m then false else false) = false) by (destruct m; auto).
          specialize (H1 (fun x => x)). apply value_get with (k := k) in H1. destruct H1 as [H1 H3]. split.
          * destruct m; rewrite H3, V0, Nat.add_0_r; destruct (eqb k' k); auto.
          * intros m' Hm. injection Hm as -> ->. congruence.
        + split; [|discriminate]. destruct H1 as (v & v' & A1 & A2 & A3). apply value_get with (k := k) in A3. destruct A3 as [A3 A4]. rewrite A4, V0.
          destruct (eqb k' k) eqn:E; [|destruct m; rewrite Nat.add_0_r; auto]. apply eqb_eq in E. subst k'. rewrite V0 in A3. injection A3 as ->. cbn [option_map].
          destruct m.
          * destruct (L _ log (or_introl eq_refl) eq_refl eq_refl) as (x & ->). cbn [heard] in A1. destruct A1 as [-> ->]. f_equal. lia.
          * rewrite Nat.add_0_r. f_equal. specialize (A2 eq_refl). clear - A1 A2. revert A1.
            induction log as [|y log IH]; cbn [heard]; [auto|]. inversion A2 as [|? ? B1 B2]; subst. intros [_ A1]. auto. }
    destruct X as [X1 X2]. destruct (IH _ _ _ H2 F2 X1 (fun e log He => L e log (or_intror He))) as [Y1 Y2]. split.
    + rewrite Y1. f_equal. destruct (updates k _); cbn [length]; lia.
    + intros e m [<-|He] Ha; [exact (X2 m Ha)|eauto].
Qed.

(** C70: threads that only look keys up, and that increment the value of [k] whenever they update it: no increment is
    lost, and nobody ever misses [k]. *)
Theorem C70_no_lost_update_partial : forall st n s k v0, gsteps looks (ginit cells st n) s -> value_of st k = Some v0 ->
  (forall e log, List.In e (g_effects s) -> ge_ask e = GGet true k -> ge_saw e = GUsed log -> exists v, log = [Saw v; Wrote (S v)]) ->
  (Forall (fun t => ~ writing t) (g_threads s) -> value_of (g_st s) k = Some (v0 + length (filter (updates k) (g_effects s)))) /\
  forall e m, List.In e (g_effects s) -> ge_ask e = GGet m k -> ge_saw e <> GNone.
Proof.
  intros st n s k v0 H V0 L. destruct (gsteps_allowed H) as [_ F].
  assert (H' : gsteps gentle (ginit cells st n) s). { eapply gsteps_more; [|exact H]. intros [[]|]; cbn; auto. }
  destruct (C70_guards_are_atomic_partial H') as (ref & A1 & _ & A2 & _).
  destruct (tally _ _ A1 F V0 L) as [T1 T2]. split; [|auto]. intros W. rewrite (A2 W). auto.
Qed.
End Updates.

(** ** Executions, and what goes wrong with the other calls and the other containers *)
Inductive gmove (K V : Type) : Type := MCall (a : gask K V) | MStep | MRead | MWrite (w : V) | MDone.
Arguments MCall {K V} a.
Arguments MStep {K V}.
Arguments MRead {K V}.
Arguments MWrite {K V} w.
Arguments MDone {K V}.
Section Play.
Context {K V : Type} {B : Block K V}.
Variable G : Cells B.
Definition busy_move (s : gsys G) (i : nat) (l1 : list (gthread G)) a p t v g log r (l2 : list (gthread G)) (m : gmove K V) : option (gsys G) :=
  match s with mkG sh ex rd wr st _ now es rs =>
  match m, p with
  | MStep, [] => match r with
      | Some q => Some (mkG sh ex rd wr st (l1 ++ GIdle G :: l2) (S now) es (rs ++ [mkGR (length l1) a q t now]))
      | None => None
      end
  | MStep, CallBegin :: p => Some (mkG sh ex rd wr st (l1 ++ GBusy G a p false t (Some st) g log r :: l2) (S now) es rs)
  | MStep, CallEnd :: p =>
      match a, v with
      | GAsk a, Some v => match answer B v a with
          | Ok (st', q) => Some (mkG sh ex rd wr (if modifies (method a) then st' else st) (l1 ++ GBusy G (GAsk a) p false t (Some v) g log (Some (GSaw q)) :: l2) (S now)
                             (es ++ [mkGE (length l1) (GAsk a) (GSaw q) now]) rs)
          | Panic => None
          end
      | GGet m k, Some v => match open_cell G m v k with
          | Ok (st', None) => Some (mkG sh ex rd wr st' (l1 ++ GBusy G (GGet m k) p false t (Some v) g log (Some GNone) :: l2) (S now)
                                (es ++ [mkGE (length l1) (GGet m k) GNone now]) rs)
          | Ok (st', Some c) => Some (mkG sh ex rd wr st' (l1 ++ GBusy G (GGet m k) (tl (tl (tl (tl (script (lookup m true)))))) false t (Some v) (Some c) log r :: l2) (S now) es rs)
          | Panic => None
          end
      | _, None => None
      end
  | MStep, BackBegin :: p => Some (mkG sh ex rd wr st (l1 ++ GBusy G a p false t v g log r :: l2) (S now) es rs)
  | MStep, BackEnd :: p => match g with
      | Some c => match close_cell G st c with
          | Ok st' => Some (mkG sh ex rd wr st' (l1 ++ GBusy G a p false t v (Some c) log r :: l2) (S now) es rs)
          | Panic => None
          end
      | None => None
      end
  | MStep, Rel m :: p => match act (Rel m) sh ex rd wr with
      | Some (sh', ex', rd', wr') => match g with
          | Some c => Some (mkG sh' ex' rd' wr' st (l1 ++ GBusy G a p false t v (Some c) log (Some (GUsed log)) :: l2) (S now) (es ++ [mkGE (length l1) a (GUsed log) now]) rs)
          | None => Some (mkG sh' ex' rd' wr' st (l1 ++ GBusy G a p false t v None log r :: l2) (S now) es rs)
          end
      | None => None
      end
  | MStep, (Acq _ | In _ | Out _) as x :: p => match act x sh ex rd wr with
      | Some (sh', ex', rd', wr') => Some (mkG sh' ex' rd' wr' st (l1 ++ GBusy G a p false t v g log r :: l2) (S now) es rs)
      | None => None
      end
  | MRead, GuardUse :: p => match g with
      | Some c => match see G st c with
          | Some w => Some (mkG sh ex rd wr st (l1 ++ GBusy G a (GuardUse :: p) false t v (Some c) (log ++ [Saw w]) r :: l2) (S now) es rs)
          | None => Some (mkG sh ex rd wr st (l1 ++ GBusy G a (GuardUse :: p) false t v (Some c) (log ++ [Dangling]) r :: l2) (S now) es rs)
          end
      | None => None
      end
  | MWrite w, GuardUse :: p => match a, g with
      | GGet true k, Some c => match put G st c w with
          | Some (st', c') => Some (mkG sh ex rd wr st' (l1 ++ GBusy G (GGet true k) (GuardUse :: p) false t v (Some c') (log ++ [Wrote w]) r :: l2) (S now) es rs)
          | None => None
          end
      | _, _ => None
      end
  | MDone, GuardUse :: p => Some (mkG sh ex rd wr st (l1 ++ GBusy G a p false t v g log r :: l2) (S now) es rs)
  | _, _ => None
  end end.
Definition gmove_at (s : gsys G) (i : nat) (m : gmove K V) : option (gsys G) :=
  let l1 := firstn i (g_threads s) in
  let l2 := skipn (S i) (g_threads s) in
  match nth_error (g_threads s) i with
  | None => None
  | Some (GIdle _) => match m with
      | MCall a => Some (mkG (g_sh s) (g_ex s) (g_rd s) (g_wr s) (g_st s)
                     (l1 ++ GBusy G a (script (gmethod a false)) false (g_now s) None None [] None :: l2) (S (g_now s)) (g_effects s) (g_returns s))
      | _ => None
      end
  | Some (GBusy _ a p d t v g log r) => if d then None else busy_move s i l1 a p t v g log r l2 m
  end.
Fixpoint gplay (s : gsys G) (l : list (nat * gmove K V)) : option (gsys G) :=
  match l with [] => Some s | (i, m) :: l' => match gmove_at s i m with Some s' => gplay s' l' | None => None end end.
Definition move_ok (P : gask K V -> Prop) (x : nat * gmove K V) : Prop := match snd x with MCall a => P a | _ => True end.
Lemma gmove_at_ok (P : gask K V -> Prop) s i m s' : gmove_at s i m = Some s' -> move_ok P (i, m) -> gstep P s s'.
Proof.
  unfold gmove_at. destruct (nth_error (g_threads s) i) as [th|] eqn:E; [|discriminate].
  apply PSeqConc.nth_split in E. destruct s as [sh ex rd wr st ths now es rs]. cbn [g_sh g_ex g_rd g_wr g_st g_threads g_now g_effects g_returns] in *.
  remember (firstn i ths) as l1 eqn:E1. remember (skipn (S i) ths) as l2 eqn:E2. clear E1 E2. subst ths.
  destruct th as [|a p d t v g log r].
  - destruct m; try discriminate. intros H A. injection H as <-. constructor. exact A.
  - destruct d; [discriminate|]. unfold busy_move. intros H _. destruct m as [a'| | |w|]; [discriminate| | | |].
    + destruct p as [|x p].
      * destruct r as [q|]; [|discriminate]. injection H as <-. constructor.
      * destruct x as [m|m|m|m| | | | |].
        -- destruct (act (Acq m) sh ex rd wr) as [[[[? ?] ?] ?]|] eqn:EA; [|discriminate]. injection H as <-. eapply G_act; [exact I|exact EA|discriminate].
        -- destruct (act (Rel m) sh ex rd wr) as [[[[? ?] ?] ?]|] eqn:EA; [|discriminate]. destruct g as [c|]; injection H as <-.
           ++ eapply G_release; exact EA.
           ++ eapply G_act; [exact I|exact EA|auto].
        -- destruct (act (In m) sh ex rd wr) as [[[[? ?] ?] ?]|] eqn:EA; [|discriminate]. injection H as <-. eapply G_act; [exact I|exact EA|discriminate].
        -- destruct (act (Out m) sh ex rd wr) as [[[[? ?] ?] ?]|] eqn:EA; [|discriminate]. injection H as <-. eapply G_act; [exact I|exact EA|discriminate].
        -- injection H as <-. solve [apply G_begin | apply G_back].
        -- destruct a as [a|m k]; destruct v as [v|]; try discriminate.
           ++ destruct (answer B v a) as [[st' q]|] eqn:EA; [|discriminate]. injection H as <-. apply G_end; auto.
           ++ destruct (open_cell G m v k) as [[st' [c|]]|] eqn:EA; [| |discriminate]; injection H as <-; [apply G_hit|apply G_miss]; auto.
        -- discriminate.
        -- injection H as <-. solve [apply G_begin | apply G_back].
        -- destruct g as [c|]; [|discriminate]. destruct (close_cell G st c) as [st'|] eqn:EA; [|discriminate]. injection H as <-. apply G_close; auto.
    + destruct p as [|[] p]; try discriminate. destruct g as [c|]; [|discriminate]. destruct (see G st c) as [w|] eqn:EA; injection H as <-; [apply G_read|apply G_dangling]; auto.
    + destruct p as [|[] p]; try discriminate. destruct a as [a|[] k]; try discriminate; destruct g as [c|]; try discriminate.
      destruct (put G st c w) as [[st' c']|] eqn:EA; [|discriminate]. injection H as <-. apply G_write; auto.
    + destruct p as [|[] p]; try discriminate. injection H as <-. apply G_done.
Qed.
Lemma gplay_ok (P : gask K V -> Prop) l s s' : gplay s l = Some s' -> Forall (move_ok P) l -> gsteps P s s'.
Proof.
  revert s. induction l as [|[i m] l IH]; cbn [gplay]; intros s H F.
  - injection H as <-. constructor.
  - inversion F; subst. destruct (gmove_at s i m) as [s1|] eqn:E; [|discriminate]. eapply gmove_at_ok in E; [|eassumption]. apply IH in H; [|auto]. clear IH F.
    induction H as [s1|s1 s2 s3 H IH H']; [econstructor; [constructor|]; auto|]. econstructor; eauto.
Qed.
End Play.

(** Schedules: thread [i] calls, gets its guard, uses it, drops it, returns. *)
Definition steps {K V} (i n : nat) : list (nat * gmove K V) := repeat (i, MStep) n.
Definition grab {K V} (i : nat) (a : gask K V) : list (nat * gmove K V) := (i, MCall a) :: steps i 5.
Definition incr {K} (i x : nat) : list (nat * gmove K nat) := [(i, MRead); (i, MWrite (S x)); (i, MDone)].
Definition all_idle {K V} {B : Block K V} {G : Cells B} (s : gsys G) : bool := forallb (fun t => match t with GIdle _ => true | _ => false end) (g_threads s).
Definition nat_array := array_cells (K := nat) (V := nat) (std_sorter snd) linear_bs.
Definition two : array nat nat := mkArray 10 2 [(1, 10); (2, 20)] (fun _ => 1).
Definition one : array nat nat := mkArray 10 1 [(1, 10)] (fun _ => 1).

(** The hypotheses are met: two threads increment the value of 1, the second calls while the first has its guard, while a
    third looks at 2. *)
Definition two_increments : list (nat * gmove nat nat) :=
  grab 0 (GGet true 1) ++ [(1, MCall (GGet true 1)); (2, MCall (GAsk (AskContains 2)))] ++ incr 0 10 ++ steps 0 4 ++
  steps 1 5 ++ incr 1 11 ++ steps 1 4 ++ steps 2 7 ++ grab 2 (GGet false 2) ++ [(2, MRead); (2, MRead); (2, MDone)] ++ steps 2 4.
Example c70_case : match gplay (ginit nat_array two 3) two_increments with
  | Some s => all_idle s = true /\ value_of (g_st s) 1 = Some 12 /\ a_vals (g_st s) = [(1, 12); (2, 20)] /\
      map pair_of (g_effects s) = [(GGet true 1, GUsed [Saw 10; Wrote 11]); (GGet true 1, GUsed [Saw 11; Wrote 12]);
                                   (GAsk (AskContains 2), GSaw (SawBool true)); (GGet false 2, GUsed [Saw 20; Saw 20])]
  | None => False
  end.
Proof. vm_compute. repeat split. Qed.
Example c70_case_looks : Forall (move_ok looks) two_increments.
Proof. unfold two_increments, grab, incr, steps. cbn [repeat app]. repeat (constructor; [exact I|]). constructor. Qed.

(** C70 is false when a thread takes what another has a guard of: a take that has passed the lock removes the element
    under the guard, and what is written to 1 becomes the value of 2, which nobody asked for. *)
Definition only {K V} (l : list (gask K V)) (a : gask K V) : Prop := List.In a l.
Definition take_under_guard : list (nat * gmove nat nat) :=
  [(1, MCall (GAsk (AskTake 1)))] ++ steps 1 2 ++ grab 0 (GGet true 1) ++ [(0, MRead)] ++ steps 1 5 ++ [(0, MWrite 11); (0, MDone)] ++ steps 0 4.
Theorem C70_take_under_a_guard_refuted : exists s,
  gsteps (only [GAsk (AskTake 1); GGet true 1]) (ginit nat_array two 2) s /\ all_idle s = true /\
  map pair_of (g_effects s) = [(GAsk (AskTake 1), GSaw (SawOne (Some (1, 10)))); (GGet true 1, GUsed [Saw 10; Wrote 11])] /\
  a_vals two = [(1, 10); (2, 20)] /\ a_vals (g_st s) = [(2, 11)].
Proof.
  assert (E : match gplay (ginit nat_array two 2) take_under_guard with
    | Some s => all_idle s = true /\
        map pair_of (g_effects s) = [(GAsk (AskTake 1), GSaw (SawOne (Some (1, 10)))); (GGet true 1, GUsed [Saw 10; Wrote 11])] /\
        a_vals two = [(1, 10); (2, 20)] /\ a_vals (g_st s) = [(2, 11)]
    | None => False end) by (vm_compute; repeat split).
  destruct (gplay (ginit nat_array two 2) take_under_guard) as [s|] eqn:P; [|destruct E].
  exists s. split; [|exact E]. eapply gplay_ok; [exact P|]. unfold take_under_guard, grab, steps, only. cbn [repeat app].
  repeat (constructor; [cbn; auto|]). constructor.
Qed.
(** ... and if it was the last element, the guard shows what is not a value any more. *)
Definition read_after_take : list (nat * gmove nat nat) :=
  [(1, MCall (GAsk (AskTake 1)))] ++ steps 1 2 ++ grab 0 (GGet false 1) ++ [(0, MRead)] ++ steps 1 5 ++ [(0, MRead); (0, MDone)] ++ steps 0 4.
Theorem C70_dangling_guard_refuted : exists s,
  gsteps (only [GAsk (AskTake 1); GGet false 1]) (ginit nat_array one 2) s /\
  map pair_of (g_effects s) = [(GAsk (AskTake 1), GSaw (SawOne (Some (1, 10)))); (GGet false 1, GUsed [Saw 10; Dangling])].
Proof.
  assert (E : match gplay (ginit nat_array one 2) read_after_take with
    | Some s => map pair_of (g_effects s) = [(GAsk (AskTake 1), GSaw (SawOne (Some (1, 10)))); (GGet false 1, GUsed [Saw 10; Dangling])]
    | None => False end) by (vm_compute; repeat split).
  destruct (gplay (ginit nat_array one 2) read_after_take) as [s|] eqn:P; [|destruct E].
  exists s. split; [|exact E]. eapply gplay_ok; [exact P|]. unfold read_after_take, grab, steps, only. cbn [repeat app].
  repeat (constructor; [cbn; auto|]). constructor.
Qed.

(** C70 is false of a BTree, even of threads that only look: a guard keeps the pair out of the container, and puts it back
    after it has released the lock.  Two guards of get_mut; two guards of get. *)
Definition nat_btree := @btree_cells nat nat _ _.
Definition small_btree : btree nat nat := match b_push (btree_new 10 (fun _ => 1)) [(1, 10); (2, 20)] with Ok (s, _) => s | Panic => btree_new 0 (fun _ => 1) end.
Definition missed_while_put_back : list (nat * gmove nat nat) :=
  grab 0 (GGet true 1) ++ incr 0 10 ++ steps 0 1 ++ [(1, MCall (GGet true 1))] ++ steps 1 7 ++ steps 0 3.
Theorem C70_btree_key_missed_refuted : exists s,
  gsteps looks (ginit nat_btree small_btree 2) s /\ all_idle s = true /\
  b_contains small_btree 1 = Ok true /\ b_contains (g_st s) 1 = Ok true /\
  map pair_of (g_effects s) = [(GGet true 1, GUsed [Saw 10; Wrote 11]); (GGet true 1, GNone)].
Proof.
  assert (E : match gplay (ginit nat_btree small_btree 2) missed_while_put_back with
    | Some s => all_idle s = true /\ b_contains small_btree 1 = Ok true /\ b_contains (g_st s) 1 = Ok true /\
        map pair_of (g_effects s) = [(GGet true 1, GUsed [Saw 10; Wrote 11]); (GGet true 1, GNone)]
    | None => False end) by (vm_compute; repeat split).
  destruct (gplay (ginit nat_btree small_btree 2) missed_while_put_back) as [s|] eqn:P; [|destruct E].
  exists s. split; [|exact E]. eapply gplay_ok; [exact P|]. unfold missed_while_put_back, grab, incr, steps. cbn [repeat app].
  repeat (constructor; [exact I|]). constructor.
Qed.
Definition second_reader : list (nat * gmove nat nat) :=
  grab 0 (GGet false 1) ++ [(0, MRead); (1, MCall (GGet false 1))] ++ steps 1 7 ++ [(0, MDone)] ++ steps 0 4.
Theorem C70_btree_second_reader_refuted : exists s,
  gsteps (only [GGet false 1]) (ginit nat_btree small_btree 2) s /\ all_idle s = true /\
  b_contains small_btree 1 = Ok true /\ b_contains (g_st s) 1 = Ok true /\
  map pair_of (g_effects s) = [(GGet false 1, GNone); (GGet false 1, GUsed [Saw 10])].
Proof.
  assert (E : match gplay (ginit nat_btree small_btree 2) second_reader with
    | Some s => all_idle s = true /\ b_contains small_btree 1 = Ok true /\ b_contains (g_st s) 1 = Ok true /\
        map pair_of (g_effects s) = [(GGet false 1, GNone); (GGet false 1, GUsed [Saw 10])]
    | None => False end) by (vm_compute; repeat split).
  destruct (gplay (ginit nat_btree small_btree 2) second_reader) as [s|] eqn:P; [|destruct E].
  exists s. split; [|exact E]. eapply gplay_ok; [exact P|]. unfold second_reader, grab, steps, only. cbn [repeat app].
  repeat (constructor; [cbn; auto|]). constructor.
Qed.

(** C70 is false of a Compressed, even of threads that only look: a guard of get_mut writes after it has released the lock,
    and writes all the elements as they were when it was given.  Two threads increment the same value: one increment is lost. *)
Definition nat_compressed := compressed_cells VecStream no_lz duo_codec (std_sorter snd) linear_bs.
Definition lost_increment : list (nat * gmove nat nat) :=
  grab 0 (GGet true 1) ++ incr 0 5 ++ steps 0 1 ++ grab 1 (GGet true 1) ++ incr 1 5 ++ steps 1 1 ++ steps 0 3 ++ steps 1 3.
Theorem C70_compressed_lost_update_refuted : exists s,
  gsteps looks (ginit nat_compressed (cstate [x01; x05; x02; x09] 40) 2) s /\ all_idle s = true /\
  c_read no_lz duo_codec (cstate [x01; x05; x02; x09] 40) = Some [(1, 5); (2, 9)] /\
  map pair_of (g_effects s) = [(GGet true 1, GUsed [Saw 5; Wrote 6]); (GGet true 1, GUsed [Saw 5; Wrote 6])] /\
  c_read no_lz duo_codec (g_st s) = Some [(1, 6); (2, 9)].
Proof.
  assert (E : match gplay (ginit nat_compressed (cstate [x01; x05; x02; x09] 40) 2) lost_increment with
    | Some s => all_idle s = true /\
        c_read no_lz duo_codec (cstate [x01; x05; x02; x09] 40) = Some [(1, 5); (2, 9)] /\
        map pair_of (g_effects s) = [(GGet true 1, GUsed [Saw 5; Wrote 6]); (GGet true 1, GUsed [Saw 5; Wrote 6])] /\
        c_read no_lz duo_codec (g_st s) = Some [(1, 6); (2, 9)]
    | None => False end) by (vm_compute; repeat split).
  destruct (gplay (ginit nat_compressed (cstate [x01; x05; x02; x09] 40) 2) lost_increment) as [s|] eqn:P; [|destruct E].
  exists s. split; [|exact E]. eapply gplay_ok; [exact P|]. unfold lost_increment, grab, incr, steps. cbn [repeat app].
  repeat (constructor; [exact I|]). constructor.
Qed.

Print Assumptions C70_guards_are_atomic_partial.
Print Assumptions C70_reads_are_stable_partial.
Print Assumptions C70_no_lost_update_partial.
Print Assumptions C70_take_under_a_guard_refuted.
Print Assumptions C70_dangling_guard_refuted.
Print Assumptions C70_btree_key_missed_refuted.
Print Assumptions C70_btree_second_reader_refuted.
Print Assumptions C70_compressed_lost_update_refuted.
