(** PBacklog.v -- property theorems: several clients of one server (C73). *)
From Coq Require Import NArith Strings.Byte Permutation.
From Verif Require Import Base PermSolve Block Bincode Array Socket Accept PSocket PAccept Backlog.
Set Implicit Arguments.

Section Crowd.
Context {K V : Type}.
Variable C : Block K V.
Variable ck : codec K.
Variable cv : codec V.
Variable room : nat.
Notation crowd := (crowd C).
Notation crowd_step := (@crowd_step K V C ck cv room).
Notation crowd_steps := (@crowd_steps K V C ck cv room).
Notation life_step := (@life_step K V C ck cv).
Notation life_steps := (@life_steps K V C ck cv).

(** Who has tried to connect, in order. *)
Definition tried (es : list (crowd_event K V)) : list nat := flat_map (fun e => match e with WConnect i => [i] | _ => [] end) es.
(** [l1] is [l2] with some elements left out. *)
Inductive subseq {T} : list T -> list T -> Prop :=
| sq_nil : subseq [] []
| sq_take : forall x l1 l2, subseq l1 l2 -> subseq (x :: l1) (x :: l2)
| sq_skip : forall x l1 l2, subseq l1 l2 -> subseq l1 (x :: l2).
(** Nobody connects but when the server is waiting for a client and nobody else waits. *)
Definition one_by_one (c : crowd) (e : crowd_event K V) : Prop := match e with WConnect _ => listening (w_life c) = true /\ w_queue c = [] | _ => True end.

(** The thread, seen alone, is that of Accept.v; [n] clients have been accepted. *)
Record crowd_ok (container : St C) (persistent : option nat) (es : list (crowd_event K V)) (c : crowd) : Prop := {
  co_life : exists ls, life_steps (spawn C container persistent) ls = Some (w_life c) /\ connections ls = length (w_served c);
  co_all : exists before, tried es = before ++ w_queue c /\ Permutation before (w_refused c ++ w_served c ++ w_reset c) /\ subseq (w_served c) before;
  co_queue : listening (w_life c) = false -> w_queue c = []
}.
Lemma subseq_app {T} (a1 b1 : list T) : subseq a1 b1 -> forall a2 b2, subseq a2 b2 -> subseq (a1 ++ a2) (b1 ++ b2).
Proof. induction 1; cbn; intros; auto; constructor; auto. Qed.
Lemma subseq_refl {T} (l : list T) : subseq l l.
Proof. induction l; constructor; auto. Qed.
Lemma subseq_none {T} (l : list T) : subseq [] l.
Proof. induction l; constructor; auto. Qed.
Lemma connections_app (l1 l2 : list (life_event K V)) : connections (l1 ++ l2) = connections l1 + connections l2.
Proof. induction l1 as [|e l1 IH]; cbn; auto. destruct e; cbn; rewrite ?IH; auto. Qed.
Lemma tried_app es e : tried (es ++ [e]) = tried es ++ match e with WConnect i => [i] | _ => [] end.
Proof. unfold tried. rewrite flat_map_app. cbn [flat_map]. rewrite app_nil_r. auto. Qed.
Lemma life_more container persistent (l l' : life C) e : life_step l e = Some l' ->
  forall n, (exists ls, life_steps (spawn C container persistent) ls = Some l /\ connections ls = n) ->
  exists ls, life_steps (spawn C container persistent) ls = Some l' /\ connections ls = n + match e with LConnect => 1 | _ => 0 end.
Proof.
  intros H n (ls & H1 & H2). exists (ls ++ [e]). rewrite life_steps_app, H1. cbn [Accept.life_steps]. rewrite H. split; auto.
  rewrite connections_app, H2. destruct e; cbn; lia.
Qed.
(** A listener that appears is new; one that goes away has no queue. *)
Lemma listening_stays (l l' : life C) e : life_step l e = Some l' -> e <> LConnect -> e <> LAcceptError -> listening l = true -> listening l' = true.
Proof.
  intros H N1 N2. destruct l as [w|w|y|]; cbn; try discriminate. destruct e as [ok| | |e]; try congruence; destruct w as [c p|y f]; cbn in H; try discriminate.
  destruct (outside e); [|discriminate]. destruct (Socket.step ck cv y e); [|discriminate]. injection H as <-. auto.
Qed.
Lemma accept_ends (l l' : life C) : life_step l LConnect = Some l' -> listening l' = false.
Proof.
  destruct l as [w|[c p|y f]|y|]; cbn; try discriminate; [destruct w; discriminate|intros H; injection H as <-; auto|].
  destruct (Socket.step ck cv y (f true)); [|discriminate]. intros H; injection H as <-; auto.
Qed.
Lemma crowd_step_ok container persistent es c e c' : crowd_ok container persistent es c -> crowd_step c e = Some c' -> crowd_ok container persistent (es ++ [e]) c'.
Proof.
  intros [H1 (b & H2 & H3 & H4) H5] H. destruct e as [i| |e]; cbn [Backlog.crowd_step] in H.
  - destruct (listening (w_life c)) eqn:L.
    + destruct (_ <? _); [|discriminate]. injection H as <-. constructor; cbn [w_life w_queue w_served w_refused w_reset]; auto.
      * exists b. rewrite tried_app, H2, app_assoc. auto.
      * congruence.
    + injection H as <-. specialize (H5 eq_refl). constructor; cbn [w_life w_queue w_served w_refused w_reset]; auto.
      exists (b ++ [i]). rewrite tried_app, H2, H5, !app_nil_r. split; [auto|]. split.
      * rewrite H3. perm0.
      * rewrite <- (app_nil_r (w_served c)). apply subseq_app; [auto|]. constructor. constructor.
  - destruct (w_queue c) as [|i q] eqn:Q; [discriminate|]. destruct (life_step (w_life c) LConnect) as [l|] eqn:E; [|discriminate]. injection H as <-.
    constructor; cbn [w_life w_queue w_served w_refused w_reset]; auto.
    + rewrite app_length. exact (@life_more container persistent _ _ _ E _ H1).
    + exists (b ++ i :: q). rewrite tried_app, H2, !app_nil_r. split; [auto|]. split.
      * rewrite H3. perm0.
      * apply subseq_app; [auto|]. apply sq_take. apply subseq_none.
  - assert (D : e = LAcceptError \/ e = LConnect \/ (e <> LConnect /\ e <> LAcceptError)) by (destruct e; auto; right; right; split; discriminate).
    destruct D as [->|[->|[D1 D2]]]; [|discriminate|].
    + destruct (life_step (w_life c) LAcceptError) as [l|] eqn:E; [|discriminate]. injection H as <-.
      constructor; cbn [w_life w_queue w_served w_refused w_reset]; auto.
      * destruct (@life_more container persistent _ _ _ E _ H1) as (ls & X1 & X2). exists ls. split; auto. lia.
      * exists (b ++ w_queue c). rewrite tried_app, H2, !app_nil_r. split; [auto|]. split; [rewrite H3; perm0|].
        rewrite <- (app_nil_r (w_served c)). apply subseq_app; [auto|apply subseq_none].
    + assert (H' : match life_step (w_life c) e with Some l => Some (mkCrowd l (w_queue c) (w_served c) (w_refused c) (w_reset c)) | None => None end = Some c').
      { destruct e; try congruence; exact H. } clear H. rename H' into H.
      destruct (life_step (w_life c) e) as [l|] eqn:E; [|discriminate]. injection H as <-.
      constructor; cbn [w_life w_queue w_served w_refused w_reset]; auto.
      * destruct (@life_more container persistent _ _ _ E _ H1) as (ls & X1 & X2). exists ls. split; auto. destruct e; try congruence; lia.
      * exists b. rewrite tried_app, H2, !app_nil_r. auto.
      * intros L. apply H5. destruct (listening (w_life c)) eqn:L2; auto. rewrite (@listening_stays _ _ _ E D1 D2 L2) in L. discriminate.
Qed.
Lemma crowd_steps_app es1 : forall c es2, crowd_steps c (es1 ++ es2) = match crowd_steps c es1 with Some c' => crowd_steps c' es2 | None => None end.
Proof. induction es1 as [|e es1 IH]; intros c es2; cbn; auto. destruct (Backlog.crowd_step ck cv room c e); auto. Qed.
Lemma opened_ok container persistent : crowd_ok container persistent [] (opened C container persistent).
Proof.
  constructor; cbn; auto.
  - exists []. auto.
  - exists []. repeat split; auto. constructor.
Qed.
Lemma crowd_steps_ok container persistent es c : crowd_steps (opened C container persistent) es = Some c -> crowd_ok container persistent es c.
Proof.
  revert c. induction es as [|e es IH] using rev_ind; intros c H; [injection H as <-; apply opened_ok|].
  rewrite crowd_steps_app in H. destruct (crowd_steps (opened C container persistent) es) as [c1|] eqn:E; [|discriminate].
  cbn [Backlog.crowd_steps] in H. destruct (Backlog.crowd_step ck cv room c1 e) as [c2|] eqn:E2; [|discriminate]. injection H as <-.
  eapply crowd_step_ok; eauto.
Qed.

(** Every attempt to connect is refused, waiting, served (now or before), or reset, and nothing else; clients are served in
    the order in which they connected. *)
Theorem C73_everyone_accounted : forall container persistent es c, crowd_steps (opened C container persistent) es = Some c ->
  Permutation (tried es) (w_refused c ++ w_served c ++ w_reset c ++ w_queue c) /\ subseq (w_served c ++ w_queue c) (tried es).
Proof.
  intros container persistent es c H. destruct (co_all (crowd_steps_ok _ _ _ H)) as (b & H1 & H2 & H3). rewrite H1. split.
  - rewrite H2. perm0.
  - apply subseq_app; [auto|apply subseq_refl].
Qed.

(** One client at a time: what the thread does is what Accept.v describes with one client after the other, as many as were
    accepted -- so that C41, C42, C49, C69 and C71 speak of each of them --, and at most 1 + n. *)
Theorem C73_one_at_a_time : forall container persistent es c, crowd_steps (opened C container persistent) es = Some c ->
  (exists ls, life_steps (spawn C container persistent) ls = Some (w_life c) /\ connections ls = length (w_served c)) /\
  (forall y, w_life c = LServe y -> y_conn y = length (w_served c) /\ match persistent with Some n => length (w_served c) <= 1 + n | None => True end).
Proof.
  intros container persistent es c H. destruct (co_life (crowd_steps_ok _ _ _ H)) as (ls & H1 & H2). split; [eauto|].
  intros y Ey. rewrite Ey in H1. rewrite <- H2. eapply C71_connections_counted; exact H1.
Qed.

(** Whom accept returns: the first of those that connected since the server listens; the others are reset, whatever the
    server does next. *)
Theorem C73_the_first_is_served : forall container persistent es c c', crowd_steps (opened C container persistent) es = Some c -> crowd_step c WAccept = Some c' ->
  exists before i others, tried es = before ++ i :: others /\ w_served c' = w_served c ++ [i] /\ w_reset c' = w_reset c ++ others /\ w_queue c' = [] /\
    Permutation before (w_refused c ++ w_served c ++ w_reset c) /\ listening (w_life c') = false.
Proof.
  intros container persistent es c c' H HS. destruct (co_all (crowd_steps_ok _ _ _ H)) as (b & H1 & H2 & H3). cbn [Backlog.crowd_step] in HS.
  destruct (w_queue c) as [|i q] eqn:Q; [discriminate|]. destruct (life_step (w_life c) LConnect) as [l|] eqn:E; [|discriminate]. injection HS as <-.
  exists b, i, q. cbn [w_life w_queue w_served w_refused w_reset]. split; [auto|]. split; [auto|]. split; [auto|]. split; [auto|]. split; [auto|].
  eapply accept_ends; eauto.
Qed.
(** Nobody is refused while the server waits for a client, and the first to connect then can be served. *)
Theorem C73_waiting_server_takes_partial : forall container persistent es c w i, 1 <= room -> crowd_steps (opened C container persistent) es = Some c ->
  w_life c = LAccept w -> w_queue c = [] -> exists c', crowd_steps c [WConnect i; WAccept] = Some c' /\ w_served c' = w_served c ++ [i] /\ w_refused c' = w_refused c /\ w_reset c' = w_reset c.
Proof.
  intros container persistent es c w i Hr H Hl Hq. destruct (co_life (crowd_steps_ok _ _ _ H)) as (ls & H1 & _).
  cbn [Backlog.crowd_steps Backlog.crowd_step]. rewrite Hl, Hq. cbn [listening length app]. replace (0 <? room) with true by (symmetry; apply Nat.ltb_lt; lia).
  cbn [w_life w_queue w_served w_refused w_reset].
  assert (E : exists l, life_step (LAccept w) LConnect = Some l).
  { rewrite Hl in H1. assert (S : served_by ck cv container persistent (LAccept w)) by (eapply life_steps_inv; [apply spawn_served|exact H1]).
    destruct w as [c0 p|y f]; cbn [Accept.life_step arrive]; [eauto|]. cbn [served_by] in S. destruct S as (_ & _ & _ & S). destruct (S true) as (y' & ->). cbn. eauto. }
  destruct E as (l & E). rewrite E. eexists. split; [reflexivity|]. cbn [w_served w_refused w_reset]. rewrite app_nil_r. auto.
Qed.
(** If clients connect one by one, each once the server is waiting, and accept does not fail, all of them are served. *)
Fixpoint follows (P : crowd -> crowd_event K V -> Prop) (c : crowd) (es : list (crowd_event K V)) : Prop :=
  match es with [] => True | e :: es' => P c e /\ match crowd_step c e with Some c' => follows P c' es' | None => True end end.
Theorem C73_one_by_one_partial : forall container persistent es c, crowd_steps (opened C container persistent) es = Some c ->
  follows one_by_one (opened C container persistent) es -> ~ List.In (WLife LAcceptError) es ->
  tried es = w_served c ++ w_queue c /\ w_refused c = [] /\ w_reset c = [] /\ length (w_queue c) <= 1.
Proof.
  intros container persistent. set (Inv := fun es (c : crowd) => tried es = w_served c ++ w_queue c /\ w_refused c = [] /\ w_reset c = [] /\ length (w_queue c) <= 1).
  assert (G : forall es2 es1 c c', Inv es1 c -> crowd_steps c es2 = Some c' -> follows one_by_one c es2 -> ~ List.In (WLife LAcceptError) es2 -> Inv (es1 ++ es2) c').
  { induction es2 as [|e es2 IH]; intros es1 c c' HI H HF HN; cbn [Backlog.crowd_steps] in H; [injection H as <-; rewrite app_nil_r; auto|].
    cbn [follows] in HF. destruct HF as [HF1 HF2]. destruct (Backlog.crowd_step ck cv room c e) as [c1|] eqn:E; [|discriminate].
    replace (es1 ++ e :: es2) with ((es1 ++ [e]) ++ es2) by (rewrite <- app_assoc; auto).
    eapply IH; [|exact H|exact HF2|intros X; apply HN; right; auto]. destruct HI as (I1 & I2 & I3 & I4). unfold Inv. rewrite tried_app, I1. clear IH H HF2.
    destruct e as [i| |e]; cbn [Backlog.crowd_step one_by_one] in E, HF1.
    - destruct HF1 as [F1 F2]. rewrite F1, F2 in E. cbn [length app] in E. destruct (0 <? room); [|discriminate]. injection E as <-. cbn [w_served w_queue w_refused w_reset]. rewrite F2, app_nil_r. auto.
    - destruct (w_queue c) as [|i [|j q]] eqn:Q; cbn [length] in I4; [discriminate| |lia]. destruct (life_step (w_life c) LConnect); [|discriminate]. injection E as <-. cbn [w_served w_queue w_refused w_reset].
      rewrite I3, !app_nil_r. auto.
    - destruct e as [ok| | |e]; [| discriminate | exfalso; apply HN; left; auto |];
        match goal with H : match ?x with _ => _ end = Some _ |- _ => destruct x; [|discriminate H]; injection H as <- end; cbn [w_served w_queue w_refused w_reset]; rewrite app_nil_r; auto. }
  intros es c H HF HN. apply (G es [] (opened C container persistent) c); auto. repeat split; cbn; auto.
Qed.
End Crowd.

(** False of the code: two clients connect while the server waits for its first; SocketClient::new succeeds for both.  The
    first is served and leaves; the server, which accepts clients without limit, then serves a third.  The second, whose
    connection had succeeded, is never served: its connection was reset, and its calls panic. *)
Definition opened_array (persistent : option nat) : crowd (@arrayB) := opened arrayB (array_new 3 (fun _ => 1)) persistent.
Definition two_at_once : list (crowd_event nat nat) :=
  [WLife (LBound true); WConnect 1; WConnect 2; WAccept; WLife (LOn (EClose 0)); WLife (LOn ELoop); WLife (LOn (EReadError UnexpectedEof true)); WLife (LBound true); WConnect 3; WAccept].
Theorem C73_forgotten_client_refuted : exists c, crowd_steps u u 128 (opened_array None) two_at_once = Some c /\
  tried two_at_once = [1; 2; 3] /\ w_refused c = [] /\ w_served c = [1; 3] /\ w_reset c = [2] /\ w_queue c = [].
Proof.
  assert (E : match crowd_steps u u 128 (opened_array None) two_at_once with
    | Some c => tried two_at_once = [1; 2; 3] /\ w_refused c = [] /\ w_served c = [1; 3] /\ w_reset c = [2] /\ w_queue c = []
    | None => False end) by (vm_compute; auto 10).
  destruct (crowd_steps u u 128 (opened_array None) two_at_once) as [c|]; [|destruct E]. eauto.
Qed.
(** Whatever happens next: that attempt is over. *)
Theorem C73_reset_is_final : forall K V (C : Block K V) ck cv room container persistent es1 es2 c1 c2 i,
  crowd_steps ck cv room (opened C container persistent) es1 = Some c1 -> crowd_steps ck cv room c1 es2 = Some c2 -> NoDup (tried (es1 ++ es2)) ->
  List.In i (w_reset c1) -> ~ List.In i (w_served c2) /\ ~ List.In i (w_queue c2).
Proof.
  intros K V C ck cv room container persistent es1 es2 c1 c2 i H1 H2 ND Hi.
  assert (M : forall es (c c' : crowd C), crowd_steps ck cv room c es = Some c' -> List.In i (w_reset c) -> List.In i (w_reset c')).
  { clear. induction es as [|e es IH]; intros c c' H Hi; cbn [crowd_steps] in H; [injection H as <-; auto|].
    destruct (crowd_step ck cv room c e) as [c1|] eqn:E; [|discriminate]. eapply IH; [exact H|]. clear IH H.
    destruct e as [j| |e]; cbn [crowd_step] in E.
    - destruct (listening _); [destruct (_ <? _); [|discriminate]|]; injection E as <-; auto.
    - destruct (w_queue c); [discriminate|]. destruct (life_step _ _ _ _); [|discriminate]. injection E as <-. apply in_or_app; auto.
    - destruct e; try discriminate; destruct (life_step _ _ _ _); try discriminate; injection E as <-; auto. apply in_or_app; auto. }
  assert (R : crowd_steps ck cv room (opened C container persistent) (es1 ++ es2) = Some c2) by (rewrite crowd_steps_app, H1; auto).
  destruct (C73_everyone_accounted _ _ _ _ _ _ R) as [P _]. apply (Permutation_NoDup P) in ND.
  pose proof (M _ _ _ H2 Hi) as Hr. apply NoDup_app_inv in ND as (_ & ND & _). apply NoDup_app_inv in ND as (_ & ND & N1). apply NoDup_app_inv in ND as (_ & _ & N2).
  split; intros X; [apply (N1 i X); apply in_or_app; auto|exact (N2 i Hr X)].
Qed.
(** The hypotheses are met: clients that come one by one, some of them refused; a full queue. *)
Definition calm_crowd : list (crowd_event nat nat) :=
  [WLife (LBound true); WConnect 1; WAccept; WLife (LOn (EClose 0)); WLife (LOn ELoop); WLife (LOn (EReadError UnexpectedEof true)); WLife (LBound true); WConnect 2; WAccept].
Example C73_example :
  match crowd_steps u u 1 (opened_array (Some 1)) calm_crowd with
  | Some c => w_served c = [1; 2] /\ w_queue c = [] /\ match w_life c with LServe y => y_conn y = 2 | _ => False end
  | None => False
  end /\
  match crowd_steps u u 1 (opened_array (Some 1)) (WConnect 7 :: firstn 3 calm_crowd ++ [WConnect 8]) with Some c => w_refused c = [7; 8] /\ w_served c = [1] | None => False end /\
  crowd_steps u u 1 (opened_array None) [WLife (LBound true); WConnect 1; WConnect 2] = None /\
  match crowd_steps u u 1 (opened_array None) [WLife (LBound true)] with Some c => listening (w_life c) = true /\ w_queue c = [] | None => False end.
Proof. vm_compute. auto 10. Qed.
Example C73_example_follows : follows u u 1 (@one_by_one nat nat arrayB) (opened_array (Some 1)) calm_crowd.
Proof. vm_compute. auto 20. Qed.
