(** PAccept.v -- property theorems about the life of a server thread: C71. *)
From Coq Require Import NArith Strings.Byte.
From Verif Require Import Base Block Bincode Array Socket Accept PSocket.
Set Implicit Arguments.

Section Life.
Context {K V : Type}.
Variable C : Block K V.
Variable ck : codec K.
Variable cv : codec V.
Notation sys := (sys C).
Notation event := (@event K V).
Notation life := (life C).
Notation step := (step ck cv).
Notation steps := (steps ck cv).
Notation life_step := (@life_step K V C ck cv).
Notation life_steps := (@life_steps K V C ck cv).
Notation lost := (@lost K V).
Notation outside := (@outside K V).
Notation rq := (request_codec ck cv).
Notation reach := (reach ck cv).
Local Ltac cases H :=
  unfold Socket.step in H; cbv zeta in H;
  repeat match type of H with
  | match ?x with _ => _ end = Some _ => destruct x eqn:?; try discriminate H
  end; try (apply Some_inj in H; subst).

Definition anything (y : sys) (e : event) : Prop := True.
(** No client connects and no error ends the wait. *)
Definition nobody (e : life_event K V) : Prop := match e with LConnect | LAcceptError => False | _ => True end.

(** ** The loop of Socket.v is what happens between two waits *)
Definition served_by (container : St C) (persistent : option nat) (l : life) : Prop :=
  match l with
  | LBind (First c p) | LAccept (First c p) => c = container /\ p = persistent
  | LBind (Again y f) | LAccept (Again y f) => reach anything (spawned C container persistent) y /\ may_reconnect y = true /\
      (forall ok, lost (f ok) = Some f) /\ (forall ok, exists y', step y (f ok) = Some y')
  | LServe y => reach anything (spawned C container persistent) y
  | LFailed => True
  end.
Lemma lost_again (e : event) f : lost e = Some f -> (forall ok, lost (f ok) = Some f) /\ exists ok, e = f ok.
Proof. destruct e as [| | | | | | |[] ok| |[] ok ok2]; cbn; intros H; try discriminate; injection H as <-; split; cbn; eauto. Qed.
Lemma lost_any (e : event) f (y : sys) y' : lost e = Some f -> step y e = Some y' -> forall ok, exists y1, step y (f ok) = Some y1.
Proof.
  destruct e as [| | | | | | |[] ok| |[] ok ok2]; cbn [lost]; intros H; try discriminate; injection H as <-; intros Hs ok'; unfold Socket.step in Hs |- *.
  - destruct (running y && negb (y_top y)); [|discriminate]. destruct (y_reply y); [discriminate|]. destruct (y_arrived y); [|discriminate].
    cbn [from_io] in *. destruct (y_flight y); [|discriminate]. destruct (y_closed y); [eauto|discriminate].
  - destruct (running y && negb (y_top y)); [|discriminate]. destruct (y_reply y); [|discriminate]. cbn [from_io] in *. eauto.
Qed.
(** The client goes on while the thread waits for the next one, and the wait can still end. *)
Lemma outside_keeps (y : sys) (e : event) (y' : sys) (f : bool -> event) : reach anything y y -> outside e = true -> (forall ok, lost (f ok) = Some f) ->
  (y_client y = CGone \/ y_closed y = false) ->
  step y e = Some y' -> (exists y1, step y (f true) = Some y1) -> forall ok, exists y1, step y' (f ok) = Some y1.
Proof.
  intros _ O Lf Hg Hs (y1 & H1) ok. pose proof (Lf true) as L1. pose proof (Lf ok) as L2.
  destruct (f true) as [| | | | | | |k1 ok1| |k1 ok1 ok12] eqn:F1; cbn [lost] in L1; try discriminate; destruct k1; try discriminate; injection L1 as E1.
  - rewrite <- E1 in *. unfold Socket.step in H1. destruct (running y && negb (y_top y)) eqn:R; [|discriminate]. destruct (y_reply y) eqn:Er; [discriminate|]. destruct (y_arrived y) eqn:Ea; [|discriminate].
    cbn [from_io] in H1. destruct (y_flight y) eqn:Ef; [|discriminate]. destruct (y_closed y) eqn:Ec; [|discriminate]. destruct Hg as [Hg|Hg]; [|discriminate].
    destruct e; try discriminate; cases Hs; try congruence.
    unfold Socket.step. unfold running in *. cbn [y_status y_top y_reply y_arrived y_flight y_closed from_io]. rewrite R, Er, ?Ea, ?Ef, Ec. rewrite skipn_nil, firstn_nil. cbn [app]. eauto.
  - rewrite <- E1 in *. unfold Socket.step in H1. destruct (running y && negb (y_top y)) eqn:R; [|discriminate]. destruct (y_reply y) eqn:Er; [|discriminate].
    assert (G : running y' && negb (y_top y') = true /\ y_reply y' = y_reply y).
    { destruct e; try discriminate; cases Hs; cbn [y_top y_reply]; try discriminate R; (split; [exact R|reflexivity]). }
    destruct G as [G1 G2]. unfold Socket.step. rewrite G1, G2, Er. cbn [from_io]. eauto.
Qed.
Lemma gone_or_open container persistent y : reach anything (spawned C container persistent) y -> y_client y = CGone \/ y_closed y = false.
Proof. intros H. pose proof (C49_gone_means_closed H) as G. destruct (y_closed y); [left; apply G; auto|auto]. Qed.
Lemma outside_left (y : sys) e (y' : sys) : outside e = true -> step y e = Some y' -> y_left y' = y_left y /\ running y' = running y /\ y_conn y' = y_conn y.
Proof. intros O Hs. destruct e; try discriminate; cases Hs; auto. Qed.
Lemma life_step_inv container persistent (l : life) e (l' : life) : served_by container persistent l -> life_step l e = Some l' -> served_by container persistent l'.
Proof.
  intros H Hs. destruct l as [[c p|y f]|[c p|y f]|y|].
  - cbn [served_by] in H. destruct e as [[]| | |e]; cbn in Hs; try discriminate; injection Hs as <-; cbn; auto.
  - cbn [served_by] in H. destruct H as (H1 & H2 & H3 & H4). destruct e as [[]| | |e]; cbn [life_step Accept.life_step arrive] in Hs; try discriminate.
    + injection Hs as <-. cbn [served_by]. auto.
    + destruct (step y (f false)) as [y'|] eqn:E; [|discriminate]. injection Hs as <-. cbn [served_by]. econstructor; eauto. exact I.
    + destruct (outside e) eqn:O; [|discriminate]. destruct (step y e) as [y'|] eqn:E; [|discriminate]. injection Hs as <-. cbn [served_by].
      repeat split; auto. * econstructor; eauto. exact I. * unfold may_reconnect in *. destruct (outside_left _ _ O E) as [G _]. rewrite G. auto.
      * eapply outside_keeps; eauto; [constructor|eapply gone_or_open; eauto].
  - cbn [served_by] in H. destruct H as [-> ->]. destruct e as [[]| | |e]; cbn in Hs; try discriminate; injection Hs as <-; cbn [served_by]; auto. constructor.
  - cbn [served_by] in H. destruct H as (H1 & H2 & H3 & H4). destruct e as [[]| | |e]; cbn [life_step Accept.life_step arrive] in Hs; try discriminate.
    + destruct (step y (f true)) as [y'|] eqn:E; [|discriminate]. injection Hs as <-. cbn [served_by]. econstructor; eauto. exact I.
    + destruct (step y (f false)) as [y'|] eqn:E; [|discriminate]. injection Hs as <-. cbn [served_by]. econstructor; eauto. exact I.
    + destruct (outside e) eqn:O; [|discriminate]. destruct (step y e) as [y'|] eqn:E; [|discriminate]. injection Hs as <-. cbn [served_by].
      repeat split; auto. * econstructor; eauto. exact I. * unfold may_reconnect in *. destruct (outside_left _ _ O E) as [G _]. rewrite G. auto.
      * eapply outside_keeps; eauto; [constructor|eapply gone_or_open; eauto].
  - cbn [served_by] in H. destruct e as [[]| | |e]; cbn [life_step Accept.life_step] in Hs; try discriminate.
    destruct (lost e) as [f|] eqn:L.
    + destruct (step y e) as [y'|] eqn:E; [|discriminate]. destruct (may_reconnect y) eqn:M; injection Hs as <-; cbn [served_by].
      * repeat split; auto. -- eapply lost_again; eauto. -- eapply lost_any; eauto.
      * econstructor; eauto. exact I.
    + destruct (step y e) as [y'|] eqn:E; [|discriminate]. injection Hs as <-. cbn [served_by]. econstructor; eauto. exact I.
  - destruct e as [[]| | |e]; discriminate Hs.
Qed.
Lemma life_steps_inv container persistent es : forall l l', served_by container persistent l -> life_steps l es = Some l' -> served_by container persistent l'.
Proof.
  induction es as [|e es IH]; intros l l' H Hs; cbn in Hs; [injection Hs as <-; auto|].
  destruct (Accept.life_step ck cv l e) as [l1|] eqn:E; [|discriminate]. eapply IH; [|exact Hs]. eapply life_step_inv; eauto.
Qed.
Lemma spawn_served container persistent : served_by container persistent (spawn C container persistent).
Proof. cbn. auto. Qed.
(** Whatever a thread in its loop is seen to do, Socket.v describes: what is proved of [reach] holds of it. *)
Theorem C71_loop_is_socket : forall container persistent es y, life_steps (spawn C container persistent) es = Some (LServe y) ->
  reach (fun _ _ => True) (spawned C container persistent) y.
Proof. intros container persistent es y H. exact (life_steps_inv _ _ _ _ (spawn_served container persistent) H). Qed.
Lemma life_steps_app es1 : forall l es2, life_steps l (es1 ++ es2) = match life_steps l es1 with Some l' => life_steps l' es2 | None => None end.
Proof. induction es1 as [|e es1 IH]; intros l es2; cbn; auto. destruct (Accept.life_step ck cv l e); auto. Qed.
(** And whatever Socket.v describes can happen, if the address can be bound and clients connect. *)
Lemma life_follows (y : sys) e (y' : sys) : step y e = Some y' -> exists es, life_steps (LServe y) es = Some (LServe y').
Proof.
  intros H. destruct (lost e) as [f|] eqn:L.
  - destruct (lost_again _ L) as (_ & ok & E). destruct (may_reconnect y) eqn:M.
    + exists (if ok then [LOn e; LBound true; LConnect] else [LOn e; LBound false]).
      destruct ok; cbn [Accept.life_steps Accept.life_step arrive]; rewrite L, H, M; cbn [Accept.life_steps Accept.life_step arrive option_map]; rewrite <- E, H; reflexivity.
    + exists [LOn e]. cbn [Accept.life_steps Accept.life_step]. rewrite L, H, M. reflexivity.
  - exists [LOn e]. cbn [Accept.life_steps Accept.life_step]. rewrite L, H. reflexivity.
Qed.
Theorem C71_socket_is_loop : forall container persistent y, reach (fun _ _ => True) (spawned C container persistent) y ->
  exists es, life_steps (spawn C container persistent) es = Some (LServe y).
Proof.
  intros container persistent y H. induction H as [|y e y' Hr (es & IH) _ H]; [exists [LBound true; LConnect]; reflexivity|].
  destruct (life_follows _ _ H) as (es' & E). exists (es ++ es'). rewrite life_steps_app, IH. auto.
Qed.

(** ** Waiting in accept: nothing but a connection, or an error of accept, ends it *)
Theorem C71_accept_blocks_refuted : forall w es l, life_steps (LAccept w) es = Some l -> Forall nobody es ->
  join l = None /\ exists w', l = LAccept w'.
Proof.
  intros w es. revert w. induction es as [|e es IH]; intros w l H Hn; cbn [Accept.life_steps] in H; [injection H as <-; split; cbn; eauto|].
  inversion Hn as [|? ? N1 N2]; subst. destruct (Accept.life_step ck cv (LAccept w) e) as [l1|] eqn:E; [|discriminate].
  assert (G : exists w1, l1 = LAccept w1).
  { destruct w as [c p|y f], e as [ok| | |e]; cbn in E, N1; try contradiction; try discriminate.
    destruct (outside e); [|discriminate]. destruct (Socket.step ck cv y e); [|discriminate]. injection E as <-. eauto. }
  destruct G as [w1 ->]. eapply IH; eauto.
Qed.
(** Before the first client: a server to which nobody connects cannot be stopped. *)
Theorem C71_before_first_client_refuted : forall container persistent es l,
  life_steps (spawn C container persistent) (LBound true :: es) = Some l -> Forall nobody es -> join l = None.
Proof. intros container persistent es l H Hn. cbn [Accept.life_steps Accept.life_step spawn] in H. exact (proj1 (C71_accept_blocks_refuted _ H Hn)). Qed.
(** Between two clients: if the server may serve another one, and the first has left, it cannot be stopped before the next connects. *)
Theorem C71_between_clients_refuted : forall container persistent, persistent <> Some 0 ->
  exists l, life_steps (spawn C container persistent) [LBound true; LConnect; LOn (EClose 0); LOn ELoop; LOn (EReadError UnexpectedEof true); LBound true] = Some l /\
    forall es l', life_steps l es = Some l' -> Forall nobody es -> join l' = None.
Proof.
  intros container persistent Hp.
  assert (G : may_reconnect (spawned C container persistent) = true) by (unfold may_reconnect; cbn; destruct persistent as [[|]|]; auto; congruence).
  destruct persistent as [[|n]|]; [congruence| |]; (eexists; split; [reflexivity|]; intros es l' H Hn; exact (proj1 (C71_accept_blocks_refuted _ H Hn))).
Qed.
(** The server is told nothing wrong: the address it cannot bind only shows when it is stopped. *)
Theorem C71_bind_failure : forall container persistent es l, life_steps (spawn C container persistent) (LBound false :: es) = Some l ->
  es = [] /\ join l = Some false.
Proof. intros container persistent es l H. cbn in H. destruct es as [|e es]; cbn in H; [injection H as <-; auto|]. destruct e; discriminate. Qed.

(** ** The number of connections *)
Fixpoint connections (es : list (life_event K V)) : nat :=
  match es with [] => 0 | LConnect :: es' => S (connections es') | _ :: es' => connections es' end.
Definition conn_of (l : life) : nat :=
  match l with LBind (First _ _) | LAccept (First _ _) | LFailed => 0 | LBind (Again y _) | LAccept (Again y _) | LServe y => y_conn y end.
Lemma reconnect_conn (y : sys) ok l : may_reconnect y = true -> y_conn (reconnect y ok l) = (if ok then S (y_conn y) else y_conn y).
Proof. unfold may_reconnect, reconnect. destruct (y_left y) as [[|]|], ok; cbn; intros; congruence. Qed.
Lemma lost_conn (y : sys) f ok (y' : sys) : (forall ok, lost (f ok) = Some f) -> may_reconnect y = true -> step y (f ok) = Some y' -> y_conn y' = if ok then S (y_conn y) else y_conn y.
Proof.
  intros Lf M Hs. pose proof (Lf ok) as L. destruct (f ok) as [| | | | | | |k1 ok1| |k1 ok1 ok12] eqn:F; cbn [lost] in L; try discriminate; destruct k1; try discriminate; injection L as E;
    rewrite <- E in F; injection F as E1; subst ok1.
  - cases Hs; solve [apply reconnect_conn; auto | discriminate].
  - unfold Socket.step in Hs. destruct (running y && negb (y_top y)); [|discriminate]. destruct (y_reply y); [|discriminate]. cbn [from_io] in Hs. cbv zeta in Hs. apply Some_inj in Hs. subst y'.
    match goal with |- y_conn (if ?b then _ else _) = _ => destruct b end; cbn [set_status y_conn]; apply reconnect_conn; auto.
Qed.
Lemma other_conn (y : sys) e (y' : sys) : lost e = None \/ may_reconnect y = false -> step y e = Some y' -> y_conn y' = y_conn y.
Proof.
  intros L H.
  assert (RC : may_reconnect y = false -> forall ok l, y_conn (reconnect y ok l) = y_conn y) by (unfold may_reconnect, reconnect; destruct (y_left y) as [[|]|]; auto; discriminate).
  destruct e as [| | | | | | |k ok| |k ok ok2]; cases H; auto; try (destruct k; discriminate).
  - destruct k; try discriminate. destruct L as [L|L]; [discriminate L|]. auto.
  - destruct k; try discriminate. destruct L as [L|L]; [discriminate L|]. match goal with |- y_conn (if ?b then _ else _) = _ => destruct b end; cbn [set_status y_conn]; auto.
Qed.
Lemma life_conn container persistent (l : life) e (l' : life) : served_by container persistent l -> life_step l e = Some l' -> l' <> @LFailed K V C ->
  conn_of l' = connections [e] + conn_of l.
Proof.
  intros H Hs Hf. destruct l as [[c p|y f]|[c p|y f]|y|].
  - destruct e as [[]| | |e]; cbn in Hs; try discriminate; injection Hs as <-; cbn; auto.
  - destruct H as (H1 & H2 & H3 & H4). destruct e as [[]| | |e]; cbn [life_step Accept.life_step arrive] in Hs; try discriminate.
    + injection Hs as <-. auto.
    + destruct (step y (f false)) as [y'|] eqn:E; [|discriminate]. injection Hs as <-. cbn. apply (lost_conn _ _ H3 H2 E).
    + destruct (outside e) eqn:O; [|discriminate]. destruct (step y e) as [y'|] eqn:E; [|discriminate]. injection Hs as <-. cbn. eapply outside_left; eauto.
  - destruct e as [[]| | |e]; cbn in Hs; try discriminate; injection Hs as <-; cbn; auto. 
  - destruct H as (H1 & H2 & H3 & H4). destruct e as [[]| | |e]; cbn [life_step Accept.life_step arrive] in Hs; try discriminate.
    + destruct (step y (f true)) as [y'|] eqn:E; [|discriminate]. injection Hs as <-. cbn. apply (lost_conn _ _ H3 H2 E).
    + destruct (step y (f false)) as [y'|] eqn:E; [|discriminate]. injection Hs as <-. cbn. apply (lost_conn _ _ H3 H2 E).
    + destruct (outside e) eqn:O; [|discriminate]. destruct (step y e) as [y'|] eqn:E; [|discriminate]. injection Hs as <-. cbn. eapply outside_left; eauto.
  - destruct e as [[]| | |e]; cbn [life_step Accept.life_step] in Hs; try discriminate.
    destruct (lost e) as [f|] eqn:L.
    + destruct (step y e) as [y'|] eqn:E; [|discriminate]. destruct (may_reconnect y) eqn:M; injection Hs as <-; cbn; auto. apply (other_conn y e); auto.
    + destruct (step y e) as [y'|] eqn:E; [|discriminate]. injection Hs as <-. cbn. apply (other_conn y e); auto.
  - destruct e as [[]| | |e]; discriminate Hs.
Qed.
Lemma failed_stays es l : life_steps (@LFailed K V C) es = Some l -> es = [] /\ l = @LFailed K V C.
Proof. destruct es as [|e es]; cbn; intros H; [injection H as <-; auto|]. destruct e; discriminate. Qed.
Lemma life_conns container persistent es : forall l l', served_by container persistent l -> life_steps l es = Some l' -> l' <> @LFailed K V C ->
  conn_of l' = connections es + conn_of l.
Proof.
  induction es as [|e es IH]; intros l l' H Hs Hf; cbn [Accept.life_steps] in Hs; [injection Hs as <-; auto|].
  destruct (Accept.life_step ck cv l e) as [l1|] eqn:E; [|discriminate].
  assert (H1 : l1 <> @LFailed K V C) by (intros ->; apply failed_stays in Hs; tauto).
  assert (G : conn_of l1 = connections [e] + conn_of l) by (eapply life_conn; eauto). assert (Hi : served_by container persistent l1) by (eapply life_step_inv; eauto). pose proof (IH _ _ Hi Hs Hf) as G2.
  cbn [connections] in *. destruct e; lia.
Qed.
(** The connection a server is in is the number of clients that have connected; there are at most 1 + n of them. *)
Theorem C71_connections_counted : forall container persistent es y, life_steps (spawn C container persistent) es = Some (LServe y) ->
  y_conn y = connections es /\ match persistent with Some n => connections es <= 1 + n | None => True end.
Proof.
  intros container persistent es y H. assert (G : LServe y <> LFailed -> conn_of (LServe y) = connections es + conn_of (spawn C container persistent)) by (eapply life_conns; eauto; apply spawn_served). cbn [conn_of spawn] in G.
  assert (E : y_conn y = connections es) by (rewrite G by discriminate; lia). split; auto. destruct persistent as [n|]; auto.
  rewrite <- E. apply (C42_clients_bounded (C71_loop_is_socket _ _ _ H)).
Qed.

(** ** When stopping returns *)
(** What the thread can do by itself once the stop signal is sent or the handle dropped.  A write never reports UnexpectedEof. *)
Definition own (e : life_event K V) : Prop :=
  match e with
  | LBound _ => True
  | LOn (ESendError UnexpectedEof _ _) => False
  | LOn e => thread_event e
  | _ => False
  end.
(** What happens to a thread that is not blocked, in the absence of failures. *)
Definition certain (e : life_event K V) : Prop :=
  match e with
  | LBound ok => ok = true
  | LOn e => sure e \/ exists ok, e = EReadError UnexpectedEof ok
  | _ => False
  end.
(** Whatever it does, the thread ends after finitely many steps, without ever blocking. *)
Inductive will_end (l : life) : Prop :=
| we_over : join l <> None -> will_end l
| we_goes : (exists e l', certain e /\ life_step l e = Some l') ->
    (forall e l', own e -> life_step l e = Some l' -> will_end l') -> will_end l.

(** A request is complete in the bytes that have arrived, or they cannot be one. *)
Definition complete (y : sys) : Prop :=
  exists n, 1 <= n <= length (y_arrived y) /\ de rq (y_partial y ++ firstn n (y_arrived y)) <> More.
(** The moments at which stopping returns, when nothing is in flight: the server is connected, and either it is over, or between two
    requests, or about to answer, or can find a whole request in what has arrived; or its client is still there and is its first one, or it has left
    and no other client will be served. *)
Definition stoppable (l : life) : Prop :=
  match l with
  | LFailed => True
  | LServe y => running y = false \/ y_top y = true \/ y_reply y <> None \/ complete y \/
      (if y_closed y then y_left y = Some 0 else y_conn y = 1)
  | _ => False
  end.
Lemma end_dead (y : sys) : running y = false -> will_end (LServe y).
Proof. intros R. apply we_over. unfold running in R. cbn. destruct (y_status y); discriminate. Qed.
Lemma end_top (y : sys) : y_top y = true -> will_end (LServe y).
Proof.
  intros T. destruct (running y) eqn:R; [|apply end_dead; auto]. apply we_goes.
  - exists (LOn EStop), (LServe (set_status y Stopped)). split; [left; exact I|]. cbn. unfold Socket.step. rewrite R, T. reflexivity.
  - intros e l' He Hs. apply we_over. destruct e as [| | |e]; try discriminate. cbn [Accept.life_step] in Hs.
    destruct e as [| | | | | | |k ok| |k ok ok2]; cbn [own thread_event] in He; try contradiction; try (destruct k; contradiction);
      cbn [lost] in Hs; try (destruct k); unfold Socket.step in Hs; rewrite R, T in Hs; cbn [andb negb option_map] in Hs; try discriminate.
    injection Hs as <-. cbn. discriminate.
Qed.
Lemma dead_status (y : sys) t : t <> Running -> will_end (LServe (set_status y t)).
Proof. intros. apply end_dead. destruct t; auto; congruence. Qed.
Lemma end_reply (y : sys) : y_reply y <> None -> will_end (LServe y).
Proof.
  intros Er. destruct (y_reply y) as [p|] eqn:E; [|congruence]. destruct (running y) eqn:R; [|apply end_dead; auto]. destruct (y_top y) eqn:T; [apply end_top; auto|].
  apply we_goes.
  - exists (LOn ESend). cbn [Accept.life_step lost]. unfold Socket.step. rewrite R, T, E. cbn [andb negb option_map]. eexists. split; [left; exact I|reflexivity].
  - intros e l' He Hs. destruct e as [| | |e]; try discriminate. cbn [Accept.life_step] in Hs.
    destruct e as [| | | | | | |k ok| |k ok ok2]; cbn [own thread_event] in He; try contradiction.
    + cbn [lost] in Hs. unfold Socket.step in Hs. rewrite R, T in Hs. cbn in Hs. discriminate.
    + cbn [lost] in Hs. unfold Socket.step in Hs. rewrite R, T, E in Hs. cbn in Hs. discriminate.
    + cbn [lost] in Hs. destruct k; unfold Socket.step in Hs; rewrite R, T, E in Hs; cbn in Hs; discriminate.
    + cbn [lost] in Hs. unfold Socket.step in Hs. rewrite R, T, E in Hs. cbn [andb negb option_map] in Hs. apply Some_inj in Hs. subst. apply end_top. auto.
    + destruct k; try contradiction; cbn [lost] in Hs; unfold Socket.step in Hs; rewrite R, T, E in Hs; cbn [andb negb option_map from_io] in Hs; apply Some_inj in Hs; subst;
        apply dead_status; discriminate.
Qed.
(** The end of a read on an empty stream. *)
Definition quiet_end (y : sys) : Prop := (y_timeout y = true \/ y_flight y = [] /\ y_closed y = true) /\ (y_flight y = [] -> y_closed y = true -> y_left y = Some 0).
Lemma end_reading a : forall y : sys, y_arrived y = a -> complete y \/ quiet_end y -> will_end (LServe y).
Proof.
  induction a as [|b a IH]; intros y Ea Hq; (destruct (running y) eqn:R; [|apply end_dead; auto]); (destruct (y_top y) eqn:T; [apply end_top; auto|]);
    (destruct (y_reply y) as [p|] eqn:Er; [apply end_reply; congruence|]).
  - destruct Hq as [(n & Hn & _)|(Hf & Hq)]; [rewrite Ea in Hn; cbn in Hn; lia|]. apply we_goes.
    + destruct Hf as [Ht|[Hf Ec]].
      2:{ exists (LOn (EReadError UnexpectedEof true)), (LServe (reconnect y true [])). split; [right; eauto|]. cbn [Accept.life_step lost]. unfold Socket.step. rewrite R, T, Er, Ea, Hf, Ec. cbn [andb negb from_io].
        unfold may_reconnect. rewrite (Hq Hf Ec). reflexivity. }
      exists (LOn (EReadError TimedOutIo true)). cbn [Accept.life_step lost]. unfold Socket.step. rewrite R, T, Er, Ea, Ht. cbn [andb negb from_io option_map]. eexists. split; [left; reflexivity|reflexivity].
    + intros e l' He Hs. destruct e as [| | |e]; try discriminate. cbn [Accept.life_step] in Hs.
      destruct e as [| | | | | | |k ok| |k ok ok2]; cbn [own thread_event] in He; try contradiction; try (destruct k; contradiction);
        try (cbn [lost] in Hs; try destruct k; unfold Socket.step in Hs; rewrite R, T, ?Er, ?Ea in Hs; cbn in Hs; discriminate).
      cbn [lost] in Hs. destruct k; unfold Socket.step in Hs; rewrite R, T, Er, Ea in Hs; cbn [andb negb from_io] in Hs.
      * destruct (y_flight y) eqn:Ef; [|discriminate]. destruct (y_closed y) eqn:Ec; [|discriminate]. unfold may_reconnect in Hs. specialize (Hq eq_refl eq_refl). rewrite Hq in Hs. apply Some_inj in Hs. subst. apply end_dead.
        unfold reconnect. rewrite Hq. reflexivity.
      * destruct (y_timeout y); [|discriminate]. apply Some_inj in Hs. subst. apply end_top. auto.
      * destruct (y_timeout y); [|discriminate]. apply Some_inj in Hs. subst. apply end_top. auto.
      * apply Some_inj in Hs. subst. apply dead_status. discriminate.
  - apply we_goes.
    + exists (LOn ERead). cbn [Accept.life_step lost]. unfold Socket.step. rewrite R, T, Er, Ea. cbn [andb negb].
      destruct (de rq (y_partial y ++ [b])) as [r rest| |[]]; [destruct (match_response C (y_store y) r) as [[]|]| | |]; eexists; (split; [left; exact I|reflexivity]).
    + intros e l' He Hs. destruct e as [| | |e]; try discriminate. cbn [Accept.life_step] in Hs.
      destruct e as [| | | | | | |k ok| |k ok ok2]; cbn [own thread_event] in He; try contradiction; try (destruct k; contradiction);
        try (cbn [lost] in Hs; try destruct k; unfold Socket.step in Hs; rewrite R, T, ?Er, ?Ea in Hs; cbn in Hs; discriminate).
      cbn [lost] in Hs. unfold Socket.step in Hs. rewrite R, T, Er, Ea in Hs. cbn [andb negb] in Hs.
      destruct (de rq (y_partial y ++ [b])) as [r rest| |[]] eqn:D.
      * destruct (match_response C (y_store y) r) as [[s' p]|]; apply Some_inj in Hs; subst; [apply end_reply; discriminate|apply dead_status; discriminate].
      * apply Some_inj in Hs. subst. apply IH; auto. destruct Hq as [(n & Hn & Hd)|Hq]; [left|right; exact Hq].
        rewrite Ea in Hn, Hd. cbn [length] in Hn. destruct n as [|[|n]]; [lia| |].
        -- cbn [firstn] in Hd. congruence.
        -- exists (S n). cbn [set_server y_arrived y_partial]. split; [lia|]. rewrite <- app_assoc. exact Hd.
      * apply Some_inj in Hs. subst. apply end_reply. discriminate.
      * apply Some_inj in Hs. subst. apply dead_status; discriminate.
Qed.
Lemma blocked_accept (w : awaited C) : ~ will_end (LAccept w).
Proof. intros [H|(e & l' & He & Hs) _]; [apply H; reflexivity|]. destruct w, e as [| | |[]]; cbn in He, Hs; try contradiction; try discriminate; destruct He as [He|[ok He]]; try contradiction; discriminate. Qed.
Lemma blocked_bind (w : awaited C) : ~ will_end (LBind w).
Proof. intros [H|_ H]; [apply H; reflexivity|]. apply (@blocked_accept w). apply (H (LBound true)); [exact I|destruct w; reflexivity]. Qed.
Lemma blocked_reading a : forall y : sys, y_arrived y = a -> running y = true -> y_top y = false -> y_reply y = None -> ~ complete y -> y_flight y = [] ->
  (if y_closed y then may_reconnect y = true else y_timeout y = false) -> ~ will_end (LServe y).
Proof.
  induction a as [|b a IH]; intros y Ea R T Er Hc Hf Hq.
  - intros [H|Hg H]; [apply H; cbn; unfold running in R; destruct (y_status y); try discriminate; reflexivity|].
    destruct (y_closed y) eqn:Ec.
    + apply (@blocked_bind (Again y (fun ok => EReadError UnexpectedEof ok))). apply (H (LOn (EReadError UnexpectedEof true))); [exact I|]. cbn [Accept.life_step lost]. unfold Socket.step.
      rewrite R, T, Er, Ea, Hf, Ec. cbn [andb negb from_io]. rewrite Hq. reflexivity.
    + destruct Hg as (e & l' & He & Hs). destruct e as [| | |e]; try discriminate. cbn [Accept.life_step] in Hs. cbn [certain] in He.
      destruct e as [| | | | | | |k ok| |k ok ok2]; cbn [sure] in He;
        try (destruct He as [[]|[ok' He]]; discriminate);
        try (cbn [lost] in Hs; try destruct k; unfold Socket.step in Hs; rewrite R, T, ?Er, ?Ea in Hs; cbn in Hs; discriminate).
      destruct k; cbn [lost] in Hs; unfold Socket.step in Hs; rewrite R, T, Er, Ea in Hs; cbn [andb negb from_io] in Hs.
      * rewrite Hf, Ec in Hs. discriminate.
      * rewrite Hq in Hs. discriminate.
      * rewrite Hq in Hs. discriminate.
      * destruct He as [He|[ok' He]]; discriminate.
  - intros [H|Hg H]; [apply H; cbn; unfold running in R; destruct (y_status y); try discriminate; reflexivity|].
    destruct (de rq (y_partial y ++ [b])) as [r rest| |x] eqn:D; [exfalso| |exfalso].
    1,3: apply Hc; exists 1; rewrite Ea; cbn [firstn length]; split; [lia|congruence].
    apply (IH (set_server y (y_store y) false a (y_partial y ++ [b]) None (y_back y) (y_served y))); auto.
    + intros (n & Hn & Hd). apply Hc. exists (S n). rewrite Ea. cbn [length firstn]. cbn [set_server y_arrived y_partial] in Hn, Hd. split; [lia|].
      rewrite <- app_assoc in Hd. exact Hd.
    + apply (H (LOn ERead)); [exact I|]. cbn [Accept.life_step lost]. unfold Socket.step. rewrite R, T, Er, Ea. cbn [andb negb]. rewrite D. reflexivity.
Qed.
(** Only the stream of the first client has a read timeout. *)
Lemma timeout_first container persistent y : reach anything (spawned C container persistent) y -> 1 <= y_conn y /\ (y_timeout y = true <-> y_conn y = 1).
Proof.
  intros H. induction H as [|y e y' Hr [IH1 IH2] _ H]; [cbn; split; [lia|split; auto]|].
  assert (RC : forall ok l, 1 <= y_conn (reconnect y ok l) /\ (y_timeout (reconnect y ok l) = true <-> y_conn (reconnect y ok l) = 1)).
  { intros ok l. unfold reconnect. destruct (y_left y) as [[|m]|], ok; cbn [andb y_conn y_timeout]; split; auto; try lia; split; try discriminate; lia. }
  destruct e; cases H; try (cbn [set_server set_status y_conn y_timeout]; auto; fail); try (apply RC; fail).
  { cbn [set_server y_conn y_timeout]. rewrite Heqb0. auto. }
  match goal with |- context [if ?b then _ else _] => destruct b end; apply RC.
Qed.
Lemma complete_dec (y : sys) : complete y \/ ~ complete y.
Proof.
  unfold complete. assert (D : forall m, (exists n, 1 <= n <= m /\ de rq (y_partial y ++ firstn n (y_arrived y)) <> More) \/
    ~ exists n, 1 <= n <= m /\ de rq (y_partial y ++ firstn n (y_arrived y)) <> More).
  { induction m as [|m [(n & Hn & IH)|IH]]; [right; intros (n & Hn & _); lia|left; exists n; split; [lia|auto]|].
    destruct (de rq (y_partial y ++ firstn (S m) (y_arrived y))) eqn:D.
    - left. exists (S m). split; [lia|congruence].
    - right. intros (n & Hn & Hd). destruct (Nat.eq_dec n (S m)) as [->|]; [congruence|]. apply IH. exists n. split; [lia|auto].
    - left. exists (S m). split; [lia|congruence]. }
  apply D.
Qed.
Definition in_flight (l : life) : list byte := match l with LServe y => y_flight y | _ => [] end.
(** At every moment of the life of a server, whatever it has been through, if nothing is on its way to it: stopping it returns if and
    only if the moment is [stoppable]. *)
Theorem C71_stop_returns_iff : forall container persistent es l, life_steps (spawn C container persistent) es = Some l -> in_flight l = [] ->
  (will_end l <-> stoppable l).
Proof.
  intros container persistent es l H Hf. pose proof (life_steps_inv _ _ _ _ (spawn_served container persistent) H) as G.
  destruct l as [w|w|y|].
  - split; [intros X; destruct (blocked_bind X)|intros []].
  - split; [intros X; destruct (blocked_accept X)|intros []].
  - cbn [served_by in_flight stoppable] in *. destruct (timeout_first G) as [_ Ht]. split.
    + intros X. destruct (running y) eqn:R; [right|auto]. destruct (y_top y) eqn:T; [auto|right]. destruct (y_reply y) eqn:Er; [left; discriminate|right].
      destruct (y_closed y) eqn:Ec.
      * destruct (may_reconnect y) eqn:M; [|right; unfold may_reconnect in M; destruct (y_left y) as [[|]|]; auto; discriminate].
        pose proof (complete_dec y) as D.
        destruct D as [D|D]; [auto|]. exfalso. apply (@blocked_reading (y_arrived y) y); auto. rewrite Ec. auto.
      * destruct (y_timeout y) eqn:Ett; [right; apply Ht; auto|].
        pose proof (complete_dec y) as D.
        destruct D as [D|D]; [auto|]. exfalso. apply (@blocked_reading (y_arrived y) y); auto. rewrite Ec. auto.
    + intros [R|[T|[Er|[Hc|Hq]]]]; [apply end_dead; auto|apply end_top; auto|apply end_reply; auto|eapply end_reading; eauto|].
      eapply end_reading; [reflexivity|right]. unfold quiet_end. destruct (y_closed y); split; auto; try discriminate. left. apply Ht. auto.
  - split; [intros _; exact I|intros _; apply we_over; discriminate].
Qed.
(** With the first client, whatever is in flight: stopping returns unless the client has left and another one may be served.  In particular
    a server that serves a single client, the default, can be stopped at every moment after its client has connected. *)
Theorem C71_first_client : forall container persistent es y, life_steps (spawn C container persistent) es = Some (LServe y) ->
  y_conn y = 1 -> (y_left y = Some 0 \/ y_closed y = false) -> will_end (LServe y).
Proof.
  intros container persistent es y H Hc Hl. pose proof (C71_loop_is_socket _ _ _ H) as G. destruct (timeout_first G) as [_ Ht].
  eapply end_reading; [reflexivity|right]. split; [left; apply Ht; auto|]. intros _ X. destruct Hl; [auto|congruence].
Qed.
Theorem C71_default_stops : forall container es y, life_steps (spawn C container (Some 0)) es = Some (LServe y) -> will_end (LServe y).
Proof.
  intros container es y H. pose proof (C71_loop_is_socket _ _ _ H) as G. eapply C71_first_client; eauto.
  - destruct (timeout_first G) as [G1 _]. pose proof (C42_clients_bounded G). lia.
  - left. clear H es. induction G as [|y e y' Hr IH _ Hs]; auto. assert (RC : forall ok l, y_left (reconnect y ok l) = Some 0) by (intros; unfold reconnect; rewrite IH; reflexivity).
    destruct e; cases Hs; auto; try (apply RC; fail). match goal with |- context [if ?b then _ else _] => destruct b end; cbn [set_status y_left]; apply RC.
Qed.
(** From the second client on: a thread that has begun to wait for a request is not stopped until that client does something, or its
    connection breaks. *)
Definition silent (e : life_event K V) : Prop :=
  match e with LOn (ECall _) | LOn (EClose _) | LOn (EReadError OtherIo _) => False | _ => True end.
Theorem C71_silent_client_refuted : forall container persistent es y, life_steps (spawn C container persistent) es = Some (LServe y) ->
  2 <= y_conn y -> running y = true -> y_top y = false -> y_reply y = None -> y_arrived y = [] -> y_flight y = [] -> y_client y = CIdle ->
  forall es' l, life_steps (LServe y) es' = Some l -> Forall silent es' -> l = LServe y /\ join l = None.
Proof.
  intros container persistent es y H Hc R T Er Ea Hf Hi. pose proof (C71_loop_is_socket _ _ _ H) as G.
  assert (Ht : y_timeout y = false) by (destruct (timeout_first G) as [_ Ht]; destruct (y_timeout y); auto; destruct Ht as [Ht _]; specialize (Ht eq_refl); lia).
  assert (Ec : y_closed y = false) by (pose proof (C49_gone_means_closed G) as [_ X]; destruct (y_closed y); auto; rewrite X in Hi by auto; discriminate).
  assert (J : join (LServe y) = None) by (cbn; unfold running in R; destruct (y_status y); try discriminate; reflexivity).
  assert (St : forall e l, silent e -> life_step (LServe y) e = Some l -> l = LServe y).
  { intros e l S Hs. destruct e as [ok| | |e]; try discriminate. cbn [Accept.life_step] in Hs.
    destruct e as [r|n| |n| | | |k ok| |k ok ok2]; cbn [silent] in S; try contradiction;
      try (cbn [lost] in Hs; unfold Socket.step in Hs; rewrite ?R, ?T, ?Er, ?Ea, ?Hi in Hs; cbn in Hs; discriminate).
    - cbn [lost] in Hs. unfold Socket.step in Hs. rewrite Hf, Ea, skipn_nil, firstn_nil in Hs. cbn [option_map app] in Hs. apply Some_inj in Hs. subst l. f_equal.
      rewrite <- Hf at 1. rewrite <- Ea at 1. destruct y; reflexivity.
    - destruct k; cbn [lost] in Hs; try contradiction; unfold Socket.step in Hs; rewrite R, T, Er, Ea in Hs; cbn [andb negb from_io] in Hs; rewrite ?Hf, ?Ec, ?Ht in Hs; discriminate.
    - destruct k; cbn [lost] in Hs; unfold Socket.step in Hs; rewrite R, T, Er in Hs; cbn in Hs; discriminate. }
  induction es' as [|e es' IH]; intros l Hs Hn; cbn [Accept.life_steps] in Hs; [injection Hs as <-; auto|].
  inversion Hn as [|? ? N1 N2]; subst. destruct (Accept.life_step ck cv (LServe y) e) as [l1|] eqn:E; [|discriminate]. apply St in E; auto. subst l1. auto.
Qed.
End Life.

(** ** Examples: the hypotheses are met *)
Definition born (persistent : option nat) : @life nat nat arrayB := spawn arrayB (array_new 3 (fun _ => 1)) persistent.
Definition lives := @life_steps nat nat arrayB u u.
(** A server of two clients: the first one leaves, nobody can stop the thread, the second one connects, and is silent; then it asks
    something and gets its answer, and the thread stops. *)
Definition first_leaves : list (life_event nat nat) :=
  [LBound true; LConnect; LOn (EClose 0); LOn ELoop; LOn (EReadError UnexpectedEof true); LBound true].
Definition second_waits : list (life_event nat nat) := first_leaves ++ [LConnect; LOn ELoop].
Definition second_asks : list (life_event nat nat) :=
  second_waits ++ [LOn (ECall QSize); LOn (EDeliver 4); LOn ERead; LOn ERead; LOn ERead; LOn ERead; LOn ESend; LOn EReceive; LOn EStop].
Definition seen (l : option (@life nat nat arrayB)) : option (option bool * nat * nat) :=
  option_map (fun l => (join l, match l with LBind _ => 0 | LAccept _ => 1 | LServe _ => 2 | LFailed => 3 end, conn_of l)) l.
Theorem C71_example :
  seen (lives (born (Some 1)) [LBound true]) = Some (None, 1, 0) /\
  seen (lives (born (Some 1)) first_leaves) = Some (None, 1, 1) /\
  seen (lives (born (Some 1)) second_waits) = Some (None, 2, 2) /\
  seen (lives (born (Some 1)) second_asks) = Some (Some true, 2, 2) /\
  seen (lives (born (Some 0)) [LBound true; LConnect; LOn (EClose 0); LOn ELoop; LOn (EReadError UnexpectedEof true)]) = Some (Some true, 2, 1) /\
  seen (lives (born None) [LBound false]) = Some (Some false, 3, 0).
Proof. vm_compute. auto 10. Qed.
(** A moment that is not [stoppable] and one that is, with the same server. *)
Theorem C71_moments_example :
  (exists y, lives (born (Some 1)) second_waits = Some (LServe y) /\ 2 <= y_conn y /\ running y = true /\ y_top y = false /\ y_reply y = None /\
     y_arrived y = [] /\ y_flight y = [] /\ y_client y = CIdle /\ ~ will_end u u (LServe y)) /\
  (exists y, lives (born (Some 1)) [LBound true; LConnect; LOn ELoop] = Some (LServe y) /\ running y = true /\ y_top y = false /\ will_end u u (LServe y)).
Proof.
  split.
  - assert (G : match lives (born (Some 1)) second_waits with
      | Some (LServe y) => y_conn y = 2 /\ running y = true /\ y_top y = false /\ y_reply y = None /\ y_arrived y = [] /\ y_flight y = [] /\ y_client y = CIdle /\ y_closed y = false
      | _ => False end) by (vm_compute; auto 10).
    destruct (lives (born (Some 1)) second_waits) as [[w|w|y|]|] eqn:E; try contradiction. destruct G as (G1 & G2 & G3 & G4 & G5 & G6 & G7 & G8).
    exists y. split; [reflexivity|]. do 7 (split; [first [assumption|lia]|]). intros X. apply (C71_stop_returns_iff _ _ _ _ _ E) in X; [|exact G6].
    cbn [stoppable] in X. destruct X as [X|[X|[X|[(n & Hn & _)|X]]]]; try congruence; [rewrite G5 in Hn; cbn in Hn; lia|rewrite G8 in X; lia].
  - assert (G : match lives (born (Some 1)) [LBound true; LConnect; LOn ELoop] with
      | Some (LServe y) => y_conn y = 1 /\ running y = true /\ y_top y = false /\ y_closed y = false
      | _ => False end) by (vm_compute; auto 10).
    destruct (lives (born (Some 1)) [LBound true; LConnect; LOn ELoop]) as [[w|w|y|]|] eqn:E; try contradiction. destruct G as (G1 & G2 & G3 & G4).
    exists y. do 3 (split; [first [reflexivity|assumption]|]). eapply C71_first_client; eauto.
Qed.
