(** PSocket.v -- property theorems about SocketClient and its server: C41, C42, C49. *)
From Coq Require Import NArith Strings.Byte.
From Verif Require Import Base Block Array Bincode Socket.
Set Implicit Arguments.

(** ** Specification *)
Section Spec.
Context {K V : Type}.
Variable C : Block K V.
(** What a method called directly on the container returns. *)
Definition direct (s : St C) (r : request K V) : res (St C * value K V) :=
  match r with
  | QCapacity => Ok (s, VNat (capacity C s))
  | QSize => Ok (s, VNat (size C s))
  | QContains k => let* b := contains C s k in Ok (s, VBool b)
  | QTake k => let* (s', o) := take C s k in Ok (s', VOption o)
  | QTakeMultiple ks => let* (s', _, l) := take_multiple C s ks in Ok (s', VPairs l)
  | QPop n => let* (s', l) := pop C s n in Ok (s', VPairs l)
  | QPush vs => let* (s', l) := push C s vs in Ok (s', VPairs l)
  | QFlush => let* (s', l) := flush C s in Ok (s', VPairs l)
  end.
(** A sequence of calls and their results. *)
Inductive direct_all (s0 : St C) : list (request K V * value K V) -> St C -> Prop :=
| da_nil : direct_all s0 [] s0
| da_snoc l s r s' v : direct_all s0 l s -> direct s r = Ok (s', v) -> direct_all s0 (l ++ [(r, v)]) s'.
End Spec.
Inductive subseq {T} : list T -> list T -> Prop :=
| ss_nil : subseq [] []
| ss_skip x l l' : subseq l l' -> subseq l (x :: l')
| ss_keep x l l' : subseq l l' -> subseq (x :: l) (x :: l').
Lemma subseq_refl {T} (l : list T) : subseq l l.
Proof. induction l; [constructor|apply ss_keep; auto]. Qed.
Lemma subseq_snoc_skip {T} (x : T) l l' : subseq l l' -> subseq l (l' ++ [x]).
Proof. induction 1; cbn; [apply ss_skip; constructor|apply ss_skip; auto|apply ss_keep; auto]. Qed.
Lemma subseq_snoc {T} (x : T) l l' : subseq l l' -> subseq (l ++ [x]) (l' ++ [x]).
Proof. induction 1; cbn; [apply ss_keep; constructor|apply ss_skip; auto|apply ss_keep; auto]. Qed.

Section PSocket.
Context {K V : Type}.
Variable C : Block K V.
Variable ck : codec K.
Variable cv : codec V.
Notation request := (request K V).
Notation response := (response K V).
Notation value := (value K V).
Notation sys := (sys C).
Notation rq := (request_codec ck cv).
Notation rp := (response_codec ck cv).
Notation step := (@step K V C ck cv).
Notation steps := (@steps K V C ck cv).

Lemma match_direct s r : match match_response C s r with
  | Ok (s', p) => exists v, client_value r p = Some v /\ direct C s r = Ok (s', v)
  | Panic => direct C s r = Panic
  end.
Proof.
  destruct r; cbn.
  - eauto.
  - eauto.
  - destruct (contains C s k); cbn; eauto.
  - destruct (take C s k) as [[s' o]|]; cbn; eauto.
  - destruct (take_multiple C s ks) as [[[s' ks'] o]|]; cbn; eauto.
  - destruct (pop C s n) as [[s' o]|]; cbn; eauto.
  - destruct (push C s vs) as [[s' o]|]; cbn; eauto.
  - destruct (flush C s) as [[s' o]|]; cbn; eauto.
Qed.

(** Executions.  [allowed y e]: what is assumed of the environment. *)
Inductive reach (allowed : sys -> @event K V -> Prop) (y0 : sys) : sys -> Prop :=
| reach_start : reach allowed y0 y0
| reach_step y e y' : reach allowed y0 y -> allowed y e -> step y e = Some y' -> reach allowed y0 y'.
Lemma reach_steps allowed y0 es : forall y y', reach allowed y0 y -> steps y es = Some y' ->
  (forall es1 e es2 y1, es = es1 ++ e :: es2 -> steps y es1 = Some y1 -> allowed y1 e) -> reach allowed y0 y'.
Proof.
  induction es as [|e es IH]; intros y y' Hr Hs Ha; cbn in Hs.
  - injection Hs as <-. auto.
  - destruct (step y e) as [y1|] eqn:E; [|discriminate]. apply (IH y1); auto.
    + econstructor; eauto. apply (Ha [] e es y); auto.
    + intros es1 e' es2 y2 -> H2. apply (Ha (e :: es1) e' es2); auto. cbn. rewrite E. auto.
Qed.

(** All the integers of the responses fit their Rust type. *)
Definition fits (y : sys) : Prop := Forall (fun x => response_valid ck cv (snd x)) (y_served y).

Lemma Some_inj {A} (x y : A) : Some x = Some y -> y = x.
Proof. congruence. Qed.
Local Ltac cases H :=
  unfold Socket.step in H; cbv zeta in H;
  repeat match type of H with
  | match ?x with _ => _ end = Some _ => destruct x eqn:?; try discriminate H
  end; try (apply Some_inj in H; subst).

Lemma reconnect_served (y : sys) ok l : y_served (reconnect y ok l) = y_served y.
Proof. unfold reconnect. destruct (y_left y) as [[|]|], ok; auto. Qed.
Lemma step_served y e y' : step y e = Some y' -> exists l, y_served y' = y_served y ++ l.
Proof.
  intros H. assert (S0 : exists l, y_served y = y_served y ++ l) by (exists []; rewrite app_nil_r; auto).
  destruct e; cases H; auto; try (rewrite reconnect_served; auto; fail); try (cbn [set_server y_served]; eauto; fail).
  match goal with |- context [if ?b then _ else _] => destruct b end; cbn [set_status y_served]; rewrite reconnect_served; auto.
Qed.
Lemma step_fits y e y' : step y e = Some y' -> fits y' -> fits y.
Proof. intros H F. destruct (step_served _ _ H) as (l & E). unfold fits in *. rewrite E in F. apply Forall_app in F. tauto. Qed.

(** ** C42: number of clients *)
Definition budget (y : sys) (n : nat) : Prop := match y_left y with Some m => y_conn y + m <= n | None => False end.
Lemma reconnect_budget (y : sys) ok l n : budget y n -> budget (reconnect y ok l) n.
Proof. unfold budget, reconnect. destruct (y_left y) as [[|m]|], ok; cbn; intros; lia. Qed.
Theorem C42_clients_bounded : forall container n y, reach (fun _ _ => True) (spawned C container (Some n)) y -> y_conn y <= 1 + n.
Proof.
  intros container n y H. assert (G : budget y (1 + n)).
  { induction H as [|y e y' Hr IH _ H]; [unfold budget; cbn; lia|].
    destruct e; cases H; auto; try (apply reconnect_budget; auto; fail).
    match goal with |- context [reconnect y ?o ?l] => pose proof (@reconnect_budget y o l _ IH) as G end.
    match goal with |- budget (if ?b then _ else _) _ => destruct b end; exact G. }
  unfold budget in G. destruct (y_left y); [lia|contradiction].
Qed.

(** ** C42: responses match requests *)
(** The calls that returned, and all the calls made so far. *)
Definition answered (got : list (nat * request * option value)) : list (nat * request * value) :=
  flat_map (fun x => match x with (c, r, Some v) => [(c, r, v)] | _ => [] end) got.
Definition sent (y : sys) : list (nat * request) :=
  map fst (y_got y) ++ match y_client y with CWaiting r => [(y_conn y, r)] | _ => [] end.
(** What is assumed of the environment: the requests are values of the Rust types; no read of the server times out
    in the middle of a message; no write fails with the kind UnexpectedEof (write_all has WriteZero for this). *)
Definition orderly (y : sys) (e : @event K V) : Prop :=
  match e with
  | ECall r => request_valid ck cv r
  | EReadError k _ => from_io k = Some TimedOut -> y_partial y = []
  | ESendError k _ _ => k <> UnexpectedEof
  | _ => True
  end.

Definition bytes (y : sys) : list byte := y_partial y ++ y_arrived y ++ y_flight y.
(** Where the current exchange stands; [h]: what the container has been asked so far. *)
Definition place (y : sys) (h : list (nat * request * value)) : Prop :=
  match y_client y with
  | CIdle => y_closed y = false /\ y_back y = [] /\ (running y = true -> bytes y = [] /\ y_reply y = None) /\
      subseq (answered (y_got y)) h /\ subseq (map fst h) (map fst (y_got y))
  | CWaiting r => y_closed y = false /\ request_valid ck cv r /\
      ((y_back y = [] /\ (running y = true -> bytes y = enc rq r /\ y_reply y = None) /\
        subseq (answered (y_got y)) h /\ subseq (map fst h) (map fst (y_got y))) \/
       (exists h0 v p, h = h0 ++ [(y_conn y, r, v)] /\ subseq (answered (y_got y)) h0 /\ subseq (map fst h0) (map fst (y_got y)) /\
          client_value r p = Some v /\ response_valid ck cv p /\ (running y = true -> bytes y = []) /\
          ((y_reply y = Some p /\ y_back y = []) \/ (y_reply y = None /\ y_back y = enc rp p))))
  | CGone => subseq (answered (y_got y)) h /\ subseq (map fst h) (map fst (y_got y)) /\
      (running y = true ->
        bytes y = [] \/
        exists r got0 q, request_valid ck cv r /\ y_got y = got0 ++ [(y_conn y, r, None)] /\ bytes y ++ q = enc rq r /\ y_reply y = None /\
          subseq (map fst h) (map fst got0))
  end.

Lemma answered_none l x : snd x = None -> answered (l ++ [x]) = answered l.
Proof. destruct x as [[c r] o]. cbn [snd]. intros ->. unfold answered. rewrite flat_map_app. cbn. apply app_nil_r. Qed.
Lemma answered_some l c r v : answered (l ++ [(c, r, Some v)]) = answered l ++ [(c, r, v)].
Proof. unfold answered. rewrite flat_map_app. auto. Qed.

(** Reading one byte of a message that is on its way. *)
Lemma read_byte (r : request) b p a f q : request_valid ck cv r -> (p ++ (b :: a) ++ f) ++ q = enc rq r ->
  (a ++ f ++ q = [] /\ de rq (p ++ [b]) = Done r []) \/ (a ++ f ++ q <> [] /\ de rq (p ++ [b]) = More).
Proof.
  intros Hv E. assert (E2 : enc rq r = (p ++ [b]) ++ (a ++ f ++ q)) by (rewrite <- E, <- !app_assoc; reflexivity).
  destruct (a ++ f ++ q) as [|x l] eqn:El.
  - left. split; auto. rewrite app_nil_r in E2. rewrite <- E2. pose proof (@c_full _ rq r [] Hv) as G. rewrite app_nil_r in G. exact G.
  - right. split; [discriminate|]. apply (@c_part _ rq r (p ++ [b]) (x :: l)); auto. discriminate.
Qed.
Lemma enc_request_nonempty (r : request) : enc rq r <> [].
Proof. intros H. apply (f_equal (@length byte)) in H. cbn [request_codec enc] in H. rewrite app_length, le_length in H. cbn in H. lia. Qed.
Lemma subseq_map {A B} (f : A -> B) l l' : subseq l l' -> subseq (map f l) (map f l').
Proof. induction 1; cbn; [constructor|apply ss_skip; auto|apply ss_keep; auto]. Qed.

Definition told (s0 : St C) (y : sys) : Prop := exists h, direct_all C s0 (map (fun x => (snd (fst x), snd x)) h) (y_store y) /\ place y h.
Lemma direct_snoc s0 h s c r s' v : direct_all C s0 (map (fun x : nat * request * value => (snd (fst x), snd x)) h) s -> direct C s r = Ok (s', v) ->
  direct_all C s0 (map (fun x : nat * request * value => (snd (fst x), snd x)) (h ++ [(c, r, v)])) s'.
Proof. intros H1 H2. rewrite map_app. cbn. econstructor; eauto. Qed.
Lemma place_stop y h t : t <> Running -> place y h -> place (set_status y t) h.
Proof.
  intros Ht. assert (R : running (set_status y t) = false) by (destruct t; auto; congruence). unfold place. rewrite R.
  cbn [set_status y_client y_closed y_back y_got y_reply y_conn]. destruct (y_client y).
  - intros (? & ? & ? & ? & ?). repeat split; auto; discriminate.
  - intros (? & ? & [(?&?&?&?)|(h0 & v & p & ? & ? & ? & ? & ? & ? & ?)]); repeat split; auto; [left|right].
    + repeat split; auto; discriminate.
    + exists h0, v, p. repeat split; auto; discriminate.
  - intros (? & ? & ?). repeat split; auto; discriminate.
Qed.
Lemma told_step s0 y e y' : told s0 y -> orderly y e -> step y e = Some y' -> fits y' -> told s0 y'.
Proof.
  intros (h & Hd & Hp) Ho H F.
  destruct e as [r|n| |n| | | |k ok| |k ok ok2]; cases H.
  - (* ECall *) exists h. split; auto. unfold place in *. rewrite Heqc in Hp. cbn [y_client y_closed y_back y_got y_reply running y_status] in *.
    destruct Hp as (P1 & P2 & P3 & P4 & P5). split; [auto|]. split; [exact Ho|]. left. repeat split; auto.
    + destruct (P3 H) as [B R]. unfold bytes in *. cbn [y_partial y_arrived y_flight]. rewrite !app_assoc in *. rewrite B. auto.
    + apply P3; auto.
  - (* EDeliver *) exists h. split; auto.
    match goal with |- place ?z h => assert (B : bytes z = bytes y) end.
    { unfold bytes. cbn [y_partial y_arrived y_flight]. rewrite <- !app_assoc, firstn_skipn. auto. }
    unfold place in *. rewrite B. exact Hp.
  - (* EReceive: an answer *)
    unfold place in Hp. rewrite Heqc in Hp. destruct Hp as (P1 & P2 & [(Q1 & _)|(h0 & v' & p & -> & Q2 & Q3 & Q4 & Q5 & Q6 & [[Q7 Q8]|[Q7 Q8]])]).
    + exfalso. rewrite Q1 in Heqd. cbn in Heqd. discriminate.
    + exfalso. rewrite Q8 in Heqd. cbn in Heqd. discriminate.
    + rewrite Q8 in Heqd. rewrite <- (app_nil_r (enc rp p)) in Heqd. rewrite c_full in Heqd by auto. injection Heqd as -> <-.
      assert (v' = v) by congruence. subst v'.
      exists (h0 ++ [(y_conn y, r, v)]). split; auto. unfold place. cbn [y_client y_closed y_back y_got y_reply]. rewrite answered_some, !map_app.
      repeat split; auto; try (apply subseq_snoc; auto).
  - (* EReceive: a mismatch *)
    exfalso. unfold place in Hp. rewrite Heqc in Hp. destruct Hp as (P1 & P2 & [(Q1 & _)|(h0 & v' & p & -> & Q2 & Q3 & Q4 & Q5 & Q6 & [[Q7 Q8]|[Q7 Q8]])]).
    + rewrite Q1 in Heqd. cbn in Heqd. discriminate.
    + rewrite Q8 in Heqd. cbn in Heqd. discriminate.
    + rewrite Q8 in Heqd. rewrite <- (app_nil_r (enc rp p)) in Heqd. rewrite c_full in Heqd by auto. congruence.
  - (* EReceive: the server is dead *)
    exists h. split; auto. unfold place in *. rewrite Heqc in Hp. cbn [y_client y_got running y_status] in *. unfold running in Heqb.
    destruct Hp as (P1 & P2 & [(Q1 & Q2 & Q3 & Q4)|(h0 & v' & p & -> & Q2 & Q3 & Q4 & Q5 & Q6 & Q7)]).
    + rewrite answered_none, map_app by auto. repeat split; auto; [apply subseq_snoc_skip; auto|]. intros R; unfold running in *; cbn [y_status] in *; congruence.
    + rewrite answered_none, !map_app by auto. repeat split; [apply subseq_snoc_skip; auto|apply subseq_snoc; auto|]. intros R; unfold running in *; cbn [y_status] in *; congruence.
  - (* EReceive: an undecodable response *)
    exfalso. unfold place in Hp. rewrite Heqc in Hp. destruct Hp as (P1 & P2 & [(Q1 & _)|(h0 & v' & p & -> & Q2 & Q3 & Q4 & Q5 & Q6 & [[Q7 Q8]|[Q7 Q8]])]).
    + rewrite Q1 in Heqd. cbn in Heqd. discriminate.
    + rewrite Q8 in Heqd. cbn in Heqd. discriminate.
    + rewrite Q8 in Heqd. rewrite <- (app_nil_r (enc rp p)) in Heqd. rewrite c_full in Heqd by auto. congruence.
  - (* EClose of an idle client *)
    exists h. split; auto. unfold place in *. rewrite Heqc in Hp. cbn [y_client y_got]. unfold abandon. rewrite Heqc.
    destruct Hp as (P1 & P2 & P3 & P4 & P5). repeat split; auto. intros R. left. destruct (P3 R) as [B _]. unfold bytes in *.
    cbn [y_partial y_arrived y_flight]. apply app_eq_nil in B. destruct B as [-> B]. apply app_eq_nil in B. destruct B as [-> ->]. rewrite firstn_nil. auto.
  - (* EClose of a waiting client *)
    exists h. split; auto. unfold place in *. rewrite Heqc in Hp. cbn [y_client y_got y_conn y_reply]. unfold abandon. rewrite Heqc.
    destruct Hp as (P1 & P2 & [(Q1 & Q2 & Q3 & Q4)|(h0 & v' & p & -> & Q2 & Q3 & Q4 & Q5 & Q6 & Q7)]).
    + rewrite answered_none, map_app by auto. repeat split; auto; [apply subseq_snoc_skip; auto|]. intros R. right.
      destruct (Q2 R) as [B N]. exists r, (y_got y), (skipn n (y_flight y)). repeat split; auto. rewrite <- B. unfold bytes.
      cbn [y_partial y_arrived y_flight]. rewrite <- !app_assoc, firstn_skipn. auto.
    + rewrite answered_none, !map_app by auto. repeat split; [apply subseq_snoc_skip; auto|apply subseq_snoc; auto|]. intros R. left.
      assert (B := Q6 R). unfold bytes in *.
      cbn [y_partial y_arrived y_flight]. apply app_eq_nil in B. destruct B as [-> B]. apply app_eq_nil in B. destruct B as [-> ->]. rewrite firstn_nil. auto.
  - (* EStop *) exists h. split; auto. apply place_stop; auto. discriminate.
  - (* ELoop *) exists h. split; auto.
  - (* ERead: the request is complete *)
    apply andb_prop in Heqb. destruct Heqb as [R T].
    destruct (y_client y) as [|r'|] eqn:Hc.
    + exfalso. unfold place in Hp. rewrite Hc in Hp. destruct Hp as (P1 & P2 & P3 & _). destruct (P3 R) as [B _]. unfold bytes in B. rewrite Heql in B.
      apply app_eq_nil in B. destruct B as [_ B]. discriminate.
    + assert (G := match_direct (y_store y) x). rewrite Heqr in G. destruct G as (v & G1 & G2).
      unfold place in Hp. rewrite Hc in Hp. destruct Hp as (P1 & P2 & [(Q1 & Q2 & Q3 & Q4)|(h0 & v' & p' & -> & Q2 & Q3 & Q4 & Q5 & Q6 & Q7)]).
      * destruct (Q2 R) as [B _]. unfold bytes in B. rewrite Heql in B. rewrite <- (app_nil_r (_ ++ _)) in B.
        destruct (read_byte _ _ _ _ _ P2 B) as [[E1 E2]|[_ E2]]; [|congruence]. rewrite E2 in Heqd. injection Heqd as <- <-.
        exists (h ++ [(y_conn y, r', v)]). split; [cbn [set_server y_store]; eapply direct_snoc; eauto|].
        unfold place. cbn [set_server y_client y_closed y_back y_got y_reply y_conn]. rewrite Hc. repeat split; auto. right.
        match goal with E : match_response _ _ _ = Ok ?sp, E2 : ?sp = (_, ?pp) |- _ => exists h, v, pp | E : match_response _ _ _ = Ok (_, ?pp) |- _ => exists h, v, pp end. repeat split; auto.
        -- unfold fits in F. cbn [set_server y_served] in F. apply Forall_app in F. destruct F as [_ F]. inversion F; auto.
        -- intros _. unfold bytes. cbn [set_server y_partial y_arrived y_flight]. rewrite app_assoc, app_nil_r in E1. auto.
      * exfalso. assert (B := Q6 R). unfold bytes in B. rewrite Heql in B. apply app_eq_nil in B. destruct B as [_ B]. discriminate.
    + assert (G := match_direct (y_store y) x). rewrite Heqr in G. destruct G as (v & G1 & G2).
      unfold place in Hp. rewrite Hc in Hp. destruct Hp as (P1 & P2 & P3). destruct (P3 R) as [B|(r' & got0 & q & Q1 & Q2 & Q3 & Q4 & Q5)].
      * exfalso. unfold bytes in B. rewrite Heql in B. apply app_eq_nil in B. destruct B as [_ B]. discriminate.
      * unfold bytes in Q3. rewrite Heql in Q3. destruct (read_byte _ _ _ _ _ Q1 Q3) as [[E1 E2]|[_ E2]]; [|congruence].
        rewrite E2 in Heqd. injection Heqd as <- <-.
        exists (h ++ [(y_conn y, r', v)]). split; [cbn [set_server y_store]; eapply direct_snoc; eauto|].
        unfold place. cbn [set_server y_client y_got]. rewrite Hc. repeat split.
        -- apply subseq_snoc_skip; auto.
        -- rewrite Q2, !map_app. apply subseq_snoc. auto.
        -- intros _. left. unfold bytes. cbn [set_server y_partial y_arrived y_flight]. apply app_eq_nil in E1. destruct E1 as [-> E1].
           apply app_eq_nil in E1. destruct E1 as [-> _]. auto.
  - (* ERead: the container panics *) exists h. split; auto. apply place_stop; auto. discriminate.
  - (* ERead: more to come *)
    exists h. split; auto.
    match goal with |- place ?z h => assert (B : bytes z = bytes y) end.
    { unfold bytes. cbn [set_server y_partial y_arrived y_flight]. rewrite Heql. rewrite <- !app_assoc. auto. }
    unfold place in *. rewrite B. cbn [set_server y_client y_closed y_back y_got y_reply y_conn running y_status] in *. rewrite Heqo in Hp. exact Hp.
  - (* ERead: invalid bytes *)
    exfalso. apply andb_prop in Heqb. destruct Heqb as [R T]. unfold place in Hp. destruct (y_client y) as [|r'|] eqn:Hc.
    + destruct Hp as (P1 & P2 & P3 & _). destruct (P3 R) as [B _]. unfold bytes in B. rewrite Heql in B.
      apply app_eq_nil in B. destruct B as [_ B]. discriminate.
    + destruct Hp as (P1 & P2 & [(Q1 & Q2 & Q3 & Q4)|(h0 & v' & p' & -> & Q2 & Q3 & Q4 & Q5 & Q6 & Q7)]).
      * destruct (Q2 R) as [B _]. unfold bytes in B. rewrite Heql in B. rewrite <- (app_nil_r (_ ++ _)) in B.
        destruct (read_byte _ _ _ _ _ P2 B) as [[E1 E2]|[_ E2]]; congruence.
      * assert (B := Q6 R). unfold bytes in B. rewrite Heql in B. apply app_eq_nil in B. destruct B as [_ B]. discriminate.
    + destruct Hp as (P1 & P2 & P3). destruct (P3 R) as [B|(r' & got0 & q & Q1 & Q2 & Q3 & Q4 & Q5)].
      * unfold bytes in B. rewrite Heql in B. apply app_eq_nil in B. destruct B as [_ B]. discriminate.
      * unfold bytes in Q3. rewrite Heql in Q3. destruct (read_byte _ _ _ _ _ Q1 Q3) as [[E1 E2]|[_ E2]]; congruence.
  - (* ERead: an unknown tag *) exists h. split; auto. apply place_stop; auto. discriminate.
  - (* EReadError: the connection is closed *)
    assert (G : y_client y = CGone) by (unfold place in Hp; destruct (y_client y); auto; exfalso; destruct Hp as (P1 & _); congruence).
    unfold place in Hp. rewrite G in Hp. destruct Hp as (P1 & P2 & _).
    exists h. unfold reconnect. destruct (y_left y) as [[|m]|], ok; cbn [andb y_store]; (split; [auto|]); unfold place, abandon;
      cbn [y_client y_closed y_back y_got y_reply y_conn running y_status]; rewrite ?G; repeat split; auto; discriminate.
  - (* EReadError: a timeout *)
    assert (Ep : y_partial y = []) by (apply Ho; auto).
    exists h. split; auto.
    match goal with |- place ?z h => assert (B : bytes z = bytes y) end.
    { unfold bytes. cbn [set_server y_partial y_arrived y_flight]. rewrite Heql, Ep. auto. }
    unfold place in *. rewrite B. cbn [set_server y_client y_closed y_back y_got y_reply y_conn running y_status] in *. rewrite Heqo in Hp. exact Hp.
  - (* EReadError: another error *) exists h. split; auto. apply place_stop; auto. discriminate.
  - (* ESend *)
    apply andb_prop in Heqb. destruct Heqb as [R T]. exists h. split; auto. unfold place in *. cbn [set_server y_client y_closed y_back y_got y_reply y_conn].
    destruct (y_client y) as [|r'|] eqn:Hc.
    + exfalso. destruct Hp as (P1 & P2 & P3 & _). destruct (P3 R) as [_ B]. congruence.
    + destruct Hp as (P1 & P2 & [(Q1 & Q2 & Q3 & Q4)|(h0 & v' & p' & -> & Q2 & Q3 & Q4 & Q5 & Q6 & [[Q7 Q8]|[Q7 Q8]])]).
      * exfalso. destruct (Q2 R) as [_ B]. congruence.
      * repeat split; auto. right. exists h0, v', p'. assert (p' = r) by congruence. subst p'. rewrite Q8. repeat split; auto.
      * exfalso. congruence.
    + destruct Hp as (P1 & P2 & P3). repeat split; auto. intros _. destruct (P3 R) as [B|(r' & got0 & q & Q1 & Q2 & Q3 & Q4 & Q5)]; [auto|congruence].
  - (* ESendError: excluded *) exfalso. apply Ho. destruct k; cbn in *; congruence.
  - (* ESendError *) exists h. split; auto. apply place_stop; auto. discriminate.
  - exists h. split; auto. apply place_stop; auto. discriminate.
Qed.
Theorem C42_responses_match_partial : forall container persistent y, reach orderly (spawned C container persistent) y -> fits y ->
  exists processed : list (nat * request * value),
    direct_all C container (map (fun x => (snd (fst x), snd x)) processed) (y_store y) /\
    subseq (answered (y_got y)) processed /\ subseq (map fst processed) (sent y).
Proof.
  intros container persistent y H. assert (G : fits y -> told container y).
  { induction H as [|y e y' Hr IH Ho H]; intros F.
    - exists []. split; [constructor|]. unfold place. cbn. repeat split; auto; constructor.
    - eapply told_step; eauto. apply IH. eapply step_fits; eauto. }
  intros F. destruct (G F) as (h & Hd & Hp). exists h. split; auto. unfold place in Hp. unfold sent. destruct (y_client y) as [|r|].
  - rewrite app_nil_r. tauto.
  - destruct Hp as (_ & _ & [(_ & _ & Q3 & Q4)|(h0 & v & p & -> & Q2 & Q3 & _)]).
    + split; auto. apply subseq_snoc_skip. auto.
    + split; [apply subseq_snoc_skip; auto|]. rewrite map_app. apply subseq_snoc. auto.
  - rewrite app_nil_r. tauto.
Qed.

(** ** C41: a socket client behaves as the container *)
(** The connection stays up, and no read of the server times out in the middle of a message. *)
Definition calm (y : sys) (e : @event K V) : Prop :=
  match e with
  | ECall r => request_valid ck cv r
  | EDeliver _ | EReceive | ELoop | ERead | ESend => True
  | EReadError k _ => from_io k = Some TimedOut /\ y_partial y = []
  | EClose _ | EStop | ESendError _ _ _ => False
  end.
(** The calls and their results as the client sees them. *)
Definition results (l : list (request * value)) : list (nat * request * option value) := map (fun x => (1, fst x, Some (snd x))) l.
Lemma results_snoc l r v : results (l ++ [(r, v)]) = results l ++ [(1, r, Some v)].
Proof. unfold results. rewrite map_app. auto. Qed.
Definition stage_sent (y : sys) (s : St C) (r : request) : Prop :=
  running y = true /\ y_store y = s /\ bytes y = enc rq r /\ y_reply y = None /\ y_back y = [] /\ y_arrived y ++ y_flight y <> [].
Definition stage_done (y : sys) (s : St C) (r : request) : Prop := exists s' v p,
  direct C s r = Ok (s', v) /\ y_store y = s' /\ running y = true /\ bytes y = [] /\ client_value r p = Some v /\ response_valid ck cv p /\
  ((y_reply y = Some p /\ y_back y = []) \/ (y_reply y = None /\ y_back y = enc rp p)).
Definition follows_direct (s0 : St C) (y : sys) : Prop := exists l s, direct_all C s0 l s /\ y_conn y = 1 /\
  match y_client y with
  | CIdle => y_got y = results l /\ y_store y = s /\ running y = true /\ bytes y = [] /\ y_reply y = None /\ y_back y = []
  | CWaiting r => request_valid ck cv r /\ y_got y = results l /\
      (stage_sent y s r \/ stage_done y s r \/ (direct C s r = Panic /\ y_status y = Panicked /\ y_back y = []))
  | CGone => exists r, y_got y = results l ++ [(1, r, None)] /\ direct C s r = Panic /\ y_status y = Panicked
  end.
Lemma not_running (y : sys) : y_status y = Panicked -> running y = false.
Proof. unfold running. intros ->. auto. Qed.
Lemma follows_step s0 y e y' : follows_direct s0 y -> calm y e -> step y e = Some y' -> fits y' -> follows_direct s0 y'.
Proof.
  intros (hh & s & Hd & Hc & Hp) Ho H F.
  destruct e as [r|n| |n| | | |k ok| |k ok ok2]; cbn [calm] in Ho; try contradiction; cases H.
  - (* ECall *) destruct Hp as (P1 & P2 & P3 & P4 & P5 & P6). exists hh, s. repeat split; auto. left.
    unfold stage_sent. repeat split; auto.
    + unfold bytes in *. cbn [y_partial y_arrived y_flight]. rewrite !app_assoc in *. rewrite P4. auto.
    + cbn [y_arrived y_flight]. intros E. apply app_eq_nil in E. destruct E as [_ E]. apply app_eq_nil in E. destruct E as [_ E]. exact (@enc_request_nonempty r E).
  - (* EDeliver *) exists hh, s. repeat split; auto.
    match goal with |- match y_client ?z with _ => _ end => assert (B : bytes z = bytes y) end.
    { unfold bytes. cbn [y_partial y_arrived y_flight]. rewrite <- !app_assoc, firstn_skipn. auto. }
    unfold stage_sent, stage_done in *. rewrite B. cbn [y_arrived y_flight]. rewrite <- app_assoc, firstn_skipn. exact Hp.
  - (* EReceive *)
    destruct Hp as (P1 & P2 & [Q|[Q|Q]]).
    + destruct Q as (_ & _ & _ & _ & Q & _). rewrite Q in Heqd. cbn in Heqd. discriminate.
    + destruct Q as (s' & v' & p & Q1 & Q2 & Q3 & Q4 & Q5 & Q6 & [[Q7 Q8]|[Q7 Q8]]).
      * rewrite Q8 in Heqd. cbn in Heqd. discriminate.
      * rewrite Q8 in Heqd. rewrite <- (app_nil_r (enc rp p)) in Heqd. rewrite c_full in Heqd by auto. injection Heqd as -> <-.
        assert (v' = v) by congruence. subst v'. exists (hh ++ [(r, v)]), s'. split; [econstructor; eauto|]. rewrite results_snoc.
        cbn [y_conn y_client y_got]. rewrite P2, Hc. repeat split; auto.
    + destruct Q as (_ & _ & Q). rewrite Q in Heqd. cbn in Heqd. discriminate.
  - exfalso. destruct Hp as (P1 & P2 & [Q|[Q|Q]]).
    + destruct Q as (_ & _ & _ & _ & Q & _). rewrite Q in Heqd. cbn in Heqd. discriminate.
    + destruct Q as (s' & v' & p & Q1 & Q2 & Q3 & Q4 & Q5 & Q6 & [[Q7 Q8]|[Q7 Q8]]).
      * rewrite Q8 in Heqd. cbn in Heqd. discriminate.
      * rewrite Q8 in Heqd. rewrite <- (app_nil_r (enc rp p)) in Heqd. rewrite c_full in Heqd by auto. congruence.
    + destruct Q as (_ & _ & Q). rewrite Q in Heqd. cbn in Heqd. discriminate.
  - destruct Hp as (P1 & P2 & [Q|[Q|Q]]).
    + destruct Q as (Q & _). congruence.
    + destruct Q as (s' & v' & p & Q1 & Q2 & Q3 & _). congruence.
    + destruct Q as (Q1 & Q2 & Q3). exists hh, s. repeat split; auto. cbn [y_client y_got y_status]. exists r. rewrite P2, Hc. auto.
  - exfalso. destruct Hp as (P1 & P2 & [Q|[Q|Q]]).
    + destruct Q as (_ & _ & _ & _ & Q & _). rewrite Q in Heqd. cbn in Heqd. discriminate.
    + destruct Q as (s' & v' & p & Q1 & Q2 & Q3 & Q4 & Q5 & Q6 & [[Q7 Q8]|[Q7 Q8]]).
      * rewrite Q8 in Heqd. cbn in Heqd. discriminate.
      * rewrite Q8 in Heqd. rewrite <- (app_nil_r (enc rp p)) in Heqd. rewrite c_full in Heqd by auto. congruence.
    + destruct Q as (_ & _ & Q). rewrite Q in Heqd. cbn in Heqd. discriminate.
  - (* ELoop *) exists hh, s. repeat split; auto.
  - (* ERead: complete *)
    apply andb_prop in Heqb. destruct Heqb as [R T]. exists hh, s. repeat split; auto. cbn [set_server y_client y_got].
    destruct (y_client y) as [|r'|] eqn:Hcl.
    + exfalso. destruct Hp as (_ & _ & _ & B & _). unfold bytes in B. rewrite Heql in B. apply app_eq_nil in B. destruct B as [_ B]. discriminate.
    + destruct Hp as (P1 & P2 & [Q|[Q|Q]]).
      * destruct Q as (Q1 & Q2 & Q3 & Q4 & Q5 & Qn). unfold bytes in Q3. rewrite Heql in Q3. rewrite <- (app_nil_r (_ ++ _)) in Q3.
        destruct (read_byte _ _ _ _ _ P1 Q3) as [[E1 E2]|[_ E2]]; [|congruence]. rewrite E2 in Heqd. injection Heqd as <- <-.
        assert (G := match_direct (y_store y) r'). rewrite Heqr in G. destruct G as (v & G1 & G2). rewrite Q2 in G2.
        repeat split; auto. right. left. 
        match goal with E : match_response _ _ _ = Ok (?ss, ?pp) |- _ => exists ss, v, pp end. repeat split; auto.
        -- unfold bytes. cbn [set_server y_partial y_arrived y_flight]. rewrite app_assoc, app_nil_r in E1. auto.
        -- unfold fits in F. cbn [set_server y_served] in F. apply Forall_app in F. destruct F as [_ F]. inversion F; auto.
      * exfalso. destruct Q as (s' & v' & p' & _ & _ & _ & B & _). unfold bytes in B. rewrite Heql in B. apply app_eq_nil in B. destruct B as [_ B]. discriminate.
      * exfalso. destruct Q as (_ & Q & _). apply not_running in Q. congruence.
    + exfalso. destruct Hp as (r' & _ & _ & Q). apply not_running in Q. congruence.
  - (* ERead: panic *)
    apply andb_prop in Heqb. destruct Heqb as [R T]. exists hh, s. repeat split; auto. cbn [set_status y_client y_got].
    destruct (y_client y) as [|r'|] eqn:Hcl.
    + exfalso. destruct Hp as (_ & _ & _ & B & _). unfold bytes in B. rewrite Heql in B. apply app_eq_nil in B. destruct B as [_ B]. discriminate.
    + destruct Hp as (P1 & P2 & [Q|[Q|Q]]).
      * destruct Q as (Q1 & Q2 & Q3 & Q4 & Q5 & Qn). unfold bytes in Q3. rewrite Heql in Q3. rewrite <- (app_nil_r (_ ++ _)) in Q3.
        destruct (read_byte _ _ _ _ _ P1 Q3) as [[E1 E2]|[_ E2]]; [|congruence]. rewrite E2 in Heqd. injection Heqd as <- <-.
        assert (G := match_direct (y_store y) r'). rewrite Heqr in G. rewrite Q2 in G. repeat split; auto.
      * exfalso. destruct Q as (s' & v' & p' & _ & _ & _ & B & _). unfold bytes in B. rewrite Heql in B. apply app_eq_nil in B. destruct B as [_ B]. discriminate.
      * exfalso. destruct Q as (_ & Q & _). apply not_running in Q. congruence.
    + exfalso. destruct Hp as (r' & _ & _ & Q). apply not_running in Q. congruence.
  - (* ERead: more *)
    apply andb_prop in Heqb. destruct Heqb as [R T]. exists hh, s. repeat split; auto. cbn [set_server y_client y_got].
    destruct (y_client y) as [|r'|] eqn:Hcl.
    + exfalso. destruct Hp as (_ & _ & _ & B & _). unfold bytes in B. rewrite Heql in B. apply app_eq_nil in B. destruct B as [_ B]. discriminate.
    + destruct Hp as (P1 & P2 & [Q|[Q|Q]]).
      * destruct Q as (Q1 & Q2 & Q3 & Q4 & Q5 & Q6). assert (Q3' := Q3). unfold bytes in Q3'. rewrite Heql in Q3'. rewrite <- (app_nil_r (_ ++ _)) in Q3'.
        destruct (read_byte _ _ _ _ _ P1 Q3') as [[E1 E2]|[E1 E2]]; [congruence|].
        repeat split; auto. left. unfold stage_sent. repeat split; auto.
        -- rewrite <- Q3. unfold bytes. cbn [set_server y_partial y_arrived y_flight]. rewrite Heql. rewrite <- !app_assoc. auto.
        -- cbn [set_server y_arrived y_flight]. rewrite app_nil_r in E1. auto.
      * exfalso. destruct Q as (s' & v' & p' & _ & _ & _ & B & _). unfold bytes in B. rewrite Heql in B. apply app_eq_nil in B. destruct B as [_ B]. discriminate.
      * exfalso. destruct Q as (_ & Q & _). apply not_running in Q. congruence.
    + exfalso. destruct Hp as (r' & _ & _ & Q). apply not_running in Q. congruence.
  - (* ERead: invalid *)
    exfalso. apply andb_prop in Heqb. destruct Heqb as [R T]. destruct (y_client y) as [|r'|] eqn:Hcl.
    + destruct Hp as (_ & _ & _ & B & _). unfold bytes in B. rewrite Heql in B. apply app_eq_nil in B. destruct B as [_ B]. discriminate.
    + destruct Hp as (P1 & P2 & [Q|[Q|Q]]).
      * destruct Q as (Q1 & Q2 & Q3 & Q4 & Q5 & Qn). unfold bytes in Q3. rewrite Heql in Q3. rewrite <- (app_nil_r (_ ++ _)) in Q3.
        destruct (read_byte _ _ _ _ _ P1 Q3) as [[E1 E2]|[_ E2]]; congruence.
      * destruct Q as (s' & v' & p' & _ & _ & _ & B & _). unfold bytes in B. rewrite Heql in B. apply app_eq_nil in B. destruct B as [_ B]. discriminate.
      * destruct Q as (_ & Q & _). apply not_running in Q. congruence.
    + destruct Hp as (r' & _ & _ & Q). apply not_running in Q. congruence.
  - (* ERead: unknown tag *)
    exfalso. apply andb_prop in Heqb. destruct Heqb as [R T]. destruct (y_client y) as [|r'|] eqn:Hcl.
    + destruct Hp as (_ & _ & _ & B & _). unfold bytes in B. rewrite Heql in B. apply app_eq_nil in B. destruct B as [_ B]. discriminate.
    + destruct Hp as (P1 & P2 & [Q|[Q|Q]]).
      * destruct Q as (Q1 & Q2 & Q3 & Q4 & Q5 & Qn). unfold bytes in Q3. rewrite Heql in Q3. rewrite <- (app_nil_r (_ ++ _)) in Q3.
        destruct (read_byte _ _ _ _ _ P1 Q3) as [[E1 E2]|[_ E2]]; congruence.
      * destruct Q as (s' & v' & p' & _ & _ & _ & B & _). unfold bytes in B. rewrite Heql in B. apply app_eq_nil in B. destruct B as [_ B]. discriminate.
      * destruct Q as (_ & Q & _). apply not_running in Q. congruence.
    + destruct Hp as (r' & _ & _ & Q). apply not_running in Q. congruence.
  - exfalso. destruct Ho. congruence.
  - (* timeout *)
    exists hh, s. repeat split; auto.
    match goal with |- match y_client ?z with _ => _ end => assert (B : bytes z = bytes y) end.
    { unfold bytes. cbn [set_server y_partial y_arrived y_flight]. destruct Ho as [_ ->]. rewrite Heql. auto. }
    unfold stage_sent, stage_done in *. rewrite B. cbn [set_server y_client y_closed y_back y_got y_reply y_conn running y_status y_store y_arrived y_flight] in *. rewrite ?Heqo, ?Heql in Hp. exact Hp.
  - exfalso. destruct Ho. congruence.
  - (* ESend *)
    apply andb_prop in Heqb. destruct Heqb as [R T]. exists hh, s. repeat split; auto. cbn [set_server y_client y_got].
    destruct (y_client y) as [|r'|] eqn:Hcl.
    + exfalso. destruct Hp as (_ & _ & _ & _ & B & _). congruence.
    + destruct Hp as (P1 & P2 & [Q|[Q|Q]]).
      * exfalso. destruct Q as (_ & _ & _ & B & _). congruence.
      * destruct Q as (s' & v' & p & Q1 & Q2 & Q3 & Q4 & Q5 & Q6 & [[Q7 Q8]|[Q7 Q8]]); [|congruence].
        assert (p = r) by congruence. subst p. repeat split; auto. right. left. exists s', v', r. repeat split; auto. right.
        cbn [set_server y_reply y_back]. rewrite Q8. auto.
      * exfalso. destruct Q as (_ & Q & _). apply not_running in Q. congruence.
    + exfalso. destruct Hp as (r' & _ & _ & Q). apply not_running in Q. congruence.
Qed.
Lemma follows_reach s0 persistent y : reach calm (spawned C s0 persistent) y -> fits y -> follows_direct s0 y.
Proof.
  intros H. induction H as [|y e y' Hr IH Ho H]; intros F.
  - exists [], s0. repeat split; auto. constructor.
  - eapply follows_step; eauto. apply IH. eapply step_fits; eauto.
Qed.
(** Safety: at any time, the calls of the client have returned what the same calls on the container return, up to a
    call that panics if the container does. *)
Theorem C41_same_results_partial : forall container persistent y, reach calm (spawned C container persistent) y -> fits y ->
  exists calls s, direct_all C container calls s /\
    ((y_got y = results calls /\ (y_client y = CIdle -> y_store y = s)) \/
     (exists r, y_got y = results calls ++ [(1, r, None)] /\ direct C s r = Panic)).
Proof.
  intros container persistent y H F. destruct (follows_reach H F) as (l & s & Hd & _ & Hp). exists l, s. split; auto.
  destruct (y_client y) eqn:E.
  - left. split; [tauto|]. intros _. tauto.
  - left. split; [tauto|]. discriminate.
  - right. destruct Hp as (r & ? & ? & ?). eauto.
Qed.
(** Progress: the client can always get its answer. *)
Lemma reach_trans allowed y0 y1 y2 : reach allowed y0 y1 -> reach allowed y1 y2 -> reach allowed y0 y2.
Proof. intros H1 H2. induction H2; auto. econstructor; eauto. Qed.
Lemma reach_one (allowed : sys -> @event K V -> Prop) y e y' : allowed y e -> step y e = Some y' -> reach allowed y y'.
Proof. intros. econstructor; eauto. constructor. Qed.
Lemma read_all r : request_valid ck cv r -> forall a y, y_arrived y = a -> a <> [] -> running y = true -> y_top y = false -> y_flight y = [] ->
  y_reply y = None -> y_partial y ++ a = enc rq r ->
  exists y', reach calm y y' /\ y_client y' = y_client y /\ y_got y' = y_got y /\ y_conn y' = y_conn y /\ y_back y' = y_back y /\
  match match_response C (y_store y) r with
  | Ok (s', p) => y_store y' = s' /\ y_reply y' = Some p /\ running y' = true /\ bytes y' = [] /\ y_top y' = false
  | Panic => y_status y' = Panicked
  end.
Proof.
  intros Hv. induction a as [|b a IH]; intros y Ea Hn R T Ef Er E; [congruence|].
  assert (E' : (y_partial y ++ (b :: a) ++ []) ++ [] = enc rq r) by (rewrite !app_nil_r; auto).
  destruct (read_byte _ _ _ _ _ Hv E') as [[E1 E2]|[E1 E2]].
  - apply app_eq_nil in E1. destruct E1 as [-> _].
    assert (S1 : step y ERead = match match_response C (y_store y) r with
      | Ok (s', p) => Some (set_server y s' false [] [] (Some p) (y_back y) (y_served y ++ [(y_conn y, r, p)]))
      | Panic => Some (set_status y Panicked)
      end).
    { unfold Socket.step. rewrite R, T, Er, Ea. cbn [andb negb]. rewrite E2. auto. }
    destruct (match_response C (y_store y) r) as [[s' p]|] eqn:M.
    + exists (set_server y s' false [] [] (Some p) (y_back y) (y_served y ++ [(y_conn y, r, p)])).
      split; [eapply reach_one; eauto; exact I|]. repeat split; auto.
    + exists (set_status y Panicked). split; [eapply reach_one; eauto; exact I|]. repeat split; auto.
  - assert (S1 : step y ERead = Some (set_server y (y_store y) false a (y_partial y ++ [b]) None (y_back y) (y_served y))).
    { unfold Socket.step. rewrite R, T, Er, Ea. cbn [andb negb]. rewrite E2. auto. }
    destruct (IH (set_server y (y_store y) false a (y_partial y ++ [b]) None (y_back y) (y_served y))) as (y' & G1 & G2); auto.
    + intros ->. apply E1. auto.
    + cbn [set_server y_partial]. rewrite <- app_assoc. auto.
    + exists y'. split; auto. eapply reach_trans; eauto. eapply reach_one; eauto. exact I.
Qed.
(** From the moment a request is sent, or processed, to the answer. *)
Lemma finish_done y s r s' v p : y_client y = CWaiting r -> client_value r p = Some v -> response_valid ck cv p -> running y = true -> bytes y = [] ->
  y_store y = s -> ((y_reply y = Some p /\ y_back y = []) \/ (y_reply y = None /\ y_back y = enc rp p)) -> s' = s ->
  exists y', reach calm y y' /\ y_client y' = CIdle /\ y_got y' = y_got y ++ [(y_conn y, r, Some v)] /\ y_store y' = s'.
Proof.
  intros Hc Hv Hp R B Es Hr ->.
  assert (G : forall z, y_client z = CWaiting r -> y_back z = enc rp p -> y_store z = s -> y_got z = y_got y -> y_conn z = y_conn y ->
    exists y', reach calm z y' /\ y_client y' = CIdle /\ y_got y' = y_got y ++ [(y_conn y, r, Some v)] /\ y_store y' = s).
  { intros z Z1 Z2 Z3 Z4 Z5. assert (exists z', step z EReceive = Some z' /\ y_client z' = CIdle /\ y_got z' = y_got y ++ [(y_conn y, r, Some v)] /\ y_store z' = s).
    { unfold Socket.step. rewrite Z1, Z2. rewrite <- (app_nil_r (enc rp p)). rewrite c_full by auto. rewrite Hv. eexists. split; [reflexivity|].
      cbn [y_client y_got y_store]. rewrite Z4, Z5. auto. }
    destruct H as (z' & ? & ?). exists z'. split; auto. eapply reach_one; eauto. exact I. }
  destruct Hr as [[H1 H2]|[H1 H2]]; [|apply G; auto].
  destruct (y_top y) eqn:T.
  - assert (S1 : step y ELoop = Some (set_server y (y_store y) false (y_arrived y) (y_partial y) (y_reply y) (y_back y) (y_served y))).
    { unfold Socket.step. rewrite R, T. auto. }
    set (y1 := set_server y (y_store y) false (y_arrived y) (y_partial y) (y_reply y) (y_back y) (y_served y)) in *.
    assert (S2 : step y1 ESend = Some (set_server y1 (y_store y1) true (y_arrived y1) (y_partial y1) None (y_back y1 ++ enc rp p) (y_served y1))).
    { unfold Socket.step. change (running y1) with (running y). change (y_top y1) with false. change (y_reply y1) with (y_reply y). rewrite R, H1. auto. }
    destruct (G (set_server y1 (y_store y1) true (y_arrived y1) (y_partial y1) None (y_back y1 ++ enc rp p) (y_served y1))) as (y' & G1 & G2); auto.
    + cbn [set_server y_back y1]. rewrite H2. auto.
    + exists y'. split; auto. eapply reach_trans; [|exact G1]. econstructor; [eapply reach_one; [|exact S1]; exact I| |exact S2]. exact I.
  - assert (S2 : step y ESend = Some (set_server y (y_store y) true (y_arrived y) (y_partial y) None (y_back y ++ enc rp p) (y_served y))).
    { unfold Socket.step. rewrite R, T, H1. auto. }
    destruct (G (set_server y (y_store y) true (y_arrived y) (y_partial y) None (y_back y ++ enc rp p) (y_served y))) as (y' & G1 & G2); auto.
    + cbn [set_server y_back]. rewrite H2. auto.
    + exists y'. split; auto. eapply reach_trans; [|exact G1]. eapply reach_one; [|exact S2]. exact I.
Qed.

Lemma finish_sent y r : y_client y = CWaiting r -> request_valid ck cv r -> stage_sent y (y_store y) r ->
  match direct C (y_store y) r with
  | Ok (s', v) => (forall p, client_value r p = Some v -> response_valid ck cv p) ->
      exists y', reach calm y y' /\ y_client y' = CIdle /\ y_got y' = y_got y ++ [(y_conn y, r, Some v)] /\ y_store y' = s'
  | Panic => exists y', reach calm y y' /\ y_client y' = CGone /\ y_got y' = y_got y ++ [(y_conn y, r, None)]
  end.
Proof.
  intros Hc Hv (R & _ & B & Er & Eb & Ne).
  assert (exists y1, reach calm y y1 /\ y_arrived y1 = y_arrived y ++ y_flight y /\ y_flight y1 = [] /\ y_top y1 = false /\ running y1 = true /\
    y_partial y1 = y_partial y /\ y_reply y1 = None /\ y_back y1 = [] /\ y_client y1 = CWaiting r /\ y_got y1 = y_got y /\ y_conn y1 = y_conn y /\ y_store y1 = y_store y).
  { assert (exists y1, reach calm y y1 /\ y_arrived y1 = y_arrived y ++ y_flight y /\ y_flight y1 = [] /\ y_top y1 = y_top y /\ running y1 = true /\
      y_partial y1 = y_partial y /\ y_reply y1 = None /\ y_back y1 = [] /\ y_client y1 = CWaiting r /\ y_got y1 = y_got y /\ y_conn y1 = y_conn y /\ y_store y1 = y_store y).
    { assert (exists y1, step y (EDeliver (length (y_flight y))) = Some y1 /\ y_arrived y1 = y_arrived y ++ y_flight y /\ y_flight y1 = [] /\ y_top y1 = y_top y /\ running y1 = true /\
      y_partial y1 = y_partial y /\ y_reply y1 = None /\ y_back y1 = [] /\ y_client y1 = CWaiting r /\ y_got y1 = y_got y /\ y_conn y1 = y_conn y /\ y_store y1 = y_store y).
      { unfold Socket.step. rewrite skipn_all, firstn_all. eexists. split; [reflexivity|]. repeat split; auto. }
      destruct H as (y1 & ? & ?). exists y1. split; auto. eapply reach_one; eauto. exact I. }
    destruct H as (y1 & G1 & G2 & G3 & G4 & G5 & G6 & G7 & G8 & G9 & G10 & G11 & G12). destruct (y_top y1) eqn:T.
    - exists (set_server y1 (y_store y1) false (y_arrived y1) (y_partial y1) (y_reply y1) (y_back y1) (y_served y1)).
      split; [|repeat split; auto]. econstructor; [exact G1| |]; [exact (I : calm y1 ELoop)|]. unfold Socket.step. rewrite G5, T. auto.
    - exists y1. repeat split; auto. }
  destruct H as (y1 & G1 & G2 & G3 & G4 & G5 & G6 & G7 & G8 & G9 & G10 & G11 & G12).
  assert (E : y_partial y1 ++ (y_arrived y ++ y_flight y) = enc rq r) by (rewrite <- B, G6; auto).
  destruct (y_arrived y ++ y_flight y) as [|b a] eqn:Ea.
  - congruence.
  - destruct (@read_all r Hv (b :: a) y1) as (y2 & K1 & K2 & K3 & K4 & K5 & K6); auto; try discriminate.
    rewrite G12 in K6. assert (M := match_direct (y_store y) r). destruct (match_response C (y_store y) r) as [[s' p]|].
    + destruct M as (v & M1 & M2). rewrite M2. intros Hval. destruct K6 as (L1 & L2 & L3 & L4 & L5).
      destruct (@finish_done y2 s' r s' v p) as (y3 & N1 & N2 & N3 & N4); auto.
      * congruence.
      * left. split; auto. congruence.
      * exists y3. split; [eapply reach_trans; [exact G1|]; eapply reach_trans; eauto|]. repeat split; auto. congruence.
    + rewrite M. assert (exists y3, step y2 EReceive = Some y3 /\ y_client y3 = CGone /\ y_got y3 = y_got y ++ [(y_conn y, r, None)]).
      { unfold Socket.step. rewrite K2, G9, K5, G8. cbn [response_codec de]. replace (d_bind _ _ []) with (@More response) by reflexivity.
        rewrite (not_running _ K6). eexists. split; [reflexivity|]. cbn [y_client y_got]. split; congruence. }
      destruct H as (y3 & ? & ?). exists y3. split; auto. eapply reach_trans; [exact G1|]. econstructor; eauto. exact I.
Qed.

Theorem C41_progress_partial : forall container persistent y r, reach calm (spawned C container persistent) y -> fits y -> y_client y = CIdle -> request_valid ck cv r ->
  match direct C (y_store y) r with
  | Ok (s', v) => (forall p, client_value r p = Some v -> response_valid ck cv p) ->
      exists y', reach calm y y' /\ y_client y' = CIdle /\ y_got y' = y_got y ++ [(1, r, Some v)] /\ y_store y' = s'
  | Panic => exists y', reach calm y y' /\ y_client y' = CGone /\ y_got y' = y_got y ++ [(1, r, None)]
  end.
Proof.
  intros container persistent y r H F Hi Hv. destruct (follows_reach H F) as (l & s & Hd & Hc & Hp). rewrite Hi in Hp.
  destruct Hp as (P1 & P2 & P3 & P4 & P5 & P6).
  assert (exists y1, step y (ECall r) = Some y1 /\ y_client y1 = CWaiting r /\ y_store y1 = y_store y /\ y_got y1 = y_got y /\ y_conn y1 = 1 /\ stage_sent y1 (y_store y1) r).
  { unfold Socket.step. rewrite Hi. eexists. split; [reflexivity|]. repeat split; auto.
    - unfold bytes in *. cbn [y_partial y_arrived y_flight]. rewrite !app_assoc in *. rewrite P4. auto.
    - cbn [y_arrived y_flight]. intros E. apply app_eq_nil in E. destruct E as [_ E]. apply app_eq_nil in E. destruct E as [_ E]. exact (@enc_request_nonempty r E). }
  destruct H0 as (y1 & S1 & S2 & S3 & S4 & S5 & S6). assert (G := finish_sent S2 Hv S6). rewrite S3, S4, S5 in G.
  assert (S0 : reach calm y y1) by (eapply reach_one; [|exact S1]; exact Hv).
  destruct (direct C (y_store y) r) as [[s' v]|].
  - intros Hval. destruct (G Hval) as (y' & ? & ?). exists y'. split; auto. eapply reach_trans; eauto.
  - destruct G as (y' & ? & ?). exists y'. split; auto. eapply reach_trans; eauto.
Qed.

(** ** C42: the announced number of clients is reached *)
Lemma next_client y : running y = true -> y_client y = CIdle -> bytes y = [] -> y_reply y = None -> y_left y <> Some 0 ->
  exists y', reach orderly y y' /\ y_conn y' = S (y_conn y) /\ y_left y' = option_map Nat.pred (y_left y) /\
    running y' = true /\ y_client y' = CIdle /\ bytes y' = [] /\ y_reply y' = None.
Proof.
  intros R Hc B Er Hl. unfold bytes in B. apply app_eq_nil in B. destruct B as [Bp B]. apply app_eq_nil in B. destruct B as [Ba Bf].
  assert (exists y1, reach orderly y y1 /\ y_top y1 = false /\ running y1 = true /\ y_closed y1 = true /\ y_arrived y1 = [] /\ y_partial y1 = [] /\ y_flight y1 = [] /\ y_reply y1 = None /\
    y_left y1 = y_left y /\ y_conn y1 = y_conn y /\ y_client y1 = CGone).
  { set (y0 := @mkSys K V C (y_store y) (y_left y) (y_status y) (y_conn y) (y_timeout y) (y_top y) (firstn 0 (y_flight y)) (y_arrived y) (y_partial y) true
                     (y_reply y) (y_back y) CGone (y_served y) (abandon y)).
    assert (S0 : step y (EClose 0) = Some y0) by (unfold Socket.step; rewrite Hc; auto).
    assert (R0 : reach orderly y y0) by (eapply reach_one; [|exact S0]; exact I).
    destruct (y_top y) eqn:T.
    - exists (set_server y0 (y_store y0) false (y_arrived y0) (y_partial y0) (y_reply y0) (y_back y0) (y_served y0)).
      split; [|repeat split; auto]. econstructor; [exact R0| |]; [exact (I : orderly y0 ELoop)|]. unfold Socket.step.
      change (running y0) with (running y). rewrite R. change (y_top y0) with true. auto.
    - exists y0. repeat split; auto. }
  destruct H as (y1 & G1 & G2 & G3 & G4 & G5 & G6 & G7 & G8 & G9 & G10 & G11).
  assert (S1 : step y1 (EReadError UnexpectedEof true) = Some (reconnect y1 true [])).
  { unfold Socket.step. rewrite G3, G2, G8, G5. cbn [andb negb from_io]. rewrite G7, G4. auto. }
  exists (reconnect y1 true []). split; [econstructor; [exact G1| |exact S1]; cbn; discriminate|].
  unfold reconnect. rewrite G9. destruct (y_left y) as [[|m]|]; [congruence| |]; cbn [andb y_conn y_left option_map Nat.pred running y_status y_client y_reply];
    rewrite G10; repeat split; auto.
Qed.
Theorem C42_clients_reached : forall container persistent m, (match persistent with Some n => m <= n | None => True end) ->
  exists y, reach orderly (spawned C container persistent) y /\ y_conn y = 1 + m /\ running y = true /\ y_client y = CIdle.
Proof.
  intros container persistent m Hm.
  enough (exists y, reach orderly (spawned C container persistent) y /\ y_conn y = 1 + m /\ running y = true /\ y_client y = CIdle /\ bytes y = [] /\ y_reply y = None /\
    y_left y = option_map (fun n => n - m) persistent) by (destruct H as (y & ? & ? & ? & ? & _); eauto).
  induction m as [|m IH].
  - exists (spawned C container persistent). repeat split; auto; [constructor|]. cbn. destruct persistent; cbn; auto. rewrite Nat.sub_0_r. auto.
  - destruct IH as (y & G1 & G2 & G3 & G4 & G5 & G6 & G7); [destruct persistent; auto; lia|].
    destruct (@next_client y) as (y' & N1 & N2 & N3 & N4 & N5 & N6 & N7); auto.
    + rewrite G7. destruct persistent; cbn; [|discriminate]. intros E. injection E. lia.
    + exists y'. split; [eapply reach_trans; eauto|]. repeat split; auto; [lia|]. rewrite N3, G7. destruct persistent; cbn; auto. f_equal. lia.
Qed.

(** ** C49: stopping a server *)
(** What the thread can do by itself once the stop signal is sent: it reads what has arrived, fails to read, answers,
    and stops at the top of its loop. *)
Definition thread_event (e : @event K V) : Prop :=
  match e with EStop | ERead | EReadError _ _ | ESend | ESendError _ _ _ => True | _ => False end.
(** Those that do not depend on a failure: what the thread does when it is not blocked. *)
Definition sure (e : @event K V) : Prop := match e with EStop | ERead | ESend => True | EReadError k _ => from_io k = Some TimedOut | _ => False end.
(** Whatever happens to it, the thread ends, in a bounded number of its own steps and without ever blocking. *)
Inductive will_stop (y : sys) : Prop :=
| ws_over : running y = false -> will_stop y
| ws_goes : (exists e y', sure e /\ step y e = Some y') ->
    (forall e y', thread_event e -> step y e = Some y' -> will_stop y') -> will_stop y.
Lemma stop_top y : y_top y = true -> will_stop y.
Proof.
  intros T. destruct (running y) eqn:R; [|constructor 1; auto]. constructor 2.
  - exists EStop. unfold Socket.step. rewrite R, T. cbn. eauto.
  - intros e y' He Hs. constructor 1. destruct e; try contradiction; unfold Socket.step in Hs; rewrite R, T in Hs; cbn [andb negb] in Hs; try discriminate.
    apply Some_inj in Hs. subst. auto.
Qed.
Lemma stop_dead y t : t <> Running -> will_stop (set_status y t).
Proof. intros. constructor 1. destruct t; auto. congruence. Qed.
Lemma stop_reconnect y ok l : running y = true -> will_stop (reconnect y ok l).
Proof. intros R. unfold reconnect. destruct (y_left y) as [[|m]|], ok; cbn [andb]; try (apply stop_top; reflexivity); constructor 1; auto. Qed.
Lemma stop_reply y p : y_reply y = Some p -> will_stop y.
Proof.
  intros Er. destruct (running y) eqn:R; [|constructor 1; auto]. destruct (y_top y) eqn:T; [apply stop_top; auto|]. constructor 2.
  - exists ESend. unfold Socket.step. rewrite R, T, Er. cbn [andb negb]. eexists. split; [exact I|reflexivity].
  - intros e y' He Hs. destruct e; try contradiction; unfold Socket.step in Hs; rewrite R, T, ?Er in Hs; cbn [andb negb] in Hs; try discriminate.
    + apply Some_inj in Hs. subst. apply stop_top. auto.
    + destruct (from_io k) as [[]|]; cbv zeta in Hs; apply Some_inj in Hs; subst; try (apply stop_dead; discriminate).
      match goal with |- will_stop (if ?b then _ else _) => destruct b end; [apply stop_dead; discriminate|apply stop_reconnect; auto].
Qed.
Lemma stop_reading a : forall y, y_arrived y = a -> y_timeout y = true -> will_stop y.
Proof.
  induction a as [|b a IH]; intros y Ea Ht; (destruct (running y) eqn:R; [|constructor 1; auto]); (destruct (y_top y) eqn:T; [apply stop_top; auto|]);
    (destruct (y_reply y) as [p|] eqn:Er; [eapply stop_reply; eauto|]); constructor 2.
  - exists (EReadError TimedOutIo true). unfold Socket.step. rewrite R, T, Er, Ea. cbn [andb negb from_io]. rewrite Ht. eexists. split; reflexivity.
  - intros e y' He Hs. destruct e; try contradiction; unfold Socket.step in Hs; rewrite R, T, ?Er, ?Ea in Hs; cbn [andb negb] in Hs; try discriminate.
    destruct (from_io k) as [[]|].
    + destruct (y_flight y); try discriminate. destruct (y_closed y); try discriminate. apply Some_inj in Hs. subst. apply stop_reconnect; auto.
    + rewrite Ht in Hs. apply Some_inj in Hs. subst. apply stop_top. auto.
    + apply Some_inj in Hs. subst. apply stop_dead; discriminate.
  - exists ERead. unfold Socket.step. rewrite R, T, Er, Ea. cbn [andb negb].
    destruct (de rq (y_partial y ++ [b])) as [r rest| |[]]; [destruct (match_response C (y_store y) r) as [[]|]| | |]; eexists; (split; [exact I|reflexivity]).
  - intros e y' He Hs. destruct e; try contradiction; unfold Socket.step in Hs; rewrite R, T, ?Er, ?Ea in Hs; cbn [andb negb] in Hs; try discriminate.
    destruct (de rq (y_partial y ++ [b])) as [r rest| |[]].
    + destruct (match_response C (y_store y) r) as [[s' p]|]; apply Some_inj in Hs; subst; [eapply stop_reply; reflexivity|apply stop_dead; discriminate].
    + apply Some_inj in Hs. subst. apply IH; auto.
    + apply Some_inj in Hs. subst. eapply stop_reply; reflexivity.
    + apply Some_inj in Hs. subst. apply stop_dead; discriminate.
Qed.
(** A thread that waits on a stream without timeout is blocked. *)
Lemma blocked y : running y = true -> y_top y = false -> y_reply y = None -> y_arrived y = [] -> y_timeout y = false -> ~ will_stop y.
Proof.
  intros R T Er Ea Ht H. destruct H as [H|(e & y' & He & Hs) _]; [congruence|].
  destruct e as [r|n| |n| | | |k ok| |k ok ok2]; try contradiction; unfold Socket.step in Hs; rewrite R, T, ?Er, ?Ea in Hs; cbn [andb negb] in Hs; try discriminate.
  cbn [sure] in He. rewrite He, Ht in Hs. discriminate.
Qed.
(** While the thread serves its first client, it can always be stopped. *)
Theorem C49_first_client_partial : forall container persistent y, reach (fun _ _ => True) (spawned C container persistent) y -> y_conn y = 1 -> will_stop y.
Proof.
  intros container persistent y H. assert (G : 1 <= y_conn y /\ (y_conn y = 1 -> y_timeout y = true)).
  { induction H as [|y e y' Hr [IH1 IH2] _ H]; [cbn; auto|].
    assert (RC : forall ok l, 1 <= y_conn (reconnect y ok l) /\ (y_conn (reconnect y ok l) = 1 -> y_timeout (reconnect y ok l) = true)).
    { intros ok l. unfold reconnect. destruct (y_left y) as [[|m]|], ok; cbn [andb y_conn y_timeout]; split; auto; lia. }
    destruct e; cases H; try (cbn [set_server set_status y_conn y_timeout]; auto; fail); try (apply RC; fail).
    match goal with |- context [if ?b then _ else _] => destruct b end; apply RC. }
  intros Hc. eapply stop_reading; eauto. tauto.
Qed.
(** A client that has left, or whose call panicked, has closed its connection; a client that has not left has not. *)
Theorem C49_gone_means_closed : forall container persistent y, reach (fun _ _ => True) (spawned C container persistent) y ->
  (y_client y = CGone <-> y_closed y = true).
Proof.
  intros container persistent y H. induction H as [|y e y' Hr IH _ H]; [cbn; split; discriminate|].
  assert (RC : forall ok l, y_client (reconnect y ok l) = CGone <-> y_closed (reconnect y ok l) = true).
  { intros ok l. unfold reconnect. destruct (y_left y) as [[|m]|], ok; cbn [andb y_client y_closed]; auto; split; discriminate. }
  destruct e; cases H; try (cbn [set_server set_status y_client y_closed]; auto; fail); try (apply RC; fail);
    try (cbn [y_client y_closed]; split; auto; fail).
  all: try (match goal with |- context [if ?b then _ else _] => destruct b end; apply RC).
  all: cbn [y_client y_closed]; split; try discriminate; intros X; apply IH in X; congruence.
Qed.
(** So a server that has read everything the client sent and answered notices that the client is gone, whatever made it
    leave: it can serve the next client, or stop if it may not serve another. *)
Theorem C49_gone_client_noticed : forall container persistent y ok, reach (fun _ _ => True) (spawned C container persistent) y ->
  y_client y = CGone -> running y = true -> y_top y = false -> y_flight y = [] -> y_arrived y = [] -> y_reply y = None ->
  exists y', step y (EReadError UnexpectedEof ok) = Some y' /\
    (y_left y <> Some 0 -> ok = true -> running y' = true /\ y_conn y' = S (y_conn y) /\ y_client y' = CIdle) /\
    (y_left y = Some 0 -> y_status y' = Stopped).
Proof.
  intros container persistent y ok H Hg R T Hf Ha Hr. apply (C49_gone_means_closed H) in Hg.
  unfold Socket.step. rewrite R, T, Hr, Ha, Hf, Hg. cbn [andb negb from_io]. eexists. split; [reflexivity|].
  unfold reconnect. destruct (y_left y) as [[|m]|], ok; cbn [andb]; split; intros; try congruence; auto.
Qed.
(** The same with everything that can happen meanwhile: the stop signal is pending, so the thread stops at the top of its
    loop.  However the events of the client and of the network are interleaved with its own steps, the thread makes at
    most three of them more than the number of bytes on their way to it, those of later calls included. *)
Definition called (es : list (@event K V)) : nat :=
  list_sum (map (fun e => match e with ECall r => length (enc rq r) | _ => 0 end) es).
Definition own_steps (es : list (@event K V)) : nat :=
  list_sum (map (fun e => match e with EStop | ERead | EReadError _ _ | ESend | ESendError _ _ _ => 1 | _ => 0 end) es).
Definition to_go (y : sys) : nat :=
  if running y then if y_top y then 1 else match y_reply y with Some _ => 2 | None => 3 + length (y_arrived y) + length (y_flight y) end else 0.
Lemma to_go_reconnect y ok l : to_go (reconnect y ok l) <= 1.
Proof. unfold to_go, reconnect. destruct (y_left y) as [[|m]|], ok; cbn [andb running y_status y_top]; lia. Qed.
Lemma to_go_dead y t : t <> Running -> to_go (set_status y t) = 0.
Proof. intros. unfold to_go. destruct t; auto. congruence. Qed.
Lemma to_go_step y e y' : step y e = Some y' -> e <> ELoop -> to_go y' + own_steps [e] <= to_go y + called [e].
Proof.
  intros H Hl. unfold own_steps, called. cbn [map list_sum fold_right]. destruct e as [r|n| |n| | | |k ok| |k ok ok2]; try congruence; rewrite ?Nat.add_0_r.
  - cases H. unfold to_go, running. cbn [y_status y_top y_reply y_arrived y_flight]. rewrite app_length.
    destruct (y_status y), (y_top y), (y_reply y); lia.
  - cases H. unfold to_go, running. cbn [y_status y_top y_reply y_arrived y_flight]. rewrite app_length, firstn_length, skipn_length.
    destruct (y_status y), (y_top y), (y_reply y); lia.
  - cases H; unfold to_go, running in *; cbn [y_status y_top y_reply y_arrived y_flight]; destruct (y_status y), (y_top y), (y_reply y); lia.
  - cases H; unfold to_go, running in *; cbn [y_status y_top y_reply y_arrived y_flight]; rewrite firstn_length; destruct (y_status y), (y_top y), (y_reply y); lia.
  - cases H. rewrite to_go_dead by discriminate. apply andb_prop in Heqb. unfold to_go. destruct Heqb as [-> ->]. lia.
  - assert (G : running y && negb (y_top y) = true -> y_reply y = None -> to_go y = 3 + length (y_arrived y) + length (y_flight y)).
    { intros E Er. apply andb_prop in E. destruct E as [E1 E2]. unfold to_go. rewrite E1, Er. destruct (y_top y); [discriminate|auto]. }
    cases H; rewrite ?to_go_dead by discriminate; rewrite G by auto; cbn [length]; unfold to_go, running in *; cbn [set_server y_status y_top y_reply y_arrived y_flight];
      destruct (y_status y); cbn [andb] in *; try discriminate; lia.
  - assert (G : running y && negb (y_top y) = true -> y_reply y = None -> to_go y = 3 + length (y_arrived y) + length (y_flight y)).
    { intros E Er. apply andb_prop in E. destruct E as [E1 E2]. unfold to_go. rewrite E1, Er. destruct (y_top y); [discriminate|auto]. }
    cases H; rewrite ?to_go_dead by discriminate; rewrite G by auto.
    + pose proof (to_go_reconnect y ok []). lia.
    + unfold to_go. change (y_top (set_server y (y_store y) true [] [] None (y_back y) (y_served y))) with true. destruct (running _); lia.
    + lia.
  - cases H. apply andb_prop in Heqb. destruct Heqb as [E1 E2]. unfold to_go at 2. rewrite E1, Heqo. destruct (y_top y); [discriminate|].
    unfold to_go. cbn [set_server y_top]. destruct (running _); lia.
  - assert (G : running y && negb (y_top y) = true -> forall p, y_reply y = Some p -> to_go y = 2).
    { intros E p Er. apply andb_prop in E. destruct E as [E1 E2]. unfold to_go. rewrite E1, Er. destruct (y_top y); [discriminate|auto]. }
    cases H; rewrite ?to_go_dead by discriminate; rewrite (G eq_refl _ eq_refl); auto.
    match goal with |- context [if ?b then _ else _] => destruct b end; [rewrite to_go_dead by discriminate; lia|].
    match goal with |- context [reconnect y ?o ?l] => pose proof (to_go_reconnect y o l) end. lia.
Qed.
Theorem C49_bounded_steps_partial : forall es y y', steps y es = Some y' -> ~ In ELoop es ->
  own_steps es <= 3 + length (y_arrived y) + length (y_flight y) + called es.
Proof.
  intros es y y' H Hn. assert (G : to_go y' + own_steps es <= to_go y + called es).
  { revert y H. induction es as [|e es IH]; intros y H; cbn [Socket.steps] in H.
    - apply Some_inj in H. subst. unfold own_steps, called. cbn. lia.
    - destruct (step y e) as [y1|] eqn:E; [|discriminate]. assert (E0 : e <> ELoop) by (intros ->; apply Hn; left; auto).
      assert (Hn' : ~ In ELoop es) by (intros X; apply Hn; right; auto).
      specialize (IH Hn' _ H). pose proof (to_go_step _ E E0) as G. unfold own_steps, called in *. cbn [map list_sum fold_right] in *. rewrite !Nat.add_0_r in *.
      change (fold_right Init.Nat.add 0) with list_sum in *. lia. }
  assert (to_go y <= 3 + length (y_arrived y) + length (y_flight y)); [|lia].
  unfold to_go. destruct (running y), (y_top y), (y_reply y); lia.
Qed.
End PSocket.

(** ** Examples and refutations *)
(** A server for an Array, with keys and values of type usize. *)
Definition arrayB : Block nat nat := ArrayB (std_sorter snd) linear_bs.
Definition server (persistent : option nat) : sys arrayB := spawned arrayB (array_new 2 (fun _ => 1)) persistent.
Definition u : codec nat := usize_codec.
Notation run y es := (@steps nat nat arrayB u u y es).
Definition reads (n : nat) : list (@event nat nat) := repeat ERead n.
(** A whole exchange for a request of [n] bytes, cut in two by the network. *)
Definition exchange (r : request nat nat) (n : nat) : list (@event nat nat) :=
  [ECall r; EDeliver 3; ELoop] ++ reads 3 ++ [EDeliver n] ++ reads (n - 3) ++ [ESend; EReceive].
(** The hypotheses of C41 and C42 are met by real exchanges. *)
Definition two_calls : list (@event nat nat) := exchange (QPush [(1, 1)]) 28 ++ exchange (QContains 1) 12.
(** A schedule without connection loss, where no timeout cuts a request; all its requests are valid. *)
Definition calmb (y : sys arrayB) (e : @event nat nat) : bool :=
  match e with
  | ECall _ | EDeliver _ | EReceive | ELoop | ERead | ESend => true
  | EReadError (TimedOutIo | WouldBlock) _ => match y_partial y with [] => true | _ => false end
  | _ => false
  end.
Definition call_valid (e : @event nat nat) : Prop := match e with ECall r => request_valid u u r | _ => True end.
Fixpoint all_calm (y : sys arrayB) (es : list (@event nat nat)) : bool :=
  match es with
  | [] => true
  | e :: es' => calmb y e && match step u u y e with Some y' => all_calm y' es' | None => false end
  end.
Lemma all_calm_reach es : forall y, Forall call_valid es -> all_calm y es = true -> exists y', run y es = Some y' /\ reach u u (calm u u) y y'.
Proof.
  induction es as [|e es IH]; intros y Hv H; cbn [steps all_calm] in *.
  - exists y. split; auto. constructor.
  - apply andb_prop in H. destruct H as [H1 H2]. inversion Hv as [|? ? Hv1 Hv2]; subst.
    destruct (step u u y e) as [y1|] eqn:S; [|discriminate]. destruct (IH y1 Hv2 H2) as (y' & G1 & G2). exists y'. split; auto.
    eapply reach_trans; [eapply reach_one; [|exact S]|exact G2]. destruct e as [r|n| |n| | | |k ok| |k ok ok2]; cbn in *; auto; try discriminate.
    destruct k; try discriminate; (split; [auto|]); destruct (y_partial y); auto; discriminate.
Qed.
Lemma two_calls_valid : Forall call_valid two_calls.
Proof.
  unfold two_calls, exchange, reads. cbn [app repeat Nat.sub]. repeat (constructor; [try exact I|]); try constructor; cbn [call_valid request_valid].
Qed.
Theorem C41_example : exists y, reach u u (calm u u) (server (Some 0)) y /\ fits u u y /\ y_client y = CIdle /\
  y_got y = results [(QPush [(1, 1)], VPairs []); (QContains 1, VBool true)] /\ a_vals (y_store y) = [(1, 1)].
Proof.
  destruct (@all_calm_reach two_calls (server (Some 0)) two_calls_valid) as (y & E & R); [vm_compute; reflexivity|]. exists y. split; [exact R|].
  assert (G : match run (server (Some 0)) two_calls with
    | Some z => y_client z = CIdle /\ y_got z = results [(QPush [(1, 1)], VPairs []); (QContains 1, VBool true)] /\ a_vals (y_store z) = [(1, 1)] /\
        y_served z = [(1, QPush [(1, 1)], PPush []); (1, QContains 1, PContains true)]
    | None => False end) by (vm_compute; auto).
  rewrite E in G. destruct G as (G1 & G2 & G3 & G4). repeat split; auto. unfold fits. rewrite G4. constructor; [|constructor; [exact I|constructor]].
  cbn [snd response_valid]. split; [reflexivity|constructor].
Qed.

(** C41 does not hold when the 100 ms timeout of the server's reads cuts a request in two: the first half is dropped
    and the rest is taken for another request.  Here pop(7) empties the container as flush() would, and the client
    panics, whereas pop(7) on the container returns the element. *)
Definition cut_pop : list (@event nat nat) :=
  [ECall (QPop 7); EDeliver 4; ELoop] ++ reads 4 ++ [EReadError TimedOutIo true; ELoop; EDeliver 8] ++ reads 4 ++ [ESend; EReceive].
Theorem C41_cut_request_refuted :
  match run (server (Some 0)) (exchange (QPush [(1, 1)]) 28) with
  | Some y1 => match run y1 cut_pop with
      | Some y2 => y_got y2 = y_got y1 ++ [(1, QPop 7, None)] /\ a_vals (y_store y2) = [] /\ running y2 = true
      | None => False
      end /\ match direct arrayB (y_store y1) (QPop 7) with Ok (_, v) => v = VPairs [(1, 1)] | Panic => False end
  | None => False
  end.
Proof. vm_compute. auto. Qed.
(** The same schedule, for C42: the server answers to flush(), that no client called. *)
Theorem C42_cut_request_refuted :
  match run (server (Some 0)) (exchange (QPush [(1, 1)]) 28 ++ cut_pop) with
  | Some y => In (1, QFlush, PFlush [(1, 1)]) (y_served y) /\ ~ In (1, QFlush) (sent y)
  | None => False
  end.
Proof. vm_compute. split; [auto|]. intros [H|[H|[]]]; discriminate H. Qed.
(** Were a write to fail with UnexpectedEof, the response to the former client would be sent to the new one, which
    would take it for its own: here the second client, calling pop, gets the answer to the pop of the first. *)
Definition resend : list (@event nat nat) :=
  exchange (QPush [(1, 1)]) 28 ++ [ECall (QPop 1); EDeliver 12; ELoop] ++ reads 12 ++ [EClose 0; ESendError UnexpectedEof true true; ECall (QPop 2); EReceive].
Theorem C42_resend_refuted :
  match run (server (Some 1)) resend with
  | Some y => y_conn y = 2 /\ y_served y = [(1, QPush [(1, 1)], PPush []); (1, QPop 1, PPop [(1, 1)])] /\
      In (2, QPop 2, Some (VPairs [(1, 1)])) (y_got y)
  | None => False
  end.
Proof. vm_compute. auto 8. Qed.
(** The documented case, a client that goes away while its response is being sent (the write then fails with
    BrokenPipe or ConnectionReset), is not handled: the thread panics, whatever the number of reconnections left. *)
Theorem C42_disconnected_while_sending_refuted : forall persistent,
  match run (server persistent) ([ECall QSize; EDeliver 4; ELoop] ++ reads 4 ++ [EClose 0; ESendError OtherIo true true]) with
  | Some y => y_status y = Panicked
  | None => False
  end.
Proof. intros. vm_compute. auto. Qed.
(** C49 fails from the second client on: its stream has no read timeout, so a thread that waits for a request of a
    silent client never looks at the stop signal again. *)
Definition second_client : list (@event nat nat) := [EClose 0; ELoop; EReadError UnexpectedEof true; ELoop].
Theorem C49_second_client_refuted : exists y, run (server (Some 1)) second_client = Some y /\
  running y = true /\ y_client y = CIdle /\ y_conn y = 2 /\ ~ will_stop u u y.
Proof.
  assert (G : match run (server (Some 1)) second_client with
    | Some y => running y = true /\ y_client y = CIdle /\ y_conn y = 2 /\ y_top y = false /\ y_reply y = None /\ y_arrived y = [] /\ y_timeout y = false
    | None => False end) by (vm_compute; auto 10).
  destruct (run (server (Some 1)) second_client) as [y|]; [|contradiction]. exists y. destruct G as (G1 & G2 & G3 & G4 & G5 & G6 & G7).
  repeat split; auto. apply blocked; auto.
Qed.
(** The first client: the hypothesis is met by a server in the middle of a request. *)
Theorem C49_example : match run (server None) [ECall (QPop 7); EDeliver 4; ELoop; ERead] with
  | Some y => y_conn y = 1 /\ running y = true /\ length (y_arrived y) = 3
  | None => False
  end.
Proof. vm_compute. auto. Qed.
