(** PBuffers.v -- property theorems about SocketClient and its server over bounded buffers: C69. *)
From Coq Require Import NArith Strings.Byte.
From Verif Require Import Base Block Array Bincode Socket PSocket Buffers.
Set Implicit Arguments.

Section PBuffers.
Context {K V : Type}.
Variable C : Block K V.
Variable ck : codec K.
Variable cv : codec V.
Notation request := (request K V).
Notation response := (response K V).
Notation value := (value K V).
Notation sys := (sys C).
Notation bsys := (bsys C).
Notation rq := (request_codec ck cv).
Notation rp := (response_codec ck cv).
Variables up down : nat.
Notation bstep := (@bstep K V C ck cv up down).
Notation bsteps := (@bsteps K V C ck cv up down).

(** Executions, and what is assumed of the environment: as in PSocket.v. *)
Inductive breach (allowed : bsys -> bevent K V -> Prop) (b0 : bsys) : bsys -> Prop :=
| breach_start : breach allowed b0 b0
| breach_step b e b' : breach allowed b0 b -> allowed b e -> bstep b e = Some b' -> breach allowed b0 b'.
Definition bcalm (b : bsys) (e : bevent K V) : Prop :=
  match e with
  | BCall r => request_valid ck cv r
  | BPut _ | BDeliver _ | BGet | BFail | BLoop | BRead | BSend _ => True
  | BReadError k _ => from_io k = Some TimedOut /\ y_partial (b_y b) = []
  | BClose _ | BStop | BSendError _ _ _ => False
  end.
Lemma breach_trans allowed b0 b1 b2 : breach allowed b0 b1 -> breach allowed b1 b2 -> breach allowed b0 b2.
Proof. intros H1 H2. induction H2; auto. econstructor; eauto. Qed.
Lemma breach_one (allowed : bsys -> bevent K V -> Prop) b e b' : allowed b e -> bstep b e = Some b' -> breach allowed b b'.
Proof. intros. econstructor; eauto. constructor. Qed.

Definition total (b : bsys) : list byte := b_read b ++ y_back (b_y b).
(** A call [r] in progress, made on the container in state [s]. *)
Definition in_call (b : bsys) (r : request) (s : St C) : Prop :=
  let y := b_y b in
  y_client y = CWaiting r /\ request_valid ck cv r /\ running y = true /\ y_closed y = false /\ de rp (b_read b) = More /\
  ((y_store y = s /\ y_partial y ++ y_arrived y ++ y_flight y ++ b_todo b = enc rq r /\ y_arrived y ++ y_flight y ++ b_todo b <> [] /\
    y_reply y = None /\ b_read b = [] /\ y_back y = [] /\ b_sent b = 0) \/
   (exists s' p, match_response C s r = Ok (s', p) /\ response_valid ck cv p /\ y_store y = s' /\
      y_partial y = [] /\ y_arrived y = [] /\ y_flight y = [] /\ b_todo b = [] /\
      ((y_reply y = Some p /\ y_top y = false /\ b_sent b < length (enc rp p) /\ total b = firstn (b_sent b) (enc rp p)) \/
       (y_reply y = None /\ b_sent b = 0 /\ total b = enc rp p)))).
Definition dead_call (b : bsys) (r : request) (s : St C) : Prop :=
  y_client (b_y b) = CWaiting r /\ match_response C s r = Panic /\ y_status (b_y b) = Panicked /\ b_read b = [] /\ y_back (b_y b) = [].
Definition idle (b : bsys) (s : St C) : Prop :=
  let y := b_y b in
  y_client y = CIdle /\ y_store y = s /\ running y = true /\ y_closed y = false /\ y_partial y = [] /\ y_arrived y = [] /\ y_flight y = [] /\
  b_todo b = [] /\ y_reply y = None /\ y_back y = [] /\ b_sent b = 0.
Definition binv (s0 : St C) (b : bsys) : Prop := exists l s, direct_all C s0 l s /\ y_conn (b_y b) = 1 /\
  ((y_got (b_y b) = results l /\ (idle b s \/ exists r, in_call b r s \/ dead_call b r s)) \/
   (exists r, y_client (b_y b) = CGone /\ y_status (b_y b) = Panicked /\ y_got (b_y b) = results l ++ [(1, r, None)] /\ match_response C s r = Panic)).

(** The events that make the call progress, and how many of them are left; [n]: the size of the response. *)
Definition useful (e : bevent K V) : nat := match e with BLoop | BReadError _ _ => 0 | _ => 1 end.
Definition pending (b : bsys) (n : nat) : nat :=
  match y_reply (b_y b), total b with Some _, _ => 2 * (n - b_sent b) | None, [] => 2 * n | None, _ => 0 end.
Definition work (b : bsys) (n : nat) : nat :=
  3 * length (b_todo b) + 2 * length (y_flight (b_y b)) + length (y_arrived (b_y b)) + length (y_back (b_y b)) + pending b n.

Local Ltac cases H :=
  unfold Buffers.bstep, Socket.step in H; cbv zeta in H; unfold lift in H;
  repeat match type of H with
  | match ?x with _ => _ end = Some _ => destruct x eqn:?; try discriminate H
  end; try (apply Some_inj in H; subst).
Lemma enc_response_nonempty (p : response) : enc rp p <> [].
Proof. intros H. apply (f_equal (@length byte)) in H. cbn [response_codec enc] in H. rewrite app_length, le_length in H. cbn in H. lia. Qed.
Lemma more_nil : de rp [] = More.
Proof. reflexivity. Qed.

Definition expects (r : request) (s : St C) : nat := match match_response C s r with Ok (_, p) => length (enc rp p) | Panic => 0 end.
Lemma conn_same (y : sys) : (y_conn y =? y_conn y) = true.
Proof. apply Nat.eqb_refl. Qed.

(** One step of a call in progress. *)
Lemma call_step b r s e b' : in_call b r s -> bcalm b e -> bstep b e = Some b' -> fits ck cv (b_y b') ->
  y_conn (b_y b') = y_conn (b_y b) /\
  ((y_got (b_y b') = y_got (b_y b) /\ in_call b' r s /\ work b' (expects r s) + useful e <= work b (expects r s)) \/
   (y_got (b_y b') = y_got (b_y b) /\ dead_call b' r s) \/
   (exists s' v, e = BGet /\ direct C s r = Ok (s', v) /\ y_got (b_y b') = y_got (b_y b) ++ [(y_conn (b_y b), r, Some v)] /\ idle b' s' /\ 1 <= work b (expects r s))).
Proof.
  intros (Hc & Hv & R & Hcl & Hm & Hp) Ho Hs F.
  destruct e as [q|n|n| | |n| | | |k ok|n|k ok ok2]; cbn [bcalm] in Ho; try contradiction.
  - (* BCall *) unfold Buffers.bstep in Hs. rewrite Hc in Hs. discriminate.
  - (* BPut *)
    cases Hs. split; [reflexivity|]. left. split; [reflexivity|].
    apply andb_prop in Heqb0. destruct Heqb0 as [Heqb0 E4]. apply andb_prop in Heqb0. destruct Heqb0 as [Heqb0 E3]. apply andb_prop in Heqb0. destruct Heqb0 as [_ E2].
    apply Nat.leb_le in E2, E3, E4.
    destruct Hp as [(P1 & P2 & P3 & P4 & P5 & P6 & P7)|(s' & p & _ & _ & _ & _ & _ & _ & P & _)]; [|rewrite P in E3; cbn in E3; lia].
    split.
    + unfold in_call. cbn [b_y b_todo b_read b_sent with_client y_client y_closed y_store y_partial y_arrived y_flight y_reply y_back].
      repeat (split; [auto|]). left. repeat (split; [auto|]).
      * rewrite <- P2, <- !app_assoc, firstn_skipn. auto.
      * intros E. apply P3. apply app_eq_nil in E. destruct E as [-> E]. rewrite <- app_assoc, firstn_skipn in E. auto.
      * auto.
    + unfold work, pending, total. cbn [b_y b_todo b_read b_sent with_client y_arrived y_flight y_reply y_back useful]. rewrite app_length, firstn_length, skipn_length. lia.
  - (* BDeliver *)
    cases Hs. apply andb_prop in Heqb0. destruct Heqb0 as [E2 E3]. apply Nat.leb_le in E2, E3. rewrite Nat.eqb_refl. cbn [y_conn b_y].
    split; [reflexivity|]. left. split; [reflexivity|].
    destruct Hp as [(P1 & P2 & P3 & P4 & P5 & P6 & P7)|(s' & p & _ & _ & _ & _ & _ & P & _)]; [|rewrite P in E3; cbn in E3; lia].
    split.
    + unfold in_call. cbn [b_y b_todo b_read b_sent y_client y_closed y_store y_partial y_arrived y_flight y_reply y_back].
      repeat (split; [auto|]). left. repeat (split; [auto|]); [| |auto].
      * rewrite <- P2, <- !app_assoc. do 2 f_equal. rewrite app_assoc, firstn_skipn. auto.
      * intros E. apply P3. rewrite <- app_assoc in E. rewrite <- (firstn_skipn n (y_flight (b_y b))), <- app_assoc. auto.
    + unfold work, pending, total. cbn [b_y b_todo b_read b_sent y_arrived y_flight y_reply y_back useful]. rewrite app_length, firstn_length, skipn_length. lia.
  - (* BGet *)
    destruct Hp as [(_ & _ & _ & _ & _ & P & _)|(s' & p & P1 & P2 & P3 & P4 & P5 & P6 & P7 & P8)].
    { unfold Buffers.bstep in Hs. rewrite Hc, P in Hs. destruct (b_todo b); discriminate. }
    unfold Buffers.bstep in Hs. cbv zeta in Hs. rewrite Hc, P7 in Hs. destruct (y_back (b_y b)) as [|x rest] eqn:Eb; [discriminate|].
    destruct P8 as [(Q1 & Q2 & Q3 & Q4)|(Q1 & Q2 & Q3)].
    + assert (M : de rp (b_read b ++ [x]) = More).
      { apply (@c_part _ rp p (b_read b ++ [x]) (rest ++ skipn (b_sent b) (enc rp p))); auto.
        - rewrite <- (firstn_skipn (b_sent b) (enc rp p)) at 1. rewrite <- Q4. unfold total. rewrite Eb, <- !app_assoc. auto.
        - intros E. apply app_eq_nil in E. destruct E as [_ E]. apply (f_equal (@length byte)) in E. rewrite skipn_length in E. cbn [length] in E. lia. }
      rewrite M in Hs. apply Some_inj in Hs. subst b'. split; [reflexivity|]. left. split; [reflexivity|]. split.
      * unfold in_call. cbn [b_y b_todo b_read b_sent with_client y_client y_closed y_store y_partial y_arrived y_flight y_reply y_back y_top].
        repeat (split; [auto|]). right. exists s', p. repeat (split; [auto|]). left. repeat (split; [auto|]).
        unfold total in *. cbn [b_read b_y with_client y_back]. rewrite Eb in Q4. rewrite <- app_assoc. auto.
      * unfold work, pending. cbn [b_y b_todo b_read b_sent with_client y_arrived y_flight y_reply y_back useful]. rewrite Q1, Eb, P7. cbn [length]. lia.
    + destruct rest as [|x2 rest].
      * assert (M : de rp (b_read b ++ [x]) = Done p []).
        { unfold total in Q3. rewrite Eb in Q3. rewrite Q3. pose proof (@c_full _ rp p [] P2) as G. rewrite app_nil_r in G. exact G. }
        rewrite M in Hs. assert (G := match_direct C s r). rewrite P1 in G. destruct G as (v & G1 & G2). rewrite G1 in Hs.
        apply Some_inj in Hs. subst b'. split; [reflexivity|]. right. right. exists s', v. do 3 (split; [auto|]). split.
        -- unfold idle. cbn [b_y b_todo b_sent with_client y_client y_closed y_store y_partial y_arrived y_flight y_reply y_back]. repeat (split; [auto|]). auto.
        -- unfold work. rewrite Eb. cbn [length]. lia.
      * assert (M : de rp (b_read b ++ [x]) = More).
        { apply (@c_part _ rp p (b_read b ++ [x]) (x2 :: rest)); auto; [|discriminate]. rewrite <- Q3. unfold total. rewrite Eb, <- !app_assoc. auto. }
        rewrite M in Hs. apply Some_inj in Hs. subst b'. split; [reflexivity|]. left. split; [reflexivity|]. split.
        -- unfold in_call. cbn [b_y b_todo b_read b_sent with_client y_client y_closed y_store y_partial y_arrived y_flight y_reply y_back y_top].
           repeat (split; [auto|]). right. exists s', p. repeat (split; [auto|]). right. repeat (split; [auto|]).
           unfold total in *. cbn [b_read b_y with_client y_back]. rewrite Eb in Q3. rewrite <- app_assoc. auto.
        -- unfold work, pending, total. cbn [b_y b_todo b_read b_sent with_client y_arrived y_flight y_reply y_back useful]. rewrite Q1, Eb, P7. cbn [length].
           destruct ((b_read b ++ [x]) ++ x2 :: rest) eqn:E1; [destruct (b_read b); discriminate|].
           destruct (b_read b ++ x :: x2 :: rest) eqn:E2; [destruct (b_read b); discriminate|]. lia.
  - (* BFail *) unfold Buffers.bstep in Hs. cbv zeta in Hs. rewrite Hc, R in Hs. discriminate.
  - (* BLoop *)
    unfold Buffers.bstep, Socket.step, lift in Hs. cbv zeta in Hs. rewrite R in Hs. cbn [andb] in Hs. destruct (y_top (b_y b)) eqn:T; [|discriminate].
    cbn [set_server y_conn] in Hs. rewrite Nat.eqb_refl in Hs. apply Some_inj in Hs. subst b'. split; [reflexivity|]. left. split; [reflexivity|]. split.
    + unfold in_call. cbn [b_y b_todo b_read b_sent set_server y_client y_closed y_store y_partial y_arrived y_flight y_reply y_back y_top].
      repeat (split; [auto|]). destruct Hp as [P|(s' & p & P1 & P2 & P3 & P4 & P5 & P6 & P7 & [(_ & Q & _)|P8])]; [left; exact P|congruence|].
      right. exists s', p. repeat (split; [auto|]). right. exact P8.
    + unfold work, pending, total. cbn [b_y b_todo b_read b_sent set_server y_arrived y_flight y_reply y_back useful]. lia.
  - (* BRead *)
    unfold Buffers.bstep, Socket.step, lift in Hs. cbv zeta in Hs. rewrite R in Hs. cbn [andb] in Hs. destruct (negb (y_top (b_y b))) eqn:T; [|discriminate].
    destruct Hp as [(P1 & P2 & P3 & P4 & P5 & P6 & P7)|(s' & p & _ & _ & _ & _ & P & _)]; [|rewrite P in Hs; destruct (y_reply (b_y b)); discriminate].
    rewrite P4 in Hs. destruct (y_arrived (b_y b)) as [|x a] eqn:Ea; [discriminate|].
    assert (E : (y_partial (b_y b) ++ (x :: a) ++ y_flight (b_y b)) ++ b_todo b = enc rq r) by (rewrite <- P2, <- !app_assoc; auto).
    destruct (read_byte _ _ _ _ _ Hv E) as [[E1 E2]|[E1 E2]].
    + rewrite E2 in Hs. apply app_eq_nil in E1. destruct E1 as [-> E1]. apply app_eq_nil in E1. destruct E1 as [Ef Et].
      destruct (match_response C (y_store (b_y b)) r) as [[s' p]|] eqn:M.
      * cbn [set_server y_conn] in Hs. rewrite Nat.eqb_refl in Hs. apply Some_inj in Hs. subst b'. split; [reflexivity|]. left. split; [reflexivity|]. split.
        -- unfold in_call. cbn [b_y b_todo b_read b_sent set_server y_client y_closed y_store y_partial y_arrived y_flight y_reply y_back y_top].
           repeat (split; [auto|]). right. exists s', p. repeat (split; [congruence|]). 
           split. { unfold fits in F. cbn [b_y set_server y_served] in F. apply Forall_app in F. destruct F as [_ F]. inversion F; auto. }
           do 5 (split; [auto|]). left. do 2 (split; [auto|]). unfold total. cbn [b_read b_y set_server y_back b_sent]. rewrite P5, P6, P7.
           split; [|reflexivity]. pose proof (@enc_response_nonempty p). destruct (enc rp p); [congruence|cbn [length]; lia].
        -- unfold work, pending, total. cbn [b_y b_todo b_read b_sent set_server y_arrived y_flight y_reply y_back useful]. rewrite P4, P5, P6, P7, Ea. cbn [app length]. lia.
      * cbn [set_status y_conn] in Hs. rewrite Nat.eqb_refl in Hs. apply Some_inj in Hs. subst b'. split; [reflexivity|]. right. left. split; [reflexivity|].
        unfold dead_call. cbn [b_y b_read set_status y_client y_status y_back]. rewrite <- P1. auto.
    + rewrite E2 in Hs. cbn [set_server y_conn] in Hs. rewrite Nat.eqb_refl in Hs. apply Some_inj in Hs. subst b'. split; [reflexivity|]. left. split; [reflexivity|]. split.
      * unfold in_call. cbn [b_y b_todo b_read b_sent set_server y_client y_closed y_store y_partial y_arrived y_flight y_reply y_back y_top].
        repeat (split; [auto|]). left. split; [auto|]. split; [rewrite <- P2, <- app_assoc; reflexivity|]. repeat (split; [auto|]). auto.
      * unfold work, pending, total. cbn [b_y b_todo b_read b_sent set_server y_arrived y_flight y_reply y_back useful]. rewrite P4, P5, P6, Ea. cbn [app length]. lia.
  - (* BReadError: a timeout *)
    destruct Ho as [Hk Hpart].
    unfold Buffers.bstep, Socket.step, lift in Hs. cbv zeta in Hs. rewrite R in Hs. cbn [andb] in Hs. destruct (negb (y_top (b_y b))) eqn:T; [|discriminate].
    destruct (y_reply (b_y b)) eqn:Er; [discriminate|]. destruct (y_arrived (b_y b)) eqn:Ea; [|discriminate]. rewrite Hk in Hs. destruct (y_timeout (b_y b)); [|discriminate].
    cbn [set_server y_conn] in Hs. rewrite Nat.eqb_refl in Hs. apply Some_inj in Hs. subst b'. split; [reflexivity|]. left. split; [reflexivity|]. split.
    + unfold in_call. cbn [b_y b_todo b_read b_sent set_server y_client y_closed y_store y_partial y_arrived y_flight y_reply y_back y_top].
      repeat (split; [auto|]). destruct Hp as [P|(s' & p & P1 & P2 & P3 & P4 & P5 & P6 & P7 & [(Q & _)|P8])].
      * left. rewrite Hpart in P. exact P.
      * discriminate.
      * right. exists s', p. repeat (split; [auto|]). right. exact P8.
    + unfold work, pending, total. cbn [b_y b_todo b_read b_sent set_server y_arrived y_flight y_reply y_back useful]. rewrite Er, Ea. lia.
  - (* BSend *)
    destruct Hp as [(_ & _ & _ & P & _)|(s' & p & P1 & P2 & P3 & P4 & P5 & P6 & P7 & [(Q1 & Q2 & Q3 & Q4)|(P & _)])].
    1, 3: unfold Buffers.bstep in Hs; cbv zeta in Hs; rewrite P in Hs; destruct (running (b_y b) && negb (y_top (b_y b))); discriminate.
    unfold Buffers.bstep in Hs. cbv zeta in Hs. rewrite R, Q1, Q2 in Hs. cbn [andb negb] in Hs.
    match type of Hs with (if ?c then _ else _) = _ => destruct c eqn:E; [|discriminate] end.
    apply andb_prop in E. destruct E as [E E3]. apply andb_prop in E. destruct E as [E1 E2]. apply Nat.leb_le in E1, E2. rewrite skipn_length in E2, Hs.
    destruct (n =? length (enc rp p) - b_sent b) eqn:En.
    + apply Nat.eqb_eq in En. apply Some_inj in Hs. subst b'. split; [reflexivity|]. left. split; [reflexivity|].
      assert (T : b_read b ++ y_back (b_y b) ++ firstn n (skipn (b_sent b) (enc rp p)) = enc rp p).
      { rewrite firstn_all2 by (rewrite skipn_length; lia). rewrite app_assoc. fold (total b). rewrite Q4, firstn_skipn. auto. }
      split.
      * unfold in_call. cbn [b_y b_todo b_read b_sent set_server y_client y_closed y_store y_partial y_arrived y_flight y_reply y_back y_top].
        repeat (split; [auto|]). right. exists s', p. repeat (split; [auto|]). right. repeat (split; [auto|]). unfold total. cbn [b_read b_y set_server y_back]. auto.
      * unfold work, pending, total. cbn [b_y b_todo b_read b_sent set_server y_arrived y_flight y_reply y_back useful]. rewrite T, Q1. unfold expects. rewrite P1.
        destruct (enc rp p) eqn:Ep; [exfalso; exact (enc_response_nonempty Ep)|]. rewrite <- Ep in *. rewrite !app_length, firstn_length, skipn_length. lia.
    + apply Nat.eqb_neq in En. apply Some_inj in Hs. subst b'. split; [reflexivity|]. left. split; [reflexivity|]. split.
      * unfold in_call. cbn [b_y b_todo b_read b_sent set_server y_client y_closed y_store y_partial y_arrived y_flight y_reply y_back y_top].
        repeat (split; [auto|]). right. exists s', p. repeat (split; [auto|]). left. split; [auto|]. split; [auto|]. split; [lia|]. unfold total. cbn [b_read b_y set_server y_back].
        rewrite app_assoc. fold (total b). rewrite Q4.
        rewrite <- (firstn_skipn (b_sent b) (enc rp p)) at 3. rewrite firstn_app, firstn_firstn, firstn_length. f_equal; f_equal; lia.
      * unfold work, pending, total. cbn [b_y b_todo b_read b_sent set_server y_arrived y_flight y_reply y_back useful]. rewrite Q1. unfold expects. rewrite P1.
        rewrite app_length, firstn_length, skipn_length. lia.
Qed.

Lemma idle_step b s e b' : idle b s -> bcalm b e -> bstep b e = Some b' ->
  y_conn (b_y b') = y_conn (b_y b) /\ y_got (b_y b') = y_got (b_y b) /\
  (idle b' s \/ exists r, e = BCall r /\ in_call b' r s /\ work b' (expects r s) = 3 * length (enc rq r) + 2 * expects r s).
Proof.
  intros (I1 & I2 & I3 & I4 & I5 & I6 & I7 & I8 & I9 & I10 & I11) Ho Hs.
  destruct e as [q|n|n| | |n| | | |k ok|n|k ok ok2]; cbn [bcalm] in Ho; try contradiction; unfold Buffers.bstep, Socket.step in Hs; cbv zeta in Hs.
  - rewrite I1 in Hs. apply Some_inj in Hs. subst b'. split; [reflexivity|]. split; [reflexivity|]. right. exists q. split; [reflexivity|]. split.
    + unfold in_call. cbn [b_y b_todo b_read b_sent with_client y_client y_closed y_store y_partial y_arrived y_flight y_reply y_back y_top].
      do 4 (split; [auto|]). split; [apply more_nil|]. left. rewrite I5, I6, I7. cbn [app]. do 2 (split; [auto|]). split; [apply enc_request_nonempty|]. auto.
    + unfold work, pending, total. cbn [b_y b_todo b_read b_sent with_client y_arrived y_flight y_reply y_back]. rewrite I6, I7, I9, I10. cbn [app length]. lia.
  - rewrite I8 in Hs. cbn [length] in Hs. destruct n; cbn in Hs; rewrite ?andb_false_r in Hs; discriminate.
  - rewrite I7 in Hs. destruct n; cbn in Hs; discriminate.
  - rewrite I1 in Hs. discriminate.
  - rewrite I1 in Hs. discriminate.
  - rewrite I3 in Hs. cbn [andb] in Hs. destruct (y_top (b_y b)) eqn:T; [|discriminate]. unfold lift in Hs. cbn [set_server y_conn] in Hs. rewrite Nat.eqb_refl in Hs.
    apply Some_inj in Hs. subst b'. split; [reflexivity|]. split; [reflexivity|]. left. unfold idle. cbn [b_y b_todo b_sent set_server y_client y_closed y_store y_partial y_arrived y_flight y_reply y_back y_top]. repeat (split; [auto|]). auto.
  - rewrite I3, I6, I9 in Hs. destruct (true && negb (y_top (b_y b))); discriminate.
  - rewrite I3, I6, I9 in Hs. destruct (true && negb (y_top (b_y b))); [|discriminate]. destruct Ho as [Hk _]. rewrite Hk in Hs. destruct (y_timeout (b_y b)); [|discriminate].
    unfold lift in Hs. cbn [set_server y_conn] in Hs. rewrite Nat.eqb_refl in Hs.
    apply Some_inj in Hs. subst b'. split; [reflexivity|]. split; [reflexivity|]. left. unfold idle. cbn [b_y b_todo b_sent set_server y_client y_closed y_store y_partial y_arrived y_flight y_reply y_back y_top]. repeat (split; [auto|]). auto.
  - rewrite I9 in Hs. destruct (running (b_y b) && negb (y_top (b_y b))); discriminate.
Qed.
Lemma panicked_step b e b' : y_status (b_y b) = Panicked -> y_client (b_y b) <> CIdle -> y_back (b_y b) = [] -> bcalm b e -> bstep b e = Some b' ->
  y_conn (b_y b') = y_conn (b_y b) /\ y_status (b_y b') = Panicked /\ b_read b' = b_read b /\ y_back (b_y b') = [] /\
  ((y_client (b_y b') = y_client (b_y b) /\ y_got (b_y b') = y_got (b_y b)) \/
   exists r, y_client (b_y b) = CWaiting r /\ y_client (b_y b') = CGone /\ y_got (b_y b') = y_got (b_y b) ++ [(y_conn (b_y b), r, None)]).
Proof.
  intros St Hc Hb Ho Hs. assert (R := not_running _ St).
  destruct e as [q|n|n| | |n| | | |k ok|n|k ok ok2]; cbn [bcalm] in Ho; try contradiction; unfold Buffers.bstep, Socket.step in Hs; cbv zeta in Hs; rewrite ?R in Hs; cbn [andb negb lift] in Hs; try discriminate.
  - destruct (y_client (b_y b)); try discriminate. congruence.
  - destruct ((1 <=? n) && (n <=? length (y_flight (b_y b)))); [|discriminate]. unfold lift in Hs. cbn [y_conn] in Hs. rewrite Nat.eqb_refl in Hs.
    apply Some_inj in Hs. subst b'. cbn [b_y b_read y_conn y_status y_back y_client y_got]. repeat (split; [auto|]). auto.
  - rewrite Hb in Hs. destruct (y_client (b_y b)), (b_todo b); discriminate.
  - destruct (y_client (b_y b)) as [|r|] eqn:Ec; try discriminate. rewrite Hb in Hs.
    assert (E : Some (mkB (with_client (b_y b) (y_flight (b_y b)) [] true CGone (y_got (b_y b) ++ [(y_conn (b_y b), r, None)])) (b_todo b) (b_read b) (b_sent b)) = Some b')
      by (destruct (b_todo b); exact Hs).
    apply Some_inj in E. subst b'. cbn [b_y b_read with_client y_conn y_status y_back y_client y_got]. repeat (split; [auto|]). right. eauto.
Qed.
Lemma binv_step s0 b e b' : binv s0 b -> (y_client (b_y b) = CGone -> y_back (b_y b) = []) -> bcalm b e -> bstep b e = Some b' -> fits ck cv (b_y b') ->
  binv s0 b' /\ (y_client (b_y b') = CGone -> y_back (b_y b') = []).
Proof.
  intros (l & s & Hd & Hc & H) Hg Ho Hs F. destruct H as [(Hgot & [Hi|(r & [Hi|Hi])])|(r & G1 & G2 & G3 & G4)].
  - destruct (idle_step _ Hi Ho Hs) as (E1 & E2 & [E3|(r & _ & E3 & _)]).
    + split; [|destruct E3 as (E3 & _); congruence]. exists l, s. split; auto. split; [congruence|]. left. split; [congruence|auto].
    + split; [|destruct E3 as (E3 & _); congruence]. exists l, s. split; auto. split; [congruence|]. left. split; [congruence|]. right. eauto.
  - destruct (call_step _ Hi Ho Hs F) as (E1 & [(E2 & E3 & _)|[(E2 & E3)|(s' & v & _ & E2 & E3 & E4 & _)]]).
    + split; [|destruct E3 as (E3 & _); congruence]. exists l, s. split; auto. split; [congruence|]. left. split; [congruence|]. right. eauto.
    + split; [|destruct E3 as (E3 & _); congruence]. exists l, s. split; auto. split; [congruence|]. left. split; [congruence|]. right. eauto.
    + split; [|destruct E4 as (E4 & _); congruence]. exists (l ++ [(r, v)]), s'. split; [econstructor; eauto|]. split; [congruence|]. left. rewrite results_snoc, E3, Hgot, Hc. auto.
  - destruct Hi as (I1 & I2 & I3 & I4 & I5). assert (N : y_client (b_y b) <> CIdle) by congruence. destruct (panicked_step b e I3 N I5 Ho Hs) as (E1 & E2 & E3 & E4 & E5).
    split; [|auto]. exists l, s. split; auto. split; [congruence|]. destruct E5 as [[E5 E6]|(r' & E5 & E6 & E7)].
    + left. split; [congruence|]. right. exists r. right. unfold dead_call. repeat (split; [congruence|]). auto.
    + right. exists r. assert (r' = r) by congruence. subst r'. do 2 (split; [auto|]). split; [rewrite E7; congruence|auto].
  - assert (N : y_client (b_y b) <> CIdle) by congruence. destruct (panicked_step b e G2 N (Hg G1) Ho Hs) as (E1 & E2 & E3 & E4 & E5).
    split; [|auto]. exists l, s. split; auto. split; [congruence|]. right. exists r. destruct E5 as [[E5 E6]|(r' & E5 & _)]; [|congruence].
    repeat (split; [congruence|]). auto.
Qed.
Lemma bserved_grow b e b' : bstep b e = Some b' -> exists l, y_served (b_y b') = y_served (b_y b) ++ l.
Proof.
  intros H. assert (S0 : exists l, y_served (b_y b) = y_served (b_y b) ++ l) by (exists []; rewrite app_nil_r; auto).
  assert (L : forall e, lift b (Socket.step ck cv (b_y b) e) = Some b' -> exists l, y_served (b_y b') = y_served (b_y b) ++ l).
  { intros e' L. unfold lift in L. destruct (Socket.step ck cv (b_y b) e') as [y'|] eqn:E; [|discriminate]. apply Some_inj in L. destruct (@step_served _ _ C ck cv _ _ _ E) as (l & El).
    exists l. subst b'. destruct (y_conn y' =? y_conn (b_y b)); exact El. }
  destruct e; cbn [Buffers.bstep] in H; try (eapply L; exact H); cbv zeta in H;
    try (repeat match type of H with match ?x with _ => _ end = Some _ => destruct x eqn:?; try discriminate H end; apply Some_inj in H; subst; auto; fail).
  - destruct ((1 <=? n) && (n <=? length (y_flight (b_y b)))); [|discriminate]. eapply L. exact H.
  - destruct (Socket.step ck cv (b_y b) (EClose n)) as [y'|] eqn:E; [|discriminate]. apply Some_inj in H. subst b'. exact (@step_served _ _ C ck cv _ _ _ E).
  - destruct (running (b_y b) && negb (y_top (b_y b))); [|discriminate]. destruct (y_reply (b_y b)); [|discriminate].
    match type of H with (if ?c then _ else _) = _ => destruct c; [|discriminate] end. apply Some_inj in H. subst b'.
    match goal with |- context [if ?c then _ else _] => destruct c end; exact S0.
  - destruct (lift b (Socket.step ck cv (b_y b) (ESendError k ok ok2))) as [b1|] eqn:E; [|discriminate]. apply Some_inj in H.
    assert (y_served (b_y b') = y_served (b_y b1)) by (subst b'; destruct (y_reply (b_y b1)); auto).
    unfold lift in E. destruct (Socket.step ck cv (b_y b) (ESendError k ok ok2)) as [y'|] eqn:E'; [|discriminate]. apply Some_inj in E.
    destruct (@step_served _ _ C ck cv _ _ _ E') as (l & El). exists l. rewrite H0. subst b1. destruct (y_conn y' =? y_conn (b_y b)); exact El.
Qed.
Lemma bstep_fits b e b' : bstep b e = Some b' -> fits ck cv (b_y b') -> fits ck cv (b_y b).
Proof. intros H F. destruct (bserved_grow _ _ H) as (l & E). unfold fits in *. rewrite E in F. apply Forall_app in F. tauto. Qed.
Lemma breach_fits allowed b0 b : breach allowed b0 b -> fits ck cv (b_y b) -> fits ck cv (b_y b0).
Proof. induction 1; auto. intros F. apply IHbreach. eapply bstep_fits; eauto. Qed.
Lemma breach_binv s0 persistent b : breach bcalm (bspawned C s0 persistent) b -> fits ck cv (b_y b) ->
  binv s0 b /\ (y_client (b_y b) = CGone -> y_back (b_y b) = []).
Proof.
  intros H. induction H as [|b e b' Hr IH Ho H]; intros F.
  - split; [|discriminate]. exists [], s0. split; [constructor|]. split; [reflexivity|]. left. split; [reflexivity|]. left. unfold idle. cbn. repeat (split; [reflexivity|]). reflexivity.
  - destruct IH as [I1 I2]; [eapply bstep_fits; eauto|]. eapply binv_step; eauto.
Qed.
Lemma match_panic s r : match_response C s r = Panic -> direct C s r = Panic.
Proof. intros H. assert (G := match_direct C s r). rewrite H in G. auto. Qed.

(** ** C69: whatever the sizes of the buffers *)
(** The calls return what they return on the container: C41 again. *)
Theorem C69_same_results_partial : forall container persistent b, breach bcalm (bspawned C container persistent) b -> fits ck cv (b_y b) ->
  exists calls s, direct_all C container calls s /\
    ((y_got (b_y b) = results calls /\ (y_client (b_y b) = CIdle -> y_store (b_y b) = s)) \/
     (exists r, y_got (b_y b) = results calls ++ [(1, r, None)] /\ direct C s r = Panic)).
Proof.
  intros container persistent b H F. destruct (breach_binv H F) as [(l & s & Hd & Hc & [(Hg & Hi)|(r & _ & _ & G & M)]) _]; exists l, s; (split; [auto|]).
  - left. split; auto. intros Hc'. destruct Hi as [(_ & Hi & _)|(r & [Hi|Hi])]; auto; destruct Hi as (Hi & _); congruence.
  - right. exists r. split; auto. apply match_panic. auto.
Qed.

(** No deadlock: a call that has not returned can always progress, after a turn of the server's loop at most. *)
Definition progress (b : bsys) : Prop := exists e b', useful e = 1 /\ bcalm b e /\ bstep b e = Some b'.
Lemma lift_same (b : bsys) y' : y_conn y' = y_conn (b_y b) -> lift b (Some y') = Some (mkB y' (b_todo b) (b_read b) (b_sent b)).
Proof. intros E. unfold lift. rewrite E, Nat.eqb_refl. auto. Qed.
Lemma call_goes b r s : 1 <= up -> 1 <= down -> in_call b r s -> progress b \/ exists b', bstep b BLoop = Some b' /\ y_top (b_y b) = true /\ y_top (b_y b') = false.
Proof.
  intros Hup Hdown (Hc & Hv & R & Hcl & Hm & Hp).
  destruct Hp as [(P1 & P2 & P3 & P4 & P5 & P6 & P7)|(s' & p & P1 & P2 & P3 & P4 & P5 & P6 & P7 & [(Q1 & Q2 & Q3 & Q4)|(Q1 & Q2 & Q3)])].
  - destruct (y_top (b_y b)) eqn:T.
    { right. exists (mkB (set_server (b_y b) (y_store (b_y b)) false (y_arrived (b_y b)) (y_partial (b_y b)) (y_reply (b_y b)) (y_back (b_y b)) (y_served (b_y b))) (b_todo b) (b_read b) (b_sent b)).
      cbn [Buffers.bstep Socket.step]. rewrite R, T. cbn [andb]. rewrite lift_same by reflexivity. auto. }
    left. destruct (y_arrived (b_y b)) as [|x a] eqn:Ea.
    + destruct (y_flight (b_y b)) as [|x f] eqn:Ef.
      * exists (BPut 1). destruct (b_todo b) eqn:Et; [exfalso; apply P3; reflexivity|]. eexists. split; [reflexivity|]. split; [exact I|]. cbn [Buffers.bstep]. cbv zeta. rewrite R, Ea, Ef, Et.
        cbn [length]. rewrite (proj2 (Nat.leb_le (0 + 0 + 1) up)) by lia. reflexivity.
      * exists (BDeliver 1). eexists. split; [reflexivity|]. split; [exact I|]. cbn [Buffers.bstep]. cbv zeta. rewrite Ef. cbn [length andb Nat.leb Socket.step]. rewrite lift_same by reflexivity. reflexivity.
    + exists BRead. cbn [Buffers.bstep Socket.step]. rewrite R, T, P4, Ea. cbn [andb negb].
      destruct (de rq (y_partial (b_y b) ++ [x])) as [q rest| |[]]; [destruct (match_response C (y_store (b_y b)) q) as [[]|]| | |];
        eexists; (split; [reflexivity|]); (split; [exact I|]); rewrite lift_same by reflexivity; reflexivity.
  - left. destruct (y_back (b_y b)) as [|x back] eqn:Eb.
    + exists (BSend 1). eexists. split; [reflexivity|]. split; [exact I|]. cbn [Buffers.bstep]. cbv zeta. rewrite R, Q1, Q2, Eb. cbn [andb negb length Nat.add].
      rewrite skipn_length. rewrite (proj2 (Nat.leb_le 1 (length (enc rp p) - b_sent b))) by lia. rewrite (proj2 (Nat.leb_le 1 down)) by lia.
      rewrite orb_true_r. cbn [Nat.leb andb]. reflexivity.
    + exists BGet. cbn [Buffers.bstep]. cbv zeta. rewrite Hc, P7, Eb.
      destruct (de rp (b_read b ++ [x])) as [q rest| |]; [destruct (client_value r q)| |]; eexists; (split; [reflexivity|]); (split; [exact I|]); reflexivity.
  - left. destruct (y_back (b_y b)) as [|x back] eqn:Eb.
    + exfalso. unfold total in Q3. rewrite Eb, app_nil_r in Q3. rewrite Q3 in Hm. pose proof (@c_full _ rp p [] P2) as G. rewrite app_nil_r in G. rewrite G in Hm. discriminate.
    + exists BGet. cbn [Buffers.bstep]. cbv zeta. rewrite Hc, P7, Eb.
      destruct (de rp (b_read b ++ [x])) as [q rest| |]; [destruct (client_value r q)| |]; eexists; (split; [reflexivity|]); (split; [exact I|]); reflexivity.
Qed.
Lemma dead_goes b r s : dead_call b r s -> exists b', bstep b BFail = Some b' /\ y_client (b_y b') = CGone /\ y_got (b_y b') = y_got (b_y b) ++ [(y_conn (b_y b), r, None)].
Proof.
  intros (D1 & D2 & D3 & D4 & D5). cbn [Buffers.bstep]. cbv zeta. rewrite D1, D5, (not_running _ D3). destruct (b_todo b); cbn [negb andb]; eexists; (split; [reflexivity|]); auto.
Qed.
Theorem C69_no_deadlock : 1 <= up -> 1 <= down -> forall container persistent b r, breach bcalm (bspawned C container persistent) b -> fits ck cv (b_y b) -> y_client (b_y b) = CWaiting r ->
  progress b \/ exists b', bstep b BLoop = Some b' /\ y_top (b_y b) = true /\ y_top (b_y b') = false.
Proof.
  intros Hup Hdown container persistent b r H F Hw. destruct (breach_binv H F) as [(l & s & Hd & Hc & [(Hg & Hi)|(r' & G & _)]) _]; [|congruence].
  destruct Hi as [(Hi & _)|(r' & [Hi|Hi])]; [congruence| |].
  - eapply call_goes; eauto.
  - left. destruct (dead_goes Hi) as (b' & G & _). exists BFail, b'. repeat split; auto.
Qed.

(** A call returns after a bounded number of such steps: three for each byte of the request, two for each byte of the
    response. *)
Inductive bexec (allowed : bsys -> bevent K V -> Prop) : bsys -> list (bevent K V) -> bsys -> Prop :=
| bexec_nil b : bexec allowed b [] b
| bexec_cons b e b1 es b' : allowed b e -> bstep b e = Some b1 -> bexec allowed b1 es b' -> bexec allowed b (e :: es) b'.
Definition progresses (es : list (bevent K V)) : nat := list_sum (map useful es).
Lemma bexec_fits allowed b es b' : bexec allowed b es b' -> fits ck cv (b_y b') -> fits ck cv (b_y b).
Proof. induction 1; auto. intros F. eapply bstep_fits; eauto. Qed.
Lemma bgot_grow b e b' : bstep b e = Some b' -> length (y_got (b_y b)) <= length (y_got (b_y b')).
Proof.
  assert (RC : forall ok l, length (y_got (b_y b)) <= length (y_got (reconnect (b_y b) ok l))).
  { intros ok l. unfold reconnect, abandon. destruct (y_left (b_y b)) as [[|]|], ok; cbn [andb y_got]; auto; destruct (y_client (b_y b)); rewrite ?app_length; lia. }
  assert (G : forall e y', Socket.step ck cv (b_y b) e = Some y' -> length (y_got (b_y b)) <= length (y_got y')).
  { intros e' y' H. unfold Socket.step in H; cbv zeta in H.
    destruct e'; repeat match type of H with match ?x with _ => _ end = Some _ => destruct x eqn:?; try discriminate H end; apply Some_inj in H; subst;
      cbn [set_server set_status y_got]; rewrite ?app_length; auto; try lia.
    - unfold abandon. rewrite Heqc. lia.
    - unfold abandon. rewrite Heqc, app_length. lia.
    - match goal with |- context [if ?c then _ else _] => destruct c end; apply RC. }
  assert (L : forall e, lift b (Socket.step ck cv (b_y b) e) = Some b' -> length (y_got (b_y b)) <= length (y_got (b_y b'))).
  { intros e' L. unfold lift in L. destruct (Socket.step ck cv (b_y b) e') as [y'|] eqn:E; [|discriminate]. apply Some_inj in L. apply G in E.
    subst b'. destruct (y_conn y' =? y_conn (b_y b)); exact E. }
  intros H. destruct e; cbn [Buffers.bstep] in H; try (eapply L; exact H); cbv zeta in H;
    try (repeat match type of H with match ?x with _ => _ end = Some _ => destruct x eqn:?; try discriminate H end; apply Some_inj in H; subst;
      cbn [b_y with_client y_got]; rewrite ?app_length; auto; try lia; fail).
  - destruct ((1 <=? n) && (n <=? length (y_flight (b_y b)))); [|discriminate]. eapply L. exact H.
  - destruct (Socket.step ck cv (b_y b) (EClose n)) as [y'|] eqn:E; [|discriminate]. apply Some_inj in H. subst b'. apply G in E. exact E.
  - destruct (running (b_y b) && negb (y_top (b_y b))); [|discriminate]. destruct (y_reply (b_y b)); [|discriminate].
    match type of H with (if ?c then _ else _) = _ => destruct c; [|discriminate] end. apply Some_inj in H. subst b'.
    match goal with |- context [if ?c then _ else _] => destruct c end; auto.
  - destruct (lift b (Socket.step ck cv (b_y b) (ESendError k ok ok2))) as [b1|] eqn:E; [|discriminate]. apply Some_inj in H.
    assert (y_got (b_y b') = y_got (b_y b1)) by (subst b'; destruct (y_reply (b_y b1)); auto).
    unfold lift in E. destruct (Socket.step ck cv (b_y b) (ESendError k ok ok2)) as [y'|] eqn:E'; [|discriminate]. apply Some_inj in E.
    apply G in E'. rewrite H0. subst b1. destruct (y_conn y' =? y_conn (b_y b)); exact E'.
Qed.
Lemma bexec_got allowed b es b' : bexec allowed b es b' -> length (y_got (b_y b)) <= length (y_got (b_y b')).
Proof. induction 1; auto. apply bgot_grow in H0. lia. Qed.
Lemma call_work r s : match_response C s r <> Panic -> forall es b b', bexec bcalm b es b' -> in_call b r s -> fits ck cv (b_y b') -> y_got (b_y b') = y_got (b_y b) ->
  progresses es <= work b (expects r s).
Proof.
  intros Hn es. induction es as [|e es IH]; intros b b' H Hi F Hg; unfold progresses in *; cbn [map list_sum fold_right]; [lia|].
  inversion H as [|? ? b1 ? ? Ha Hs Hx]; subst.
  destruct (call_step _ Hi Ha Hs (bexec_fits Hx F)) as (E1 & [(E2 & E3 & E4)|[(E2 & E3)|(s' & v & E2 & E3 & E4 & E5 & E6)]]).
  - specialize (IH b1 b' Hx E3 F). rewrite E2 in IH. specialize (IH Hg). change (fold_right Init.Nat.add 0 (map useful es)) with (list_sum (map useful es)). lia.
  - destruct E3 as (_ & E3 & _). congruence.
  - exfalso. apply bexec_got in Hx. apply (f_equal (@length _)) in E4. rewrite app_length in E4. cbn [length] in E4. rewrite Hg in Hx. lia.
Qed.
Theorem C69_bounded_work : forall container persistent b r b1 es b' s' p, breach bcalm (bspawned C container persistent) b ->
  bstep b (BCall r) = Some b1 -> request_valid ck cv r -> match_response C (y_store (b_y b)) r = Ok (s', p) ->
  bexec bcalm b1 es b' -> fits ck cv (b_y b') -> y_got (b_y b') = y_got (b_y b) ->
  progresses es <= 3 * length (enc rq r) + 2 * length (enc rp p).
Proof.
  intros container persistent b r b1 es b' s' p H Hs Hv M Hx F Hg.
  assert (F1 := bexec_fits Hx F). assert (Fb := bstep_fits _ _ Hs F1).
  destruct (breach_binv H Fb) as [(l & s & Hd & Hc & [(Hg' & Hi)|(r' & G & _)]) _].
  2: { cbn [Buffers.bstep] in Hs. cbv zeta in Hs. rewrite G in Hs. discriminate. }
  assert (Ii : idle b s).
  { destruct Hi as [Hi|(r' & [(Hi & _)|(Hi & _)])]; auto; cbn [Buffers.bstep] in Hs; cbv zeta in Hs; rewrite Hi in Hs; discriminate. }
  destruct (idle_step (BCall r) Ii Hv Hs) as (E1 & E2 & [(E3 & _)|(r' & E3 & E4 & E5)]).
  { cbn [Buffers.bstep] in Hs. cbv zeta in Hs. destruct Ii as (I1 & _). rewrite I1 in Hs. apply Some_inj in Hs. subst b1. discriminate. }
  injection E3 as <-. destruct Ii as (_ & I2 & _). rewrite I2 in M.
  assert (N : match_response C s r <> Panic) by congruence.
  pose proof (call_work N Hx E4 F) as W. rewrite E2 in W. specialize (W Hg). rewrite E5 in W. unfold expects in W. rewrite M in W. exact W.
Qed.

(** So every call gets its answer: from any moment, a schedule of useful steps and turns of the loop leads to it. *)
Lemma call_fits b r s e b' : in_call b r s -> bcalm b e -> bstep b e = Some b' -> fits ck cv (b_y b) ->
  (forall s' p, match_response C s r = Ok (s', p) -> response_valid ck cv p) -> fits ck cv (b_y b').
Proof.
  intros (Hc & Hv & R & Hcl & Hm & Hp) Ho Hs F Hval. destruct e as [q|n|n| | |n| | | |k ok|n|k ok ok2]; cbn [bcalm] in Ho; try contradiction; cbn [Buffers.bstep] in Hs; cbv zeta in Hs.
  - rewrite Hc in Hs. discriminate.
  - repeat match type of Hs with match ?x with _ => _ end = Some _ => destruct x eqn:?; try discriminate Hs end; apply Some_inj in Hs; subst; exact F.
  - destruct ((1 <=? n) && (n <=? length (y_flight (b_y b)))); [|discriminate]. cbn [Socket.step] in Hs. rewrite lift_same in Hs by reflexivity. apply Some_inj in Hs. subst. exact F.
  - repeat match type of Hs with match ?x with _ => _ end = Some _ => destruct x eqn:?; try discriminate Hs end; apply Some_inj in Hs; subst; exact F.
  - repeat match type of Hs with match ?x with _ => _ end = Some _ => destruct x eqn:?; try discriminate Hs end; apply Some_inj in Hs; subst; exact F.
  - cbn [Socket.step] in Hs. destruct (running (b_y b) && y_top (b_y b)); [|discriminate]. rewrite lift_same in Hs by reflexivity. apply Some_inj in Hs. subst. exact F.
  - cbn [Socket.step] in Hs. destruct (running (b_y b) && negb (y_top (b_y b))); [|discriminate]. destruct (y_reply (b_y b)) eqn:Er; [discriminate|].
    destruct (y_arrived (b_y b)) as [|x a] eqn:Ea; [discriminate|].
    destruct Hp as [(P1 & P2 & P3 & P4 & P5 & P6 & P7)|(s' & p & _ & _ & _ & _ & P & _)]; [|congruence].
    assert (E : (y_partial (b_y b) ++ (x :: a) ++ y_flight (b_y b)) ++ b_todo b = enc rq r) by (rewrite <- P2, <- !app_assoc; auto).
    destruct (read_byte _ _ _ _ _ Hv E) as [[E1 E2]|[E1 E2]]; rewrite E2 in Hs.
    + destruct (match_response C (y_store (b_y b)) r) as [[s' p]|] eqn:M; rewrite lift_same in Hs by reflexivity; apply Some_inj in Hs; subst b'; cbn [b_y]; [|exact F].
      unfold fits. cbn [set_server y_served]. apply Forall_app. split; [exact F|]. constructor; [|constructor]. cbn [snd]. rewrite P1 in M. eapply Hval; eauto.
    + rewrite lift_same in Hs by reflexivity. apply Some_inj in Hs. subst. exact F.
  - cbn [Socket.step] in Hs. destruct (running (b_y b) && negb (y_top (b_y b))); [|discriminate]. destruct (y_reply (b_y b)); [discriminate|]. destruct (y_arrived (b_y b)); [|discriminate].
    destruct Ho as [Hk _]. rewrite Hk in Hs. destruct (y_timeout (b_y b)); [|discriminate]. rewrite lift_same in Hs by reflexivity. apply Some_inj in Hs. subst. exact F.
  - destruct (running (b_y b) && negb (y_top (b_y b))); [|discriminate]. destruct (y_reply (b_y b)); [|discriminate].
    match type of Hs with (if ?c then _ else _) = _ => destruct c; [|discriminate] end. apply Some_inj in Hs. subst b'.
    match goal with |- context [if ?c then _ else _] => destruct c end; exact F.
Qed.
Lemma call_ends r s : 1 <= up -> 1 <= down -> (forall s' p, match_response C s r = Ok (s', p) -> response_valid ck cv p) ->
  forall m b, 2 * work b (expects r s) + (if y_top (b_y b) then 1 else 0) <= m -> in_call b r s -> fits ck cv (b_y b) ->
  match direct C s r with
  | Ok (s', v) => exists b', breach bcalm b b' /\ y_client (b_y b') = CIdle /\ y_got (b_y b') = y_got (b_y b) ++ [(y_conn (b_y b), r, Some v)] /\ y_store (b_y b') = s'
  | Panic => exists b', breach bcalm b b' /\ y_client (b_y b') = CGone /\ y_got (b_y b') = y_got (b_y b) ++ [(y_conn (b_y b), r, None)]
  end.
Proof.
  intros Hup Hdown Hval. induction m as [m IH] using lt_wf_ind. intros b Hm Hi F.
  assert (G : exists e b1, bcalm b e /\ bstep b e = Some b1 /\ (useful e = 1 \/ (e = BLoop /\ y_top (b_y b) = true /\ y_top (b_y b1) = false))).
  { destruct (call_goes Hup Hdown Hi) as [(e & b1 & ? & ? & ?)|(b1 & ? & ? & ?)]; [exists e, b1; auto|exists BLoop, b1; repeat split; auto]. }
  destruct G as (e & b1 & Ha & Hs & Hu). assert (F1 := call_fits _ Hi Ha Hs F Hval).
  destruct (call_step _ Hi Ha Hs F1) as (E1 & [(E2 & E3 & E4)|[(E2 & E3)|(s' & v & E2 & E3 & E4 & E5 & E6)]]).
  - assert (D : 2 * work b1 (expects r s) + (if y_top (b_y b1) then 1 else 0) < m).
    { destruct Hu as [Hu|(-> & T1 & T2)].
      - rewrite Hu in E4. destruct (y_top (b_y b1)), (y_top (b_y b)); lia.
      - cbn [useful] in E4. rewrite T1 in Hm. rewrite T2. lia. }
    specialize (IH _ D b1 (le_n _) E3 F1). rewrite E1, E2 in IH.
    destruct (direct C s r) as [[s' v]|]; destruct IH as (b' & I1 & I2); exists b'; (split; [eapply breach_trans; [eapply breach_one; eauto|exact I1]|exact I2]).
  - destruct (dead_goes E3) as (b' & D1 & D2 & D3). destruct E3 as (_ & E3 & _). rewrite (match_panic _ _ E3).
    exists b'. split; [econstructor; [eapply breach_one; eauto| |exact D1]; exact I|]. rewrite D3, E1, E2. auto.
  - rewrite E3. exists b1. split; [eapply breach_one; eauto|]. destruct E5 as (I1 & I2 & _). auto.
Qed.
Theorem C69_answered : 1 <= up -> 1 <= down -> forall container persistent b r, breach bcalm (bspawned C container persistent) b -> fits ck cv (b_y b) -> y_client (b_y b) = CIdle -> request_valid ck cv r ->
  (forall s' p, match_response C (y_store (b_y b)) r = Ok (s', p) -> response_valid ck cv p) ->
  match direct C (y_store (b_y b)) r with
  | Ok (s', v) => exists b', breach bcalm b b' /\ y_client (b_y b') = CIdle /\ y_got (b_y b') = y_got (b_y b) ++ [(1, r, Some v)] /\ y_store (b_y b') = s'
  | Panic => exists b', breach bcalm b b' /\ y_client (b_y b') = CGone /\ y_got (b_y b') = y_got (b_y b) ++ [(1, r, None)]
  end.
Proof.
  intros Hup Hdown container persistent b r H F Hi Hv Hval.
  destruct (breach_binv H F) as [(l & s & Hd & Hc & [(Hg & Ii)|(r' & G & _)]) _]; [|congruence].
  destruct Ii as [Ii|(r' & [(Ii & _)|(Ii & _)])]; try congruence.
  assert (S1 : exists b1, bstep b (BCall r) = Some b1) by (cbn [Buffers.bstep]; cbv zeta; rewrite Hi; eauto). destruct S1 as (b1 & S1).
  destruct (idle_step (BCall r) Ii Hv S1) as (E1 & E2 & [(E3 & _)|(r' & E3 & E4 & E5)]).
  { cbn [Buffers.bstep] in S1. cbv zeta in S1. rewrite Hi in S1. apply Some_inj in S1. subst b1. discriminate. }
  injection E3 as <-. assert (Es : y_store (b_y b) = s) by (destruct Ii as (_ & I2 & _); auto). rewrite Es in *.
  assert (F1 : fits ck cv (b_y b1)) by (cbn [Buffers.bstep] in S1; cbv zeta in S1; rewrite Hi in S1; apply Some_inj in S1; subst b1; exact F).
  pose proof (call_ends Hup Hdown Hval (le_n _) E4 F1) as W. rewrite E1, E2, Hc in W.
  destruct (direct C s r) as [[s' v]|]; destruct W as (b' & W1 & W2); exists b'; (split; [eapply breach_trans; [eapply breach_one; [|exact S1]; exact Hv|exact W1]|exact W2]).
Qed.

(** ** Responses match requests: C42 again *)
(** What is assumed of the environment, as in PSocket.v. *)
Definition borderly (b : bsys) (e : bevent K V) : Prop :=
  match e with
  | BCall r => request_valid ck cv r
  | BReadError k _ => from_io k = Some TimedOut -> y_partial (b_y b) = []
  | BSendError k _ _ => k <> UnexpectedEof
  | _ => True
  end.
(** The same state with unbounded buffers: the request has been written, the response that is being written has not. *)
Definition abs (b : bsys) : sys :=
  let y := b_y b in
  mkSys C (y_store y) (y_left y) (y_status y) (y_conn y) (y_timeout y) (y_top y) (y_flight y ++ b_todo b) (y_arrived y) (y_partial y) (y_closed y)
    (y_reply y) (firstn (length (total b) - b_sent b) (total b)) (y_client y) (y_served y) (y_got y).
Record tied (b : bsys) : Prop := {
  t_idle : y_client (b_y b) = CIdle -> b_todo b = [] /\ b_read b = [] /\ b_sent b = 0;
  t_more : forall r, y_client (b_y b) = CWaiting r -> de rp (b_read b) = More;
  t_todo : forall r, y_client (b_y b) = CWaiting r -> b_todo b <> [] -> total b = [];
  t_sent : 0 < b_sent b -> exists p pre, y_reply (b_y b) = Some p /\ b_sent b < length (enc rp p) /\ total b = pre ++ firstn (b_sent b) (enc rp p) /\
    (y_client (b_y b) = CGone \/ response_valid ck cv p);
  t_closed : running (b_y b) = true -> y_closed (b_y b) = true -> b_todo b = []
}.
Lemma tied_none b : tied b -> y_reply (b_y b) = None -> b_sent b = 0.
Proof. intros H E. destruct (b_sent b) eqn:Es; auto. exfalso. destruct (t_sent H) as (p & _ & G & _); [lia|congruence]. Qed.
Lemma abs_back b : b_sent b = 0 -> y_back (abs b) = total b.
Proof. intros E. cbn [abs y_back]. rewrite E, Nat.sub_0_r, firstn_all. auto. Qed.
Lemma tied_empty b : tied b -> y_back (abs b) = [] -> (total b = [] /\ b_sent b = 0) \/
  exists p, y_reply (b_y b) = Some p /\ 0 < b_sent b < length (enc rp p) /\ total b = firstn (b_sent b) (enc rp p) /\ (y_client (b_y b) = CGone \/ response_valid ck cv p).
Proof.
  intros H E. destruct (b_sent b) as [|n] eqn:Es.
  - left. rewrite abs_back in E by auto. auto.
  - right. destruct (t_sent H) as (p & pre & G1 & G2 & G3 & G4); [lia|]. rewrite Es in *. exists p. split; [auto|]. split; [lia|]. split; [|auto].
    cbn [abs y_back] in E. rewrite Es, G3, app_length, firstn_length in E. replace (length pre + Nat.min (S n) (length (enc rp p)) - S n) with (length pre + 0) in E by lia.
    rewrite firstn_app_2 in E. cbn [firstn] in E. rewrite app_nil_r in E. subst pre. exact G3.
Qed.
Lemma tied_lift (b : bsys) y' b' : lift b (Some y') = Some b' -> y_conn y' = y_conn (b_y b) -> b' = mkB y' (b_todo b) (b_read b) (b_sent b).
Proof. intros H E. rewrite lift_same in H by auto. apply Some_inj in H. auto. Qed.
Definition simulates (b b' : bsys) : Prop :=
  tied b' /\ (abs b' = abs b \/ exists e, orderly ck cv (abs b) e /\ Socket.step ck cv (abs b) e = Some (abs b')).
Lemma reconnect_cases (y : sys) ok l :
  (reconnect y ok l = mkSys C (y_store y) (option_map Nat.pred (y_left y)) Running (S (y_conn y)) false true [] [] [] false None l CIdle (y_served y) (abandon y)) \/
  (exists left, reconnect y ok l = mkSys C (y_store y) left Stopped (y_conn y) (y_timeout y) (y_top y) (y_flight y) (y_arrived y) (y_partial y) (y_closed y) None (y_back y) (y_client y) (y_served y) (y_got y)).
Proof. unfold reconnect. destruct (y_left y) as [[|m]|], ok; cbn [andb option_map Nat.pred]; eauto. Qed.
Lemma sim_step s0 b e b' : told ck cv s0 (abs b) -> tied b -> borderly b e -> bstep b e = Some b' -> fits ck cv (b_y b') -> simulates b b'.
Proof.
  intros (h & Hd & Hp) Ht Ho Hs F. unfold place in Hp. change (y_client (abs b)) with (y_client (b_y b)) in Hp. change (y_closed (abs b)) with (y_closed (b_y b)) in Hp.
  change (running (abs b)) with (running (b_y b)) in Hp. change (y_reply (abs b)) with (y_reply (b_y b)) in Hp.
  destruct e as [q|n|n| | |n| | | |k ok|n|k ok ok2]; cbn [borderly] in Ho.
  - (* BCall *)
    cbn [Buffers.bstep] in Hs. cbv zeta in Hs. destruct (y_client (b_y b)) eqn:Hc; try discriminate. apply Some_inj in Hs. subst b'.
    destruct Hp as (P1 & P2 & _). destruct (t_idle Ht Hc) as (T1 & T2 & T3). rewrite abs_back in P2 by auto. split.
    + constructor; cbn [b_y b_todo b_read b_sent with_client y_client y_reply y_closed]; try congruence.
      * intros; apply more_nil.
      * intros r _ _. unfold total in *. cbn [b_read b_y with_client y_back]. rewrite T2 in P2. exact P2.
      * intros. lia.
    + right. exists (ECall q). split; [exact Ho|]. cbn [Socket.step]. change (y_client (abs b)) with (y_client (b_y b)). rewrite Hc. unfold abs, total.
      cbn [b_y b_todo b_read b_sent with_client y_store y_left y_status y_conn y_timeout y_top y_flight y_arrived y_partial y_closed y_reply y_back y_served y_got y_client].
      rewrite T1, T2, app_nil_r. reflexivity.
  - (* BPut *)
    cbn [Buffers.bstep] in Hs. cbv zeta in Hs. match type of Hs with (if ?c then _ else _) = _ => destruct c; [|discriminate] end. apply Some_inj in Hs. subst b'. split.
    + constructor; cbn [b_y b_todo b_read b_sent with_client y_client y_reply y_closed].
      * intros Hc. destruct (t_idle Ht Hc) as (T1 & T2 & T3). rewrite T1, skipn_nil. auto.
      * apply (t_more Ht).
      * intros r Hc Hn. apply (t_todo Ht) with (r := r); auto. intros E. rewrite E, skipn_nil in Hn. congruence.
      * apply (t_sent Ht).
      * intros R Hcl. assert (E := t_closed Ht R Hcl). rewrite E, skipn_nil. auto.
    + left. unfold abs, total. cbn [b_y b_todo b_read b_sent with_client y_store y_left y_status y_conn y_timeout y_top y_flight y_arrived y_partial y_closed y_reply y_back y_served y_got y_client].
      rewrite <- app_assoc, firstn_skipn. reflexivity.
  - (* BDeliver *)
    cbn [Buffers.bstep] in Hs. cbv zeta in Hs. destruct ((1 <=? n) && (n <=? length (y_flight (b_y b)))) eqn:E; [|discriminate].
    apply andb_prop in E. destruct E as [_ E]. apply Nat.leb_le in E. cbn [Socket.step] in Hs. apply tied_lift in Hs; [|reflexivity]. subst b'. split.
    + constructor; cbn [b_y b_todo b_read b_sent y_client y_reply y_closed]; [apply (t_idle Ht)|apply (t_more Ht)|apply (t_todo Ht)|apply (t_sent Ht)|apply (t_closed Ht)].
    + right. exists (EDeliver n). split; [exact I|]. cbn [Socket.step]. unfold abs, total.
      cbn [b_y b_todo b_read b_sent y_store y_left y_status y_conn y_timeout y_top y_flight y_arrived y_partial y_closed y_reply y_back y_served y_got y_client].
      rewrite skipn_app, firstn_app. replace (n - length (y_flight (b_y b))) with 0 by lia. cbn [skipn firstn]. rewrite app_nil_r. reflexivity.
  - (* BGet *)
    cbn [Buffers.bstep] in Hs. cbv zeta in Hs. destruct (y_client (b_y b)) as [|r|] eqn:Hc; try discriminate. destruct (b_todo b) eqn:Et; [|discriminate].
    destruct (y_back (b_y b)) as [|x rest] eqn:Eb; [discriminate|].
    assert (Tt : total b = b_read b ++ x :: rest) by (unfold total; rewrite Eb; auto).
    assert (Same : forall z, Some (mkB (with_client (b_y b) (y_flight (b_y b)) rest (y_closed (b_y b)) (CWaiting r) (y_got (b_y b))) [] (b_read b ++ [x]) (b_sent b)) = Some z ->
      de rp (b_read b ++ [x]) = More -> simulates b z).
    { intros z Hz M. apply Some_inj in Hz. subst z. assert (Te : (b_read b ++ [x]) ++ rest = total b) by (rewrite Tt, <- app_assoc; auto). split.
      - constructor; unfold total; cbn [b_y b_todo b_read b_sent with_client y_client y_reply y_closed y_back]; try rewrite Te; try congruence.
        intros Hpos. destruct (t_sent Ht Hpos) as (p & pre & G1 & G2 & G3 & G4). exists p, pre. rewrite <- Hc. auto.
      - left. unfold abs. unfold total at 1 2. cbn [b_y b_todo b_read b_sent with_client y_store y_left y_status y_conn y_timeout y_top y_flight y_arrived y_partial y_closed y_reply y_back y_served y_got y_client].
        rewrite Te, Et, Hc. reflexivity. }
    assert (Empty : y_back (abs b) = [] -> simulates b b').
    { intros Ee. destruct (tied_empty Ht Ee) as [[E1 _]|(p & E1 & E2 & E3 & [E4|E4])]; [rewrite Tt in E1; destruct (b_read b); discriminate|congruence|].
      assert (M : de rp (b_read b ++ [x]) = More).
      { apply (@c_part _ rp p (b_read b ++ [x]) (rest ++ skipn (b_sent b) (enc rp p))); auto.
        - rewrite <- (firstn_skipn (b_sent b) (enc rp p)) at 1. rewrite <- E3, Tt, <- !app_assoc. auto.
        - intros E. apply app_eq_nil in E. destruct E as [_ E]. apply (f_equal (@length byte)) in E. rewrite skipn_length in E. cbn [length] in E. lia. }
      rewrite M in Hs. apply Same; auto. }
    destruct Hp as (P1 & P2 & [(Q1 & _)|(h0 & v & p & _ & _ & _ & Q4 & Q5 & _ & [[_ Q8]|[Q7 Q8]])]); auto.
    assert (S0 := tied_none Ht Q7). rewrite abs_back in Q8 by auto. rewrite Tt in Q8. destruct rest as [|x2 rest].
    + assert (M : de rp (b_read b ++ [x]) = Done p []).
      { rewrite Q8. pose proof (@c_full _ rp p [] Q5) as G. rewrite app_nil_r in G. exact G. }
      rewrite M, Q4 in Hs. apply Some_inj in Hs. subst b'. split.
      * constructor; cbn [b_y b_todo b_read b_sent with_client y_client y_reply y_closed]; try congruence; auto. intros; lia.
      * right. exists EReceive. split; [exact I|]. cbn [Socket.step]. change (y_client (abs b)) with (y_client (b_y b)). rewrite Hc, abs_back by auto. rewrite Tt, Q8.
        pose proof (@c_full _ rp p [] Q5) as G. rewrite app_nil_r in G. rewrite G, Q4. unfold abs, total.
        cbn [b_y b_todo b_read b_sent with_client y_store y_left y_status y_conn y_timeout y_top y_flight y_arrived y_partial y_closed y_reply y_back y_served y_got y_client].
        rewrite Et. reflexivity.
    + assert (M : de rp (b_read b ++ [x]) = More).
      { apply (@c_part _ rp p (b_read b ++ [x]) (x2 :: rest)); auto; [|discriminate]. rewrite <- Q8, <- app_assoc. auto. }
      rewrite M in Hs. apply Same; auto.
  - (* BFail *)
    cbn [Buffers.bstep] in Hs. cbv zeta in Hs. destruct (y_client (b_y b)) as [|r|] eqn:Hc; try discriminate. destruct (running (b_y b)) eqn:R; [discriminate|]. cbn [negb andb] in Hs.
    destruct (match b_todo b with [] => match y_back (b_y b) with [] => true | _ :: _ => false end | _ :: _ => true end) eqn:Ec; [|discriminate].
    apply Some_inj in Hs. subst b'. split.
    + constructor; cbn [b_y b_todo b_read b_sent with_client y_client y_reply y_closed]; try congruence.
      * intros Hpos. destruct (t_sent Ht Hpos) as (p & pre & G1 & G2 & G3 & G4). exists p, pre. auto.
      * unfold running in *. cbn [with_client y_status]. congruence.
    + right. exists EReceive. split; [exact I|].
      assert (M : de rp (y_back (abs b)) = More).
      { destruct Hp as (P1 & P2 & [(Q1 & _)|(h0 & v & p & _ & _ & _ & Q4 & Q5 & _ & [[_ Q8]|[Q7 Q8]])]); [rewrite Q1; apply more_nil|rewrite Q8; apply more_nil|].
        exfalso. assert (S0 := tied_none Ht Q7). rewrite abs_back in Q8 by auto. destruct (b_todo b) as [|t0 td] eqn:Et.
        - destruct (y_back (b_y b)) eqn:Eb; [|discriminate]. unfold total in Q8. rewrite Eb, app_nil_r in Q8. pose proof (t_more Ht Hc) as G. rewrite Q8 in G.
          pose proof (@c_full _ rp p [] Q5) as G'. rewrite app_nil_r in G'. congruence.
        - assert (G := t_todo Ht Hc). rewrite Et in G. rewrite G in Q8 by discriminate. symmetry in Q8. exact (enc_response_nonempty Q8). }
      cbn [Socket.step]. change (y_client (abs b)) with (y_client (b_y b)). rewrite Hc, M. change (running (abs b)) with (running (b_y b)). rewrite R. reflexivity.
  - (* BClose *)
    cbn [Buffers.bstep Socket.step] in Hs. cbv zeta in Hs.
    assert (N : y_client (b_y b) <> CGone) by (intros E; rewrite E in Hs; discriminate).
    assert (E : Some (mkB (mkSys C (y_store (b_y b)) (y_left (b_y b)) (y_status (b_y b)) (y_conn (b_y b)) (y_timeout (b_y b)) (y_top (b_y b)) (firstn n (y_flight (b_y b))) (y_arrived (b_y b)) (y_partial (b_y b)) true
                     (y_reply (b_y b)) (y_back (b_y b)) CGone (y_served (b_y b)) (abandon (b_y b))) [] (b_read b) (b_sent b)) = Some b') by (destruct (y_client (b_y b)); [exact Hs|exact Hs|congruence]).
    apply Some_inj in E. subst b'. split.
    + constructor; cbn [b_y b_todo b_read b_sent y_client y_reply y_closed]; try congruence; auto.
      intros Hpos. destruct (t_sent Ht Hpos) as (p & pre & G1 & G2 & G3 & G4). exists p, pre. auto.
    + right. exists (EClose (Nat.min n (length (y_flight (b_y b))))). split; [exact I|]. cbn [Socket.step]. change (y_client (abs b)) with (y_client (b_y b)).
      assert (Ef : firstn (Nat.min n (length (y_flight (b_y b)))) (y_flight (b_y b) ++ b_todo b) = firstn n (y_flight (b_y b))).
      { rewrite firstn_app. replace (Nat.min n (length (y_flight (b_y b))) - length (y_flight (b_y b))) with 0 by lia. cbn [firstn]. rewrite app_nil_r.
        destruct (Nat.le_ge_cases n (length (y_flight (b_y b)))); [rewrite Nat.min_l by auto; auto|].
        rewrite Nat.min_r, firstn_all, firstn_all2 by auto. auto. }
      change (abandon (abs b)) with (abandon (b_y b)). change (y_flight (abs b)) with (y_flight (b_y b) ++ b_todo b). rewrite Ef.
      unfold abs, total. cbn [b_y b_todo b_read b_sent y_store y_left y_status y_conn y_timeout y_top y_flight y_arrived y_partial y_closed y_reply y_back y_served y_got y_client].
      rewrite app_nil_r. destruct (y_client (b_y b)); [reflexivity|reflexivity|congruence].
  - (* BStop *)
    cbn [Buffers.bstep Socket.step] in Hs. destruct (running (b_y b) && y_top (b_y b)) eqn:E; [|discriminate]. apply tied_lift in Hs; [|reflexivity]. subst b'. split.
    + constructor; cbn [b_y b_todo b_read b_sent set_status y_client y_reply y_closed]; [apply (t_idle Ht)|apply (t_more Ht)|apply (t_todo Ht)|apply (t_sent Ht)|discriminate].
    + right. exists EStop. split; [exact I|]. cbn [Socket.step]. change (running (abs b)) with (running (b_y b)). change (y_top (abs b)) with (y_top (b_y b)). rewrite E. reflexivity.
  - (* BLoop *)
    cbn [Buffers.bstep Socket.step] in Hs. destruct (running (b_y b) && y_top (b_y b)) eqn:E; [|discriminate]. apply tied_lift in Hs; [|reflexivity]. subst b'. split.
    + constructor; cbn [b_y b_todo b_read b_sent set_server y_client y_reply y_closed]; [apply (t_idle Ht)|apply (t_more Ht)|apply (t_todo Ht)|apply (t_sent Ht)|apply (t_closed Ht)].
    + right. exists ELoop. split; [exact I|]. cbn [Socket.step]. change (running (abs b)) with (running (b_y b)). change (y_top (abs b)) with (y_top (b_y b)). rewrite E. reflexivity.
  - (* BRead *)
    cbn [Buffers.bstep Socket.step] in Hs. destruct (running (b_y b) && negb (y_top (b_y b))) eqn:E; [|discriminate]. destruct (y_reply (b_y b)) eqn:Er; [discriminate|].
    destruct (y_arrived (b_y b)) as [|x a] eqn:Ea; [discriminate|]. assert (S0 := tied_none Ht Er).
    assert (Tied : forall st top ar pa re se, tied (mkB (set_server (b_y b) st top ar pa re (y_back (b_y b)) se) (b_todo b) (b_read b) (b_sent b))).
    { intros. constructor; cbn [b_y b_todo b_read b_sent set_server y_client y_reply y_closed]; [apply (t_idle Ht)|apply (t_more Ht)|apply (t_todo Ht)|intros; lia|apply (t_closed Ht)]. }
    assert (Dead : tied (mkB (set_status (b_y b) Panicked) (b_todo b) (b_read b) (b_sent b))).
    { constructor; cbn [b_y b_todo b_read b_sent set_status y_client y_reply y_closed]; [apply (t_idle Ht)|apply (t_more Ht)|apply (t_todo Ht)|intros; lia|discriminate]. }
    assert (Step : Socket.step ck cv (abs b) ERead = match de rq (y_partial (b_y b) ++ [x]) with
            | More => Some (set_server (abs b) (y_store (b_y b)) false a (y_partial (b_y b) ++ [x]) None (y_back (abs b)) (y_served (b_y b)))
            | Done r _ =>
                match match_response C (y_store (b_y b)) r with
                | Ok (s', p) => Some (set_server (abs b) s' false a [] (Some p) (y_back (abs b)) (y_served (b_y b) ++ [(y_conn (b_y b), r, p)]))
                | Panic => Some (set_status (abs b) Panicked)
                end
            | Bad EInvalid => Some (set_server (abs b) (y_store (b_y b)) false a [] (Some (PError)) (y_back (abs b)) (y_served (b_y b)))
            | Bad ECustom => Some (set_status (abs b) Panicked)
            end).
    { cbn [Socket.step]. change (running (abs b)) with (running (b_y b)). change (y_top (abs b)) with (y_top (b_y b)). rewrite E.
      change (y_reply (abs b)) with (y_reply (b_y b)). change (y_arrived (abs b)) with (y_arrived (b_y b)). rewrite Er, Ea. reflexivity. }
    destruct (de rq (y_partial (b_y b) ++ [x])) as [r rest| |[]]; [destruct (match_response C (y_store (b_y b)) r) as [[s' p]|]| | |];
      (apply tied_lift in Hs; [|reflexivity]); subst b'; (split; [auto|]); right; exists ERead; (split; [exact I|]); rewrite Step; reflexivity.
  - (* BReadError *)
    cbn [Buffers.bstep Socket.step] in Hs. destruct (running (b_y b) && negb (y_top (b_y b))) eqn:E; [|discriminate]. destruct (y_reply (b_y b)) eqn:Er; [discriminate|].
    destruct (y_arrived (b_y b)) as [|x a] eqn:Ea; [|discriminate]. assert (S0 := tied_none Ht Er).
    assert (Step : Socket.step ck cv (abs b) (EReadError k ok) = match from_io k with
            | None => Some (set_status (abs b) Panicked)
            | Some TimedOut => if y_timeout (b_y b) then Some (set_server (abs b) (y_store (b_y b)) true [] [] None (y_back (abs b)) (y_served (b_y b))) else None
            | Some BrokenPipe => match y_flight (b_y b) ++ b_todo b with [] => if y_closed (b_y b) then Some (reconnect (abs b) ok []) else None | _ => None end
            end).
    { cbn [Socket.step]. change (running (abs b)) with (running (b_y b)). change (y_top (abs b)) with (y_top (b_y b)). rewrite E.
      change (y_reply (abs b)) with (y_reply (b_y b)). change (y_arrived (abs b)) with (y_arrived (b_y b)). rewrite Er, Ea. reflexivity. }
    assert (Or : orderly ck cv (abs b) (EReadError k ok)) by exact Ho.
    destruct (from_io k) as [[]|].
    + destruct (y_flight (b_y b)) eqn:Ef; [|discriminate]. destruct (y_closed (b_y b)) eqn:Ecl; [|discriminate].
      apply andb_prop in E. destruct E as [R _]. assert (Et := t_closed Ht R Ecl).
      destruct (reconnect_cases (b_y b) ok []) as [Rc|(left & Rc)].
      * rewrite Rc in Hs. unfold lift in Hs. cbn [y_conn] in Hs. replace (S (y_conn (b_y b)) =? y_conn (b_y b)) with false in Hs by (symmetry; apply Nat.eqb_neq; lia).
        apply Some_inj in Hs. subst b'. split.
        -- constructor; cbn [b_y b_todo b_read b_sent y_client y_reply y_closed]; try congruence; auto. intros; lia.
        -- right. exists (EReadError k ok). split; [exact Or|]. rewrite Step, Et. cbn [app]. f_equal. unfold reconnect in *. change (y_left (abs b)) with (y_left (b_y b)).
           change (abandon (abs b)) with (abandon (b_y b)). destruct (y_left (b_y b)) as [[|m]|], ok; cbn [andb] in *; try discriminate Rc; reflexivity.
      * rewrite Rc in Hs. apply tied_lift in Hs; [|reflexivity]. subst b'. split.
        -- constructor; cbn [b_y b_todo b_read b_sent y_client y_reply y_closed]; [apply (t_idle Ht)|apply (t_more Ht)|apply (t_todo Ht)|intros; lia|discriminate].
        -- right. exists (EReadError k ok). split; [exact Or|]. rewrite Step, Et. cbn [app]. f_equal. unfold reconnect in *. change (y_left (abs b)) with (y_left (b_y b)).
           unfold abs, total. cbn [b_y b_todo b_read b_sent y_store y_left y_status y_conn y_timeout y_top y_flight y_arrived y_partial y_closed y_reply y_back y_served y_got y_client].
           destruct (y_left (b_y b)) as [[|m]|], ok; cbn [andb] in *; try discriminate Rc; apply (f_equal (@y_left _ _ _)) in Rc; cbn [y_left] in Rc; subst left; rewrite ?Ef, ?Et, ?Ecl, ?Ea, ?Er; reflexivity.
    + destruct (y_timeout (b_y b)); [|discriminate]. apply tied_lift in Hs; [|reflexivity]. subst b'. split.
      * constructor; cbn [b_y b_todo b_read b_sent set_server y_client y_reply y_closed]; [apply (t_idle Ht)|apply (t_more Ht)|apply (t_todo Ht)|intros; lia|apply (t_closed Ht)].
      * right. exists (EReadError k ok). split; [exact Or|]. rewrite Step. reflexivity.
    + apply tied_lift in Hs; [|reflexivity]. subst b'. split.
      * constructor; cbn [b_y b_todo b_read b_sent set_status y_client y_reply y_closed]; [apply (t_idle Ht)|apply (t_more Ht)|apply (t_todo Ht)|intros; lia|discriminate].
      * right. exists (EReadError k ok). split; [exact Or|]. rewrite Step. reflexivity.
  - (* BSend *)
    cbn [Buffers.bstep] in Hs. cbv zeta in Hs. destruct (running (b_y b) && negb (y_top (b_y b))) eqn:E; [|discriminate]. destruct (y_reply (b_y b)) as [p|] eqn:Er; [|discriminate].
    apply andb_prop in E. destruct E as [R T]. apply negb_true_iff in T.
    match type of Hs with (if ?c then _ else _) = _ => destruct c eqn:E; [|discriminate] end. apply Some_inj in Hs.
    apply andb_prop in E. destruct E as [E E3]. apply andb_prop in E. destruct E as [E1 E2]. apply Nat.leb_le in E1, E2. rewrite skipn_length in *.
    assert (W : b_todo b <> [] -> forall r, y_client (b_y b) <> CWaiting r).
    { intros Hn r Hc. rewrite Hc in Hp. destruct Hp as (_ & _ & [(_ & Q2 & _)|(h0 & v & p' & _ & _ & _ & _ & _ & Q6 & _)]).
      - destruct (Q2 R) as [_ Q]. congruence.
      - assert (B := Q6 R). unfold bytes in B. cbn [abs y_partial y_arrived y_flight] in B. apply app_eq_nil in B. destruct B as [_ B]. apply app_eq_nil in B. destruct B as [_ B].
        apply app_eq_nil in B. destruct B as [_ B]. congruence. }
    assert (Ni : y_client (b_y b) <> CIdle).
    { intros Hc. rewrite Hc in Hp. destruct Hp as (_ & _ & P3 & _). destruct (P3 R) as [_ Q]. congruence. }
    assert (Pre : exists pre, total b = pre ++ firstn (b_sent b) (enc rp p) /\ y_back (abs b) = pre /\ b_sent b <= length (enc rp p)).
    { destruct (b_sent b) as [|m] eqn:Es.
      - exists (total b). cbn [firstn]. rewrite app_nil_r. split; [auto|]. split; [apply abs_back; auto|lia].
      - destruct (t_sent Ht) as (p' & pre & G1 & G2 & G3 & G4); [lia|]. rewrite Es in *. assert (p' = p) by congruence. subst p'. exists pre. split; [auto|]. split; [|lia].
        cbn [abs y_back]. rewrite Es, G3, app_length, firstn_length. replace (length pre + Nat.min (S m) (length (enc rp p)) - S m) with (length pre + 0) by lia.
        rewrite firstn_app_2. cbn [firstn]. apply app_nil_r. }
    destruct Pre as (pre & Pre1 & Pre2 & Pre3).
    assert (Val : y_client (b_y b) = CGone \/ response_valid ck cv p).
    { destruct (y_client (b_y b)) as [|r|] eqn:Hc; [congruence| |auto]. right.
      destruct Hp as (_ & _ & [(_ & Q2 & _)|(h0 & v & p' & _ & _ & _ & _ & Q5 & _ & [[Q7 _]|[Q7 _]])]); [destruct (Q2 R); congruence|congruence|congruence]. }
    destruct (n =? length (enc rp p) - b_sent b) eqn:En; subst b'.
    + apply Nat.eqb_eq in En. split.
      * constructor; cbn [b_y b_todo b_read b_sent set_server y_client y_reply y_closed]; [congruence|apply (t_more Ht)| |intros; lia|apply (t_closed Ht)].
        intros r Hc Hn. exfalso. exact (W Hn r Hc).
      * right. exists ESend. split; [exact I|]. cbn [Socket.step]. change (running (abs b)) with (running (b_y b)). change (y_top (abs b)) with (y_top (b_y b)). rewrite R, T. cbn [andb negb].
        change (y_reply (abs b)) with (y_reply (b_y b)). rewrite Er, Pre2. f_equal. unfold set_server, abs at 1 2 3 4 5 6 7 8 9 10 11 12, abs.
        cbn [b_y b_todo b_read b_sent set_server y_store y_left y_status y_conn y_timeout y_top y_flight y_arrived y_partial y_closed y_reply y_back y_served y_got y_client].
        f_equal. unfold total. cbn [b_read b_y set_server y_back]. rewrite app_assoc. fold (total b). rewrite Pre1, Nat.sub_0_r, firstn_all.
        rewrite (@firstn_all2 _ n) by (rewrite skipn_length; lia). rewrite <- app_assoc, firstn_skipn. reflexivity.
    + apply Nat.eqb_neq in En.
      assert (Len : b_sent b <= length (total b)) by (rewrite Pre1, app_length, firstn_length; lia).
      split.
      * constructor; cbn [b_y b_todo b_read b_sent set_server y_client y_reply y_closed]; [congruence|apply (t_more Ht)| | |apply (t_closed Ht)].
        -- intros r Hc Hn. exfalso. exact (W Hn r Hc).
        -- intros _. exists p, pre. split; [auto|]. split; [lia|]. split; [|auto]. unfold total. cbn [b_read b_y set_server y_back]. rewrite app_assoc. fold (total b). rewrite Pre1, <- app_assoc. f_equal.
           rewrite <- (firstn_skipn (b_sent b) (enc rp p)) at 3. rewrite firstn_app, firstn_firstn, firstn_length. f_equal; f_equal; lia.
      * left. unfold abs. cbn [b_y b_todo b_read b_sent set_server y_store y_left y_status y_conn y_timeout y_top y_flight y_arrived y_partial y_closed y_reply y_back y_served y_got y_client].
        rewrite T, Er. f_equal. unfold total at 1 2. cbn [b_read b_y set_server y_back]. rewrite app_assoc. fold (total b). rewrite app_length, firstn_length, skipn_length.
        replace (length (total b) + Nat.min n (length (enc rp p) - b_sent b) - (b_sent b + n)) with (length (total b) - b_sent b) by lia.
        rewrite firstn_app. replace (length (total b) - b_sent b - length (total b)) with 0 by lia. cbn [firstn]. apply app_nil_r.
  - (* BSendError *)
    cbn [Buffers.bstep Socket.step] in Hs. destruct (running (b_y b) && negb (y_top (b_y b))) eqn:E; [|discriminate]. destruct (y_reply (b_y b)) as [p|] eqn:Er; [|discriminate].
    assert (Hk : from_io k <> Some BrokenPipe) by (destruct k; cbn; congruence).
    assert (X : match lift b (Some (set_status (b_y b) Panicked)) with
      | Some b' => Some match y_reply (b_y b') with Some _ => b' | None => mkB (b_y b') (b_todo b') (b_read b') 0 end | None => None end = Some b')
      by (destruct (from_io k) as [[]|]; [congruence|exact Hs|exact Hs]).
    rewrite lift_same in X by reflexivity. cbn [b_y set_status y_reply] in X. rewrite Er in X. apply Some_inj in X. subst b'. split.
    + constructor; cbn [b_y b_todo b_read b_sent set_status y_client y_reply y_closed]; [apply (t_idle Ht)|apply (t_more Ht)|apply (t_todo Ht)|apply (t_sent Ht)|discriminate].
    + right. exists (ESendError k ok ok2). split; [exact Ho|]. cbn [Socket.step]. change (running (abs b)) with (running (b_y b)). change (y_top (abs b)) with (y_top (b_y b)). rewrite E.
      change (y_reply (abs b)) with (y_reply (b_y b)). rewrite Er. destruct (from_io k) as [[]|]; [congruence|reflexivity|reflexivity].
Qed.
(** Every execution over bounded buffers is one over unbounded buffers. *)
Lemma simulation container persistent b : breach borderly (bspawned C container persistent) b -> fits ck cv (b_y b) ->
  reach ck cv (orderly ck cv) (spawned C container persistent) (abs b) /\ told ck cv container (abs b) /\ tied b.
Proof.
  intros H. induction H as [|b e b' Hr IH Ho H]; intros F.
  - split; [constructor|]. split.
    + exists []. split; [constructor|]. unfold place. cbn. repeat split; auto; constructor.
    + constructor; cbn; auto; try discriminate. intros; lia.
  - destruct IH as (I1 & I2 & I3); [eapply bstep_fits; eauto|].
    destruct (sim_step _ I2 I3 Ho H F) as (T & [A|(e' & A1 & A2)]).
    + rewrite A. auto.
    + split; [econstructor; eauto|]. split; [|auto]. eapply told_step; eauto.
Qed.
Theorem C69_responses_match_partial : forall container persistent b, breach borderly (bspawned C container persistent) b -> fits ck cv (b_y b) ->
  exists processed : list (nat * request * value),
    direct_all C container (map (fun x => (snd (fst x), snd x)) processed) (y_store (b_y b)) /\
    subseq (answered (y_got (b_y b))) processed /\ subseq (map fst processed) (sent (b_y b)).
Proof.
  intros container persistent b H F. destruct (simulation H F) as (R & _).
  exact (C42_responses_match_partial R F).
Qed.

(** ** Stopping a server: C49 again *)
(** As in PSocket.v: what the thread can do by itself once the stop signal is sent. *)
Definition bthread (e : bevent K V) : Prop :=
  match e with BStop | BRead | BReadError _ _ | BSend _ | BSendError _ _ _ => True | _ => False end.
Definition bsure (e : bevent K V) : Prop :=
  match e with BStop | BRead | BSend _ => True | BReadError k _ => from_io k = Some TimedOut | _ => False end.
Inductive bwill_stop (b : bsys) : Prop :=
| bws_over : running (b_y b) = false -> bwill_stop b
| bws_goes : (exists e b', bsure e /\ bstep b e = Some b') ->
    (forall e b', bthread e -> bstep b e = Some b' -> bwill_stop b') -> bwill_stop b.
Lemma bstop_top b : y_top (b_y b) = true -> bwill_stop b.
Proof.
  intros T. destruct (running (b_y b)) eqn:R; [|constructor 1; auto]. constructor 2.
  - exists BStop. cbn [Buffers.bstep Socket.step]. rewrite R, T. cbn [andb]. rewrite lift_same by reflexivity. eexists. split; [exact I|reflexivity].
  - intros e b' He Hs. constructor 1. destruct e; try contradiction; cbn [Buffers.bstep Socket.step] in Hs; cbv zeta in Hs; rewrite R, T in Hs; cbn [andb negb lift] in Hs; try discriminate.
    rewrite Nat.eqb_refl in Hs. apply Some_inj in Hs. subst. reflexivity.
Qed.
Lemma bstop_dead b t : t <> Running -> forall todo read sent, bwill_stop (mkB (set_status (b_y b) t) todo read sent).
Proof. intros. constructor 1. destruct t; auto. congruence. Qed.
Lemma bstop_reconnect b ok l : running (b_y b) = true -> forall todo read sent, bwill_stop (mkB (reconnect (b_y b) ok l) todo read sent).
Proof. intros R todo read sent. unfold reconnect. destruct (y_left (b_y b)) as [[|m]|], ok; cbn [andb]; try (apply bstop_top; reflexivity); constructor 1; auto. Qed.
Lemma bstop_lift b y' b' : lift b (Some y') = Some b' -> (forall todo read sent, bwill_stop (mkB y' todo read sent)) -> bwill_stop b'.
Proof. unfold lift. intros H G. apply Some_inj in H. subst b'. destruct (y_conn y' =? y_conn (b_y b)); apply G. Qed.
Lemma bstop_reply p : forall m b, length (enc rp p) - b_sent b <= m -> y_reply (b_y b) = Some p -> b_sent b < length (enc rp p) ->
  length (y_back (b_y b)) + (length (enc rp p) - b_sent b) <= down -> bwill_stop b.
Proof.
  induction m as [|m IH]; intros b Hm Er Hl Hd; [lia|].
  destruct (running (b_y b)) eqn:R; [|constructor 1; auto]. destruct (y_top (b_y b)) eqn:T; [apply bstop_top; auto|]. constructor 2.
  - exists (BSend 1). cbn [Buffers.bstep]. cbv zeta. rewrite R, T, Er. cbn [andb negb]. rewrite skipn_length.
    rewrite (proj2 (Nat.leb_le 1 (length (enc rp p) - b_sent b))) by lia. rewrite (proj2 (Nat.leb_le (length (y_back (b_y b)) + 1) down)) by lia. rewrite orb_true_r.
    eexists. split; [exact I|]. cbn [Nat.leb andb]. reflexivity.
  - intros e b' He Hs. destruct e; try contradiction; cbn [Buffers.bstep Socket.step] in Hs; cbv zeta in Hs; rewrite R, T, ?Er in Hs; cbn [andb negb] in Hs; try discriminate.
    + match type of Hs with (if ?c then _ else _) = _ => destruct c eqn:E; [|discriminate] end.
      apply andb_prop in E. destruct E as [E _]. apply andb_prop in E. destruct E as [E1 E2]. apply Nat.leb_le in E1, E2. rewrite skipn_length in *.
      destruct (n =? length (enc rp p) - b_sent b) eqn:En; apply Some_inj in Hs; subst b'; [apply bstop_top; reflexivity|]. apply Nat.eqb_neq in En.
      apply IH; cbn [b_y b_sent set_server y_reply y_back]; auto; try lia. rewrite app_length, firstn_length, skipn_length. lia.
    + match type of Hs with match ?o with _ => _ end = _ => destruct o as [b1|] eqn:E; [|discriminate] end. apply Some_inj in Hs.
      assert (G : forall todo read sent, bwill_stop (mkB (b_y b1) todo read sent)).
      { destruct (from_io k) as [[]|]; unfold lift in E; apply Some_inj in E; intros todo read sent; subst b1;
          match goal with |- context [if ?c then _ else _] => destruct c end; cbn [b_y]; try (apply bstop_dead; discriminate);
          match goal with |- context [if ?c then _ else _] => destruct c end; try (apply bstop_dead with (b := mkB (reconnect (b_y b) ok _) [] [] 0); discriminate); apply bstop_reconnect; auto. }
      subst b'. destruct b1 as [y1 t1 r1 s1]. cbn [b_y b_todo b_read] in *. destruct (y_reply y1); apply G.
Qed.
(** Whatever the container answers next fits in the buffer of the connection. *)
Definition roomy (b : bsys) : Prop :=
  (forall r s' p, match_response C (y_store (b_y b)) r = Ok (s', p) -> length (y_back (b_y b)) + length (enc rp p) <= down) /\
  length (y_back (b_y b)) + length (enc rp PError) <= down /\
  (forall p, y_reply (b_y b) = Some p -> b_sent b < length (enc rp p) /\ length (y_back (b_y b)) + (length (enc rp p) - b_sent b) <= down).
Lemma bstop_reading a : forall b, y_arrived (b_y b) = a -> y_timeout (b_y b) = true -> roomy b -> (y_reply (b_y b) = None -> b_sent b = 0) -> bwill_stop b.
Proof.
  induction a as [|x a IH]; intros b Ea Ht Hr H0; (destruct (running (b_y b)) eqn:R; [|constructor 1; auto]); (destruct (y_top (b_y b)) eqn:T; [apply bstop_top; auto|]);
    (destruct (y_reply (b_y b)) as [p|] eqn:Er; [destruct Hr as (_ & _ & Hr); destruct (Hr p Er); eapply bstop_reply; eauto|]); constructor 2.
  - exists (BReadError TimedOutIo true). cbn [Buffers.bstep Socket.step]. rewrite R, T, Er, Ea. cbn [andb negb from_io]. rewrite Ht. rewrite lift_same by reflexivity. eexists. split; reflexivity.
  - intros e b' He Hs. destruct e; try contradiction; cbn [Buffers.bstep Socket.step] in Hs; cbv zeta in Hs; rewrite R, T, ?Er, ?Ea in Hs; cbn [andb negb lift] in Hs; try discriminate.
    destruct (from_io k) as [[]|].
    + destruct (y_flight (b_y b)); try discriminate. destruct (y_closed (b_y b)); try discriminate. eapply bstop_lift; [exact Hs|]. apply bstop_reconnect; auto.
    + rewrite Ht in Hs. eapply bstop_lift; [exact Hs|]. intros. apply bstop_top. auto.
    + eapply bstop_lift; [exact Hs|]. apply bstop_dead; discriminate.
  - exists BRead. cbn [Buffers.bstep Socket.step]. rewrite R, T, Er, Ea. cbn [andb negb].
    destruct (de rq (y_partial (b_y b) ++ [x])) as [r rest| |[]]; [destruct (match_response C (y_store (b_y b)) r) as [[]|]| | |]; rewrite lift_same by reflexivity; eexists; (split; [exact I|reflexivity]).
  - assert (S0 := H0 eq_refl). destruct Hr as (H1 & H2 & H3).
    intros e b' He Hs. destruct e; try contradiction; cbn [Buffers.bstep Socket.step] in Hs; cbv zeta in Hs; rewrite R, T, ?Er, ?Ea in Hs; cbn [andb negb] in Hs; try discriminate; try (cbn [lift] in Hs; discriminate).
    destruct (de rq (y_partial (b_y b) ++ [x])) as [r rest| |[]].
    + destruct (match_response C (y_store (b_y b)) r) as [[s' p]|] eqn:M.
      * rewrite lift_same in Hs by reflexivity. apply Some_inj in Hs. subst b'. specialize (H1 _ _ _ M). eapply (@bstop_reply p); [reflexivity|reflexivity| |]; cbn [b_y b_sent set_server y_back]; rewrite S0.
        -- pose proof (@enc_response_nonempty p). destruct (enc rp p); [congruence|cbn [length]; lia].
        -- lia.
      * eapply bstop_lift; [exact Hs|]. apply bstop_dead; discriminate.
    + rewrite lift_same in Hs by reflexivity. apply Some_inj in Hs. subst b'. apply IH; auto. unfold roomy. cbn [b_y set_server y_store y_back y_reply b_sent]. split; [auto|]. split; [auto|]. discriminate.
    + rewrite lift_same in Hs by reflexivity. apply Some_inj in Hs. subst b'. eapply (@bstop_reply PError); [reflexivity|reflexivity| |]; cbn [b_y b_sent set_server y_back]; rewrite S0; [|lia].
      pose proof (@enc_response_nonempty PError). destruct (enc rp PError); [congruence|cbn [length]; lia].
    + eapply bstop_lift; [exact Hs|]. apply bstop_dead; discriminate.
Qed.
Lemma bsent_zero container persistent b : breach (fun _ _ => True) (bspawned C container persistent) b ->
  (y_reply (b_y b) = None -> b_sent b = 0) /\ 1 <= y_conn (b_y b) /\ (y_conn (b_y b) = 1 -> y_timeout (b_y b) = true).
Proof.
  intros H. induction H as [|b e b' Hr (IH1 & IH2 & IH3) _ H]; [cbn; auto|].
  assert (RC : forall ok l, (y_conn (reconnect (b_y b) ok l) = S (y_conn (b_y b)) \/ (y_conn (reconnect (b_y b) ok l) = y_conn (b_y b) /\ y_timeout (reconnect (b_y b) ok l) = y_timeout (b_y b)))).
  { intros ok l. unfold reconnect. destruct (y_left (b_y b)) as [[|m]|], ok; cbn [andb y_conn y_timeout]; auto. }
  assert (G : forall e y', Socket.step ck cv (b_y b) e = Some y' ->
    (y_conn y' = S (y_conn (b_y b)) \/ (y_conn y' = y_conn (b_y b) /\ y_timeout y' = y_timeout (b_y b)))).
  { intros e' y' G. unfold Socket.step in G; cbv zeta in G.
    destruct e'; repeat match type of G with match ?x with _ => _ end = Some _ => destruct x eqn:?; try discriminate G end; apply Some_inj in G; subst;
      cbn [set_server set_status y_conn y_timeout]; auto.
    match goal with |- context [if ?c then _ else _] => destruct c end; cbn [set_status y_conn y_timeout]; apply RC. }
  assert (Z : forall e y', Socket.step ck cv (b_y b) e = Some y' -> (forall k ok ok2, e <> ESendError k ok ok2) -> e <> ESend -> y_reply y' = None -> y_conn y' = y_conn (b_y b) -> b_sent b = 0).
  { intros e' y' Z N1 N2 Hy Hc. apply IH1. destruct (y_reply (b_y b)) eqn:Er; auto. exfalso. unfold Socket.step in Z; cbv zeta in Z. rewrite Er in Z.
    destruct e'; try congruence; repeat match type of Z with match ?x with _ => _ end = Some _ => destruct x eqn:?; try discriminate Z end; try (apply Some_inj in Z; subst; cbn [set_server set_status y_reply] in Hy; congruence). }
  assert (L : forall e, lift b (Socket.step ck cv (b_y b) e) = Some b' -> (forall k ok ok2, e <> ESendError k ok ok2) -> e <> ESend ->
    (y_reply (b_y b') = None -> b_sent b' = 0) /\ 1 <= y_conn (b_y b') /\ (y_conn (b_y b') = 1 -> y_timeout (b_y b') = true)).
  { intros e' L N1 N2. unfold lift in L. destruct (Socket.step ck cv (b_y b) e') as [y'|] eqn:E; [|discriminate]. apply Some_inj in L.
    pose proof (G _ _ E) as G1. pose proof (Z _ _ E N1 N2) as Z1. subst b'. destruct (y_conn y' =? y_conn (b_y b)) eqn:Ec; cbn [b_y b_sent].
    - apply Nat.eqb_eq in Ec. split; [auto|]. destruct G1 as [G1|[G1 G2]]; [lia|]. rewrite G1, G2. auto.
    - apply Nat.eqb_neq in Ec. split; [auto|]. destruct G1 as [G1|[G1 G2]]; [|lia]. rewrite G1. split; [lia|]. intros; lia. }
  destruct e; cbn [Buffers.bstep] in H; try (eapply L; [exact H| |]; discriminate); cbv zeta in H.
  - destruct (y_client (b_y b)); try discriminate. apply Some_inj in H. subst. auto.
  - match type of H with (if ?c then _ else _) = _ => destruct c; [|discriminate] end. apply Some_inj in H. subst. auto.
  - destruct ((1 <=? n) && (n <=? length (y_flight (b_y b)))); [|discriminate]. eapply L; [exact H| |]; discriminate.
  - repeat match type of H with match ?x with _ => _ end = Some _ => destruct x eqn:?; try discriminate H end; apply Some_inj in H; subst; auto.
  - repeat match type of H with match ?x with _ => _ end = Some _ => destruct x eqn:?; try discriminate H end; apply Some_inj in H; subst; auto.
  - destruct (Socket.step ck cv (b_y b) (EClose n)) as [y'|] eqn:E; [|discriminate]. apply Some_inj in H. subst b'. cbn [b_y b_sent].
    destruct (G _ _ E) as [G1|[G1 G2]].
    + exfalso. cbn [Socket.step] in E. destruct (y_client (b_y b)); try discriminate; apply Some_inj in E; subst y'; cbn [y_conn] in G1; lia.
    + split; [intros; eapply Z; eauto; discriminate|]. rewrite G1, G2. auto.
  - destruct (running (b_y b) && negb (y_top (b_y b))); [|discriminate]. destruct (y_reply (b_y b)); [|discriminate].
    match type of H with (if ?c then _ else _) = _ => destruct c; [|discriminate] end. apply Some_inj in H. subst b'.
    match goal with |- context [if ?c then _ else _] => destruct c end; cbn [b_y b_sent set_server y_reply y_conn y_timeout]; (split; [congruence|auto]).
  - destruct (lift b (Socket.step ck cv (b_y b) (ESendError k ok ok2))) as [b1|] eqn:E; [|discriminate]. apply Some_inj in H. split.
    { intros Hy. subst b'. destruct (y_reply (b_y b1)) eqn:Er; [congruence|reflexivity]. }
    assert (Hy : b_y b' = b_y b1) by (subst b'; destruct (y_reply (b_y b1)); auto). rewrite Hy.
    unfold lift in E. destruct (Socket.step ck cv (b_y b) (ESendError k ok ok2)) as [y'|] eqn:E'; [|discriminate]. apply Some_inj in E. destruct (G _ _ E') as [G1|[G1 G2]].
    + subst b1. rewrite G1. destruct (S (y_conn (b_y b)) =? y_conn (b_y b)); cbn [b_y]; rewrite G1; split; try lia; intros; lia.
    + subst b1. rewrite G1, Nat.eqb_refl. cbn [b_y]. rewrite G1, G2. auto.
Qed.
(** While the thread serves its first client and its answers fit in the buffer, it can be stopped. *)
Theorem C69_stop_partial : forall container persistent b, breach (fun _ _ => True) (bspawned C container persistent) b -> y_conn (b_y b) = 1 -> roomy b -> bwill_stop b.
Proof. intros container persistent b H Hc Hr. destruct (bsent_zero H) as (H0 & _ & Ht). eapply bstop_reading; eauto. Qed.

(** Otherwise it may never be: the writes of the server have no timeout. *)
Definition full (b : bsys) (p : response) : Prop :=
  running (b_y b) = true /\ y_top (b_y b) = false /\ y_reply (b_y b) = Some p /\ y_closed (b_y b) = false /\ down <= length (y_back (b_y b)) /\
  b_sent b < length (enc rp p) /\ y_client (b_y b) <> CIdle.
(** The client neither reads nor goes away, and the network does not fail. *)
Definition hangs (e : bevent K V) : Prop := match e with BGet | BClose _ | BSendError _ _ _ => False | _ => True end.
Lemma full_step b p e b' : full b p -> hangs e -> bstep b e = Some b' -> full b' p /\ ~ bsure e.
Proof.
  intros (R & T & Er & Hc & Hb & Hl & Hi) He Hs. destruct e; try contradiction; cbn [Buffers.bstep Socket.step] in Hs; cbv zeta in Hs; rewrite ?R, ?T, ?Er in Hs; cbn [andb negb] in Hs; try discriminate.
  - destruct (y_client (b_y b)); try discriminate. congruence.
  - match type of Hs with (if ?c then _ else _) = _ => destruct c; [|discriminate] end. apply Some_inj in Hs. subst b'. unfold full. cbn [b_y b_sent with_client y_top y_reply y_closed y_back y_client].
    split; [|intros []]. repeat (split; [auto|]). auto.
  - destruct ((1 <=? n) && (n <=? length (y_flight (b_y b)))); [|discriminate]. rewrite lift_same in Hs by reflexivity. apply Some_inj in Hs. subst b'. unfold full. cbn [b_y b_sent y_top y_reply y_closed y_back y_client].
    split; [|intros []]. repeat (split; [auto|]). auto.
  - destruct (y_client (b_y b)); discriminate.
  - rewrite Hc in Hs. cbn [orb] in Hs. destruct (1 <=? n) eqn:E1; [|discriminate]. apply Nat.leb_le in E1.
    replace (length (y_back (b_y b)) + n <=? down) with false in Hs by (symmetry; apply Nat.leb_gt; lia). rewrite andb_false_r in Hs. discriminate.
Qed.
Lemma full_stays p : forall es b b', full b p -> Forall hangs es -> bsteps b es = Some b' -> full b' p /\ ~ bwill_stop b'.
Proof.
  assert (Z : forall b, full b p -> ~ bwill_stop b).
  { intros b Hf H. destruct H as [H|(e & b' & He & Hs) _]; [destruct Hf; congruence|].
    assert (hangs e) by (destruct e; try contradiction; exact I). destruct (full_step e Hf H Hs) as [_ N]. auto. }
  induction es as [|e es IH]; intros b b' Hf Ha Hs; cbn [Buffers.bsteps] in Hs.
  - apply Some_inj in Hs. subst. auto.
  - destruct (bstep b e) as [b1|] eqn:E; [|discriminate]. inversion Ha; subst. destruct (full_step e Hf H1 E) as [Hf1 _]. eapply IH; eauto.
Qed.
Lemma stalls r s s' p : 1 <= up -> match_response C s r = Ok (s', p) -> response_valid ck cv p -> down < length (enc rp p) ->
  forall m b, 2 * work b (expects r s) + (if y_top (b_y b) then 1 else 0) <= m -> in_call b r s -> fits ck cv (b_y b) -> b_read b = [] -> length (y_back (b_y b)) <= down ->
  exists b', breach bcalm b b' /\ full b' p /\ y_conn (b_y b') = y_conn (b_y b) /\ y_client (b_y b') = CWaiting r.
Proof.
  intros Hup M Hval Hsize. induction m as [m IH] using lt_wf_ind. intros b Hm Hi F Hread Hback.
  assert (G : full b p \/ exists e b1, bcalm b e /\ bstep b e = Some b1 /\ e <> BGet /\ (useful e = 1 \/ (e = BLoop /\ y_top (b_y b) = true /\ y_top (b_y b1) = false))).
  { destruct (Hi) as (Hc & Hv & R & Hcl & Hmore & Hp).
    destruct Hp as [(P1 & P2 & P3 & P4 & P5 & P6 & P7)|(s1 & p1 & P1 & P2 & P3 & P4 & P5 & P6 & P7 & [(Q1 & Q2 & Q3 & Q4)|(Q1 & Q2 & Q3)])].
    - right. destruct (y_top (b_y b)) eqn:T.
      { exists BLoop. exists (mkB (set_server (b_y b) (y_store (b_y b)) false (y_arrived (b_y b)) (y_partial (b_y b)) (y_reply (b_y b)) (y_back (b_y b)) (y_served (b_y b))) (b_todo b) (b_read b) (b_sent b)).
        split; [exact I|]. cbn [Buffers.bstep Socket.step]. rewrite R, T. cbn [andb]. rewrite lift_same by reflexivity. split; [reflexivity|]. split; [discriminate|]. right. auto. }
      destruct (y_arrived (b_y b)) as [|x a] eqn:Ea.
      + destruct (y_flight (b_y b)) as [|x f] eqn:Ef.
        * exists (BPut 1). destruct (b_todo b) eqn:Et; [exfalso; apply P3; reflexivity|]. eexists. split; [exact I|]. cbn [Buffers.bstep]. cbv zeta. rewrite R, Ea, Ef, Et.
          cbn [length]. rewrite (proj2 (Nat.leb_le (0 + 0 + 1) up)) by lia. split; [reflexivity|]. split; [discriminate|left; reflexivity].
        * exists (BDeliver 1). eexists. split; [exact I|]. cbn [Buffers.bstep]. cbv zeta. rewrite Ef. cbn [length andb Nat.leb Socket.step]. rewrite lift_same by reflexivity. split; [reflexivity|]. split; [discriminate|left; reflexivity].
      + exists BRead. cbn [Buffers.bstep Socket.step]. rewrite R, T, P4, Ea. cbn [andb negb].
        destruct (de rq (y_partial (b_y b) ++ [x])) as [q rest| |[]]; [destruct (match_response C (y_store (b_y b)) q) as [[]|]| | |];
          eexists; (split; [exact I|]); rewrite lift_same by reflexivity; (split; [reflexivity|]); (split; [discriminate|left; reflexivity]).
    - assert (p1 = p) by congruence. subst p1. destruct (Nat.eq_dec (length (y_back (b_y b))) down) as [Eb|Nb].
      + left. unfold full. do 4 (split; [auto|]). split; [lia|]. split; [auto|congruence].
      + right. exists (BSend 1). eexists. split; [exact I|]. cbn [Buffers.bstep]. cbv zeta. rewrite R, Q1, Q2. cbn [andb negb].
        rewrite skipn_length. rewrite (proj2 (Nat.leb_le 1 (length (enc rp p) - b_sent b))) by lia. rewrite (proj2 (Nat.leb_le (length (y_back (b_y b)) + 1) down)) by lia.
        rewrite orb_true_r. cbn [Nat.leb andb]. split; [reflexivity|]. split; [discriminate|left; reflexivity].
    - exfalso. assert (p1 = p) by congruence. subst p1. unfold total in Q3. rewrite Hread in Q3. cbn [app] in Q3. rewrite Q3 in Hback. lia. }
  destruct G as [G|(e & b1 & Ha & Hs & Hne & Hu)].
  { exists b. destruct Hi as (Hc & _). repeat split; auto; try apply G. constructor. }
  assert (Hv' : forall s'' p', match_response C s r = Ok (s'', p') -> response_valid ck cv p') by (intros ? ? ?; congruence).
  assert (F1 := call_fits _ Hi Ha Hs F Hv').
  destruct (call_step _ Hi Ha Hs F1) as (E1 & [(E2 & E3 & E4)|[(E2 & E3)|(s1 & v & E2 & E3 & E4 & E5 & E6)]]).
  - assert (D : 2 * work b1 (expects r s) + (if y_top (b_y b1) then 1 else 0) < m).
    { destruct Hu as [Hu|(-> & T1 & T2)].
      - rewrite Hu in E4. destruct (y_top (b_y b1)), (y_top (b_y b)); lia.
      - cbn [useful] in E4. rewrite T1 in Hm. rewrite T2. lia. }
    assert (RB : b_read b1 = [] /\ length (y_back (b_y b1)) <= down).
    { destruct (Hi) as (Hc & Hv & R & Hcl & Hmore & Hp). clear - Hs Ha Hne Hread Hback Hc R Hcl Hu.
      destruct e as [q|n|n| | |n| | | |k ok|n|k ok ok2]; cbn [bcalm] in Ha; try contradiction; try congruence; cbn [Buffers.bstep] in Hs; cbv zeta in Hs.
      - rewrite Hc in Hs. discriminate.
      - match type of Hs with (if ?c then _ else _) = _ => destruct c; [|discriminate] end. apply Some_inj in Hs. subst. auto.
      - destruct ((1 <=? n) && (n <=? length (y_flight (b_y b)))); [|discriminate]. cbn [Socket.step] in Hs. rewrite lift_same in Hs by reflexivity. apply Some_inj in Hs. subst. auto.
      - rewrite Hc, R in Hs. discriminate.
      - cbn [Socket.step] in Hs. destruct (running (b_y b) && y_top (b_y b)); [|discriminate]. rewrite lift_same in Hs by reflexivity. apply Some_inj in Hs. subst. auto.
      - cbn [Socket.step] in Hs. destruct (running (b_y b) && negb (y_top (b_y b))); [|discriminate]. destruct (y_reply (b_y b)); [discriminate|]. destruct (y_arrived (b_y b)) as [|x a]; [discriminate|].
        destruct (de rq (y_partial (b_y b) ++ [x])) as [q rest| |[]]; [destruct (match_response C (y_store (b_y b)) q) as [[]|]| | |]; rewrite lift_same in Hs by reflexivity; apply Some_inj in Hs; subst; auto.
      - destruct Hu as [Hu|(Hu & _)]; discriminate.
      - destruct (running (b_y b) && negb (y_top (b_y b))); [|discriminate]. destruct (y_reply (b_y b)); [|discriminate].
        match type of Hs with (if ?c then _ else _) = _ => destruct c eqn:Ec; [|discriminate] end. apply andb_prop in Ec. destruct Ec as [_ Ec]. rewrite Hcl in Ec. cbn [orb] in Ec. apply Nat.leb_le in Ec.
        apply Some_inj in Hs. subst b1. match goal with |- context [if ?c then _ else _] => destruct c end; cbn [b_read b_y set_server y_back]; (split; [auto|]); rewrite app_length, firstn_length; lia. }
    destruct RB as [RB1 RB2]. destruct (IH _ D b1 (le_n _) E3 F1 RB1 RB2) as (b' & I1 & I2 & I3 & I4). exists b'.
    split; [eapply breach_trans; [eapply breach_one; eauto|exact I1]|]. rewrite I3, E1. auto.
  - destruct E3 as (_ & E3 & _). congruence.
  - congruence.
Qed.
Theorem C69_stop_refuted_if_large : 1 <= up -> forall container persistent b r s' p, breach bcalm (bspawned C container persistent) b -> fits ck cv (b_y b) -> y_client (b_y b) = CIdle -> request_valid ck cv r ->
  match_response C (y_store (b_y b)) r = Ok (s', p) -> response_valid ck cv p -> down < length (enc rp p) ->
  exists b1, breach bcalm b b1 /\ y_conn (b_y b1) = 1 /\ y_client (b_y b1) = CWaiting r /\
    forall es b2, Forall hangs es -> bsteps b1 es = Some b2 -> running (b_y b2) = true /\ ~ bwill_stop b2.
Proof.
  intros Hup container persistent b r s' p H F Hi Hv M Hval Hsize.
  destruct (breach_binv H F) as [(l & s & Hd & Hc & [(Hg & Ii)|(r' & G & _)]) _]; [|congruence].
  destruct Ii as [Ii|(r' & [(Ii & _)|(Ii & _)])]; try congruence.
  assert (S1 : exists b1, bstep b (BCall r) = Some b1) by (cbn [Buffers.bstep]; cbv zeta; rewrite Hi; eauto). destruct S1 as (b1 & S1).
  destruct (idle_step (BCall r) Ii Hv S1) as (E1 & E2 & [(E3 & _)|(r' & E3 & E4 & E5)]).
  { cbn [Buffers.bstep] in S1. cbv zeta in S1. rewrite Hi in S1. apply Some_inj in S1. subst b1. discriminate. }
  injection E3 as <-. assert (Es : y_store (b_y b) = s) by (destruct Ii as (_ & I2 & _); auto). rewrite Es in *.
  assert (Eb : y_back (b_y b) = []) by (destruct Ii as (_ & _ & _ & _ & _ & _ & _ & _ & _ & Eb & _); auto).
  assert (X : fits ck cv (b_y b1) /\ b_read b1 = [] /\ y_back (b_y b1) = y_back (b_y b)) by (cbn [Buffers.bstep] in S1; cbv zeta in S1; rewrite Hi in S1; apply Some_inj in S1; subst b1; auto).
  destruct X as (F1 & X1 & X2). assert (X3 : length (y_back (b_y b1)) <= down) by (rewrite X2, Eb; cbn [length]; lia).
  destruct (stalls Hup M Hval Hsize (le_n _) E4 F1 X1 X3) as (b2 & B1 & B2 & B3 & B4).
  exists b2. split; [eapply breach_trans; [eapply breach_one; [|exact S1]; exact Hv|exact B1]|]. split; [congruence|]. split; [auto|].
  intros es b3 He Hs. destruct (full_stays B2 He Hs) as [(R & _) N]. auto.
Qed.
End PBuffers.

(** ** Examples and refutations *)
Definition brun (up down : nat) := @bsteps nat nat arrayB u u up down.
Definition bserver (container : array nat nat) (persistent : option nat) : bsys arrayB := bspawned arrayB container persistent.
(** Elements 0 .. n-1, and an Array filled with them before being served. *)
Definition numbers (n : nat) : list (nat * nat) := map (fun i => (i, i)) (seq 0 n).
Lemma sum_ones (l : list (nat * nat)) : sum_sz (fun _ => 1) l = length l.
Proof. induction l as [|x l IH]; [reflexivity|]. unfold sum_sz in *. cbn [map list_sum fold_right length] in *. change (fold_right Init.Nat.add 0) with list_sum in *. lia. Qed.
Lemma le8 x : length (le 8 x) = 8.
Proof. apply le_length. Qed.
Lemma numbers_length n : length (numbers n) = n.
Proof. unfold numbers. rewrite map_length, seq_length. auto. Qed.
Lemma flush_size (l : list (nat * nat)) : length (enc (response_codec u u) (PFlush l)) = 12 + 16 * length l.
Proof.
  cbn [response_codec enc response_tag response_body]. rewrite app_length, le_length. cbn [vec_codec enc usize_codec uint_codec]. rewrite app_length, le8.
  enough (H : length (flat_map (enc (pair_codec u u)) l) = 16 * length l) by lia.
  induction l as [|x l IH]; [reflexivity|]. cbn [flat_map length]. rewrite app_length, IH. destruct x as [a c]. cbn [pair_codec enc u usize_codec uint_codec fst snd]. rewrite app_length, !le8. lia.
Qed.
(** Whatever the size of the buffers, a client that asks for the content of a large enough container and does not read
    the answer makes the thread impossible to stop. *)
Theorem C69_stop_refuted : forall up down, 1 <= up -> (N.of_nat down < 256 ^ 8)%N ->
  exists container, push arrayB (array_new down (fun _ => 1)) (numbers down) = Ok (container, []) /\
  exists b, breach u u up down (bcalm u u) (bserver container (Some 0)) b /\ y_conn (b_y b) = 1 /\ y_client (b_y b) = CWaiting QFlush /\
    forall es b', Forall (@hangs nat nat) es -> brun up down b es = Some b' -> running (b_y b') = true /\ ~ bwill_stop u u up down b'.
Proof.
  intros up down Hup Hd. exists (mkArray down down (numbers down) (fun _ => 1)). split.
  { cbn [arrayB push ArrayB]. unfold a_push. cbn [array_new a_esz a_cap a_total a_vals]. rewrite sum_ones, numbers_length. unfold sub_chk. cbn [Nat.leb bind].
    rewrite Nat.sub_0_r, Nat.leb_refl. reflexivity. }
  set (container := mkArray down down (numbers down) (fun _ => 1)).
  destruct (@C69_stop_refuted_if_large nat nat arrayB u u up down Hup container (Some 0) (bserver container (Some 0)) QFlush
    (mkArray down 0 [] (fun _ => 1)) (PFlush (numbers down))) as (b & B1 & B2 & B3 & B4).
  - constructor.
  - constructor.
  - reflexivity.
  - exact I.
  - reflexivity.
  - cbn [response_valid vec_codec valid]. rewrite numbers_length. split; [exact Hd|]. apply Forall_forall. intros x Hx. unfold numbers in Hx. apply in_map_iff in Hx.
    destruct Hx as (i & <- & Hi). apply in_seq in Hi. cbn [pair_codec valid u usize_codec fst snd]. split; lia.
  - rewrite flush_size, numbers_length. lia.
  - exists b. auto.
Qed.
(** A whole call over buffers of 3 and 2 bytes: the hypotheses of C69 are met. *)
Fixpoint twice {T} (n : nat) (l : list T) : list T := match n with 0 => [] | S m => l ++ twice m l end.
Definition small_call : list (bevent nat nat) :=
  [BCall QSize; BPut 3; BDeliver 2; BLoop; BRead; BRead; BPut 1; BDeliver 2; BRead; BRead] ++ twice 6 [BSend 2; BGet; BGet].
Definition bcalmb (b : bsys arrayB) (e : bevent nat nat) : bool :=
  match e with
  | BCall _ | BPut _ | BDeliver _ | BGet | BFail | BLoop | BRead | BSend _ => true
  | BReadError (TimedOutIo | WouldBlock) _ => match y_partial (b_y b) with [] => true | _ => false end
  | _ => false
  end.
Definition bcall_valid (e : bevent nat nat) : Prop := match e with BCall r => request_valid u u r | _ => True end.
Fixpoint all_bcalm (up down : nat) (b : bsys arrayB) (es : list (bevent nat nat)) : bool :=
  match es with
  | [] => true
  | e :: es' => bcalmb b e && match bstep u u up down b e with Some b' => all_bcalm up down b' es' | None => false end
  end.
Lemma all_bcalm_exec up down es : forall b, Forall bcall_valid es -> all_bcalm up down b es = true -> exists b', brun up down b es = Some b' /\ bexec u u up down (bcalm u u) b es b'.
Proof.
  induction es as [|e es IH]; intros b Hv H; cbn [all_bcalm] in *.
  - exists b. split; auto. constructor.
  - apply andb_prop in H. destruct H as [H1 H2]. inversion Hv as [|? ? Hv1 Hv2]; subst.
    destruct (bstep u u up down b e) as [b1|] eqn:S; [|discriminate]. destruct (IH b1 Hv2 H2) as (b' & G1 & G2). exists b'. split.
    + unfold brun in *. cbn [bsteps]. rewrite S. exact G1.
    + econstructor; [|exact S|exact G2]. destruct e as [q|n|n| | |n| | | |k ok|n|k ok ok2]; cbn in *; auto; try discriminate.
      destruct k; try discriminate; (split; [auto|]); destruct (y_partial (b_y b)); auto; discriminate.
Qed.
Lemma bexec_breach up down allowed (b : bsys arrayB) es b' : bexec u u up down allowed b es b' -> breach u u up down allowed b b'.
Proof. induction 1; [constructor|]. eapply breach_trans; [eapply breach_one; eauto|auto]. Qed.
Theorem C69_example : exists b, bexec u u 3 2 (bcalm u u) (bserver (array_new 2 (fun _ => 1)) None) small_call b /\ fits u u (b_y b) /\ y_client (b_y b) = CIdle /\
  y_got (b_y b) = results [(QSize, VNat 0)] /\ progresses small_call = 27.
Proof.
  destruct (@all_bcalm_exec 3 2 small_call (bserver (array_new 2 (fun _ => 1)) None)) as (b & E & R); [|vm_compute; reflexivity|].
  { unfold small_call. cbn [app twice]. repeat (constructor; [exact I|]). constructor. }
  exists b. split; [exact R|].
  assert (G : match brun 3 2 (bserver (array_new 2 (fun _ => 1)) None) small_call with
    | Some z => y_client (b_y z) = CIdle /\ y_got (b_y z) = results [(QSize, VNat 0)] /\ y_served (b_y z) = [(1, QSize, PSize 0)]
    | None => False end) by (vm_compute; auto).
  rewrite E in G. destruct G as (G1 & G2 & G3). repeat split; auto. unfold fits. rewrite G3. constructor; [|constructor]. cbn [snd response_valid]. reflexivity.
Qed.
