(** Socket.v -- model of /repo/src/socket: a client, a server thread and the TCP connections between them. *)
From Coq Require Import NArith Strings.Byte.
From Verif Require Import Base Block Bincode.
Set Implicit Arguments.

Section Messages.
Context {K V : Type}.
(** enum Request, /repo/src/socket/message.rs:18-28. *)
Inductive request : Type :=
| QCapacity | QSize | QContains (k : K) | QTake (k : K) | QTakeMultiple (ks : list K) | QPop (n : nat)
| QPush (vs : list (K * V)) | QFlush.
(** enum Response, /repo/src/socket/message.rs:51-62. *)
Inductive response : Type :=
| PCapacity (n : nat) | PSize (n : nat) | PContains (b : bool) | PTake (o : option (K * V))
| PTakeMultiple (l : list (K * V)) | PPop (l : list (K * V)) | PPush (l : list (K * V)) | PFlush (l : list (K * V)) | PError.

Variable ck : codec K.
Variable cv : codec V.
Notation pairs := (vec_codec (pair_codec ck cv)).
(** The derived Serialize and Deserialize of Request. *)
Definition request_tag (r : request) : N :=
  match r with QCapacity => 0 | QSize => 1 | QContains _ => 2 | QTake _ => 3 | QTakeMultiple _ => 4 | QPop _ => 5 | QPush _ => 6 | QFlush => 7 end.
Definition request_body (r : request) : list byte :=
  match r with
  | QCapacity | QSize | QFlush => []
  | QContains k | QTake k => enc ck k
  | QTakeMultiple ks => enc (vec_codec ck) ks
  | QPop n => enc usize_codec n
  | QPush vs => enc pairs vs
  end.
Definition d_map {A B} (c : codec A) (f : A -> B) : decoder B := d_bind (de c) (fun x => d_ret (f x)).
Definition request_fields (tag : N) : decoder request :=
  match tag with
  | 0 => d_ret QCapacity | 1 => d_ret QSize | 2 => d_map ck QContains | 3 => d_map ck QTake
  | 4 => d_map (vec_codec ck) QTakeMultiple | 5 => d_map usize_codec QPop | 6 => d_map pairs QPush | 7 => d_ret QFlush
  | _ => d_bad ECustom
  end%N.
Definition request_valid (r : request) : Prop :=
  match r with
  | QCapacity | QSize | QFlush => True
  | QContains k | QTake k => valid ck k
  | QTakeMultiple ks => valid (vec_codec ck) ks
  | QPop n => valid usize_codec n
  | QPush vs => valid pairs vs
  end.
Lemma d_map_full {A B} (c : codec A) (f : A -> B) x rest : valid c x -> d_map c f (enc c x ++ rest) = Done (f x) rest.
Proof. intros H. unfold d_map, d_bind. rewrite c_full; auto. Qed.
Lemma d_map_part {A B} (c : codec A) (f : A -> B) x p q : valid c x -> enc c x = p ++ q -> q <> [] -> d_map c f p = More.
Proof. intros H E Hq. unfold d_map, d_bind. rewrite (c_part c x p H E); auto. Qed.
Lemma no_part {A} (p q : list byte) (P : Prop) : @nil A = [] -> [] = p ++ q -> q <> [] -> P.
Proof. intros _ E Hq. destruct p; destruct q; try discriminate. congruence. Qed.
Definition request_codec : codec request.
Proof.
  refine (@mkCodec request (fun r => le 4 (request_tag r) ++ request_body r) (d_bind (de (uint_codec 4)) request_fields) request_valid _ _).
  - intros r rest H. apply enum_full; [destruct r; reflexivity|]. destruct r; cbn [request_tag request_body request_fields request_valid] in *;
      try (apply d_map_full; exact H); reflexivity.
  - intros r p q H E Hq. eapply enum_part; eauto; [destruct r; reflexivity|]. intros p2 E2.
    destruct r; cbn [request_tag request_body request_fields request_valid] in *; try (eapply d_map_part; eauto; fail);
      eapply (@no_part byte); eauto.
Defined.
(** The derived Serialize and Deserialize of Response; [PError] carries two unit-like enums. *)
Definition response_tag (p : response) : N :=
  match p with PCapacity _ => 0 | PSize _ => 1 | PContains _ => 2 | PTake _ => 3 | PTakeMultiple _ => 4 | PPop _ => 5 | PPush _ => 6
  | PFlush _ => 7 | PError => 8 end.
Definition response_body (p : response) : list byte :=
  match p with
  | PCapacity n | PSize n => enc usize_codec n
  | PContains b => enc bool_codec b
  | PTake o => enc (option_codec (pair_codec ck cv)) o
  | PTakeMultiple l | PPop l | PPush l | PFlush l => enc pairs l
  | PError => le 8 0
  end.
Definition response_fields (tag : N) : decoder response :=
  match tag with
  | 0 => d_map usize_codec PCapacity | 1 => d_map usize_codec PSize | 2 => d_map bool_codec PContains
  | 3 => d_map (option_codec (pair_codec ck cv)) PTake | 4 => d_map pairs PTakeMultiple | 5 => d_map pairs PPop | 6 => d_map pairs PPush
  | 7 => d_map pairs PFlush | 8 => d_map (uint_codec 8) (fun _ => PError)
  | _ => d_bad ECustom
  end%N.
Definition response_valid (p : response) : Prop :=
  match p with
  | PCapacity n | PSize n => valid usize_codec n
  | PContains _ => True
  | PTake o => valid (option_codec (pair_codec ck cv)) o
  | PTakeMultiple l | PPop l | PPush l | PFlush l => valid pairs l
  | PError => True
  end.
Definition response_codec : codec response.
Proof.
  refine (@mkCodec response (fun r => le 4 (response_tag r) ++ response_body r) (d_bind (de (uint_codec 4)) response_fields) response_valid _ _).
  - intros r rest H. apply enum_full; [destruct r; reflexivity|]. destruct r; cbn [response_tag response_body response_fields response_valid] in *;
      try (apply d_map_full; exact H).
    apply (@d_map_full _ _ (uint_codec 8) (fun _ => PError) 0%N). reflexivity.
  - intros r p q H E Hq. eapply enum_part; eauto; [destruct r; reflexivity|]. intros p2 E2.
    destruct r; cbn [response_tag response_body response_fields response_valid] in *; try (eapply d_map_part; eauto; fail).
    eapply (@d_map_part _ _ (uint_codec 8) _ 0%N); eauto. reflexivity.
Defined.

(** What the methods of SocketClient make of a response, /repo/src/socket/building_block.rs:16-83: [None] is a
    panic (mismatch_panic).  take_multiple leaves the caller's vector of keys alone. *)
Inductive value : Type := VNat (n : nat) | VBool (b : bool) | VOption (o : option (K * V)) | VPairs (l : list (K * V)).
Definition client_value (r : request) (p : response) : option value :=
  match r, p with
  | QCapacity, PCapacity n => Some (VNat n)
  | QSize, PSize n => Some (VNat n)
  | QContains _, PContains b => Some (VBool b)
  | QPop _, PPop l => Some (VPairs l)
  | QPush _, PPush l => Some (VPairs l)
  | QTake _, PTake o => Some (VOption o)
  | QTakeMultiple _, PTakeMultiple l => Some (VPairs l)
  | QFlush, PFlush l => Some (VPairs l)
  | _, _ => None
  end.
End Messages.
Arguments request K V : clear implicits.
Arguments response K V : clear implicits.
Arguments value K V : clear implicits.

(** The kinds of std::io::Error that matter, and From<bincode::Error>, /repo/src/socket/error.rs:44-78;
    [None]: it panics.  BrokenPipe, ConnectionReset, etc. are [OtherIo]. *)
Inductive io_kind : Type := UnexpectedEof | TimedOutIo | WouldBlock | OtherIo.
Inductive server_error : Type := BrokenPipe | TimedOut.
Definition from_io (k : io_kind) : option server_error :=
  match k with UnexpectedEof => Some BrokenPipe | TimedOutIo | WouldBlock => Some TimedOut | OtherIo => None end.

Section System.
Context {K V : Type}.
Variable C : Block K V.
Variable ck : codec K.
Variable cv : codec V.
Notation request := (request K V).
Notation response := (response K V).
Notation value := (value K V).

(** match_response, /repo/src/socket/server.rs:73-96. *)
Definition match_response (s : St C) (r : request) : res (St C * response) :=
  match r with
  | QCapacity => Ok (s, PCapacity (capacity C s))
  | QSize => Ok (s, PSize (size C s))
  | QContains k => let* b := contains C s k in Ok (s, PContains b)
  | QTake k => let* (s', o) := take C s k in Ok (s', PTake o)
  | QTakeMultiple ks => let* (s', _, l) := take_multiple C s ks in Ok (s', PTakeMultiple l)
  | QPop n => let* (s', l) := pop C s n in Ok (s', PPop l)
  | QPush vs => let* (s', l) := push C s vs in Ok (s', PPush l)
  | QFlush => let* (s', l) := flush C s in Ok (s', PFlush l)
  end.

Inductive status : Type := Running | Stopped | Panicked.
Inductive client : Type := CIdle | CWaiting (r : request) | CGone.
(** The server thread, the current connection and the client at its other end.
    [y_flight]: bytes sent by the client and not arrived yet; [y_arrived]: arrived and not read; [y_partial]: read
    by the receive in progress; [y_reply]: the response about to be sent; [y_back]: bytes sent to the client;
    [y_timeout]: the stream has a read timeout; [y_top]: the thread is at the top of its loop.
    [y_served] and [y_got] only record what happened: the requests processed and their responses, and what the
    calls of the clients returned ([None]: a panic); both with the number of the connection. *)
Record sys : Type := mkSys {
  y_store : St C; y_left : option nat; y_status : status; y_conn : nat; y_timeout : bool; y_top : bool;
  y_flight : list byte; y_arrived : list byte; y_partial : list byte; y_closed : bool;
  y_reply : option response; y_back : list byte; y_client : client;
  y_served : list (nat * request * response); y_got : list (nat * request * option value)
}.
(** A server built by ServerThreadBuilder::new + set_persistent + spawn, and its first client connected:
    /repo/src/socket/server_thread.rs:108-201. *)
Definition spawned (container : St C) (persistent : option nat) : sys :=
  mkSys container persistent Running 1 true true [] [] [] false None [] CIdle [] [].

(** What the client of a connection that goes away gets: its call in progress panics. *)
Definition abandon (y : sys) : list (nat * request * option value) :=
  match y_client y with CWaiting r => y_got y ++ [(y_conn y, r, None)] | _ => y_got y end.
Definition set_status (y : sys) (t : status) : sys :=
  mkSys (y_store y) (y_left y) t (y_conn y) (y_timeout y) (y_top y) (y_flight y) (y_arrived y) (y_partial y) (y_closed y)
    (y_reply y) (y_back y) (y_client y) (y_served y) (y_got y).
(** try_reconnect, /repo/src/socket/server_thread.rs:36-58, and SocketServer::try_reconnect,
    /repo/src/socket/server.rs:104-110; [ok]: bind and accept succeed.  [resent]: what is sent at once on the new
    connection.  The new stream has no read timeout. *)
Definition reconnect (y : sys) (ok : bool) (resent : list byte) : sys :=
  let (left, again) := match y_left y with None => (None, true) | Some 0 => (Some 0, false) | Some (S n) => (Some n, true) end in
  if again && ok then
    mkSys (y_store y) left Running (S (y_conn y)) false true [] [] [] false None resent CIdle (y_served y) (abandon y)
  else
    mkSys (y_store y) left Stopped (y_conn y) (y_timeout y) (y_top y) (y_flight y) (y_arrived y) (y_partial y) (y_closed y)
      None (y_back y) (y_client y) (y_served y) (y_got y).

Inductive event : Type :=
| ECall (r : request)                     (* the client calls a method *)
| EDeliver (n : nat)                      (* the network delivers n more bytes to the server *)
| EReceive                                (* the client reads the response, or fails to *)
| EClose (n : nat)                        (* the client goes away; of what it sent, n more bytes will arrive *)
| EStop                                   (* the thread sees the stop signal *)
| ELoop                                   (* it does not *)
| ERead                                   (* the server reads one byte *)
| EReadError (k : io_kind) (ok : bool)    (* it fails to; [ok]: a reconnection would succeed *)
| ESend                                   (* the server sends its response *)
| ESendError (k : io_kind) (ok ok2 : bool). (* it fails to; [ok2]: sending again would succeed *)

Definition set_server (y : sys) (store : St C) (top : bool) (arrived partial : list byte) (reply : option response) (back : list byte)
  (served : list (nat * request * response)) : sys :=
  mkSys store (y_left y) (y_status y) (y_conn y) (y_timeout y) top (y_flight y) arrived partial (y_closed y) reply back (y_client y) served (y_got y).
Definition running (y : sys) : bool := match y_status y with Running => true | _ => false end.
(** The loop of the thread, /repo/src/socket/server_thread.rs:204-252; process_request and process_response,
    /repo/src/socket/server.rs:122-149; the client, /repo/src/socket/client.rs:10-31.  [None]: the event cannot
    happen in this state.  Simplifications: a request is sent by one write, and the socket buffers never fill up. *)
Definition step (y : sys) (e : event) : option sys :=
  match e with
  | ECall r =>
      match y_client y with
      | CIdle => Some (mkSys (y_store y) (y_left y) (y_status y) (y_conn y) (y_timeout y) (y_top y) (y_flight y ++ enc (request_codec ck cv) r)
                   (y_arrived y) (y_partial y) (y_closed y) (y_reply y) (y_back y) (CWaiting r) (y_served y) (y_got y))
      | _ => None
      end
  | EDeliver n => Some (mkSys (y_store y) (y_left y) (y_status y) (y_conn y) (y_timeout y) (y_top y) (skipn n (y_flight y))
                   (y_arrived y ++ firstn n (y_flight y)) (y_partial y) (y_closed y) (y_reply y) (y_back y) (y_client y) (y_served y) (y_got y))
  | EReceive =>
      match y_client y with
      | CWaiting r =>
          let ends back c closed v := mkSys (y_store y) (y_left y) (y_status y) (y_conn y) (y_timeout y) (y_top y) (y_flight y) (y_arrived y)
            (y_partial y) closed (y_reply y) back c (y_served y) (y_got y ++ [(y_conn y, r, v)]) in
          match de (response_codec ck cv) (y_back y) with
          | Done p rest => match client_value r p with
                           | Some v => Some (ends rest CIdle (y_closed y) (Some v))
                           | None => Some (ends rest CGone true None)
                           end
          | Bad _ => Some (ends (y_back y) CGone true None)
          | More => if running y then None else Some (ends (y_back y) CGone true None)
          end
      | _ => None
      end
  | EClose n => match y_client y with
      | CGone => None
      | _ => Some (mkSys (y_store y) (y_left y) (y_status y) (y_conn y) (y_timeout y) (y_top y) (firstn n (y_flight y)) (y_arrived y) (y_partial y) true
                     (y_reply y) (y_back y) CGone (y_served y) (abandon y))
      end
  | EStop => if running y && y_top y then Some (set_status y Stopped) else None
  | ELoop => if running y && y_top y then Some (set_server y (y_store y) false (y_arrived y) (y_partial y) (y_reply y) (y_back y) (y_served y)) else None
  | ERead =>
      if running y && negb (y_top y) then
        match y_reply y, y_arrived y with
        | None, b :: rest =>
            match de (request_codec ck cv) (y_partial y ++ [b]) with
            | More => Some (set_server y (y_store y) false rest (y_partial y ++ [b]) None (y_back y) (y_served y))
            | Done r _ =>
                match match_response (y_store y) r with
                | Ok (s', p) => Some (set_server y s' false rest [] (Some p) (y_back y) (y_served y ++ [(y_conn y, r, p)]))
                | Panic => Some (set_status y Panicked)
                end
            | Bad EInvalid => Some (set_server y (y_store y) false rest [] (Some (PError)) (y_back y) (y_served y))
            | Bad ECustom => Some (set_status y Panicked)
            end
        | _, _ => None
        end
      else None
  | EReadError k ok =>
      if running y && negb (y_top y) then
        match y_reply y, y_arrived y with
        | None, [] =>
            match from_io k with
            | None => Some (set_status y Panicked)
            | Some TimedOut => if y_timeout y then Some (set_server y (y_store y) true [] [] None (y_back y) (y_served y)) else None
            | Some BrokenPipe => match y_flight y with [] => if y_closed y then Some (reconnect y ok []) else None | _ => None end
            end
        | _, _ => None
        end
      else None
  | ESend =>
      if running y && negb (y_top y) then
        match y_reply y with
        | Some p => Some (set_server y (y_store y) true (y_arrived y) (y_partial y) None (y_back y ++ enc (response_codec ck cv) p) (y_served y))
        | None => None
        end
      else None
  | ESendError k ok ok2 =>
      if running y && negb (y_top y) then
        match y_reply y with
        | Some p =>
            match from_io k with
            | Some BrokenPipe =>
                let y' := reconnect y ok (if ok2 then enc (response_codec ck cv) p else []) in
                Some (if running y' && negb ok2 then set_status y' Panicked else y')
            | _ => Some (set_status y Panicked)
            end
        | None => None
        end
      else None
  end.
Fixpoint steps (y : sys) (es : list event) : option sys :=
  match es with [] => Some y | e :: es' => match step y e with Some y' => steps y' es' | None => None end end.
End System.
