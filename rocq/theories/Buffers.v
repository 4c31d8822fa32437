(** Buffers.v -- the client and the server thread of Socket.v over a connection whose buffers are bounded, as those of
    TCP are: write_all and the reads of bincode block, and make progress by a few bytes at a time. *)
From Coq Require Import NArith Strings.Byte.
From Verif Require Import Base Block Bincode Socket.
Set Implicit Arguments.

Section Buffers.
Context {K V : Type}.
Variable C : Block K V.
Variable ck : codec K.
Variable cv : codec V.
Notation request := (request K V).
Notation sys := (sys C).
(** The bytes that fit between the write of the client and the read of the server ([up]: the send buffer of the one
    and the receive buffer of the other), and the other way ([down]). *)
Variables up down : nat.

(** [b_y]: as in Socket.v; its [y_back] are the bytes written by the server and not read by the client.
    [b_todo]: the bytes of its request that the client has not written yet.
    [b_read]: the bytes of the response that the client has read.
    [b_sent]: how many bytes of the response [y_reply] the server has written. *)
Record bsys : Type := mkB { b_y : sys; b_todo : list byte; b_read : list byte; b_sent : nat }.
Definition bspawned (container : St C) (persistent : option nat) : bsys := mkB (spawned C container persistent) [] [] 0.

Inductive bevent : Type :=
| BCall (r : request)                     (* the client calls a method *)
| BPut (n : nat)                          (* the client writes n more bytes of its request *)
| BDeliver (n : nat)                      (* the network delivers n more bytes to the server *)
| BGet                                    (* the client reads one byte of the response *)
| BFail                                   (* the client finds the connection closed *)
| BClose (n : nat)                        (* the client goes away *)
| BStop | BLoop | BRead | BReadError (k : io_kind) (ok : bool)   (* the thread, as in Socket.v *)
| BSend (n : nat)                         (* the thread writes n more bytes of the response *)
| BSendError (k : io_kind) (ok ok2 : bool). (* it fails to *)

Definition with_client (y : sys) (flight back : list byte) (closed : bool) (c : @client K V) (got : list (nat * request * option (value K V))) : sys :=
  mkSys C (y_store y) (y_left y) (y_status y) (y_conn y) (y_timeout y) (y_top y) flight (y_arrived y) (y_partial y) closed (y_reply y) back c (y_served y) got.
(** A step of the thread or of the network; a new connection starts with nothing under way. *)
Definition lift (b : bsys) (o : option sys) : option bsys :=
  match o with
  | None => None
  | Some y' => Some (if y_conn y' =? y_conn (b_y b) then mkB y' (b_todo b) (b_read b) (b_sent b) else mkB y' [] [] 0)
  end.
(** The client: process_request, /repo/src/socket/client.rs:10-31; Request::send and Response::receive,
    /repo/src/socket/message.rs:30-48, 64-82 (bincode's serialize_into and deserialize_from on the stream, that is
    write_all and read_exact); the server: process_response, /repo/src/socket/server.rs:136-148.
    Simplifications: the two buffers of a direction count as one; a read of the client takes one byte; a response sent
    again after a reconnection is sent at once, as in Socket.v; once the client has gone, what the server writes is
    not limited (the kernel of the client discards it). *)
Definition bstep (b : bsys) (e : bevent) : option bsys :=
  let y := b_y b in
  match e with
  | BCall r => match y_client y with
      | CIdle => Some (mkB (with_client y (y_flight y) (y_back y) (y_closed y) (CWaiting r) (y_got y)) (enc (request_codec ck cv) r) [] (b_sent b))
      | _ => None
      end
  | BPut n =>
      if running y && (1 <=? n) && (n <=? length (b_todo b)) && (length (y_flight y) + length (y_arrived y) + n <=? up) then
        Some (mkB (with_client y (y_flight y ++ firstn n (b_todo b)) (y_back y) (y_closed y) (y_client y) (y_got y)) (skipn n (b_todo b)) (b_read b) (b_sent b))
      else None
  | BDeliver n => if (1 <=? n) && (n <=? length (y_flight y)) then lift b (step ck cv y (EDeliver n)) else None
  | BGet =>
      match y_client y, b_todo b, y_back y with
      | CWaiting r, [], x :: rest =>
          let ends c closed v := Some (mkB (with_client y (y_flight y) rest closed c (y_got y ++ [(y_conn y, r, v)])) [] [] (b_sent b)) in
          match de (response_codec ck cv) (b_read b ++ [x]) with
          | Done p _ => match client_value r p with
                        | Some v => ends CIdle (y_closed y) (Some v)
                        | None => ends CGone true None
                        end
          | Bad _ => ends CGone true None
          | More => Some (mkB (with_client y (y_flight y) rest (y_closed y) (CWaiting r) (y_got y)) [] (b_read b ++ [x]) (b_sent b))
          end
      | _, _, _ => None
      end
  | BFail =>
      match y_client y with
      | CWaiting r =>
          if negb (running y) && match b_todo b, y_back y with [], _ :: _ => false | _, _ => true end then
            Some (mkB (with_client y (y_flight y) (y_back y) true CGone (y_got y ++ [(y_conn y, r, None)])) (b_todo b) (b_read b) (b_sent b))
          else None
      | _ => None
      end
  | BClose n => match step ck cv y (EClose n) with Some y' => Some (mkB y' [] (b_read b) (b_sent b)) | None => None end
  | BStop => lift b (step ck cv y EStop)
  | BLoop => lift b (step ck cv y ELoop)
  | BRead => lift b (step ck cv y ERead)
  | BReadError k ok => lift b (step ck cv y (EReadError k ok))
  | BSend n =>
      if running y && negb (y_top y) then
        match y_reply y with
        | Some p =>
            let left := skipn (b_sent b) (enc (response_codec ck cv) p) in
            if (1 <=? n) && (n <=? length left) && (y_closed y || (length (y_back y) + n <=? down)) then
              let back := y_back y ++ firstn n left in
              Some (if n =? length left then mkB (set_server y (y_store y) true (y_arrived y) (y_partial y) None back (y_served y)) (b_todo b) (b_read b) 0
                    else mkB (set_server y (y_store y) false (y_arrived y) (y_partial y) (Some p) back (y_served y)) (b_todo b) (b_read b) (b_sent b + n))
            else None
        | None => None
        end
      else None
  | BSendError k ok ok2 =>
      match lift b (step ck cv y (ESendError k ok ok2)) with
      | Some b' => Some (match y_reply (b_y b') with Some _ => b' | None => mkB (b_y b') (b_todo b') (b_read b') 0 end)
      | None => None
      end
  end.
Fixpoint bsteps (b : bsys) (es : list bevent) : option bsys :=
  match es with [] => Some b | e :: es' => match bstep b e with Some b' => bsteps b' es' | None => None end end.
End Buffers.
Arguments bevent K V : clear implicits.
