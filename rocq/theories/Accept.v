(** Accept.v -- the life of a server thread around the loop of Socket.v: binding its address, waiting for its first client,
    and waiting for the next one when a client has left. *)
From Coq Require Import NArith Strings.Byte.
From Verif Require Import Base Block Bincode Socket.
Set Implicit Arguments.

Section Accept.
Context {K V : Type}.
Variable C : Block K V.
Variable ck : codec K.
Variable cv : codec V.
Notation sys := (sys C).
Notation event := (@event K V).

(** Whom the thread waits for.  [First]: in SocketServer::new, /repo/src/socket/server.rs:55-62, called by
    /repo/src/socket/server_thread.rs:198-199.  [Again y f]: in SocketServer::try_reconnect, server.rs:104-110, called by
    try_reconnect, server_thread.rs:36-59; [f ok] is the event of Socket.v by which the thread goes on: the failed read of
    server_thread.rs:218-226 or the failed write of 236-245, with a reconnection that succeeds or not. *)
Inductive awaited : Type :=
| First (container : St C) (persistent : option nat)
| Again (y : sys) (f : bool -> event).
(** [LBind]: before TcpListener::bind has returned; [LAccept]: in listener.accept(); [LServe]: in the loop,
    server_thread.rs:202-252, or after it; [LFailed]: SocketServer::new returned an error, and the unwrap of
    server_thread.rs:199 panicked. *)
Inductive life : Type := LBind (w : awaited) | LAccept (w : awaited) | LServe (y : sys) | LFailed.
(** spawn, /repo/src/socket/server_thread.rs:176-259: returns as soon as the thread exists. *)
Definition spawn (container : St C) (persistent : option nat) : life := LBind (First container persistent).

Inductive life_event : Type :=
| LBound (ok : bool)   (* local_addr and bind return *)
| LConnect             (* a client connects: accept returns its stream *)
| LAcceptError         (* accept returns an error *)
| LOn (e : event).     (* an event of Socket.v: the thread in its loop, the client and the network *)

(** Whether a reconnection is tried, server_thread.rs:46-54. *)
Definition may_reconnect (y : sys) : bool := match y_left y with Some 0 => false | _ => true end.
(** The event of Socket.v a lost connection stands for, the outcome of the reconnection left open. *)
Definition lost (e : event) : option (bool -> event) :=
  match e with
  | EReadError UnexpectedEof _ => Some (fun ok => EReadError UnexpectedEof ok)
  | ESendError UnexpectedEof _ ok2 => Some (fun ok => ESendError UnexpectedEof ok ok2)
  | _ => None
  end.
(** What the client and the network do by themselves. *)
Definition outside (e : event) : bool := match e with ECall _ | EDeliver _ | EReceive | EClose _ => true | _ => false end.
(** The wait is over: accept or bind succeeded or failed. *)
Definition arrive (w : awaited) (ok : bool) : option life :=
  match w with
  | First container persistent => Some (if ok then LServe (spawned C container persistent) else LFailed)
  | Again y f => option_map LServe (step ck cv y (f ok))
  end.
(** One event.  [None]: it cannot happen.  The flag [ok] of a failed read or write in [LOn] says nothing: how the
    reconnection ends is told by the events that follow.  The client that is left goes on by itself.  Simplifications: those of Socket.v;
    the other clients are in Backlog.v. *)
Definition life_step (l : life) (e : life_event) : option life :=
  match l, e with
  | LBind w, LBound ok => if ok then Some (LAccept w) else arrive w false
  | LAccept w, LConnect => arrive w true
  | LAccept w, LAcceptError => arrive w false
  | LBind (Again y f), LOn e => if outside e then option_map (fun y' => LBind (Again y' f)) (step ck cv y e) else None
  | LAccept (Again y f), LOn e => if outside e then option_map (fun y' => LAccept (Again y' f)) (step ck cv y e) else None
  | LServe y, LOn e =>
      match lost e with
      | Some f => match step ck cv y e with
                  | Some y' => if may_reconnect y then Some (LBind (Again y f)) else Some (LServe y')
                  | None => None
                  end
      | None => option_map LServe (step ck cv y e)
      end
  | _, _ => None
  end.
Fixpoint life_steps (l : life) (es : list life_event) : option life :=
  match es with [] => Some l | e :: es' => match life_step l e with Some l' => life_steps l' es' | None => None end end.

(** stop_and_join, /repo/src/socket/server_thread.rs:284-293, once the stop signal is sent: [None]: the join waits;
    [Some true]: it returns Ok; [Some false]: it returns the panic of the thread. *)
Definition join (l : life) : option bool :=
  match l with
  | LFailed => Some false
  | LServe y => match y_status y with Running => None | Stopped => Some true | Panicked => Some false end
  | _ => None
  end.
End Accept.
Arguments life_event K V : clear implicits.
Arguments First {K V C}. Arguments Again {K V C}. Arguments LBind {K V C}. Arguments LAccept {K V C}. Arguments LServe {K V C}. Arguments LFailed {K V C}.
