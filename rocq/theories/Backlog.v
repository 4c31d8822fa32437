(** Backlog.v -- several clients of one server: who is refused, who is served, and who is forgotten.

    /repo/src/socket/server.rs:55-62 (new) and 104-110 (try_reconnect): a TcpListener is bound, one connection is accepted,
    and the listener is dropped when the function returns.  Between bind and accept the operating system completes the
    connections of clients by itself and queues them: SocketClient::new (/repo/src/socket/client.rs:54-60) returns Ok for each.
    accept() takes the oldest.  The connections still queued are reset when the listener is dropped, and the calls of these
    clients panic (client.rs:20-30).  Clients that connect while there is no listener are refused: SocketClient::new returns
    an error.  Accept.v has the life of the thread and the one client it serves; here are the others. *)
From Verif Require Import Base Block Bincode Socket Accept.
Set Implicit Arguments.

Section Backlog.
Context {K V : Type}.
Variable C : Block K V.
Variable ck : codec K.
Variable cv : codec V.
(** How many connections the operating system queues; 128 for std's TcpListener. *)
Variable room : nat.

(** [w_served]: whom accept returned, the last one is the client served now.  A number stands for one attempt to connect. *)
Record crowd : Type := mkCrowd { w_life : life C; w_queue : list nat; w_served : list nat; w_refused : list nat; w_reset : list nat }.
Inductive crowd_event : Type :=
| WConnect (i : nat)                (* a client calls SocketClient::new *)
| WAccept                           (* accept returns *)
| WLife (e : life_event K V).       (* anything else of Accept.v *)
Definition listening (l : life C) : bool := match l with LAccept _ => true | _ => false end.
(** One event.  [None]: it cannot happen.  A client that finds the queue full goes on trying: its attempt is made later.
    Simplification: what a client sends before it is accepted is sent afterwards. *)
Definition crowd_step (c : crowd) (e : crowd_event) : option crowd :=
  match e with
  | WConnect i =>
      if listening (w_life c) then
        if length (w_queue c) <? room then Some (mkCrowd (w_life c) (w_queue c ++ [i]) (w_served c) (w_refused c) (w_reset c)) else None
      else Some (mkCrowd (w_life c) (w_queue c) (w_served c) (w_refused c ++ [i]) (w_reset c))
  | WAccept =>
      match w_queue c with
      | i :: q => match life_step ck cv (w_life c) LConnect with
                  | Some l => Some (mkCrowd l [] (w_served c ++ [i]) (w_refused c) (w_reset c ++ q))
                  | None => None
                  end
      | [] => None
      end
  | WLife LConnect => None
  | WLife LAcceptError =>
      match life_step ck cv (w_life c) LAcceptError with
      | Some l => Some (mkCrowd l [] (w_served c) (w_refused c) (w_reset c ++ w_queue c))
      | None => None
      end
  | WLife e => match life_step ck cv (w_life c) e with
               | Some l => Some (mkCrowd l (w_queue c) (w_served c) (w_refused c) (w_reset c))
               | None => None
               end
  end.
Fixpoint crowd_steps (c : crowd) (es : list crowd_event) : option crowd :=
  match es with [] => Some c | e :: es' => match crowd_step c e with Some c' => crowd_steps c' es' | None => None end end.
Definition opened (container : St C) (persistent : option nat) : crowd := mkCrowd (spawn C container persistent) [] [] [] [].
End Backlog.
Arguments WConnect {K V}. Arguments WAccept {K V}. Arguments WLife {K V}.
Arguments crowd_event K V : clear implicits.
