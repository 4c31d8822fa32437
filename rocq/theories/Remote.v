(** Remote.v -- several servers, each serving a clone of one [Sequential] container to its own client: the threads of
    Linear.v are now server threads (/repo/src/socket/server_thread.rs), and the calls come from clients over sockets
    (/repo/src/socket/building_block.rs).

    Simplification: messages, not bytes.  That a request and its response are cut and delayed in any way without
    being mixed up is C41, C42 and C69; here a request or a response is somewhere on its way or has arrived. *)
From Verif Require Import Base Block Sim Lock SeqConc Linear.
Set Implicit Arguments.

Section Remote.
Context {K V : Type}.
Variable B : Block K V.

(** What the client returns to its caller, from the answer of the container on the other side.
    /repo/src/socket/building_block.rs:67-75: [take_multiple] sends a copy of the keys and leaves those of the
    caller as they are; the other methods return the answer (flush: collected in a vector, server.rs:92-94). *)
Definition over_socket (a : ask K V) (q : saw K V) : saw K V :=
  match a, q with
  | AskTakeMultiple ks, SawKeys _ l => SawKeys ks l
  | _, q => q
  end.

(** Where a request is, and the response to it.  [t] is the place of the request in the history of the system, [k]
    the place of its call among those that returned on the server side (both only to tell them apart). *)
Inductive pipe : Type :=
| Rest                                                   (* nothing under way: the thread waits in process_request *)
| Incoming (a : ask K V) (t : nat)                       (* sent, not yet read by the server *)
| Serving (a : ask K V) (t : nat)                        (* in match_response, server.rs:74-96: calling its clone *)
| Outgoing (a : ask K V) (q : saw K V) (t k : nat)       (* process_response, server.rs:140-149 *)
| Down.                                                  (* the thread has ended *)

(** A server: its client ([None]: no client; [Some None]: connected, not calling; [Some (Some (a, t))]: in the call [a])
    and what is under way. *)
Record line : Type := mkLine { ln_client : option (option (ask K V * nat)); ln_pipe : pipe }.

(** What an observer of the clients writes down: client number [i] (of server [i]) makes the call [a]; it gets the
    answer [q] to the call written down at place [t].  [now] is the time on the clock of Linear.v. *)
Inductive noted : Type :=
| HSent (i : nat) (a : ask K V) (now : nat)
| HGot (i : nat) (a : ask K V) (q : saw K V) (t k : nat) (now : nat).

Record rsys : Type := mkR { r_sys : lsys B; r_lines : list line; r_hist : list noted }.

(** The call a thread is in, and when it made it. *)
Definition calling (t : thread B) : option (ask K V * nat) :=
  match t with Idle => None | Busy a _ _ t0 _ _ => Some (a, t0) end.

(** One step; the label tells whether a client leaves without waiting for its answer or afterwards. *)
Inductive rstep : bool -> rsys -> rsys -> Prop :=
(* a client connects: accept in server.rs:59-60 or try_reconnect, server.rs:104-110 *)
| R_connect : forall x m1 m2 h,
    rstep false (mkR x (m1 ++ mkLine None Rest :: m2) h) (mkR x (m1 ++ mkLine (Some None) Rest :: m2) h)
(* it makes a call: client.rs:10-30 *)
| R_send : forall x m1 m2 h a,
    rstep false (mkR x (m1 ++ mkLine (Some None) Rest :: m2) h)
          (mkR x (m1 ++ mkLine (Some (Some (a, length h))) (Incoming a (length h)) :: m2)
               (h ++ [HSent (length m1) a (l_now x)]))
(* it disconnects, in the middle of a call or not *)
| R_leave : forall x m1 c p m2 h,
    rstep true (mkR x (m1 ++ mkLine (Some c) p :: m2) h) (mkR x (m1 ++ mkLine None p :: m2) h)
(* the request of a client that left did not make it *)
| R_lose_request : forall x m1 a t m2 h,
    rstep false (mkR x (m1 ++ mkLine None (Incoming a t) :: m2) h) (mkR x (m1 ++ mkLine None Rest :: m2) h)
(* server.rs:74-96: the thread of the server makes the call on its clone ([L_call] of Linear.v) *)
| R_start : forall sh ex rd wr st l1 l2 now es rs m1 c a t m2 h,
    length l1 = length m1 ->
    rstep false (mkR (mkL sh ex rd wr st (l1 ++ Idle :: l2) now es rs) (m1 ++ mkLine c (Incoming a t) :: m2) h)
          (mkR (mkL sh ex rd wr st (l1 ++ Busy a (script (method a)) false now None None :: l2) (S now) es rs)
               (m1 ++ mkLine c (Serving a t) :: m2) h)
(* a step of some call *)
| R_inner : forall x x' m h,
    lstep x x' -> map calling (l_threads x') = map calling (l_threads x) ->
    rstep false (mkR x m h) (mkR x' m h)
(* the call returns ([L_return] of Linear.v), the response is sent *)
| R_finish : forall sh ex rd wr st l1 a t0 v q l2 now es rs m1 c t m2 h,
    length l1 = length m1 ->
    rstep false (mkR (mkL sh ex rd wr st (l1 ++ Busy a [] false t0 v (Some q) :: l2) now es rs) (m1 ++ mkLine c (Serving a t) :: m2) h)
          (mkR (mkL sh ex rd wr st (l1 ++ Idle :: l2) (S now) es (rs ++ [mkRet (length l1) a q t0 now]))
               (m1 ++ mkLine c (Outgoing a (over_socket a q) t (length rs)) :: m2) h)
(* the client has its answer *)
| R_deliver : forall x m1 a0 t0 a q t k m2 h,
    rstep false (mkR x (m1 ++ mkLine (Some (Some (a0, t0))) (Outgoing a q t k) :: m2) h)
          (mkR x (m1 ++ mkLine (Some None) Rest :: m2) (h ++ [HGot (length m1) a0 q t0 k (l_now x)]))
(* the client left: the response is lost; the thread goes on with another client, or ends *)
| R_lose_response : forall x m1 a q t k m2 h,
    rstep false (mkR x (m1 ++ mkLine None (Outgoing a q t k) :: m2) h) (mkR x (m1 ++ mkLine None Rest :: m2) h)
| R_down : forall x m1 a q t k m2 h,
    rstep false (mkR x (m1 ++ mkLine None (Outgoing a q t k) :: m2) h) (mkR x (m1 ++ mkLine None Down :: m2) h).

Inductive rsteps (ok : bool -> Prop) : rsys -> rsys -> Prop :=
| rs_refl : forall s, rsteps ok s s
| rs_step : forall b s s' s'', rsteps ok s s' -> ok b -> rstep b s' s'' -> rsteps ok s s''.

(** [n] server threads over clones of one container in state [st]. *)
Definition rinit (st : St B) (n : nat) : rsys := mkR (linit B st n) (repeat (mkLine None Rest) n) [].

(** Nobody is in the middle of anything. *)
Definition quiet_line (l : line) : Prop := ln_pipe l = Rest.
(** The calls the clients made, and those they got an answer to, with it. *)
Definition sent (h : list noted) : list (ask K V) := flat_map (fun x => match x with HSent _ a _ => [a] | _ => [] end) h.
Definition got (h : list noted) : list (ask K V * saw K V) := flat_map (fun x => match x with HGot _ a q _ _ _ => [(a, q)] | _ => [] end) h.
End Remote.
Arguments Rest {K V}.
Arguments Down {K V}.
