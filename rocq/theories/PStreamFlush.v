(** PStreamFlush.v -- property theorems: C78, flush (ByteStream on storage whose operations fail). *)
From Coq Require Import ZArith NArith Init.Byte Strings.Byte.
From Verif Require Import Base PermSolve Block Spec BTree KMin Hasher Stream PStream IOVec IOVecProof ByteStream ByteStreamProof PByteStream
  Quota PQuota Faults StreamFaults PStreamFaults.
Set Implicit Arguments.

Section PStreamFlush.
Context {K V : Type} {OK : Ord K} {OV : Ord V} {EK : OrdEq K}.
Variable bs : BSearch K.
Variable ser : K * V -> option (list byte).
Variable de : list byte -> option (K * V).
Notation T := (K * V)%type.
Notation Bv := (ByteStreamB VecStream bs ser de).
Notation Bf nf := (ByteStreamB (FaultyStream nf) bs ser de).

Section Nf.
Variable nf : sfaults.
Notation F := (FaultyStream nf).
(** [flush] reads each stream through its own handle, and makes no clone. *)
Definition no_clone (fs : sfaults) : Prop := forall d, snd fs d = [].
Lemma into_list_whole (v : iovec F) : whole_h (iv_h v) -> no_clone (snd (iv_h v)) ->
  iv_into_list de v = Panic \/ iv_into_list de v = iv_into_list de (calm_v v).
Proof.
  destruct v as [w [pos [own cl]] c]. intros H N. unfold no_clone in N. cbn [iv_h snd] in N. unfold iv_into_list.
  assert (E : iv_fuel (@mkIV F w (pos, (own, cl)) c) = iv_fuel (calm_v (@mkIV F w (pos, (own, cl)) c))).
  { unfold iv_fuel, iv_size, calm_v. cbn [iv_w iv_h iv_chunk s_seek s_clone FaultyStream VecStream fst snd]. unfold f_seek, clone_faults.
    rewrite (N 0). reflexivity. }
  rewrite E. destruct (@iter_list_whole nf _ de c (iv_fuel (calm_v (@mkIV F w (pos, (own, cl)) c))) (br_new F w (pos, (own, cl))) H) as [G|G]; [left|right]; exact G.
Qed.
Lemma drain_whole fs : (forall i, whole (fs i) /\ no_clone (fs i)) -> forall (sl : list (option (iovec VecStream))) i,
  bs_drain de (faulty_slots nf fs i sl) = Panic \/ bs_drain de (faulty_slots nf fs i sl) = bs_drain de sl.
Proof.
  intros H. induction sl as [|[v|] sl IH]; intros i; cbn [faulty_slots bs_drain faulty_slot]; auto.
  destruct (@into_list_whole (@mkIV F (iv_w v) (iv_h v, fs i) (iv_chunk v))) as [-> | ->]; [apply H|apply H|auto|].
  unfold calm_v. cbn [iv_w iv_h iv_chunk fst]. destruct v as [w h c]. cbn [iv_w iv_h iv_chunk].
  destruct (iv_into_list de (@mkIV VecStream w h c)) as [l|]; cbn [bind]; auto. destruct (IH (S i)) as [-> | ->]; auto.
Qed.
End Nf.

(** C78.  [flush], whatever reads fail: if it returns, it returns what it returns without failures (the elements
    behind the position of each stream, C38), and the container is empty; nothing is handed over in part. *)
Theorem C78_flush : forall nf fs s s' out, (forall i, whole (fs i) /\ no_clone (fs i)) ->
  flush (Bf nf) (faulty_bs nf fs s) = Ok (s', out) -> flush Bv s = Ok (calm_bs s', out) /\ size (Bf nf) s' = 0.
Proof.
  intros nf fs s s' out H. cbn [flush size ByteStreamB]. unfold bs_flush. cbn [faulty_bs st_slots st_cap].
  destruct (@drain_whole nf fs H (st_slots s) 0) as [-> | ->]; cbn [bind]; [discriminate|].
  destruct (bs_drain de (st_slots s)) as [l|]; cbn [bind]; [|discriminate]. intros E. injection E as <- <-. split.
  - unfold calm_bs. cbn [st_slots st_cap]. do 3 f_equal. rewrite map_map. generalize 0. induction (st_slots s) as [|o sl IH]; intros i; cbn [faulty_slots map]; [reflexivity|].
    cbn [option_map]. f_equal. apply IH.
  - unfold bs_size. cbn [st_slots]. generalize 0 at 1. induction (st_slots s) as [|o sl IH]; intros i; cbn [faulty_slots map]; [reflexivity|].
    apply (IH (S i)).
Qed.
End PStreamFlush.

(** The hypotheses on a non-trivial case: two elements behind the position of a stream; the read works, or fails. *)
Definition demo_behind : bstream VecStream := demo_state [None; vslot [x01; x00; x02; x00] 0 2] 100.
Definition flush_saw (own : list fault) : option (list (nat * nat)) :=
  match bs_flush pair_de (faulty_bs no_faults (all_same (own, fun _ => [])) demo_behind) with Ok (s, out) => Some out | Panic => None end.
Example c78_flush_case : flush_saw [Works; Works] = Some [(1, 0); (2, 0)] /\ flush_saw [Fails] = None.
Proof. split; vm_compute; reflexivity. Qed.
Print Assumptions C78_flush.
