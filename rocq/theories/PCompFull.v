(** PCompFull.v -- property theorems: C76 (Compressed on storage that runs out). *)
From Coq Require Import ZArith NArith Init.Byte Strings.Byte.
From Verif Require Import Base PermSolve Block Spec Cut BTree LawsProof Stream PStream IOVec IOVecProof Quota PQuota Compressed CompressedProof PCompressed CompFull.
Set Implicit Arguments.

Section Written.
Variable S : Stream.
Variable L : Lz.
Context {K V : Type} {OK : Ord K} {OV : Ord V}.
Variable C : VCodec (K * V).
Variable srt : Sorter (K * V) V snd.
Variable bs : BSearch K.
Notation B := (CompressedB S L C srt bs).

(** C76.  [leaves] is what the calls do: a call whose write succeeds returns, and leaves that state; a call whose
    write fails panics.  (take_multiple may panic for another reason, C40.) *)
Theorem C76_what_is_written : forall (s : compressed S) o v, written L C srt bs s o = Ok (Some v) ->
  match c_write L C s v with
  | Ok (s', true) => (exists out, step B s o = Ok (s', out)) \/ (exists ks, o = OpTakeMultiple ks /\ step B s o = Panic)
  | Ok (s', false) => step B s o = Panic
  | Panic => step B s o = Panic
  end.
Proof.
  intros s o v. destruct o as [vs|n|k|ks|]; cbn [written step push pop take take_multiple flush CompressedB].
  - unfold c_push. destruct (c_read_bytes L s) as [bytes|]; [|discriminate].
    destruct (match bytes with [] => Some [] | _ :: _ => c_de C bytes end) as [vec|]; [|discriminate].
    destruct (c_vsize C vs) as [total|]; [|discriminate]. destruct (sub_chk (c_cap s) (length bytes)) as [room|]; [|discriminate]. cbn [bind].
    intros [= <-]. destruct (c_cap s <? total).
    + destruct (find_cut_at_size (srt vs) (c_esz0 C) (total - c_cap s)) as [[cut sz] r]. cbn [fst]. unfold c_write_or_panic.
      destruct (c_write L C s (firstn cut (srt vs))) as [[s' [|]]|]; cbn [bind]; auto. left. eexists. reflexivity.
    + destruct (total <=? room).
      * unfold c_write_or_panic. destruct (c_write L C s (vec ++ vs)) as [[s' [|]]|]; cbn [bind]; auto. left. eexists. reflexivity.
      * destruct (find_cut_at_size (srt vec) (c_esz0 C) (total - room)) as [[cut sz] r]. unfold c_write_or_panic.
        destruct (c_write L C s (firstn cut (srt vec) ++ vs)) as [[s' [|]]|]; cbn [bind]; auto. left. eexists. reflexivity.
  - unfold c_pop. destruct (c_read L C s) as [[|x l]|]; try discriminate.
    destruct (find_cut_at_size _ (c_esz0 C) n) as [[cut sz] r]. destruct (sz <? n); [discriminate|]. intros [= <-]. unfold c_write_or_panic.
    destruct (c_write L C s _) as [[s' [|]]|]; cbn [bind]; auto. left. eexists. reflexivity.
  - unfold c_take. destruct (c_read L C s) as [l|]; [|discriminate]. destruct (find_index _ l) as [i|]; [|discriminate].
    destruct (vec_swap_remove i l) as [[v' ret]|]; [|discriminate]. cbn [bind]. intros [= <-]. unfold c_write_or_panic.
    destruct (c_write L C s v') as [[s' [|]]|]; cbn [bind]; auto. left. eexists. reflexivity.
  - unfold c_take_multiple. destruct (c_read L C s) as [l|]; [|discriminate].
    destruct (c_take_out (rev (c_matches bs (sort_keys ks) 0 l)) l) as [[v' out]|]; [|discriminate]. cbn [bind]. destruct out as [|x out]; [discriminate|].
    intros [= <-]. destruct (c_drop_keys _ _) as [ks'|]; cbn [bind].
    + unfold c_write_or_panic. destruct (c_write L C s v') as [[s' [|]]|]; cbn [bind]; auto. left. eexists. reflexivity.
    + destruct (c_write L C s v') as [[s' [|]]|]; auto. right. eauto.
  - discriminate.
Qed.
End Written.

Section PCompFull.
Variable quota : nat.
Notation Q := (QuotaStream quota).
Variable L : Lz.
Context {K V : Type} {OK : Ord K} {OV : Ord V} {EK : OrdEq K}.
Variable C : VCodec (K * V).
Variable srt : Sorter (K * V) V snd.
Variable bs : BSearch K.
Notation Bq := (CompressedB Q L C srt bs).
Notation Bv := (CompressedB VecStream L C srt bs).
Notation T := (K * V)%type.

(** The same container with its stream under the quota. *)
Definition cup (s : compressed VecStream) : compressed Q := @mkC Q (c_w s) (c_h s) (c_cap s).
Definition compressed_bytes (s : compressed VecStream) : list byte := c_w s.

Lemma read_bytes_up s : c_read_bytes L (cup s) = c_read_bytes L s.
Proof. reflexivity. Qed.
Lemma read_up s : c_read L C (cup s) = c_read L C s.
Proof. reflexivity. Qed.
Lemma write_up s val :
  match c_write L C s val with
  | Ok (s', true) => exists h', c_write L C (cup s) val = Ok (@mkC Q (firstn quota (compressed_bytes s')) h' (c_cap s), length (compressed_bytes s') <=? quota) /\
      (length (compressed_bytes s') <= quota -> @mkC Q (firstn quota (compressed_bytes s')) h' (c_cap s) = cup s') /\
      c_cap s' = c_cap s /\ (compressed_bytes s' = [] \/ exists b, c_ser C val = Some b /\ length b <= c_cap s /\ compressed_bytes s' = lz L b)
  | Ok (s', false) => c_write L C (cup s) val = Ok (cup s', false)
  | Panic => False
  end.
Proof.
  unfold c_write, cup, compressed_bytes. cbn [c_w c_h c_cap s_resize s_seek VecStream QuotaStream]. unfold q_resize. change (quota <? 0) with false. cbv iota.
  unfold vs_resize. destruct val as [|x val].
  - cbn [c_w]. eexists. split; [|split; [|split; auto]].
    + change (vec_resize 0 (c_w s : list byte)) with (@nil byte). rewrite firstn_nil. reflexivity.
    + intros _. change (vec_resize 0 (c_w s : list byte)) with (@nil byte). rewrite firstn_nil. reflexivity.
  - destruct (c_ser C (x :: val)) as [b|] eqn:Eb; [|reflexivity]. destruct (c_cap s <? length b) eqn:Ec; [reflexivity|]. apply Nat.ltb_ge in Ec.
    change (vec_resize 0 (c_w s : list byte)) with (@nil byte). rewrite seek_start by (cbn; lia).
    destruct (@write_all_vec [] 0 (lz L b)) as (w' & Ea & Ew); [auto|]. rewrite Ea. cbn [bind c_w c_h c_cap].
    change (vs_write [] 0 (lz L b)) with (vs_write [] (length (@nil byte)) (lz L b)) in Ew. rewrite (vs_write_end [] (lz L b)) in Ew. injection Ew as <-.
    cbn [app plus]. change (write_all Q [] 0 (lz L b)) with (write_all Q [] (length (@nil byte)) (lz L b)).
    rewrite (@write_all_quota quota [] (lz L b)) by (cbn; lia). cbn [length app bind]. rewrite Nat.sub_0_r.
    eexists. split; [reflexivity|]. split; [|split; eauto]. intros Hle. assert (E : firstn quota (lz L b) = lz L b) by (apply firstn_all2; exact Hle). cbn [c_w]. rewrite E. reflexivity.
Qed.
Lemma write_or_panic_up s val : forall s', c_write_or_panic L C s val = Ok s' ->
  (length (compressed_bytes s') <= quota -> c_write_or_panic L C (cup s) val = Ok (cup s')) /\
  (quota < length (compressed_bytes s') -> c_write_or_panic L C (cup s) val = Panic /\
     exists s1, c_write L C (cup s) val = Ok (s1, false) /\ c_w s1 = firstn quota (compressed_bytes s') /\ c_cap s1 = c_cap s).
Proof.
  intros s' E. unfold c_write_or_panic in E |- *. pose proof (write_up s val) as H. destruct (c_write L C s val) as [[s2 [|]]|]; cbn [bind] in E; try discriminate.
  injection E as ->. destruct H as (h' & E1 & E2 & E3 & _). split; intros Hq.
  - rewrite E1. replace (length (compressed_bytes s') <=? quota) with true by (symmetry; apply Nat.leb_le; auto). cbn [bind]. rewrite E2; auto.
  - rewrite E1. replace (length (compressed_bytes s') <=? quota) with false by (symmetry; apply Nat.leb_gt; auto). cbn [bind]. split; auto.
    eexists. split; [reflexivity|]. auto.
Qed.
Lemma write_or_panic_panics s val : c_write_or_panic L C s val = Panic -> c_write_or_panic L C (cup s) val = Panic.
Proof.
  unfold c_write_or_panic. pose proof (write_up s val) as H. destruct (c_write L C s val) as [[s2 [|]]|]; cbn [bind]; try discriminate; [|tauto].
  intros _. rewrite H. reflexivity.
Qed.
Lemma write_or_panic_rep s val s' : c_write_or_panic L C s val = Ok s' -> c_cap s' = c_cap s /\
  (compressed_bytes s' = [] \/ exists b, c_ser C val = Some b /\ length b <= c_cap s /\ compressed_bytes s' = lz L b).
Proof.
  unfold c_write_or_panic. pose proof (write_up s val) as H. destruct (c_write L C s val) as [[s2 [|]]|]; cbn [bind]; try discriminate.
  intros [= ->]. destruct H as (h' & _ & _ & H). exact H.
Qed.
(** What a call of [o] on unlimited storage does to the bytes. *)
Lemma step_written s o : match step Bv s o with
  | Ok (s', out) =>
      (exists v, written L C srt bs s o = Ok (Some v) /\ c_write_or_panic L C s v = Ok s' /\
        (step Bq (cup s) o = let* s2 := c_write_or_panic L C (cup s) v in Ok (s2, out))) \/
      (step Bq (cup s) o = Ok (cup s', out) /\ (s' = s \/ c_cap s' = c_cap s /\ compressed_bytes s' = []))
  | Panic => step Bq (cup s) o = Panic
  end.
Proof.
  destruct o as [vs|n|k|ks|]; cbn [written step push pop take take_multiple flush CompressedB].
  - unfold c_push. rewrite read_bytes_up. destruct (c_read_bytes L s) as [bytes|]; [|right; auto].
    destruct (match bytes with [] => Some [] | _ :: _ => c_de C bytes end) as [vec|]; [|right; auto].
    destruct (c_vsize C vs) as [total|]; [|right; auto]. cbn [c_cap cup]. destruct (sub_chk (c_cap s) (length bytes)) as [room|]; [|reflexivity]. cbn [bind].
    match goal with |- context [let (in_vec, out_vec) := ?p in _] => set (plan := p) end.
    assert (Ep : (if c_cap s <? total then match find_cut_at_size (srt vs) (c_esz0 C) (total - c_cap s) with (cut, _, _) => firstn cut (srt vs) end
        else if total <=? room then vec ++ vs
        else match find_cut_at_size (srt vec) (c_esz0 C) (total - room) with (cut, _, _) => firstn cut (srt vec) ++ vs end) = fst plan).
    { unfold plan. destruct (c_cap s <? total); [destruct (find_cut_at_size (srt vs) _ _) as [[? ?] ?]; reflexivity|].
      destruct (total <=? room); [reflexivity|]. destruct (find_cut_at_size (srt vec) _ _) as [[? ?] ?]; reflexivity. }
    destruct plan as [in_vec out_vec]. cbn [fst] in Ep. destruct (c_write_or_panic L C s in_vec) as [s'|] eqn:Ew; cbn [bind].
    + left. exists in_vec. rewrite Ep. auto.
    + rewrite (write_or_panic_panics _ _ Ew). reflexivity.
  - unfold c_pop. rewrite read_up. destruct (c_read L C s) as [[|x l]|]; [right; auto| |right; auto].
    destruct (find_cut_at_size _ (c_esz0 C) n) as [[cut sz] r]. destruct (sz <? n).
    + cbn [s_resize VecStream QuotaStream]. unfold q_resize. change (quota <? 0) with false. cbv iota. right. split; [reflexivity|]. right. auto.
    + destruct (c_write_or_panic L C s _) as [s'|] eqn:Ew; cbn [bind].
      * left. eexists. split; [reflexivity|]. split; [exact Ew|reflexivity].
      * rewrite (write_or_panic_panics _ _ Ew). reflexivity.
  - unfold c_take. rewrite read_up. destruct (c_read L C s) as [l|]; [|right; auto]. destruct (find_index _ l) as [i|]; [|right; auto].
    destruct (vec_swap_remove i l) as [[v' ret]|]; [|reflexivity]. cbn [bind]. destruct (c_write_or_panic L C s v') as [s'|] eqn:Ew; cbn [bind].
    + left. exists v'. split; auto. split; auto. destruct (c_write_or_panic L C (cup s) v'); reflexivity.
    + rewrite (write_or_panic_panics _ _ Ew). reflexivity.
  - unfold c_take_multiple. rewrite read_up. destruct (c_read L C s) as [l|]; [|right; auto].
    destruct (c_take_out (rev (c_matches bs (sort_keys ks) 0 l)) l) as [[v' out]|]; [|reflexivity]. cbn [bind].
    destruct (c_drop_keys _ _) as [ks'|]; [|reflexivity]. cbn [bind]. destruct out as [|x out]; [right; auto|].
    destruct (c_write_or_panic L C s v') as [s'|] eqn:Ew; cbn [bind].
    + left. exists v'. split; auto. split; auto. destruct (c_write_or_panic L C (cup s) v'); reflexivity.
    + rewrite (write_or_panic_panics _ _ Ew). reflexivity.
  - unfold c_flush. rewrite read_up. destruct (c_read L C s) as [l|]; [|right; auto].
    cbn [s_resize VecStream QuotaStream]. unfold q_resize. change (quota <? 0) with false. cbv iota. right. split; [reflexivity|]. right. auto.
Qed.

(** C76.  Every call, exactly: as over unlimited storage if what that would then store fits; otherwise the call
    panics, and the storage is left with the first bytes of it. *)
Theorem C76_every_call : forall s o, length (compressed_bytes s) <= quota ->
  match step Bv s o with
  | Panic => step Bq (cup s) o = Panic
  | Ok (s', out) =>
      (length (compressed_bytes s') <= quota -> step Bq (cup s) o = Ok (cup s', out)) /\
      (quota < length (compressed_bytes s') -> step Bq (cup s) o = Panic /\
         exists s1, leaves L C srt bs (cup s) o false s1 /\ c_w s1 = firstn quota (compressed_bytes s') /\ c_cap s1 = c_cap s)
  end.
Proof.
  intros s o Hs. pose proof (step_written s o) as H. destruct (step Bv s o) as [[s' out]|]; auto.
  destruct H as [(v & H1 & H2 & H3)|(H1 & H2)].
  - destruct (write_or_panic_up _ _ H2) as (W1 & W2). split; intros Hq.
    + rewrite H3, (W1 Hq). reflexivity.
    + destruct (W2 Hq) as (W3 & s1 & W4 & W5 & W6). rewrite H3, W3. split; [reflexivity|]. exists s1. split; [|auto]. exists v. split; [|exact W4].
      rewrite <- H1. reflexivity.
  - split; auto. intros Hq. exfalso. destruct H2 as [->|(_ & H2)]; [lia|]. rewrite H2 in Hq. cbn in Hq. lia.
Qed.
Theorem C76_same_lookups : forall s k, contains Bq (cup s) k = contains Bv s k /\ size Bq (cup s) = size Bv s /\
  c_get L C (cup s) k = c_get L C s k.
Proof. intros s k. split; [|split]; reflexivity. Qed.

(** C76.  Storage that can hold whatever the container compresses: the same answers for every history. *)
Theorem C76_enough_storage : forall cap, (forall l b, c_ser C l = Some b -> length b <= cap -> length (lz L b) <= quota) ->
  forall h, run Bq (c_new Q (s_new Q) cap) h =
    let* (s, out) := run Bv (c_new VecStream (s_new VecStream) cap) h in Ok (cup s, out).
Proof.
  intros cap Hq h.
  assert (G : forall h s, length (compressed_bytes s) <= quota -> c_cap s = cap ->
    run Bq (cup s) h = let* (s', out) := run Bv s h in Ok (cup s', out)).
  { clear h. induction h as [|o h IH]; intros s Hs Hc; cbn [run]; auto.
    pose proof (C76_every_call s o Hs) as H. pose proof (step_written s o) as H0. destruct (step Bv s o) as [[s1 r1]|]; [|rewrite H; reflexivity].
    assert (Hs1 : length (compressed_bytes s1) <= quota /\ c_cap s1 = cap).
    { destruct H0 as [(v & _ & H0 & _)|(_ & [->|(H0 & H1)])]; [|auto|].
      - destruct (write_or_panic_rep _ _ H0) as (E & [->|(b & Eb & Lb & ->)]); [cbn; split; [lia|congruence]|]. split; [|congruence].
        rewrite Hc in Lb. apply (Hq v b); auto.
      - rewrite H1. cbn. split; [lia|congruence]. }
    destruct H as (H & _). rewrite H by tauto. cbn [bind]. rewrite IH by tauto. destruct (run Bv s1 h) as [[s2 r2]|]; reflexivity. }
  change (c_new Q (s_new Q) cap) with (cup (c_new VecStream (s_new VecStream) cap)). apply G; [cbn; lia|reflexivity].
Qed.

(** ** After a call that failed *)
(** Decompressing the beginning of what was compressed gives the beginning of it, or an error; reading a vector
    from part of its bytes is an error.  Both hold of lz4 and bincode. *)
Definition cut_frames : Prop := forall b n r, unlz L (firstn n (lz L b)) = Some r -> exists m, r = firstn m b.
Definition cut_vectors : Prop := forall l b m, c_ser C l = Some b -> 0 < m -> m < length b -> c_de C (firstn m b) = None.
(** What a user sees of a history: the answers. *)
Definition seen (r : res (compressed Q * list T)) : option (list T) := match r with Ok (_, out) => Some out | Panic => None end.

(** A container that cannot read its stream. *)
Lemma dead_step s o : c_read L C s = None -> step Bq s o = Ok (s, given o).
Proof.
  intros H. destruct o as [vs|n|k|ks|]; cbn [step given push pop take take_multiple flush CompressedB].
  - unfold c_push. unfold c_read in H. destruct (c_read_bytes L s) as [[|z b]|]; [discriminate| |reflexivity]. rewrite H. reflexivity.
  - unfold c_pop. rewrite H. reflexivity.
  - unfold c_take. rewrite H. reflexivity.
  - unfold c_take_multiple. rewrite H. reflexivity.
  - unfold c_flush. rewrite H. reflexivity.
Qed.
Lemma dead_run s : c_read L C s = None -> forall h, run Bq s h = Ok (s, all_given h).
Proof.
  intros H. induction h as [|o h IH]; cbn [run]; auto. rewrite dead_step by auto. cbn [bind]. rewrite IH. reflexivity.
Qed.
(** A container whose stream decompresses to nothing. *)
Lemma write_same (s t : compressed Q) val : c_cap s = c_cap t ->
  c_write_or_panic L C s val = c_write_or_panic L C t val.
Proof.
  intros H. unfold c_write_or_panic, c_write. rewrite H. cbn [s_resize s_seek QuotaStream]. unfold q_resize. change (quota <? 0) with false. cbv iota. unfold vs_resize.
  assert (Eh : (if 0 <? c_h s then 0 else c_h s) = 0) by (destruct (c_h s); reflexivity).
  assert (Eh' : (if 0 <? c_h t then 0 else c_h t) = 0) by (destruct (c_h t); reflexivity).
  change (sH Q) with nat in *. rewrite Eh, Eh'. change (vec_resize 0 (c_w s)) with (@nil byte). change (vec_resize 0 (c_w t)) with (@nil byte).
  destruct val; [reflexivity|]. destruct (c_ser C (p :: val)) as [b|]; [|reflexivity]. destruct (c_cap t <? length b); reflexivity.
Qed.
Lemma q_read_bytes (s : compressed Q) : c_read_bytes L s = unlz L (c_w s).
Proof. change (c_read_bytes L s) with (c_read_bytes L (@mkC VecStream (c_w s) (c_h s) (c_cap s))). rewrite read_bytes_ok. reflexivity. Qed.
(** Two containers that behave the same. *)
Definition same_or_nothing (s t : compressed Q) : Prop :=
  s = t \/ (c_read_bytes L s = Some [] /\ c_read_bytes L t = Some [] /\ c_cap s = c_cap t).
Lemma nothing_step s t o : same_or_nothing s t ->
  match step Bq s o, step Bq t o with
  | Ok (s', r), Ok (t', r') => r = r' /\ same_or_nothing s' t'
  | Panic, Panic => True
  | _, _ => False
  end.
Proof.
  intros [->|(Hs & Ht & Hc)].
  { destruct (step Bq t o) as [[t' r]|]; auto. split; [reflexivity|]. left. reflexivity. }
  assert (Rs : c_read L C s = Some []) by (unfold c_read; rewrite Hs; reflexivity).
  assert (Rt : c_read L C t = Some []) by (unfold c_read; rewrite Ht; reflexivity).
  assert (G : same_or_nothing s t) by (right; auto).
  destruct o as [vs|n|k|ks|]; cbn [step push pop take take_multiple flush CompressedB].
  - unfold c_push. rewrite Hs, Ht, Hc. destruct (c_vsize C vs) as [total|]; [|auto]. destruct (sub_chk (c_cap t) (length [])) as [room|]; [|exact I]. cbn [bind].
    match goal with |- context [let (in_vec, out_vec) := ?p in _] => destruct p as [in_vec out_vec] end.
    rewrite (write_same s t in_vec Hc). destruct (c_write_or_panic L C t in_vec) as [t'|]; [|exact I]. split; [reflexivity|]. left. reflexivity.
  - unfold c_pop. rewrite Rs, Rt. auto.
  - unfold c_take. rewrite Rs, Rt. cbn. auto.
  - unfold c_take_multiple. rewrite Rs, Rt. cbn. auto.
  - unfold c_flush. rewrite Rs, Rt. cbn [s_resize QuotaStream]. unfold q_resize. change (quota <? 0) with false. cbv iota.
    split; [reflexivity|]. right. rewrite !q_read_bytes. cbn [c_w c_cap]. unfold vs_resize.
    change (vec_resize 0 (c_w s)) with (@nil byte). change (vec_resize 0 (c_w t)) with (@nil byte). rewrite (unlz_nil L). auto.
Qed.
Lemma nothing_run : forall h s t, same_or_nothing s t -> seen (run Bq s h) = seen (run Bq t h).
Proof.
  induction h as [|o h IH]; intros s t H; cbn [run]; auto. pose proof (nothing_step o H) as G.
  destruct (step Bq s o) as [[s' r]|], (step Bq t o) as [[t' r']|]; try contradiction; [|reflexivity]. destruct G as [-> G]. cbn [bind].
  specialize (IH _ _ G). destruct (run Bq s' h) as [[s2 r2]|], (run Bq t' h) as [[t2 r3]|]; cbn [seen bind] in *; congruence.
Qed.

(** What a container that a failed call left can be: one that holds nothing and hands everything back; one that
    behaves as a new one; or one that holds what the call meant to store. *)
Definition left_as (s1 : compressed Q) (s' : compressed VecStream) : Prop :=
  (forall h, run Bq s1 h = Ok (s1, all_given h)) \/
  (forall h, seen (run Bq s1 h) = seen (run Bq (c_new Q (s_new Q) (c_cap s1)) h)) \/
  (forall k, contains Bq s1 k = contains Bv s' k /\ c_get L C s1 k = c_get L C s' k /\
     seen (run Bq s1 [OpFlush]) = match run Bv s' [OpFlush] with Ok (_, out) => Some out | Panic => None end).

(** C76.  A call that needs more storage than there is panics, and leaves one of these three. *)
Theorem C76_failed_call : cut_frames -> cut_vectors -> forall s o s' out, length (compressed_bytes s) <= quota ->
  step Bv s o = Ok (s', out) -> quota < length (compressed_bytes s') ->
  step Bq (cup s) o = Panic /\
  exists s1, leaves L C srt bs (cup s) o false s1 /\ c_cap s1 = c_cap s /\ left_as s1 s'.
Proof.
  intros Hf Hv s o s' out Hs Hst Hq. pose proof (C76_every_call s o Hs) as H. pose proof (step_written s o) as H0. rewrite Hst in H, H0.
  destruct H as [_ H]. destruct (H Hq) as (Hp & s1 & Hl & Hw & Hc). split; [exact Hp|]. exists s1. split; [exact Hl|]. split; [exact Hc|].
  assert (Hb : exists v b, c_ser C v = Some b /\ compressed_bytes s' = lz L b).
  { destruct H0 as [(v & _ & H0 & _)|(_ & [->|(_ & H0)])]; [|lia|rewrite H0 in Hq; cbn in Hq; lia].
    destruct (write_or_panic_rep _ _ H0) as (_ & [E|(b & Eb & _ & E)]); [rewrite E in Hq; cbn in Hq; lia|]. eauto. }
  destruct Hb as (v & b & Eb & Ew). pose proof (q_read_bytes s1) as Hr. rewrite Hw, Ew in Hr.
  assert (Hr' : c_read L C s' = Some v).
  { unfold c_read. rewrite read_bytes_ok. unfold compressed_bytes in Ew. rewrite Ew, (unlz_lz L). pose proof (c_len C v Eb) as Hlen.
    destruct b as [|z b]; [cbn in Hlen; lia|]. apply (c_round C). exact Eb. }
  destruct (unlz L (firstn quota (lz L b))) as [r|] eqn:Er.
  2: { left. apply dead_run. unfold c_read. rewrite Hr. reflexivity. }
  destruct (Hf _ _ _ Er) as (m & ->). destruct m as [|m].
  { right. left. intros h. apply nothing_run. right. split; [exact Hr|]. split; [|reflexivity]. rewrite q_read_bytes. apply (unlz_nil L). }
  destruct (Nat.lt_ge_cases (S m) (length b)) as [Hm|Hm].
  - left. apply dead_run. unfold c_read. rewrite Hr. destruct b as [|z b]; [cbn in Hm; lia|]. cbn [firstn].
    change (z :: firstn m b) with (firstn (S m) (z :: b)). apply (Hv v (z :: b) (S m) Eb); [lia|exact Hm].
  - right. right. rewrite firstn_all2 in Hr by lia. intros k.
    assert (Hr1 : c_read L C s1 = Some v).
    { unfold c_read. rewrite Hr. pose proof (c_len C v Eb) as Hlen. destruct b as [|z b]; [cbn in Hlen; lia|]. apply (c_round C). exact Eb. }
    split; [|split].
    + cbn [contains CompressedB]. unfold c_contains. rewrite Hr1, Hr'. reflexivity.
    + unfold c_get. rewrite Hr1, Hr'. reflexivity.
    + cbn [run step flush CompressedB]. unfold c_flush. rewrite Hr1, Hr'. reflexivity.
Qed.

(** C76.  Writing through get_mut: the guard writes the vector when it is dropped, and the drop panics when it does
    not fit. *)
Theorem C76_get_mut : forall s k f, 
  match c_get_mut L C s k f with
  | Panic => c_get_mut L C (cup s) k f = Panic
  | Ok (s', r) => c_get_mut L C (cup s) k f =
      if orb (length (compressed_bytes s') <=? quota) (match r with None => true | Some _ => false end) then Ok (cup s', r) else Panic
  end.
Proof.
  intros s k f. unfold c_get_mut. rewrite read_up. destruct (c_read L C s) as [v|]; [|rewrite Bool.orb_true_r; reflexivity].
  destruct (find_index _ v) as [i|]; [|rewrite Bool.orb_true_r; reflexivity]. destruct (unwrap (nth_error v i)) as [kv|]; [|reflexivity]. cbn [bind].
  change (@mkC Q (c_w (cup s)) (s_clone Q (c_h (cup s))) (c_cap (cup s))) with (cup (@mkC VecStream (c_w s) (s_clone VecStream (c_h s)) (c_cap s))).
  destruct (c_write_or_panic L C (@mkC VecStream (c_w s) (s_clone VecStream (c_h s)) (c_cap s)) _) as [s'|] eqn:Ew; cbn [bind].
  2: { rewrite (write_or_panic_panics _ _ Ew). reflexivity. }
  destruct (write_or_panic_up _ _ Ew) as (W1 & W2). rewrite Bool.orb_false_r. change (compressed_bytes {| c_w := c_w s'; c_h := c_h s; c_cap := c_cap s |}) with (compressed_bytes s').
  destruct (length (compressed_bytes s') <=? quota) eqn:E.
  - apply Nat.leb_le in E. rewrite (W1 E). reflexivity.
  - apply Nat.leb_gt in E. destruct (W2 E) as (W3 & _). rewrite W3. reflexivity.
Qed.
End PCompFull.

(** ** A codec and a compressor that meet the hypotheses *)
(** 8 bytes, the last of which tells whether there is an element, then two bytes for each element: the key, and
    twice the value, plus one if another element follows. *)
Definition more {A} (l : list A) : nat := match l with [] => 0 | _ => 1 end.
Definition link (l : list (nat * nat)) (kv : nat * nat) : option (list byte) :=
  match Byte.of_nat (fst kv), (if snd kv <? 128 then Byte.of_nat (2 * snd kv + more l) else None) with
  | Some a, Some b => Some [a; b]
  | _, _ => None
  end.
Fixpoint links (l : list (nat * nat)) : option (list byte) :=
  match l with
  | [] => Some []
  | kv :: l' => match link l' kv, links l' with Some a, Some b => Some (a ++ b) | _, _ => None end
  end.
Fixpoint unlinks (m : nat) (l : list byte) : option (list (nat * nat)) :=
  match m with
  | 0 => Some []
  | _ => match l with
         | a :: b :: l' => option_map (cons (Byte.to_nat a, Nat.div2 (Byte.to_nat b))) (unlinks (if Nat.odd (Byte.to_nat b) then 1 else 0) l')
         | _ => None
         end
  end.
Definition chain_ser (l : list (nat * nat)) : option (list byte) :=
  option_map (fun b => repeat x00 7 ++ (match l with [] => x00 | _ => x01 end) :: b) (links l).
Definition chain_de (b : list byte) : option (list (nat * nat)) :=
  match nth_error b 7 with Some f => unlinks (Byte.to_nat f) (skipn 8 b) | None => None end.
Lemma link_some (l l' : list (nat * nat)) kv : link l kv <> None -> link l' kv <> None.
Proof.
  unfold link. destruct (Byte.of_nat (fst kv)); [|congruence]. destruct (snd kv <? 128) eqn:E; [|congruence]. apply Nat.ltb_lt in E. intros _.
  destruct (Byte.of_nat (2 * snd kv + more l')) eqn:F; [congruence|]. exfalso. apply Byte.of_nat_None_iff in F.
  assert (more l' <= 1) by (destruct l'; cbn; lia). lia.
Qed.
Lemma link_is l kv b : link l kv = Some b -> exists x y, b = [x; y] /\ Byte.to_nat x = fst kv /\ Byte.to_nat y = 2 * snd kv + more l.
Proof.
  unfold link. destruct (Byte.of_nat (fst kv)) as [x|] eqn:Ex; [|discriminate]. destruct (snd kv <? 128); [|discriminate].
  destruct (Byte.of_nat (2 * snd kv + more l)) as [y|] eqn:Ey; [|discriminate]. intros [= <-]. exists x, y. split; auto.
  apply Byte.to_of_nat in Ex, Ey. auto.
Qed.
Lemma link_bits v (l : list (nat * nat)) : Nat.div2 (2 * v + more l) = v /\ (if Nat.odd (2 * v + more l) then 1 else 0) = more l.
Proof.
  destruct l; cbn [more].
  - rewrite Nat.add_0_r, Nat.div2_double, Nat.odd_mul. auto.
  - rewrite (Nat.add_1_r (2 * v)), Nat.div2_succ_double, Nat.odd_succ, Nat.even_mul. auto.
Qed.
Lemma unlinks_links : forall l b, links l = Some b -> unlinks (more l) b = Some l.
Proof.
  induction l as [|[k v] l IH]; intros b; cbn [links more unlinks]; [intros [= <-]; reflexivity|].
  destruct (link l (k, v)) as [a|] eqn:E; [|discriminate]. destruct (links l) as [b'|]; [|discriminate]. intros [= <-].
  destruct (link_is _ _ E) as (x & y & -> & Ex & Ey). cbn [app fst snd unlinks] in *. rewrite Ey. destruct (link_bits v l) as (-> & ->).
  rewrite (IH _ eq_refl), Ex. reflexivity.
Qed.
Lemma unlinks_cut : forall l b m, links l = Some b -> m < length b -> unlinks (more l) (firstn m b) = None.
Proof.
  induction l as [|[k v] l IH]; intros b m; cbn [links more unlinks]; [intros [= <-]; cbn; lia|].
  destruct (link l (k, v)) as [a|] eqn:E; [|discriminate]. destruct (links l) as [b'|]; [|discriminate]. intros [= <-].
  destruct (link_is _ _ E) as (x & y & -> & Ex & Ey). cbn [app fst snd length] in *. intros Hm. destruct m as [|[|m]]; [reflexivity|reflexivity|].
  cbn [firstn unlinks]. rewrite Ey. destruct (link_bits v l) as (_ & ->). rewrite (IH _ m eq_refl) by lia. reflexivity.
Qed.
Lemma links_some l : (exists b, links l = Some b) <-> Forall (fun x => link [] x <> None) l.
Proof.
  induction l as [|x l IH]; [split; [constructor|cbn; eauto]|]. cbn [links]. split.
  - intros (b & H). destruct (link l x) as [a|] eqn:E; [|discriminate]. destruct (links l) as [b'|] eqn:E'; [|discriminate].
    constructor; [apply (link_some l); congruence|]. apply IH. eauto.
  - intros F. inversion F as [|? ? Fx Fl]; subst. apply IH in Fl as (b' & ->). apply (link_some [] l) in Fx. destruct (link l x); [eauto|congruence].
Qed.
Definition chain_codec : VCodec (nat * nat).
Proof.
  refine {| c_esz := fun kv => option_map (@length byte) (link [] kv); c_ser := chain_ser; c_de := chain_de |}.
  - intros l b H. unfold chain_ser in H. destruct (links l) as [d|] eqn:E; [|discriminate]. injection H as <-. unfold chain_de.
    cbn [repeat app nth_error skipn]. rewrite <- (unlinks_links _ E). destruct l; reflexivity.
  - intros l b H. unfold chain_ser in H. destruct (links l) as [d|] eqn:E; [|discriminate]. cbn [option_map] in H. injection H as <-.
    apply (f_equal (Nat.add 8)). change (length d = sum_sz (fun x => match option_map (@length byte) (link [] x) with Some n => n | None => 0 end) l).
    revert d E. induction l as [|x l IH]; intros d E; cbn [links] in E.
    + injection E as <-. reflexivity.
    + rewrite sum_sz_cons. destruct (link l x) as [a|] eqn:Ea; [|discriminate]. destruct (links l) as [d'|]; [|discriminate]. injection E as <-.
      rewrite app_length, (IH _ eq_refl). f_equal. destruct (link_is _ _ Ea) as (? & ? & -> & _).
      assert (Hx : link [] x <> None) by (apply (link_some l); congruence).
      destruct (link [] x) as [a|] eqn:Ex; [|congruence]. destruct (link_is _ _ Ex) as (? & ? & -> & _). reflexivity.
  - intros l. unfold chain_ser. transitivity (exists b, links l = Some b).
    + destruct (links l) as [d|]; cbn [option_map]; split; intros (b & H); try discriminate; eauto.
    + rewrite links_some. rewrite !Forall_forall. split; intros H x Hx; specialize (H x Hx); destruct (link [] x); cbn in *; congruence.
Defined.
(** Every byte follows a byte 1, and a byte 0 ends the frame. *)
Fixpoint unmark (b : list byte) : list byte :=
  match b with x01 :: z :: b' => z :: unmark b' | _ => [] end.
Lemma unmark_mark b : unmark (flat_map (fun z => [x01; z]) b ++ [x00]) = b.
Proof. induction b as [|z b IH]; [reflexivity|]. cbn [flat_map app unmark]. rewrite IH. reflexivity. Qed.
Definition mark_lz : Lz := {| lz := fun b => flat_map (fun z => [x01; z]) b ++ [x00]; unlz := fun b => Some (unmark b);
  unlz_lz := fun b => f_equal Some (unmark_mark b); unlz_nil := eq_refl |}.

Theorem C76_hypotheses_hold : cut_frames mark_lz /\ cut_vectors chain_codec.
Proof.
  split.
  - intros b n r [= <-]. revert n. induction b as [|z b IH]; intros n.
    + exists 0. destruct n as [|[|n]]; reflexivity.
    + destruct n as [|[|n]]; [exists 0; reflexivity|exists 0; reflexivity|]. destruct (IH n) as (m & E). exists (S m).
      cbn [flat_map app firstn unmark]. f_equal. exact E.
  - intros l b m H Hm Hlt. cbn [c_ser c_de chain_codec] in *. unfold chain_ser in H. destruct (links l) as [d|] eqn:E; [|discriminate]. injection H as <-.
    unfold chain_de. do 8 (destruct m as [|m]; [reflexivity|]). cbn [repeat app firstn nth_error skipn].
    cbn [repeat app length] in Hlt. rewrite <- (@unlinks_cut _ _ m E) by lia. destruct l; reflexivity.
Qed.

(** Refuted: a push that fails leaves what the container held. *)
Theorem C76_failed_push_keeps_contents_refuted : cut_frames mark_lz /\ cut_vectors chain_codec /\
  let B := CompressedB (QuotaStream 21) mark_lz chain_codec (std_sorter snd) linear_bs in
  exists s s1, run B (c_new (QuotaStream 21) (s_new (QuotaStream 21)) 100) [OpPush [(1, 2)]] = Ok (s, []) /\ contains B s 1 = Ok true /\
    step B s (OpPush [(3, 4)]) = Panic /\ leaves mark_lz chain_codec (std_sorter snd) linear_bs s (OpPush [(3, 4)]) false s1 /\
    (forall h, run B s1 h = Ok (s1, all_given h)) /\ (forall k, contains B s1 k = Ok false).
Proof.
  destruct C76_hypotheses_hold as (H1 & H2). split; [exact H1|]. split; [exact H2|]. cbv zeta.
  exists (@mkC (QuotaStream 21) (lz mark_lz (repeat x00 7 ++ [x01; x01; x04])) 21 100).
  exists (@mkC (QuotaStream 21) (firstn 21 (lz mark_lz (repeat x00 7 ++ [x01; x01; x05; x03; x08]))) 21 100).
  split; [vm_compute; reflexivity|]. split; [vm_compute; reflexivity|]. split; [vm_compute; reflexivity|].
  split; [exists [(1, 2); (3, 4)]; split; vm_compute; reflexivity|].
  split; [apply dead_run; vm_compute; reflexivity|]. intros k. cbn [contains CompressedB]. unfold c_contains.
  match goal with |- context [c_read ?L ?C ?s] => replace (c_read L C s) with (@None (list (nat * nat))) by (vm_compute; reflexivity) end. reflexivity.
Qed.
(** The three states a failed push can leave, by the room there was: nothing, not enough, all but the end mark. *)
Definition chain_bs (quota : nat) := CompressedB (QuotaStream quota) mark_lz chain_codec (std_sorter snd) linear_bs.
Definition chain_new (quota : nat) := c_new (QuotaStream quota) (s_new (QuotaStream quota)) 100.
Example c76_left_case :
  (step (chain_bs 0) (chain_new 0) (OpPush [(1, 2)]) = Panic /\
   exists s1, leaves mark_lz chain_codec (std_sorter snd) linear_bs (chain_new 0) (OpPush [(1, 2)]) false s1 /\ c_read_bytes mark_lz s1 = Some []) /\
  (step (chain_bs 24) (cup 24 (@mkC VecStream (lz mark_lz (repeat x00 7 ++ [x01; x01; x04])) 21 100)) (OpPush [(3, 4)]) = Panic /\
   exists s1, leaves mark_lz chain_codec (std_sorter snd) linear_bs (cup 24 (@mkC VecStream (lz mark_lz (repeat x00 7 ++ [x01; x01; x04])) 21 100)) (OpPush [(3, 4)]) false s1 /\
     contains (chain_bs 24) s1 3 = Ok true /\ contains (chain_bs 24) s1 1 = Ok true).
Proof.
  split; (split; [vm_compute; reflexivity|]).
  - eexists. split; [exists [(1, 2)]; split; vm_compute; reflexivity|vm_compute; reflexivity].
  - eexists. split; [exists [(1, 2); (3, 4)]; split; vm_compute; reflexivity|]. split; vm_compute; reflexivity.
Qed.
(** A history that fits: the answers of unlimited storage. *)
Example c76_enough_case : exists s, run (chain_bs 25) (chain_new 25) [OpPush [(1, 2)]; OpPush [(3, 4)]; OpTake 1; OpPush [(5, 6)]] = Ok (s, [(1, 2)]) /\
  contains (chain_bs 25) s 3 = Ok true /\ contains (chain_bs 25) s 5 = Ok true.
Proof. eexists. split; [vm_compute; reflexivity|]. split; vm_compute; reflexivity. Qed.
