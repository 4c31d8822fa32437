(** PCompressed.v -- property theorems: C39, C40, C48 (Compressed), and its part of C45 and C46. *)
From Coq Require Import ZArith Init.Byte Strings.Byte.
From Verif Require Import Base PermSolve Block Spec Cut CutProof BTree LawsProof Stream PStream IOVec IOVecProof ByteStreamProof Compressed CompressedProof.
Set Implicit Arguments.

Section PCompressed.
Variable L : Lz.
Context {K V : Type} {OK : Ord K} {OV : Ord V} {EK : OrdEq K}.
Variable C : VCodec (K * V).
Variable srt : Sorter (K * V) V snd.
Variable bs : BSearch K.
Notation B := (CompressedB VecStream L C srt bs).
(** [c_inv]: the stream is empty or holds a compressed, serialized vector that fits; [c_ct] is that vector. *)
Notation ct := (c_ct L C).
Definition serializable (l : list (K * V)) : Prop := Forall (fun x => c_esz C x <> None) l.
Definition inv (dup : bool) (s : compressed VecStream) : Prop := c_inv L C s /\ (dup = false -> NoDup (keys (ct s))).

Lemma rep_of s : c_inv L C s -> c_rep L C s (ct s).
Proof. intros (l & H). rewrite (c_rep_ct _ _ _ _ H). auto. Qed.
Lemma inv_of dup s' l' (m : list (K * V)) : c_rep L C s' l' -> (dup = false -> NoDup (keys (m ++ l'))) -> inv dup s'.
Proof.
  intros H Hn. split; [exists l'; auto|]. intros E. rewrite (c_rep_ct _ _ _ _ H). specialize (Hn E). rewrite keys_app in Hn.
  apply NoDup_app_inv in Hn. tauto.
Qed.
Lemma nodup_perm (l l' : list (K * V)) : Permutation l l' -> NoDup (keys l) -> NoDup (keys l').
Proof. intros P. apply NoDup_perm. apply keys_perm. auto. Qed.
Lemma new_inv dup cap : inv dup (c_new VecStream (s_new VecStream) cap).
Proof. apply (@inv_of dup _ [] []); [reflexivity|]. intros _. constructor. Qed.

Theorem C39_size_exact : forall s, c_inv L C s ->
  size B s = (match ct s with [] => 0 | _ => 8 + sum_sz (fun x => match c_esz C x with Some n => n | None => 0 end) (ct s) end) /\
  size B s <= capacity B s.
Proof.
  intros s H. apply rep_of in H. cbn [size capacity CompressedB]. rewrite (c_rep_size _ _ _ _ H). split; [reflexivity|]. apply (c_rep_cap _ _ _ _ H).
Qed.
Theorem C39_contains : forall s k, c_inv L C s -> contains B s k = Ok (has_key k (ct s)).
Proof. intros s k H. apply rep_of in H. apply (c_contains_ok _ _ _ _ k H). Qed.
Theorem C39_take : forall dup s k, inv dup s -> take_ok B (inv dup) ct s k.
Proof.
  intros dup s k [H Hn]. apply rep_of in H. destruct (c_take_ok _ _ _ _ k H) as (s' & l' & o & E & R & Hc & Hs & Ho).
  exists s', o. split; auto. pose proof (c_rep_ct _ _ _ _ R) as El. split.
  - destruct o as [[k' v]|].
    + destruct Ho as [-> P]. apply (@inv_of dup _ _ [(k, v)] R). intros Ed. eapply nodup_perm; [symmetry; exact P|auto].
    + destruct Ho as (_ & -> & _). apply (@inv_of dup _ _ [] R). auto.
  - split; auto. cbn [size CompressedB]. rewrite (c_rep_size _ _ _ _ R), (c_rep_size _ _ _ _ H). split; auto. rewrite El.
    destruct o as [[k' v]|]; auto. destruct Ho as (A & -> & _). auto.
Qed.
Theorem C39_pop : forall dup s n, inv dup s -> pop_ok B (inv dup) ct s n.
Proof.
  intros dup s n [H Hn]. apply rep_of in H. destruct (c_pop_ok _ _ _ _ n H) as (s' & l' & out & E & R & Hc & P & Hf & Hs & Ho).
  exists s', out. split; auto. split; [apply (@inv_of dup _ _ out R); intros Ed; eapply nodup_perm; [symmetry; exact P|auto]|]. split; auto.
  cbn [size CompressedB]. rewrite (c_rep_size _ _ _ _ R), (c_rep_size _ _ _ _ H), (c_rep_ct _ _ _ _ R). auto.
Qed.
(** C48: no kept pair is above an evicted one, in the order of (value, key). *)
Theorem C48_pop_evicts_greatest : forall s n s' out x y, c_inv L C s -> pop B s n = Ok (s', out) -> In x (ct s') -> In y out ->
  leb (snd x, fst x) (snd y, fst y) = true.
Proof.
  intros s n s' out x y H E Hx Hy. apply rep_of in H. destruct (c_pop_ok _ _ _ _ n H) as (s2 & l' & out2 & E2 & R & _ & _ & _ & _ & Ho).
  cbn [pop CompressedB] in E. rewrite E in E2. injection E2 as <- <-. rewrite (c_rep_ct _ _ _ _ R) in Hx. auto.
Qed.
Theorem C48_pop_evicts_greatest_values : forall s n s' out x y, c_inv L C s -> pop B s n = Ok (s', out) -> In x (ct s') -> In y out ->
  leb (snd x) (snd y) = true.
Proof.
  intros s n s' out x y H E Hx Hy. pose proof (C48_pop_evicts_greatest n x y H E Hx Hy) as G. cbn [leb Ord_prod] in G. unfold lex_leb in G.
  apply andb_true_iff in G. apply G.
Qed.
Theorem C39_push : forall dup s vs, inv dup s -> may_push B ct dup s vs -> push_ok B (inv dup) ct s vs.
Proof.
  intros dup s vs [H Hn] Hp. apply rep_of in H.
  destruct (forallb (fun x => match c_esz C x with Some _ => true | None => false end) vs) eqn:F.
  - assert (Fs : serializable vs).
    { apply Forall_forall. intros x Hx. rewrite forallb_forall in F. specialize (F x Hx). destruct (c_esz C x); congruence. }
    destruct (c_push_ok _ _ srt _ _ H Fs) as (s' & l' & out & E & R & Hc & P & _). exists s', out. split; auto.
    split; [apply (@inv_of dup _ _ out R); intros Ed; eapply nodup_perm; [symmetry; exact P|exact (Hp Ed)]|]. split; auto. rewrite (c_rep_ct _ _ _ _ R). auto.
  - assert (Fs : c_vsize C vs = None) by (unfold c_vsize; rewrite F; auto).
    exists s, vs. cbn [push CompressedB]. unfold c_push. destruct (c_rep_bytes _ _ _ _ H) as (b & E1 & E2 & E3). rewrite E1.
    assert (Ev : match b with [] => Some [] | _ => c_de C b end = Some (ct s)) by (destruct b; [congruence|auto]). rewrite Ev, Fs.
    split; auto. split; [split; [eexists; eauto|auto]|]. split; auto. apply Permutation_app_comm.
Qed.
(** What push keeps: if the new values fit, all of them, and of the old ones no kept one is above an evicted one;
    otherwise all the old ones come out and of the new ones no kept one is above one that is not. *)
Theorem C39_push_keeps : forall s vs s' out, c_inv L C s -> serializable vs -> push B s vs = Ok (s', out) ->
  (8 + sum_sz (c_esz0 C) vs <= capacity B s -> exists kept, Permutation (out ++ kept) (ct s) /\ Permutation (ct s') (kept ++ vs) /\
     (forall x y, In x kept -> In y out -> leb (snd x) (snd y) = true)) /\
  (capacity B s < 8 + sum_sz (c_esz0 C) vs -> exists left_out, Permutation out (ct s ++ left_out) /\ Permutation (left_out ++ ct s') vs /\
     (forall x y, In x (ct s') -> In y left_out -> leb (snd x) (snd y) = true)) /\
  (8 + sum_sz (c_esz0 C) vs + size B s <= capacity B s -> out = []).
Proof.
  intros s vs s' out H Fs E. apply rep_of in H. destruct (c_push_ok _ _ srt _ _ H Fs) as (s2 & l' & out2 & E2 & R & Hc & P & A1 & A2 & A3).
  cbn [push CompressedB] in E. rewrite E in E2. injection E2 as <- <-. cbn [capacity size CompressedB]. rewrite (c_rep_ct _ _ _ _ R).
  split; [intros Hx; apply A1; auto|]. split; auto. rewrite (c_rep_size _ _ _ _ H). auto.
Qed.
Theorem C39_flush : forall dup s, inv dup s -> flush_ok B (inv dup) ct true s.
Proof.
  intros dup s [H Hn]. apply rep_of in H. destruct (c_flush_ok _ _ _ _ H) as (s' & E & R & Hc). exists s', (ct s). split; auto.
  split; [apply (@inv_of dup _ _ [] R); intros _; constructor|]. split; auto. rewrite (c_rep_ct _ _ _ _ R). rewrite app_nil_r. auto.
Qed.

(** C40: with distinct stored keys, and any requested keys (duplicated, unsorted, absent). *)
Theorem C40_take_multiple_distinct_partial : forall s ks, inv false s -> take_multiple_ok B (inv false) ct s ks /\
  exists s' ks' out, take_multiple B s ks = Ok (s', ks', out) /\ (forall kv, In kv out <-> In kv (ct s) /\ In (fst kv) ks) /\
    Permutation ks (keys out ++ ks').
Proof.
  intros s ks [H Hn]. specialize (Hn eq_refl). apply rep_of in H.
  destruct (c_take_multiple_ok _ _ bs _ _ ks H Hn) as (s' & l' & ks' & out & rm & E & R & Hc & P & I & Pk & Pr). split.
  - exists s', ks', out. split; auto. split; [apply (@inv_of false _ _ out R); intros _; eapply nodup_perm; [symmetry; exact P|auto]|]. split; auto.
    cbn [size CompressedB]. rewrite (c_rep_size _ _ _ _ R), (c_rep_size _ _ _ _ H), (c_rep_ct _ _ _ _ R). rewrite <- (vec_size_perm _ P).
    split; [apply vec_size_le|]. split; auto. split.
    + intros k Hk. unfold keys in Hk. apply in_map_iff in Hk as (kv & <- & Hkv). apply I in Hkv. tauto.
    + split.
      * intros k Hk Hin. unfold keys in *. apply in_map_iff in Hin as (kv & <- & Hkv). apply List.in_map. apply I. auto.
      * exists rm. split; auto. intros k Hk. apply (Permutation_in _ Pr). auto.
  - exists s', ks', out. split; auto. split; auto. rewrite Pk, Pr. auto.
Qed.
(** Whatever is stored, if the call returns, it has taken out exactly the pairs with a requested key, all of them. *)
Theorem C40_take_multiple_contents : forall s ks s' ks' out, c_inv L C s -> take_multiple B s ks = Ok (s', ks', out) ->
  c_inv L C s' /\ Permutation (out ++ ct s') (ct s) /\
  (forall kv, In kv out <-> In kv (ct s) /\ In (fst kv) ks) /\ (forall kv, In kv (ct s') -> ~ In (fst kv) ks).
Proof.
  intros s ks s' ks' out H E. apply rep_of in H. destruct (c_take_multiple_cases _ _ bs _ _ ks H) as (l' & P & G).
  cbn [take_multiple CompressedB] in E. rewrite E in G. destruct (c_drop_keys _ _) as [k2|]; [|discriminate].
  destruct G as (s2 & E2 & R & _). injection E2 as <- <- ->. set (sk := sort_keys ks) in *.
  assert (Hs : sorted_by (fun x => x) sk) by apply stable_sort_sorted. assert (Ps : Permutation sk ks) by apply stable_sort_perm.
  split; [exists l'; auto|]. rewrite (c_rep_ct _ _ _ _ R). split; [rewrite P, <- Permutation_rev; apply filter_split|]. split.
  - intros kv. rewrite <- in_rev, filter_In, (wanted_in bs _ Hs). rewrite Ps. tauto.
  - intros kv Hin. apply (Permutation_in _ P) in Hin. apply filter_In in Hin as [_ Hw]. intros Hk.
    apply (Permutation_in _ (Permutation_sym Ps)) in Hk. apply (wanted_in bs kv Hs) in Hk. rewrite Hk in Hw. discriminate.
Qed.

(** C39 (with C40): the whole contract, for a caller who pushes distinct new keys. *)
Theorem C39_laws : Laws B (inv false) ct false true true.
Proof.
  constructor.
  - intros s [H _]. apply C39_size_exact. auto.
  - intros s [H _] E. rewrite (proj1 (C39_size_exact H)), E. auto.
  - intros s [_ H]. auto.
  - intros s k [H _]. apply C39_contains. auto.
  - intros s k H. apply C39_take. auto.
  - intros s ks H. apply C40_take_multiple_distinct_partial. auto.
  - intros s vs H Hp. apply C39_push; auto.
  - intros _ s n H. apply C39_pop. auto.
  - intros s H. apply C39_flush. auto.
Qed.
(** C39, any keys: every history of push, pop, take and flush conserves. *)
Theorem C39_any_history : forall cap h, Forall (fun o => match o with OpTakeMultiple _ => False | _ => True end) h ->
  exists s out, run B (c_new VecStream (s_new VecStream) cap) h = Ok (s, out) /\ inv true s /\ capacity B s = cap /\
    Permutation (out ++ ct s) (all_given h).
Proof.
  intros cap h.
  assert (G : forall h s, inv true s -> Forall (fun o : op K V => match o with OpTakeMultiple _ => False | _ => True end) h ->
    exists s' out, run B s h = Ok (s', out) /\ inv true s' /\ capacity B s' = capacity B s /\ Permutation (out ++ ct s') (ct s ++ all_given h)).
  { clear h. induction h as [|o h IH]; intros s Hi Hf; cbn [run].
    - exists s, []. cbn. rewrite app_nil_r. auto.
    - inversion Hf as [|? ? F1 F2]; subst.
      assert (S : exists s1 r1, step B s o = Ok (s1, r1) /\ inv true s1 /\ capacity B s1 = capacity B s /\ Permutation (r1 ++ ct s1) (ct s ++ given o)).
      { destruct o as [vs|n|k|ks|]; cbn [step given]; try tauto.
        - destruct (@C39_push true s vs Hi) as (s1 & r1 & A1 & A2 & A3 & A4); [intros A; discriminate A|]. exists s1, r1. auto.
        - destruct (C39_pop n Hi) as (s1 & r1 & A1 & A2 & A3 & A4 & _). exists s1, r1. rewrite app_nil_r. auto.
        - destruct (C39_take k Hi) as (s1 & r1 & A1 & A2 & A3 & _ & A4). rewrite A1. cbn [bind]. exists s1, (opt_list r1). rewrite app_nil_r.
          split; auto. split; auto. split; auto. destruct r1 as [[k' v]|]; cbn [opt_list app]; [destruct A4 as [-> A4]; auto|apply A4].
        - destruct (C39_flush Hi) as (s1 & r1 & A1 & A2 & A3 & A4 & _). exists s1, r1. rewrite app_nil_r. auto. }
      destruct S as (s1 & r1 & E1 & I1 & C1 & P1). rewrite E1. cbn [bind]. destruct (IH s1 I1 F2) as (s2 & r2 & E2 & I2 & C2 & P2).
      rewrite E2. cbn [bind]. exists s2, (r1 ++ r2). split; auto. split; auto. split; [congruence|].
      cbn [all_given flat_map]. fold (all_given h). rewrite <- app_assoc, P2. rewrite !app_assoc, P1. auto. }
  intros Hf. destruct (G h (c_new VecStream (s_new VecStream) cap) (new_inv true cap) Hf) as (s & out & E & I & Hc & P).
  exists s, out. split; auto. split; auto. split; auto. rewrite P.
  assert (R : c_rep L C (c_new VecStream (s_new VecStream) cap) []) by reflexivity. rewrite (c_rep_ct _ _ _ _ R). auto.
Qed.

(** get: a copy of a held value. *)
Theorem C05_compressed_get : forall s k, c_inv L C s ->
  match c_get L C s k with Some v => In (k, v) (ct s) | None => ~ In k (keys (ct s)) end.
Proof.
  intros s k H. apply rep_of in H. unfold c_get. rewrite (c_rep_read _ _ _ _ H). destruct (find _ (ct s)) as [[k' v]|] eqn:E; cbn.
  - apply find_some in E as [E1 E2]. cbn in E2. apply eqb_eq in E2. subst. auto.
  - intros Hin. unfold keys in Hin. apply in_map_iff in Hin as (x & <- & Hx). pose proof (find_none _ _ E x Hx) as G. cbn in G. rewrite eqb_refl in G. discriminate.
Qed.
(** C46 for Compressed: a write that keeps the container within its capacity is visible, isolated and accounted for
    (the size is always that of the contents, C39_size_exact); a write that does not panics when the guard is dropped. *)
Theorem C46_compressed_write : forall s k f, c_inv L C s ->
  (forall v rest, Permutation (ct s) ((k, v) :: rest) -> c_esz C (k, f v) <> None /\ 8 + sum_sz (c_esz0 C) ((k, f v) :: rest) <= c_cap s) ->
  exists s' o, c_get_mut L C s k f = Ok (s', o) /\ c_inv L C s' /\ c_cap s' = c_cap s /\
    match o with
    | Some v => exists rest, Permutation (ct s) ((k, v) :: rest) /\ Permutation (ct s') ((k, f v) :: rest)
    | None => ~ In k (keys (ct s)) /\ ct s' = ct s
    end.
Proof.
  intros s k f H Hf. apply rep_of in H. pose proof (c_get_mut_ok _ _ _ _ k f H) as G. destruct (find_index _ (ct s)) as [i|] eqn:E.
  - destruct G as (v & En & G & _). pose proof (remove_nth_perm _ _ En) as P.
    destruct (Hf v (remove_nth i (ct s))) as [Hs Hc]; [symmetry; auto|].
    assert (P2 : Permutation (replace_nth i (k, f v) (ct s)) ((k, f v) :: remove_nth i (ct s))).
    { clear - En. revert i En; induction (ct s) as [|a l IHl]; intros [|j] Hj; try discriminate; cbn in *; auto.
      rewrite perm_swap. constructor. auto. }
    destruct G as (s' & E1 & R & Hc'); auto.
    { rewrite (vec_size_perm _ P2). cbn [vec_size]. auto. }
    exists s', (Some v). split; auto. split; [eexists; eauto|]. split; auto. exists (remove_nth i (ct s)). split; [symmetry; auto|].
    rewrite (c_rep_ct _ _ _ _ R). auto.
  - destruct G as [G1 G2]. exists s, None. split; auto. split; [eexists; eauto|]. auto.
Qed.
Theorem C46_compressed_write_too_large_panics_refuted : forall s k f, c_inv L C s -> In k (keys (ct s)) ->
  (forall v rest, Permutation (ct s) ((k, v) :: rest) -> c_cap s < 8 + sum_sz (c_esz0 C) ((k, f v) :: rest)) ->
  c_get_mut L C s k f = Panic.
Proof.
  intros s k f H Hin Hf. apply rep_of in H. pose proof (c_get_mut_ok _ _ _ _ k f H) as G. destruct (find_index _ (ct s)) as [i|] eqn:E; [|tauto].
  destruct G as (v & En & _ & G). apply G. right. pose proof (remove_nth_perm _ _ En) as P.
  assert (P2 : Permutation (replace_nth i (k, f v) (ct s)) ((k, f v) :: remove_nth i (ct s))).
  { clear - En. revert i En; induction (ct s) as [|a l IHl]; intros [|j] Hj; try discriminate; cbn in *; auto.
    rewrite perm_swap. constructor. auto. }
  rewrite (vec_size_perm _ P2). cbn [vec_size]. apply Hf. symmetry. auto.
Qed.
(** C45 for Compressed: pop(0) takes one element out of a non-empty container. *)
Theorem C45_compressed_pop_zero_evicts_one_refuted : forall s, c_inv L C s -> ct s <> [] ->
  exists s' x, pop B s 0 = Ok (s', [x]) /\ Permutation (x :: ct s') (ct s).
Proof.
  intros s H Hne. apply rep_of in H. destruct (c_pop_ok _ _ _ _ 0 H) as (s' & l' & out & E & R & _ & P & _).
  assert (Ho : length out = 1).
  { unfold c_pop in E. rewrite (c_rep_read _ _ _ _ H) in E. destruct (ct s) as [|x0 l0]; [tauto|].
    set (v := stable_sort _ _) in E. assert (Lv : length v = S (length l0)) by (unfold v; rewrite (Permutation_length (stable_sort_perm _ (x0 :: l0))); auto).
    assert (Cut : exists c e, find_cut_at_size v (c_esz0 C) 0 = (length v - 1, c, e)).
    { unfold find_cut_at_size. pose proof (rev_length v) as Lr. destruct (rev v) as [|z r]; cbn [length] in Lr; [lia|].
      cbn [cut_loop]. change (0 + c_esz0 C z <? 0) with false. cbv iota. do 2 eexists. f_equal. f_equal. lia. }
    destruct Cut as (c & e & Ec). rewrite Ec in E. cbn [Nat.ltb Nat.leb] in E. replace (c <? 0) with false in E by (symmetry; apply Nat.ltb_ge; lia).
    destruct (c_write_or_panic L C s (firstn (length v - 1) v)); cbn [bind] in E; [|discriminate]. injection E as _ <-.
    rewrite skipn_length. lia. }
  destruct out as [|x [|y out]]; try discriminate. exists s', x. split; auto. rewrite (c_rep_ct _ _ _ _ R). auto.
Qed.
End PCompressed.

(** ** A file stream is opened for writing only: whatever its state, everything pushed comes back and is not held. *)
Theorem C39_file_stream_stores_nothing_refuted :
  forall (L : Lz) (K V : Type) (OK : Ord K) (OV : Ord V) (C : VCodec (K * V)) (srt : Sorter (K * V) V snd) (bs : BSearch K)
    (s : compressed FileStream) vs,
  push (CompressedB FileStream L C srt bs) s vs = Ok (s, vs) /\
  flush (CompressedB FileStream L C srt bs) s = Ok (s, []) /\
  forall k, contains (CompressedB FileStream L C srt bs) s k = Ok false.
Proof.
  intros. destruct s as [[v pos] h cap].
  assert (E : @c_read_bytes FileStream L (@mkC FileStream (v, pos) h cap) = None).
  { unfold c_read_bytes. destruct (s_seek FileStream _ _ (SeekStart 0)) as [[w' h'] r']; destruct r'; auto.
    destruct (snd (s_seek FileStream w' h' (SeekEnd 0))); auto. }
  cbn [push flush contains CompressedB]. unfold c_push, c_flush, c_contains, c_read. rewrite E. auto.
Qed.

(** ** A concrete codec: 8 zero bytes, then one byte for each key and value. *)
Definition duo (kv : nat * nat) : option (list byte) :=
  match Byte.of_nat (fst kv), Byte.of_nat (snd kv) with Some a, Some b => Some [a; b] | _, _ => None end.
Fixpoint duos (l : list (nat * nat)) : option (list byte) :=
  match l with
  | [] => Some []
  | kv :: l' => match duo kv, duos l' with Some a, Some b => Some (a ++ b) | _, _ => None end
  end.
Fixpoint unduos (l : list byte) : list (nat * nat) :=
  match l with a :: b :: l' => (Byte.to_nat a, Byte.to_nat b) :: unduos l' | _ => [] end.
Lemma unduos_duos : forall l b, duos l = Some b -> unduos b = l.
Proof.
  induction l as [|[k v] l IH]; intros b; cbn [duos]; [intros [= <-]; auto|]. unfold duo. cbn [fst snd].
  destruct (Byte.of_nat k) as [x|] eqn:Ek; [|discriminate]. destruct (Byte.of_nat v) as [y|] eqn:Ev; [|discriminate].
  destruct (duos l) as [b'|]; [|discriminate]. intros [= <-]. cbn [app unduos]. rewrite (IH _ eq_refl).
  rewrite (Byte.to_of_nat _ Ek), (Byte.to_of_nat _ Ev). auto.
Qed.
Definition duo_codec : VCodec (nat * nat).
Proof.
  refine {| c_esz := fun kv => option_map (@length byte) (duo kv);
            c_ser := fun l => option_map (app (repeat x00 8)) (duos l);
            c_de := fun b => Some (unduos (skipn 8 b)) |}.
  - intros l b H. destruct (duos l) as [d|] eqn:E; [|discriminate]. injection H as <-. cbn [skipn]. f_equal. apply unduos_duos. auto.
  - intros l b H. destruct (duos l) as [d|] eqn:E; [|discriminate]. cbn [option_map] in H. injection H as <-.
    apply (f_equal (Nat.add 8)). change (length d = sum_sz (fun x => match option_map (@length byte) (duo x) with Some n => n | None => 0 end) l). revert d E. induction l as [|x l IH]; intros d E; cbn [duos] in E.
    + injection E as <-. auto.
    + rewrite sum_sz_cons. destruct (duo x) as [a|]; [|discriminate]. destruct (duos l) as [d'|]; [|discriminate]. injection E as <-.
      cbn [option_map]. rewrite app_length, (IH _ eq_refl). auto.
  - intros l. split.
    + intros (b & H). destruct (duos l) as [d|] eqn:E; [|discriminate]. clear H. revert d E. induction l as [|x l IH]; intros d E; constructor; cbn [duos] in E.
      * destruct (duo x); [discriminate|discriminate].
      * destruct (duo x); [|discriminate]. destruct (duos l); [|discriminate]. eapply IH; eauto.
    + intros F. assert (G : exists d, duos l = Some d).
      { induction F as [|x l Hx F (d & IH)]; cbn [duos]; [eauto|]. rewrite IH. destruct (duo x); [eauto|cbn in Hx; congruence]. }
      destruct G as (d & ->). cbn. eauto.
Defined.
(** The codec of a type in bijection with another. *)
Definition codec_via {A B} (C : VCodec A) (to : B -> A) (from : A -> B) (H : forall x, from (to x) = x) : VCodec B.
Proof.
  refine {| c_esz := fun x => c_esz C (to x); c_ser := fun l => c_ser C (map to l);
            c_de := fun b => option_map (map from) (c_de C b) |}.
  - intros l b E. rewrite (c_round C _ E). cbn [option_map]. f_equal. rewrite map_map. rewrite <- (map_id l) at 2. apply map_ext. auto.
  - intros l b E. rewrite (c_len C _ E). f_equal. unfold sum_sz. rewrite map_map. auto.
  - intros l. rewrite (c_some C). rewrite Forall_map. reflexivity.
Defined.
(** The identity as a compression. *)
Definition no_lz : Lz := {| lz := fun b => b; unlz := fun b => Some b; unlz_lz := fun _ => eq_refl; unlz_nil := eq_refl |}.

Definition demo_c := CompressedB VecStream no_lz duo_codec (std_sorter snd) linear_bs.
(** The state holding [b] after the 8 bytes of the length. *)
Definition cstate (b : list byte) (cap : nat) : compressed VecStream := @mkC VecStream (repeat x00 8 ++ b) (8 + length b) cap.
Definition cempty (cap : nat) : compressed VecStream := c_new VecStream (s_new VecStream) cap.

(** A non-trivial case: the 14 bytes hold three pairs of 2 bytes; 4 evicts the two greatest values. *)
Example c39_case : run demo_c (cempty 14) [OpPush [(1, 30); (2, 10); (3, 20)]; OpTake 2; OpPush [(4, 5)]] =
  Ok (cstate [x04; x05] 14, [(2, 10); (3, 20); (1, 30)]) /\ c_ct no_lz duo_codec (cstate [x04; x05] 14) = [(4, 5)] /\
  c_inv no_lz duo_codec (cstate [x04; x05] 14).
Proof.
  split; [vm_compute; reflexivity|]. split; [vm_compute; reflexivity|]. exists [(4, 5)], (repeat x00 8 ++ [x04; x05]).
  split; [vm_compute; reflexivity|]. split; [reflexivity|]. cbn [length app repeat c_cap cstate]. lia.
Qed.
(** The 8 bytes of the length are counted twice: a pair that fits (8 + 2 + 2 bytes in 14) evicts another. *)
Theorem C39_push_evicts_needlessly_refuted : exists s s',
  push demo_c (cempty 14) [(1, 30)] = Ok (s, []) /\ 8 + sum_sz (c_esz0 duo_codec) (c_ct no_lz duo_codec s ++ [(2, 10)]) <= capacity demo_c s /\
  push demo_c s [(2, 10)] = Ok (s', [(1, 30)]).
Proof.
  exists (cstate [x01; x1e] 14), (cstate [x02; x0a] 14). split; [vm_compute; reflexivity|]. split; [apply Nat.leb_le; vm_compute; reflexivity|].
  vm_compute; reflexivity.
Qed.
(** Pushing nothing evicts when fewer than 8 bytes are free. *)
Theorem C39_empty_push_evicts_refuted : exists s s',
  push demo_c (cempty 14) [(1, 30)] = Ok (s, []) /\ push demo_c s [] = Ok (s', [(1, 30)]).
Proof. exists (cstate [x01; x1e] 14), (@mkC VecStream [] 0 14). split; vm_compute; reflexivity. Qed.
(** C40: with a key stored twice (C47 of push), take_multiple panics, or drops a key it has not found. *)
Theorem C40_duplicate_stored_keys_panic_refuted : exists s,
  push demo_c (cempty 40) [(1, 5); (1, 6)] = Ok (s, []) /\ take_multiple demo_c s [1] = Panic.
Proof. exists (cstate [x01; x05; x01; x06] 40). split; vm_compute; reflexivity. Qed.
Theorem C40_duplicate_stored_keys_wrong_key_refuted : exists s s',
  push demo_c (cempty 40) [(1, 5); (1, 6)] = Ok (s, []) /\
  take_multiple demo_c s [1; 7] = Ok (s', [], [(1, 6); (1, 5)]) /\ contains demo_c s 7 = Ok false.
Proof.
  exists (cstate [x01; x05; x01; x06] 40), (@mkC VecStream [] 0 40). split; [vm_compute; reflexivity|]. split; vm_compute; reflexivity.
Qed.
Example c40_case : take_multiple demo_c (cstate [x01; x05; x02; x06; x03; x07] 40) [3; 9; 1; 3] =
  Ok (cstate [x02; x06] 40, [3; 9], [(3, 7); (1, 5)]).
Proof. vm_compute; reflexivity. Qed.
Example c48_case : pop demo_c (cstate [x01; x05; x02; x09; x03; x05] 40) 3 = Ok (cstate [x01; x05] 40, [(3, 5); (2, 9)]).
Proof. vm_compute; reflexivity. Qed.
Example c46_compressed_case :
  c_get_mut no_lz duo_codec (cstate [x01; x05; x02; x09] 40) 2 (fun v => v + 1) = Ok (cstate [x01; x05; x02; x0a] 40, Some 9) /\
  c_get_mut no_lz duo_codec (cstate [x01; x05; x02; x09] 40) 2 (fun v => v + 255) = Panic.
Proof. split; vm_compute; reflexivity. Qed.

Print Assumptions C39_laws.
Print Assumptions C39_any_history.
Print Assumptions C39_push_keeps.
Print Assumptions C40_take_multiple_contents.
Print Assumptions C48_pop_evicts_greatest.
Print Assumptions C46_compressed_write.
Print Assumptions C39_file_stream_stores_nothing_refuted.
