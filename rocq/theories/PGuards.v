(** PGuards.v -- property theorems about guards dropped after other calls: C50. *)
From Coq Require Import Init.Byte.
From Verif Require Import Base PermSolve Block Spec LawsProof Cut Array ArrayProof BTree BTreeProof PArray PBTree
  Get Stream PStream IOVec IOVecProof ByteStream ByteStreamProof PByteStream Compressed CompressedProof PCompressed Inclusive Guards.
Set Implicit Arguments.

(** ** Specification *)
Section Spec.
Context {K V : Type} {B : Block K V} (tg : TGetter B).
(** get (or get_mut) of [k], writing [f] through the guard, then the calls [h], the guard being dropped at once ... *)
Definition prompt (s : St B) (k : K) (f : V -> V) (h : list (op K V)) : res (St B * option V * list (K * V)) :=
  let* (s1, o) := t_open tg s k f in
  match o with
  | None => let* (s2, out) := run B s1 h in Ok (s2, None, out)
  | Some (v, g) => let* s2 := t_close tg s1 g in let* (s3, out) := run B s2 h in Ok (s3, Some v, out)
  end.
(** ... or after them. *)
Definition late (s : St B) (k : K) (f : V -> V) (h : list (op K V)) : res (St B * option V * list (K * V)) :=
  let* (s1, o) := t_open tg s k f in
  match o with
  | None => let* (s2, out) := run B s1 h in Ok (s2, None, out)
  | Some (v, g) => let* (s2, out) := run B s1 h in let* s3 := t_close tg s2 g in Ok (s3, Some v, out)
  end.
End Spec.

(** Dropped at once, the guards are the get and get_mut of Get.v, Compressed.v and ByteStream.v. *)
Definition at_once {K V} {B : Block K V} (tg : TGetter B) (s : St B) (k : K) (f : V -> V) : res (St B * option V) :=
  let* (s2, o, _) := prompt tg s k f [] in Ok (s2, o).
Section Agree.
Context {K V : Type} {OK : Ord K} {EK : OrdEq K} {OV : Ord V}.
Lemma at_once_array srt bs (s : array K V) k f : at_once (array_tget srt bs) s k f = a_get s k f.
Proof.
  unfold at_once, prompt. cbn [t_open array_tget]. unfold array_open. destruct (a_get s k f) as [[s' [v|]]|]; reflexivity.
Qed.
Lemma at_once_btree (s : btree K V) k f : at_once btree_tget s k f = b_get s k f.
Proof.
  unfold at_once, prompt, b_get. cbn [t_open t_close btree_tget]. unfold btree_open, btree_close.
  destruct (b_take s k) as [[s' [[k' v]|]]|]; cbn [bind run]; auto. destruct (b_push s' [(k', f v)]) as [[s2 [|]]|]; reflexivity.
Qed.
Lemma at_once_compressed S L (C : VCodec (K * V)) srt bs (s : compressed S) k f : at_once (compressed_tget S L C srt bs) s k f = c_get_mut L C s k f.
Proof.
  unfold at_once, prompt, c_get_mut. cbn [t_open t_close compressed_tget]. unfold c_open, c_close.
  destruct (c_read L C s) as [v|]; cbn [bind run]; auto. destruct (find_index _ v) as [i|]; cbn [bind run]; auto.
  destruct (nth_error v i) as [[k' v']|]; cbn [unwrap bind run fst snd]; auto. cbn [cg_h cg_cap cg_elements].
  destruct (c_write_or_panic _ _ _ _) as [s2|]; reflexivity.
Qed.
Lemma iter_mut_open_find S (ser : K * V -> option (list byte)) de (p : K * V -> bool) (f : V -> V) chunk : forall fuel (m : itermut S),
  iter_mut_find ser de p (fun kv => (fst kv, f (snd kv))) chunk fuel m =
  let* o := iter_mut_open de p chunk fuel m in
  match o with
  | None => Ok None
  | Some (w, x, pos, cur) => let* w' := write_back S ser w cur pos (fst x, f (snd x)) in Ok (Some (w', x))
  end.
Proof.
  induction fuel as [|fuel IH]; intros m; cbn [iter_mut_find iter_mut_open]; auto.
  destruct (iter_mut_next de chunk m) as [[m' [[[x pos] cur]|]]|]; cbn [bind]; auto. destruct (p x); cbn [bind]; auto.
Qed.
Lemma slots_open_mut S (ser : K * V -> option (list byte)) de (k : K) (f : V -> V) : forall (slots : list (option (iovec S))) i,
  match bs_slots_open de k f i slots with
  | Panic => bs_slots_mut ser de k f slots = Panic
  | Ok (sl, None) => bs_slots_mut ser de k f slots = Ok (sl, None)
  | Ok (sl, Some (v, g)) => exists j iv, bg_slot g = i + j /\ nth_error sl j = Some (Some iv) /\
      bs_slots_mut ser de k f slots =
      let* w := write_back S ser (iv_w iv) (bg_h g) (bg_pos g) (bg_item g) in
      Ok (replace_nth j (Some (mkIV S w (iv_h iv) (iv_chunk iv))) sl, Some v)
  end.
Proof.
  induction slots as [|[iv|] slots IH]; intros i; cbn [bs_slots_open bs_slots_mut]; auto.
  - unfold iv_open, iv_find_mut. destruct (s_seek S (iv_w iv) (s_clone S (iv_h iv)) (SeekStart 0)) as [[w h] [n|]]; cbn [bind]; auto.
    rewrite iter_mut_open_find. destruct (iter_mut_open _ _ _ _ _) as [[[[[w' x] pos] cur]|]|]; cbn [bind option_map]; auto.
    + exists 0, (mkIV S w' (iv_h iv) (iv_chunk iv)). cbn [bg_slot bg_h bg_pos bg_item nth_error iv_w iv_h iv_chunk replace_nth].
      split; [lia|]. split; auto. destruct (write_back _ _ _ _ _ _); cbn [bind option_map fst snd]; auto.
    + specialize (IH (Datatypes.S i)). destruct (bs_slots_open de k f (Datatypes.S i) slots) as [[sl [[v g]|]]|]; cbn [bind]; [|rewrite IH; auto..].
      destruct IH as (j & iv' & H1 & H2 & H3). exists (Datatypes.S j), iv'. split; [lia|]. split; auto. rewrite H3.
      destruct (write_back _ _ _ _ _ _); reflexivity.
  - specialize (IH (Datatypes.S i)). destruct (bs_slots_open de k f (Datatypes.S i) slots) as [[sl [[v g]|]]|]; cbn [bind]; [|rewrite IH; auto..].
    destruct IH as (j & iv' & H1 & H2 & H3). exists (Datatypes.S j), iv'. split; [lia|]. split; auto. rewrite H3.
    destruct (write_back _ _ _ _ _ _); reflexivity.
Qed.
Lemma at_once_bytestream S (ser : K * V -> option (list byte)) de bs (s : bstream S) (k : K) (f : V -> V) :
  at_once (bytestream_tget S ser de bs) s k f = bs_get_mut ser de s k f.
Proof.
  unfold at_once, prompt, bs_get_mut. cbn [t_open t_close bytestream_tget]. unfold bs_open, bs_close.
  pose proof (slots_open_mut ser de k f (st_slots s) 0) as H.
  destruct (bs_slots_open de k f 0 (st_slots s)) as [[sl [[v g]|]]|]; cbn [bind run]; [|rewrite H; reflexivity..].
  destruct H as (j & iv & H1 & H2 & ->). cbn [Nat.add] in H1. subst j. cbn [st_slots]. rewrite H2.
  destruct (write_back _ _ _ _ _ _); reflexivity.
Qed.
End Agree.

(** ** Array: the moment of the drop does not matter *)
Theorem C50_array_late_is_prompt : forall K V (OK : Ord K) (OV : Ord V) srt bs (s : array K V) k f h,
  late (array_tget srt bs) s k f h = prompt (array_tget srt bs) s k f h.
Proof.
  intros. unfold late, prompt. cbn [t_open t_close array_tget]. destruct (array_open s k f) as [[s1 [[v g]|]]|]; cbn [bind]; auto.
Qed.

(** ** BTree: the pair is out of the container until the drop pushes it back *)
Section BTree.
Context {K V : Type} {OK : Ord K} {EK : OrdEq K} {OV : Ord V}.
Notation B := (@BTreeB K V OK OV).
Notation tg := (@btree_tget K V OK OV).

Lemma btree_close_ok E (s : btree K V) k v : b_inv E s -> (forall kv, 0 < E kv) ->
  (~ In k (keys (b_ct s)) -> E (k, v) + b_total s <= b_cap s ->
     exists s', btree_close s (k, v) = Ok s' /\ b_inv E s' /\ b_cap s' = b_cap s /\ Permutation (b_ct s') ((k, v) :: b_ct s)) /\
  (In k (keys (b_ct s)) \/ b_cap s < E (k, v) + b_total s -> btree_close s (k, v) = Panic).
Proof.
  intros Hi Hp. pose proof Hi as (I1 & I2 & I3 & I4). unfold btree_close.
  destruct (@b_push_spec _ _ _ _ _ E s [(k, v)] Hi) as (s2 & out & Q1 & Q2 & Q3 & Q4 & _).
  { repeat constructor. auto. }
  split.
  - intros Hn Hc. assert (Ho : out = []).
    { revert Q1. unfold b_push. rewrite I1.
      replace (sum_sz E [(k, v)]) with (E (k, v)) by (rewrite sum_sz_cons; unfold sum_sz; cbn; lia).
      destruct (b_cap s <=? E (k, v)) eqn:L1.
      - apply Nat.leb_le in L1. replace (b_cap s <? E (k, v)) with false by (symmetry; apply Nat.ltb_ge; lia).
        assert (Z : b_ct s = []).
        { destruct (b_ct s) as [|x l] eqn:Ex; auto. rewrite sum_sz_cons in I3. specialize (Hp x). lia. }
        destruct (b_flush_spec I1 I2) as (s3 & F1 & _). rewrite F1. cbn [bind]. rewrite Z. intros Hq; inversion Hq; auto.
      - apply Nat.leb_gt in L1. cbn [keys map fst]. unfold default_take_multiple. cbn [take_each].
        destruct (b_take_spec k Hi) as (s4 & o & T1 & T2 & T3 & T4 & T5). rewrite T1. cbn [bind].
        destruct o as [[k' v']|].
        { destruct T5 as [-> P5]. exfalso. apply Hn. apply (in_keys_perm k P5). left; auto. }
        destruct T5 as [_ ->]. cbn [bind]. unfold sub_chk. rewrite (proj2 (Nat.leb_le _ _) I4). cbn [bind].
        replace (b_cap s - b_total s <? E (k, v)) with false by (symmetry; apply Nat.ltb_ge; lia).
        cbn [bind]. intros Hq. inversion Hq; auto. }
    subst out. rewrite Q1. cbn [bind]. exists s2. split; auto. split; auto. split; auto. cbn [app] in Q4. rewrite Q4. symmetry. apply Permutation_cons_append.
  - intros Hbad. rewrite Q1. cbn [bind]. destruct out as [|x out]; auto. exfalso. cbn [app] in Q4.
    pose proof Q2 as (_ & J2 & J3 & J4). destruct Hbad as [Hk|Hc].
    + assert (N : NoDup (keys (b_ct s2))) by (unfold b_ct; rewrite keys_m2c; apply J2).
      apply (NoDup_perm (keys_perm Q4)) in N. rewrite keys_app in N. apply NoDup_app_inv in N as (_ & _ & N). apply (N k); auto. left. auto.
    + rewrite (sum_sz_perm E Q4), sum_sz_app, <- I3, sum_sz_cons in J3. lia.
Qed.

(** While the guard lives, the pair is neither held nor counted. *)
Theorem C50_btree_absent_while_alive_refuted : forall esz (s : btree K V) k f s1 v g, btree_state esz s ->
  t_open tg s k f = Ok (s1, Some (v, g)) ->
  Permutation (b_ct s) ((k, v) :: b_ct s1) /\ contains B s1 k = Ok false /\ size B s = esz (k, v) + size B s1.
Proof.
  intros esz s k f s1 v g Hs. apply btree_state_inv in Hs. cbn [t_open btree_tget]. unfold btree_open.
  destruct (b_take_spec k Hs) as (s' & o & T1 & T2 & T3 & T4 & T5). rewrite T1. cbn [bind].
  destruct o as [[k' v']|]; [|discriminate]. intros [= <- <- _]. destruct T5 as [-> P].
  split; [symmetry; auto|]. pose proof Hs as (I1 & I2 & I3 & I4). destruct T2 as (J1 & J2 & J3 & J4). split.
  - cbn. unfold b_contains. f_equal. apply has_key_not_in. rewrite <- keys_m2c. change (map m2c (b_map s')) with (b_ct s').
    intros Hin. assert (N : NoDup (keys (b_ct s))) by (unfold b_ct; rewrite keys_m2c; apply I2).
    apply (NoDup_perm (keys_perm (Permutation_sym P))) in N. cbn in N. inversion N; auto.
  - cbn. rewrite I3, J3, <- (sum_sz_perm esz P), sum_sz_cons. auto.
Qed.

(** Whatever is done in between, the drop puts the pair back if its key is not held and it fits, and panics
    otherwise. *)
Theorem C50_btree_late : forall esz (s : btree K V) k f s1 v g h, btree_state esz s -> (forall kv, 0 < esz kv) ->
  t_open tg s k f = Ok (s1, Some (v, g)) -> distinct_pushes h ->
  exists s2 out, run B s1 h = Ok (s2, out) /\ Permutation (all_given h ++ b_ct s1) (b_ct s2 ++ out) /\
    (~ In k (keys (b_ct s2)) -> esz (k, f v) + size B s2 <= capacity B s ->
       exists s3, late tg s k f h = Ok (s3, Some v, out) /\ Permutation (b_ct s3) ((k, f v) :: b_ct s2)) /\
    (In k (keys (b_ct s2)) \/ capacity B s < esz (k, f v) + size B s2 -> late tg s k f h = Panic).
Proof.
  intros esz s k f s1 v g h Hs Hp Ho Hd. apply btree_state_inv in Hs. unfold late. rewrite Ho. cbn [bind].
  revert Ho. cbn [t_open btree_tget]. unfold btree_open.
  destruct (b_take_spec k Hs) as (s' & o & T1 & T2 & T3 & T4 & T5). rewrite T1. cbn [bind].
  destruct o as [[k' v']|]; [|discriminate]. intros [= <- <- <-]. destruct T5 as [-> P].
  destruct (btree_run T2 Hd) as (s2 & out & R1 & R2 & R3 & R4). exists s2, out. split; auto.
  split; [rewrite (Permutation_app_comm (b_ct s2)), R4; apply Permutation_app_comm|].
  destruct (@btree_close_ok esz s2 k (f v') R2 Hp) as [C1 C2]. rewrite R1. cbn [bind t_close btree_tget capacity size BTreeB].
  split.
  - intros Hn Hc. destruct C1 as (s3 & D1 & D2 & D3 & D4); auto; [congruence|]. exists s3. rewrite D1. auto.
  - intros Hbad. rewrite C2; auto. destruct Hbad; [auto|right; congruence].
Qed.

(** In particular a guard dropped late is safe when nothing was pushed in between, and the value kept its size. *)
Theorem C50_btree_late_without_push : forall esz (s : btree K V) k f s1 v g h, btree_state esz s -> (forall kv, 0 < esz kv) ->
  t_open tg s k f = Ok (s1, Some (v, g)) -> all_given h = [] -> esz (k, f v) = esz (k, v) ->
  exists s3 out rest, late tg s k f h = Ok (s3, Some v, out) /\
    Permutation (b_ct s) ((k, v) :: rest) /\ Permutation (b_ct s3 ++ out) ((k, f v) :: rest).
Proof.
  intros esz s k f s1 v g h Hs Hp Ho Hg Hf.
  destruct (C50_btree_absent_while_alive_refuted k f Hs Ho) as (A1 & A2 & A3).
  assert (Hd : distinct_pushes h).
  { unfold distinct_pushes. clear - Hg. induction h as [|o h IH]; constructor.
    - destruct o; auto. cbn in Hg. apply app_eq_nil in Hg as [-> _]. constructor.
    - apply IH. cbn in Hg. apply app_eq_nil in Hg. tauto. }
  destruct (C50_btree_late k f Hs Hp Ho Hd) as (s2 & out & R & P & Y & _). rewrite Hg in P. cbn [app] in P.
  destruct Y as (s3 & Y1 & Y2).
  - intros Hin. cbn in A2. injection A2 as A2. apply has_key_not_in in A2. apply A2. rewrite <- keys_m2c.
    change (map m2c (b_map s1)) with (b_ct s1). apply (in_keys_perm k (Permutation_sym P)). rewrite keys_app. apply in_or_app. auto.
  - apply btree_state_inv in Hs as Hi. pose proof (sum_sz_perm esz P) as Z. rewrite sum_sz_app in Z.
    revert Ho. cbn [t_open btree_tget]. unfold btree_open. destruct (b_take_spec k Hi) as (s' & o & T1 & T2 & T3 & T4 & T5). rewrite T1. cbn [bind].
    destruct o as [[k' v']|]; [|discriminate]. intros [= <- _ _].
    destruct (btree_run T2 Hd) as (s2' & out' & R1 & R2 & R3 & R4). rewrite R1 in R. injection R as <- _.
    destruct R2 as (_ & _ & R2 & _). destruct T2 as (_ & _ & T2 & _). destruct Hi as (_ & _ & _ & Hi). cbn [size capacity BTreeB] in *. rewrite R2. rewrite T2 in A3. rewrite Hf. lia.
  - exists s3, out, (b_ct s1). split; auto. split; auto. rewrite Y2. cbn [app]. rewrite <- P. auto.
Qed.
End BTree.

(** ** Compressed: the drop writes back the elements as they were at get_mut *)
Section Compressed.
Variable L : Lz.
Context {K V : Type} {OK : Ord K} {EK : OrdEq K} {OV : Ord V}.
Variable C : VCodec (K * V).
Variable srt : Sorter (K * V) V snd.
Variable bs : BSearch K.
Notation B := (CompressedB VecStream L C srt bs).
Notation tg := (compressed_tget VecStream L C srt bs).
Notation ct := (c_ct L C).

(** Whatever the calls made in between, the container ends up with what it held at get_mut, and the write. *)
Theorem C50_compressed_late : forall (s : compressed VecStream) k f s1 v g, c_inv L C s ->
  t_open tg s k f = Ok (s1, Some (v, g)) ->
  (forall rest, Permutation (ct s) ((k, v) :: rest) -> c_esz C (k, f v) <> None /\ 8 + sum_sz (c_esz0 C) ((k, f v) :: rest) <= c_cap s) ->
  exists rest, Permutation (ct s) ((k, v) :: rest) /\
    forall h s2 out, run B s1 h = Ok (s2, out) ->
      exists s3, late tg s k f h = Ok (s3, Some v, out) /\ Permutation (ct s3) ((k, f v) :: rest).
Proof.
  intros s k f s1 v g Hi Ho Hf. apply rep_of in Hi as R. unfold late. rewrite Ho. cbn [bind]. revert Ho.
  cbn [t_open compressed_tget]. unfold c_open. rewrite (c_rep_read _ _ _ _ R).
  destruct (find_index _ (ct s)) as [i|] eqn:E; [|discriminate]. apply find_index_some in E as ([k' v'] & E1 & E2 & _).
  cbn [fst] in E2. apply eqb_eq in E2. subst k'. rewrite E1. cbn [unwrap bind fst snd]. intros [= <- <- <-].
  pose proof (remove_nth_perm _ _ E1) as P. exists (remove_nth i (ct s)). split; [symmetry; auto|].
  destruct (Hf (remove_nth i (ct s))) as [Hs Hc]; [symmetry; auto|].
  assert (P2 : Permutation (replace_nth i (k, f v') (ct s)) ((k, f v') :: remove_nth i (ct s))).
  { clear - E1. revert i E1; induction (ct s) as [|a l IHl]; intros [|j] Hj; try discriminate; cbn in *; auto.
    rewrite perm_swap. constructor. auto. }
  intros h s2 out Er. rewrite Er. cbn [bind t_close compressed_tget]. unfold c_close. cbn [cg_h cg_cap cg_elements].
  match goal with |- context [c_write_or_panic L C ?x ?l] => change l with (replace_nth i (k, f v') (ct s)); destruct (@c_write_ok L K V C x (replace_nth i (k, f v') (ct s))) as (s3 & W1 & W2 & W3) end.
  - apply replace_nth_Forall; auto. eapply c_rep_some; eauto.
  - cbn [c_cap]. rewrite (vec_size_perm C P2). cbn [vec_size]. auto.
  - rewrite W1. cbn [bind]. eexists. split; [reflexivity|].
    change (ct (@mkC VecStream (c_w s3) (c_h s2) (c_cap s2))) with (ct s3). rewrite (c_rep_ct _ _ _ _ W2). auto.
Qed.
(** So what is pushed in between is lost, and what is taken comes back. *)
Theorem C50_compressed_push_lost_refuted : forall (s : compressed VecStream) k f s1 v g x s2, c_inv L C s ->
  t_open tg s k f = Ok (s1, Some (v, g)) ->
  (forall rest, Permutation (ct s) ((k, v) :: rest) -> c_esz C (k, f v) <> None /\ 8 + sum_sz (c_esz0 C) ((k, f v) :: rest) <= c_cap s) ->
  ~ In (fst x) (keys (ct s)) -> push B s1 [x] = Ok (s2, []) ->
  exists s3, late tg s k f [OpPush [x]] = Ok (s3, Some v, []) /\ ~ In x (ct s3).
Proof.
  intros s k f s1 v g x s2 Hi Ho Hf Hx Hp. destruct (C50_compressed_late f Hi Ho Hf) as (rest & P & H).
  destruct (H [OpPush [x]] s2 []) as (s3 & E & P3).
  { cbn [run step]. rewrite Hp. reflexivity. }
  exists s3. split; auto. intros Hin. apply (Permutation_in _ P3) in Hin. apply Hx. apply (in_keys_perm _ (Permutation_sym P)).
  destruct Hin as [<-|Hin]; [left; auto|right]. apply List.in_map. auto.
Qed.
Theorem C50_compressed_taken_comes_back_refuted : forall (s : compressed VecStream) k f s1 v g x s2, c_inv L C s ->
  t_open tg s k f = Ok (s1, Some (v, g)) ->
  (forall rest, Permutation (ct s) ((k, v) :: rest) -> c_esz C (k, f v) <> None /\ 8 + sum_sz (c_esz0 C) ((k, f v) :: rest) <= c_cap s) ->
  In x (ct s) -> fst x <> k -> take B s1 (fst x) = Ok (s2, Some x) ->
  exists s3, late tg s k f [OpTake (fst x)] = Ok (s3, Some v, [x]) /\ In x (ct s3).
Proof.
  intros s k f s1 v g x s2 Hi Ho Hf Hx Hk Ht. destruct (C50_compressed_late f Hi Ho Hf) as (rest & P & H).
  destruct (H [OpTake (fst x)] s2 [x]) as (s3 & E & P3).
  { cbn [run step]. rewrite Ht. reflexivity. }
  exists s3. split; auto. apply (Permutation_in _ P) in Hx. apply (Permutation_in _ (Permutation_sym P3)).
  destruct Hx as [<-|Hx]; [cbn in Hk; congruence|right; auto].
Qed.
End Compressed.

(** ** ByteStream: the drop writes at the old position *)
(** The element is taken, another one takes its place; the drop overwrites it. *)
Theorem C50_bytestream_overwrites_refuted :
  push demo_bs (bs_new VecStream 100) [(1, 0); (2, 0)] = Ok (demo_two, []) /\
  match late (bytestream_tget VecStream pair_ser pair_de linear_bs) demo_two 2 (fun v => v) [OpTake 2; OpPush [(3, 0)]] with
  | Ok (s3, o, out) => o = Some 0 /\ out = [(2, 0)] /\ contains demo_bs s3 3 = Ok false /\ contains demo_bs s3 2 = Ok true
  | Panic => False
  end.
Proof. split; [vm_compute; reflexivity|]. vm_compute. auto. Qed.
(** The element is taken; the drop stores it again. *)
Theorem C50_bytestream_taken_comes_back_refuted :
  match late (bytestream_tget VecStream pair_ser pair_de linear_bs) demo_two 2 (fun v => v) [OpTake 2] with
  | Ok (s3, o, out) => o = Some 0 /\ out = [(2, 0)] /\ contains demo_bs s3 2 = Ok true
  | Panic => False
  end.
Proof. vm_compute. auto. Qed.

(** ** Concrete cases *)
(** A BTree of capacity 2: with room, the drop puts the pair back; a push that fills the container, or of the
    same key, makes it panic.  Dropped at once, the same calls are all right. *)
Definition bt2 := run BTreeB (btree_new 2 (fun _ : nat * nat => 1)) [OpPush [(1, 10); (2, 20)]].
Theorem C50_btree_panics_refuted : exists s out, bt2 = Ok (s, out) /\
  (forall o, In o [OpPush [(3, 30)]; OpPush [(1, 5)]] ->
     late btree_tget s 1 (fun v => v) [o] = Panic /\
     exists s3 out3, prompt btree_tget s 1 (fun v => v) [o] = Ok (s3, Some 10, out3)).
Proof.
  eexists _, _. split; [vm_compute; reflexivity|]. intros o [<-|[<-|[]]]; (split; [vm_compute; reflexivity|]); eexists _, _; vm_compute; reflexivity.
Qed.
Example btree_late_case : exists s out s3, bt2 = Ok (s, out) /\
  late btree_tget s 1 (fun v => v + 1) [OpTake 2; OpPush [(3, 30)]] = Ok (s3, Some 10, [(2, 20)]) /\ b_ct s3 = [(1, 11); (3, 30)].
Proof. eexists _, _, _. split; [vm_compute; reflexivity|]. split; vm_compute; reflexivity. Qed.
Example array_late_case : late (array_tget (std_sorter snd) linear_bs) (array_new 3 (fun _ : nat * nat => 1)) 1 (fun v => v + 1) [OpPush [(1, 2)]] =
  prompt (array_tget (std_sorter snd) linear_bs) (array_new 3 (fun _ : nat * nat => 1)) 1 (fun v => v + 1) [OpPush [(1, 2)]].
Proof. reflexivity. Qed.
(** Compressed: 3 is pushed and lost, 2 is taken and comes back. *)
Example compressed_late_case :
  late (compressed_tget VecStream no_lz duo_codec (std_sorter snd) linear_bs) (cstate [x01; x05; x02; x09] 40) 1 (fun v => v + 1)
    [OpPush [(3, 7)]; OpTake 2] = Ok (cstate [x01; x06; x02; x09] 40, Some 5, [(2, 9)]).
Proof. vm_compute. reflexivity. Qed.

Print Assumptions C50_btree_late.
Print Assumptions C50_btree_late_without_push.
Print Assumptions C50_compressed_late.
Print Assumptions C50_compressed_push_lost_refuted.
