(** PByteStream.v -- property theorems: C37 and C38 (ByteStream). *)
From Coq Require Import ZArith NArith Init.Byte Strings.Byte.
From Verif Require Import Base PermSolve Block Spec BTree KMin Hasher Stream PStream IOVec IOVecProof PIOVec ByteStream ByteStreamProof.
Set Implicit Arguments.

Section PByteStream.
Context {K V : Type} {OK : Ord K} {OV : Ord V} {EK : OrdEq K}.
Variable bs : BSearch K.
Variable ser : K * V -> option (list byte).
Variable de : list byte -> option (K * V).
(** Serialization round-trips, whatever follows the serialized bytes; and no pair is larger than 2^63 bytes. *)
Hypothesis Codec : codec_ok ser de.
Hypothesis Sizes : sizes_ok ser.

Notation B := (ByteStreamB VecStream bs ser de).
(** States [bs_inv] are the reachable ones (C37_any_history); [bs_ct] reads the contents off the bytes of the
    streams: each is cut in chunks, and each chunk decoded. *)
Notation Inv := (bs_inv ser de).
Notation ct := (bs_ct de).

Lemma ct_of s rs : bs_ok ser de s rs -> ct s = concat (items rs).
Proof. apply bs_ct_ok. Qed.

Theorem C37_size_within_capacity : forall s, Inv s -> bs_size s <= st_cap s.
Proof. intros s (rs & _ & _ & H). auto. Qed.

Theorem C37_contains : forall s k, Inv s -> contains B s k = Ok (has_key k (ct s)).
Proof. intros s k (rs & H). rewrite (ct_of H). apply (bs_contains_ok k H). Qed.

Theorem C37_take : forall s k, Inv s -> take_ok B Inv ct s k.
Proof.
  intros s k (rs & H). destruct (bs_take_ok k H) as (s' & rs' & o & E & H' & Hc & Hs & Ho). exists s', o.
  split; auto. split; [exists rs'; auto|]. split; auto. split; auto. rewrite (ct_of H), (ct_of H').
  destruct o as [[k' v]|]; auto. destruct Ho as (A & -> & ->). auto.
Qed.

(** [greedy room vs] (ByteStreamProof.v) is the pair of what push must store and what it must return: each
    element in turn is stored if the next power of two of its serialized length still fits. *)
Theorem C37_push : forall s vs, Inv s ->
  push_ok B Inv ct s vs /\
  exists s', push B s vs = Ok (s', snd (greedy ser (st_cap s - bs_size s) vs)) /\
    Permutation (ct s') (ct s ++ fst (greedy ser (st_cap s - bs_size s) vs)) /\
    bs_size s' = bs_size s + rounded_sum ser (fst (greedy ser (st_cap s - bs_size s) vs)).
Proof.
  intros s vs (rs & H). pose proof H as (H1 & H2 & H3).
  destruct (bs_push_loop_ok Codec Sizes vs (st_slots s) rs H1 H2 (bs_size_ok H) H3) as (sl' & rs' & E & R & L & Z & C & P & _).
  assert (Ep : push B s vs = Ok (mkBS sl' (st_cap s), snd (greedy ser (st_cap s - bs_size s) vs))).
  { cbn [push ByteStreamB]. unfold bs_push. rewrite E. auto. }
  set (g := greedy ser (st_cap s - bs_size s) vs) in *.
  assert (H' : bs_ok ser de (mkBS sl' (st_cap s)) rs').
  { split; auto. split; auto. unfold bs_size. cbn [st_slots st_cap]. rewrite (slots_size_ok _ _ _ _ _ R), Z. auto. }
  assert (Hg : Permutation (snd g ++ fst g) vs).
  { unfold g. clear. generalize (st_cap s - bs_size s) as room. induction vs as [|x vs IH]; intros room; cbn [greedy]; auto.
    destruct (rounded ser x) as [c|].
    - destruct (c <=? room).
      + specialize (IH (room - c)). destruct (greedy ser (room - c) vs). cbn [fst snd] in *. rewrite <- IH. perm0.
      + specialize (IH room). destruct (greedy ser room vs). cbn [fst snd] in *. rewrite <- IH. perm0.
    - specialize (IH room). destruct (greedy ser room vs). cbn [fst snd] in *. rewrite <- IH. perm0. }
  split.
  - eexists _, _. split; [exact Ep|]. split; [exists rs'; auto|]. split; auto. rewrite (ct_of H), (ct_of H'), P. rewrite <- Hg. perm0.
  - eexists. split; [exact Ep|]. rewrite (ct_of H), (ct_of H'). split; auto. rewrite (bs_size_ok H'), Z. auto.
Qed.

(** The size is exactly that of what is held, each element counting for the next power of two. *)
Theorem C37_everything_or_room : forall s vs s' out x, Inv s -> push B s vs = Ok (s', out) -> In x out ->
  ser x = None \/ exists b, ser x = Some b /\ st_cap s < bs_size s' + 2 ^ class (length b).
Proof.
  intros s vs s' out x Hi E Hx. destruct (C37_push vs Hi) as (_ & s2 & E2 & _ & Z). rewrite E2 in E. injection E as <- <-.
  rewrite Z. pose proof (C37_size_within_capacity Hi) as Hc. clear - Hx Hc.
  assert (G : forall vs room, In x (snd (greedy ser room vs)) -> ser x = None \/
    exists b, ser x = Some b /\ room < rounded_sum ser (fst (greedy ser room vs)) + 2 ^ class (length b)).
  { clear. induction vs as [|y vs IH]; intros room; cbn [greedy]; [intros []|]. destruct (rounded ser y) as [c|] eqn:Ey.
    - destruct (c <=? room) eqn:Ec.
      + apply Nat.leb_le in Ec. specialize (IH (room - c)). destruct (greedy ser (room - c) vs) as [st out]. cbn [fst snd] in *.
        intros Hx. destruct (IH Hx) as [Hn|(b & Hb & Hlt)]; auto. right. exists b. split; auto.
        unfold rounded_sum in *. rewrite sum_sz_cons, Ey. lia.
      + apply Nat.leb_gt in Ec. specialize (IH room). destruct (greedy ser room vs) as [st out]. cbn [fst snd] in *.
        intros [->|Hx]; auto. right. unfold rounded in Ey. destruct (ser x) as [b|]; cbn in Ey; [|discriminate].
        injection Ey as <-. exists b. split; auto. lia.
    - specialize (IH room). destruct (greedy ser room vs) as [st out]. cbn [fst snd] in *. intros [->|Hx]; auto.
      left. unfold rounded in Ey. destruct (ser x); auto. discriminate. }
  destruct (G vs _ Hx) as [Hn|(b & Hb & Hlt)]; auto. right. exists b. split; auto. lia.
Qed.

Theorem C37_pop : forall s n, Inv s ->
  pop_ok B Inv ct s n /\
  forall s' out, pop B s n = Ok (s', out) -> forall x y, In x (ct s') -> In y out -> leb (snd x) (snd y) = true.
Proof.
  intros s n (rs & H). destruct (bs_pop_ok n H) as (s' & rs' & out & rest & E & H' & Hc & Pr & Po & Hf & Hs & Hg).
  split.
  - exists s', out. split; auto. split; [exists rs'; auto|]. split; auto. rewrite (ct_of H), (ct_of H'). split; [rewrite Pr; auto|].
    split; auto. destruct Hf as [Hf|Hf]; [left; exact Hf|right]. subst rest. apply Permutation_nil. symmetry; auto.
  - intros s2 out2 E2 x y Hx Hy. cbn [pop ByteStreamB] in E2. rewrite E2 in E. injection E as -> ->. rewrite (ct_of H') in Hx.
    apply Hg; auto. apply (Permutation_in _ Pr); auto.
Qed.

(** get answers a value held under the key, and changes nothing. *)
Theorem C37_get : forall s k, Inv s ->
  exists o, bs_get de s k = Ok o /\
    match o with Some v => In (k, v) (ct s) | None => ~ In k (keys (ct s)) end.
Proof.
  intros s k (rs & H). rewrite (ct_of H). destruct H as (H & _). unfold bs_get. rewrite (slots_find_ok _ _ _ _ _ _ H).
  set (p := fun (_ _ : nat) (kv : K * V) => if eqb (fst kv) k then Some (snd kv) else None).
  pose proof (find_items_spec p (items rs) 0) as F. eexists. split; [reflexivity|]. destruct (find_items p 0 (items rs)) as [v|].
  - destruct F as (n & xs & j & [k' v'] & E1 & E2 & E3). unfold p in E3. cbn [fst snd] in E3. destruct (eqb k' k) eqn:E; [|discriminate].
    injection E3 as <-. apply eqb_eq in E. subst k'. apply in_concat_nth. eauto.
  - intros Hin. unfold keys in Hin. apply in_map_iff in Hin as ([k' v] & E & Hin). cbn in E. subst k'.
    apply in_concat_nth in Hin as (n & xs & j & E1 & E2). specialize (F n xs j _ E1 E2). unfold p in F. cbn [fst] in F.
    rewrite eqb_refl in F. discriminate.
Qed.

(** get_mut is exact when the new value takes no more room than the next power of two of the old one. *)
Theorem C37_get_mut_partial : forall s k f, Inv s ->
  (forall v b, In (k, v) (ct s) -> ser (k, v) = Some b -> exists b', ser (k, f v) = Some b' /\ length b' <= 2 ^ Nat.log2_up (length b)) ->
  get_ok B Inv ct (fun s k f => bs_get_mut ser de s k f) s k f.
Proof.
  intros s k f (rs & H) Hf. pose proof H as (H1 & H2 & H3).
  destruct (bs_slots_mut_ok Codec (k := k) f (st_slots s) 0 rs H1) as (sl' & rs' & o & E & R & Z & O).
  { intros j r v Ej Hin. destruct (slots_rep_nth _ _ _ _ _ _ H1 Ej) as (o & Eo & Ho). cbn [plus] in Ho |- *. destruct o as [w|].
    - destruct Ho as (_ & _ & Hfit). rewrite Forall_forall in Hfit. destruct (Hfit _ Hin) as (b & Eb & Lb).
      destruct (Hf v b) as (b' & Eb' & Lb'); auto.
      { rewrite (ct_of H). apply in_concat. exists (fst r). split; auto. unfold items. apply List.in_map. eapply nth_error_In; eauto. }
      exists b'. split; auto. etransitivity; [exact Lb'|]. apply Nat.pow_le_mono_r; [lia|].
      destruct (length b) as [|n]; [cbn; lia|]. apply Nat.log2_up_le_pow2; [lia|auto].
    - cbn in Ho. subst r. destruct Hin. }
  assert (Ll : length rs' = length rs).
  { clear - Z. revert rs' Z. generalize 0. induction rs; intros n [|r rs'] Z; cbn in *; try discriminate; auto. f_equal. injection Z as _ Z. eauto. }
  assert (H' : bs_ok ser de (mkBS sl' (st_cap s)) rs').
  { split; auto. split; [lia|]. unfold bs_size in *. cbn [st_slots st_cap]. rewrite (slots_size_ok _ _ _ _ _ R), Z, <- (slots_size_ok _ _ _ _ _ H1). auto. }
  unfold get_ok, bs_get_mut. rewrite E. cbn [bind]. eexists _, _. split; [reflexivity|]. split; [exists rs'; auto|]. split; auto.
  split; [cbn [size ByteStreamB]; rewrite (bs_size_ok H), (bs_size_ok H'), Z; auto|]. rewrite (ct_of H), (ct_of H').
  destruct o as [v|]; auto. destruct O as [O ->]. auto.
Qed.

(** C37 over whole histories: from a new container, no call of any history panics (take_multiple and flush
    included), all the states are [Inv]; without take_multiple and flush nothing is lost nor invented. *)
Theorem C37_any_history : forall cap h,
  exists s out, run B (bs_new VecStream cap) h = Ok (s, out) /\ Inv s /\ st_cap s = cap /\
    (Forall (fun o => match o with OpTakeMultiple _ | OpFlush => False | _ => True end) h ->
     Permutation (out ++ ct s) (all_given h)).
Proof.
  intros cap h.
  assert (G : forall h s, Inv s -> st_cap s = cap -> exists s' out, run B s h = Ok (s', out) /\ Inv s' /\ st_cap s' = cap /\
    (Forall (fun o => match o with OpTakeMultiple _ | OpFlush => False | _ => True end) h ->
     Permutation (out ++ ct s') (ct s ++ all_given h))).
  { clear h. induction h as [|o h IH]; intros s Hi Hcap; cbn [run].
    - exists s, []. split; auto. split; auto. split; auto. intros _. cbn. rewrite app_nil_r. auto.
    - assert (S : exists s1 r1, step B s o = Ok (s1, r1) /\ Inv s1 /\ st_cap s1 = cap /\
        (match o with OpTakeMultiple _ | OpFlush => False | _ => True end -> Permutation (r1 ++ ct s1) (ct s ++ given o))).
      { destruct o as [vs|n|k|ks|]; cbn [step given].
        - destruct (C37_push vs Hi) as ((s1 & r1 & A1 & A2 & A3 & A4) & _). exists s1, r1. rewrite A1. split; auto. split; auto.
          split; [cbn in A3; congruence|]. auto.
        - destruct (C37_pop n Hi) as ((s1 & r1 & A1 & A2 & A3 & A4 & _) & _). exists s1, r1. rewrite A1. split; auto. split; auto.
          split; [cbn in A3; congruence|]. intros _. rewrite app_nil_r. auto.
        - destruct (C37_take k Hi) as (s1 & r1 & A1 & A2 & A3 & _ & A4). rewrite A1. cbn [bind]. exists s1, (opt_list r1). split; auto. split; auto.
          split; [cbn in A3; congruence|]. intros _. rewrite app_nil_r. destruct r1 as [[k' v]|]; cbn [opt_list app].
          + destruct A4 as [-> A4]. auto.
          + apply A4.
        - destruct Hi as (rs & H). pose proof H as (H1 & _). cbn [take_multiple ByteStreamB]. unfold bs_take_multiple.
          destruct (bs_tm_slots_ok bs _ _ (st_slots s) 0 rs (ks := sort_keys ks) H1) as (ks' & out & A1 & _); [apply stable_sort_sorted|].
          rewrite A1. cbn [bind]. exists s, out. split; auto. split; [exists rs; auto|]. split; auto. intros [].
        - destruct Hi as (rs & H). destruct (bs_flush_ok H) as (s1 & A1 & A2 & A3). cbn [flush ByteStreamB]. rewrite A1.
          eexists s1, _. split; [reflexivity|]. split; [eexists; eauto|]. split; [congruence|]. intros []. }
      destruct S as (s1 & r1 & E1 & I1 & C1 & P1). rewrite E1. cbn [bind]. destruct (IH s1 I1 C1) as (s2 & r2 & E2 & I2 & C2 & P2).
      rewrite E2. cbn [bind]. exists s2, (r1 ++ r2). split; auto. split; auto. split; auto. intros Hf. inversion Hf as [|? ? F1 F2]; subst.
      specialize (P1 F1). specialize (P2 F2). cbn [all_given flat_map]. fold (all_given h). rewrite <- app_assoc, P2. rewrite !app_assoc, P1. auto. }
  destruct (G h (bs_new VecStream cap)) as (s & out & E & I & C & P); auto.
  { eexists. apply bs_new_ok. }
  exists s, out. split; [exact E|]. split; [exact I|]. split; [exact C|]. intros Hf. specialize (P Hf). rewrite (ct_of (bs_new_ok ser de cap)) in P.
  assert (Z : forall n, concat (items (repeat (@nil (K * V), 0) n)) = []) by (induction n; auto). rewrite Z in P. auto.
Qed.

(** C38: what flush returns exactly.  [marks] pairs the contents of each of the streams with the position of its
    handle, counted in elements: only what follows the position comes out, and everything is dropped. *)
Theorem C38_flush_returns_from_cursors_partial : forall s, Inv s ->
  exists marks s' out, flush B s = Ok (s', out) /\
    map (slot_ct de) (st_slots s) = map fst marks /\
    out = concat (map (fun m => skipn (snd m) (fst m)) marks) /\
    Forall2 (fun (o : option (iovec VecStream)) m => match o with Some v => (iv_h v : nat) = snd m * iv_chunk v | None => True end) (st_slots s) marks /\
    ct s' = [] /\ bs_size s' = 0.
Proof.
  intros s (rs & H). destruct (bs_flush_ok H) as (s' & E & H' & _). exists rs, s'. eexists. split; [exact E|]. pose proof H as (H1 & _).
  split; [apply (slots_rep_ct _ _ _ _ _ H1)|]. split; auto. split.
  - clear - H1. revert H1. generalize (st_slots s) as sl. generalize 0 as i. revert rs. induction rs as [|r rs IH]; intros i [|o sl] H; cbn in H; try tauto; constructor.
    + destruct o as [v|]; auto. destruct H as ((_ & (_ & Hh & _) & _) & _). auto.
    + eapply IH. apply H.
  - split; [rewrite (ct_of H')|rewrite (bs_size_ok H')].
    + clear. induction rs; auto.
    + assert (G : forall n, list_sum (sizes n (map (fun _ => (@nil (K * V), 0)) rs)) = 0); [|apply G].
      clear. induction rs as [|r rs IH]; intros n; auto. cbn [map sizes]. unfold list_sum in *. cbn [fold_right]. rewrite IH. auto.
Qed.
(** In particular, whatever is pushed in a new container is not returned by flush, and is lost. *)
Theorem C38_flush_after_push_loses_all_refuted : forall cap vs,
  exists s s' out, push B (bs_new VecStream cap) vs = Ok (s, out) /\ flush B s = Ok (s', []) /\ ct s' = [] /\
    Permutation (out ++ ct s) vs.
Proof.
  intros cap vs. pose proof (bs_new_ok ser de cap) as H0. pose proof H0 as (H1 & H2 & H3).
  destruct (bs_push_loop_ok Codec Sizes vs (st_slots (bs_new VecStream cap)) _ H1 H2 (bs_size_ok H0) H3) as (sl' & rs' & E & R & L & Z & C & P & Q).
  destruct (C37_push vs (ex_intro _ _ H0)) as ((s & out & E1 & (rs & I1) & _ & P1) & _).
  pose proof E1 as E1'. cbn [push ByteStreamB] in E1'. unfold bs_push in E1'. rewrite E in E1'. cbn [bind] in E1'. injection E1' as <- <-.
  assert (H' : bs_ok ser de (mkBS sl' cap) rs').
  { split; auto. split; auto. unfold bs_size in *. cbn [st_slots st_cap] in *. rewrite (slots_size_ok _ _ _ _ _ R), Z. auto. }
  destruct (bs_flush_ok H') as (s' & E2 & H'' & _).
  eexists _, s', _. split; [exact E1|]. assert (Q' : Forall (fun r => snd r = length (fst r)) rs').
  { apply Q. apply Forall_forall. intros r Hr. apply repeat_spec in Hr. subst. auto. }
  assert (Zs : concat (map (fun r : list (K * V) * nat => skipn (snd r) (fst r)) rs') = []).
  { clear - Q'. induction Q' as [|r rs Hr Q IH]; auto. cbn. rewrite Hr, skipn_all. auto. }
  rewrite Zs in E2. split; [exact E2|]. split.
  - rewrite (ct_of H''). clear. induction rs'; auto.
  - rewrite (ct_of (bs_new_ok ser de cap)) in P1.
    assert (Zn : forall n, concat (items (repeat (@nil (K * V), 0) n)) = []) by (induction n; auto). rewrite Zn in P1. auto.
Qed.

(** take_multiple: right values come out, and the key vector loses exactly their keys, but they all stay. *)
Theorem C38_take_multiple_returns_partial : forall s ks, Inv s ->
  exists ks' out, take_multiple B s ks = Ok (s, ks', out) /\
    incl out (ct s) /\ Permutation ks (keys out ++ ks') /\
    (forall k, In k ks -> In k (keys (ct s)) -> In k (keys out)).
Proof.
  intros s ks (rs & H). rewrite (ct_of H). destruct H as (H & _). cbn [take_multiple ByteStreamB]. unfold bs_take_multiple.
  destruct (bs_tm_slots_ok bs _ _ (st_slots s) 0 rs (ks := sort_keys ks) H) as (ks' & out & E & P & I & F); [apply stable_sort_sorted|].
  rewrite E. cbn [bind]. exists ks', out. split; auto. split; auto. assert (Ps : Permutation (sort_keys ks) ks) by apply stable_sort_perm.
  split; [rewrite <- P; symmetry; auto|]. intros k Hk. apply F. apply (Permutation_in _ (Permutation_sym Ps)). auto.
Qed.
Theorem C38_take_multiple_removes_nothing_refuted : forall s ks, Inv s ->
  exists ks' out, take_multiple B s ks = Ok (s, ks', out).
Proof. intros s ks H. destruct (C38_take_multiple_returns_partial ks H) as (ks' & out & E & _). eauto. Qed.
End PByteStream.

(** ** A concrete codec: the key in one byte, the value in unary, then a zero. *)
Definition pair_ser (kv : nat * nat) : option (list byte) :=
  match Byte.of_nat (fst kv) with
  | Some b => if snd kv <=? 255 then Some (b :: repeat x01 (snd kv) ++ [x00]) else None
  | None => None
  end.
Fixpoint unary (l : list byte) : option nat :=
  match l with
  | x00 :: _ => Some 0
  | x01 :: l' => option_map S (unary l')
  | _ => None
  end.
Definition pair_de (l : list byte) : option (nat * nat) :=
  match l with b :: l' => option_map (pair (Byte.to_nat b)) (unary l') | [] => None end.
Lemma pair_codec : codec_ok pair_ser pair_de.
Proof.
  intros [k v] b rest H. unfold pair_ser in H. cbn [fst snd] in H. destruct (Byte.of_nat k) as [y|] eqn:E; [|discriminate].
  destruct (v <=? 255); [|discriminate]. injection H as <-. cbn [pair_de app].
  assert (U : forall n, unary ((repeat x01 n ++ [x00]) ++ rest) = Some n) by (induction n as [|n IH]; [auto|cbn [repeat app unary]; rewrite IH; auto]).
  rewrite U. cbn. do 2 f_equal. apply Byte.to_of_nat. auto.
Qed.
Lemma pair_sizes : sizes_ok pair_ser.
Proof.
  intros [k v] b H. unfold pair_ser in H. cbn [fst snd] in H. destruct (Byte.of_nat k) as [y|]; [|discriminate].
  destruct (v <=? 255) eqn:E; [|discriminate]. injection H as <-. apply Nat.leb_le in E. cbn [length]. rewrite app_length, repeat_length. cbn [length].
  transitivity 300%N; [lia|]. vm_compute. discriminate.
Qed.

Definition demo_bs := ByteStreamB VecStream linear_bs pair_ser pair_de.
(** States written out: the streams of the slots from 0, the others not created. *)
Definition vslot (w : list byte) (pos chunk : nat) : option (iovec VecStream) := Some (@mkIV VecStream w pos chunk).
Definition demo_state (l : list (option (iovec VecStream))) (cap : nat) : bstream VecStream :=
  mkBS (l ++ repeat None (64 - length l)) cap.
Definition demo_two : bstream VecStream := demo_state [None; vslot [x01; x00; x02; x00] 4 2] 100.

(** A non-trivial case: elements of several sizes, one refused; a take, a pop. *)
Example c37_case : run demo_bs (bs_new VecStream 18)
  [OpPush [(1, 0); (2, 5); (3, 9); (4, 1); (5, 0)]; OpTake 1; OpPop 3] =
  Ok (demo_state [None; vslot [x05; x00] 2 2; vslot [x04; x01; x00; x00] 4 4; vslot [] 0 8] 18, [(3, 9); (1, 0); (2, 5)]).
Proof. vm_compute; reflexivity. Qed.
Example c37_case_holds : bs_ct pair_de (demo_state [None; vslot [x05; x00] 2 2; vslot [x04; x01; x00; x00] 4 4; vslot [] 0 8] 18) =
  [(5, 0); (4, 1)].
Proof. vm_compute; reflexivity. Qed.

(** A value that grows beyond its chunk through get_mut destroys its neighbour: the following calls panic. *)
Theorem C37_get_mut_growth_corrupts_refuted : exists s s',
  push demo_bs (bs_new VecStream 100) [(1, 0); (2, 0)] = Ok (s, []) /\
  bs_get_mut pair_ser pair_de s 1 (fun v => v + 1) = Ok (s', Some 0) /\
  contains demo_bs s' 2 = Panic /\ take demo_bs s' 2 = Panic.
Proof.
  exists demo_two, (demo_state [None; vslot [x01; x01; x00; x00] 4 2] 100).
  split; [vm_compute; reflexivity|]. split; [vm_compute; reflexivity|]. split; vm_compute; reflexivity.
Qed.

(** Over a file stream, which the code opens for writing only, an accepted element makes every lookup panic. *)
Theorem C37_file_stream_panics_refuted : exists s,
  push (ByteStreamB FileStream linear_bs pair_ser pair_de) (bs_new FileStream 100) [(1, 0)] = Ok (s, []) /\
  forall k, contains (ByteStreamB FileStream linear_bs pair_ser pair_de) s k = Panic.
Proof.
  exists (mkBS (None :: Some (@mkIV FileStream ([x01; x00], 2) tt 2) :: repeat None 62) 100).
  split; [vm_compute; reflexivity|]. intros k. vm_compute. reflexivity.
Qed.

(** C38 on the same case: the two elements are held, and flush returns none of them. *)
Example c38_case :
  push demo_bs (bs_new VecStream 100) [(1, 0); (2, 0)] = Ok (demo_two, []) /\ contains demo_bs demo_two 1 = Ok true /\
  flush demo_bs demo_two = Ok (bs_new VecStream 100, []).
Proof. split; [vm_compute; reflexivity|]. split; vm_compute; reflexivity. Qed.
Example c38_take_multiple_case :
  take_multiple demo_bs demo_two [2; 7] = Ok (demo_two, [7], [(2, 0)]) /\ contains demo_bs demo_two 2 = Ok true.
Proof. split; vm_compute; reflexivity. Qed.

Print Assumptions C37_any_history.
Print Assumptions C37_push.
Print Assumptions C37_pop.
Print Assumptions C37_get_mut_partial.
Print Assumptions C38_flush_after_push_loses_all_refuted.
