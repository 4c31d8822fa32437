(** POverflow.v -- property theorems: the arithmetic of sizes (C53). *)
From Verif Require Import Base PermSolve Block Spec LawsProof Cut CutProof Array ArrayProof PArray BTree BTreeProof PBTree
  Batch Exclusive Wrappers Associative Stream Compressed Arch ArchProof PArch Overflow.
Set Implicit Arguments.
Local Arguments leb {A Ord} _ _ : simpl never.

(** An arithmetic of numbers up to [M]: right whenever the exact result is in range. *)
Definition right_up_to (M : nat) (A : arith) : Prop :=
  (forall a b, a + b <= M -> uadd A a b = Ok (a + b)) /\
  (forall a b, b <= a -> a <= M -> usub A a b = Ok (a - b)).
Lemma debug_right M : right_up_to M (debug_arith M).
Proof.
  split; intros a b H; cbn; unfold sub_chk.
  - replace (a + b <=? M) with true by (symmetry; apply Nat.leb_le; auto). auto.
  - intros _. replace (b <=? a) with true by (symmetry; apply Nat.leb_le; auto). auto.
Qed.
Lemma release_right M : right_up_to M (release_arith M).
Proof.
  split; intros a b H; cbn [release_arith uadd usub].
  - rewrite Nat.mod_small by lia. auto.
  - intros HM. f_equal. replace (a + S M - b) with ((a - b) + 1 * S M) by lia.
    rewrite Nat.mod_add by lia. apply Nat.mod_small. lia.
Qed.

Lemma leb_t a b : a <= b -> (a <=? b) = true. Proof. intros; apply Nat.leb_le; auto. Qed.
Lemma leb_f a b : b < a -> (a <=? b) = false. Proof. intros; apply Nat.leb_gt; auto. Qed.
Lemma sub_chk_ok a b : b <= a -> sub_chk a b = Ok (a - b).
Proof. intros H. unfold sub_chk. rewrite leb_t; auto. Qed.

Section Right.
Variables (M : nat) (A : arith) (HA : right_up_to M A).

Lemma usum_from_ok : forall l acc, acc + list_sum l <= M -> usum_from A acc l = Ok (acc + list_sum l).
Proof.
  induction l as [|x l IH]; intros acc H; cbn [usum_from list_sum fold_right] in *.
  - f_equal. lia.
  - change (fold_right Nat.add 0 l) with (list_sum l) in *. rewrite (proj1 HA) by lia. cbn [bind].
    rewrite IH by lia. f_equal. lia.
Qed.
Lemma usum_ok l : list_sum l <= M -> usum A l = Ok (list_sum l).
Proof. intros H. unfold usum. rewrite usum_from_ok; auto. Qed.

Lemma ucut_loop_ok {T} (sz : T -> nat) n : forall rl acc last, acc + sum_sz sz rl <= M ->
  ucut_loop A sz n acc last rl = Ok (cut_loop sz n acc last rl).
Proof.
  induction rl as [|x rl IH]; intros acc last H; cbn [ucut_loop cut_loop]; auto.
  rewrite sum_sz_cons in H. rewrite (proj1 HA) by lia. cbn [bind].
  destruct (acc + sz x <? n); auto. apply IH. lia.
Qed.
Lemma sum_sz_rev {T} (sz : T -> nat) l : sum_sz sz (rev l) = sum_sz sz l.
Proof. apply sum_sz_perm. symmetry. apply Permutation_rev. Qed.
Lemma ufind_cut_ok {T} (sz : T -> nat) n (l : list T) : sum_sz sz l <= M ->
  ufind_cut A l sz n = Ok (find_cut_at_size l sz n).
Proof. intros H. apply ucut_loop_ok. rewrite sum_sz_rev. auto. Qed.

Section Array.
Context {K V : Type} {OK : Ord K} {EK : OrdEq K} {OV : Ord V}.
Variable srt : Sorter (K * V) V snd.
Variable bs : BSearch K.

Lemma ua_pop_ok (s : array K V) n : a_inv s -> a_cap s <= M -> ua_pop A srt s n = a_pop srt s n.
Proof.
  intros [Ht Hc] HM. unfold ua_pop, a_pop. destruct (a_vals s) as [|e l] eqn:E; auto. rewrite <- E in *.
  destruct (a_total s <=? n); auto.
  assert (P : sum_sz (a_esz s) (srt (a_vals s)) = a_total s).
  { rewrite Ht. apply sum_sz_perm. apply sort_perm. }
  rewrite ufind_cut_ok by lia. cbn [bind].
  destruct (find_cut_at_size (srt (a_vals s)) (a_esz s) n) as [[cut c] o] eqn:F.
  pose proof (cut_split _ _ _ F) as HS.
  rewrite (proj2 HA) by lia. rewrite sub_chk_ok by lia. reflexivity.
Qed.

Lemma ua_push_ok (s : array K V) vs : a_inv s -> a_cap s <= M -> sum_sz (a_esz s) vs <= M ->
  ua_push A srt s vs = a_push srt s vs.
Proof.
  intros Hi HM HS. pose proof Hi as [Ht Hc]. unfold ua_push, a_push.
  rewrite usum_ok by auto. cbn [bind]. change (list_sum (map (a_esz s) vs)) with (sum_sz (a_esz s) vs).
  set (sz := sum_sz (a_esz s) vs) in *.
  rewrite (proj2 HA) by lia. rewrite sub_chk_ok by lia. cbn [bind].
  destruct (sz <=? a_cap s - a_total s) eqn:E1.
  - apply Nat.leb_le in E1. rewrite (proj1 HA) by lia. reflexivity.
  - apply Nat.leb_gt in E1. destruct (sz =? a_cap s) eqn:E2; auto.
    destruct (a_cap s <? sz) eqn:E3.
    + apply Nat.ltb_lt in E3. rewrite (proj2 HA) by lia. cbn [bind].
      assert (P : sum_sz (a_esz s) (stable_sort snd vs) = sz) by (apply sum_sz_perm, stable_sort_perm).
      rewrite ufind_cut_ok by lia. cbn [bind].
      destruct (find_cut_at_size (stable_sort snd vs) (a_esz s) (sz - a_cap s)) as [[cut c] o] eqn:F.
      pose proof (cut_split _ _ _ F) as HC. rewrite (proj2 HA) by lia. rewrite sub_chk_ok by lia. reflexivity.
    + apply Nat.ltb_ge in E3. apply Nat.eqb_neq in E2. rewrite (proj2 HA) by lia. cbn [bind].
      rewrite ua_pop_ok by auto.
      destruct (@a_pop_spec K V OV srt s (sz - (a_cap s - a_total s)) Hi) as (s1 & out & H1 & H2 & H3 & H4 & H5 & H6 & H7).
      rewrite H1. cbn [bind]. rewrite (proj1 HA); [reflexivity|].
      destruct H2 as [T1 T2]. destruct H6 as [H6|H6]; [lia|]. rewrite H6 in T1. unfold sum_sz in T1. cbn in T1. lia.
Qed.

Lemma in_sum {T} (sz : T -> nat) l i e : nth_error l i = Some e -> sz e <= sum_sz sz l.
Proof.
  intros H. destruct (nth_error_split l i H) as (l1 & l2 & -> & _). rewrite sum_sz_app, sum_sz_cons. lia.
Qed.
Lemma ua_take_ok (s : array K V) k : a_inv s -> a_cap s <= M -> ua_take A s k = a_take s k.
Proof.
  intros [Ht Hc] HM. unfold ua_take, a_take. destruct (find_index _ _) as [i|]; auto.
  destruct (nth_error (a_vals s) i) as [e|] eqn:E; auto. cbn [unwrap bind].
  pose proof (in_sum (a_esz s) _ _ E). rewrite (proj2 HA) by lia. rewrite sub_chk_ok by lia. reflexivity.
Qed.
Lemma ua_tm_loop_ok : forall i (s : array K V) ks ret, a_inv s -> a_cap s <= M ->
  ua_tm_loop A bs i s ks ret = a_tm_loop bs i s ks ret.
Proof.
  induction i as [|j IH]; intros s ks ret Hi HM; cbn [ua_tm_loop a_tm_loop]; auto. pose proof Hi as [Ht Hc].
  destruct (nth_error (a_vals s) j) as [e|] eqn:E; auto. cbn [unwrap bind].
  destruct (bs ks (fst e)) as [p|]; [|apply IH; auto].
  pose proof (in_sum (a_esz s) _ _ E). rewrite (proj2 HA) by lia. rewrite sub_chk_ok by lia. cbn [bind].
  apply IH; auto. split; cbn [a_total a_esz a_vals a_cap]; [|lia].
  pose proof (swap_remove_perm _ _ E) as P. apply (sum_sz_perm (a_esz s)) in P. rewrite sum_sz_cons in P. lia.
Qed.

(** The pushes of a history, each of a total size the machine can represent. *)
Definition pushes_fit (esz : K * V -> nat) (h : list (op K V)) : Prop :=
  Forall (fun o => match o with OpPush vs => sum_sz esz vs <= M | _ => True end) h.

(** Array: with a capacity in range and pushes whose total size is in range, the machine computes what unbounded
    arithmetic computes: no overflow panics, and none wraps. *)
Theorem C53_array_size_arithmetic_exact : forall cap esz (h : list (op K V)), cap <= M -> pushes_fit esz h ->
  run (MArrayB A srt bs) (array_new cap esz) h = run (ArrayB srt bs) (array_new cap esz) h.
Proof.
  intros cap esz h HM HF.
  assert (G : forall h (s : array K V), a_inv s -> a_cap s <= M -> a_esz s = esz -> pushes_fit esz h ->
     run (MArrayB A srt bs) s h = run (ArrayB srt bs) s h).
  { clear h HF. induction h as [|o h IH]; intros s Hi Hc He HF; [reflexivity|]. inversion HF as [|? ? F1 F2]; subst.
    assert (S : step (MArrayB A srt bs) s o = step (ArrayB srt bs) s o).
    { destruct o as [vs|n|k|ks|]; cbn [step MArrayB ArrayB push pop take take_multiple flush].
      - apply ua_push_ok; auto.
      - apply ua_pop_ok; auto.
      - rewrite ua_take_ok; auto.
      - unfold ua_take_multiple, a_take_multiple. rewrite ua_tm_loop_ok; auto.
      - auto. }
    assert (N : forall s1 r1, step (ArrayB srt bs) s o = Ok (s1, r1) -> a_inv s1 /\ a_cap s1 = a_cap s /\ a_esz s1 = a_esz s).
    { intros s1 r1 E. destruct o as [vs|n|k|ks|]; cbn [step ArrayB push pop take take_multiple flush] in E.
      - destruct (@a_push_spec K V OV srt s vs Hi) as (s' & out & H1 & H2 & H3 & H4 & _). rewrite H1 in E. injection E as <- <-. auto.
      - destruct (@a_pop_spec K V OV srt s n Hi) as (s' & out & H1 & H2 & H3 & H4 & _). rewrite H1 in E. injection E as <- <-. auto.
      - destruct (@a_take_spec K V OK EK s k Hi) as (s' & out & H1 & H2 & H3 & H4 & _). rewrite H1 in E. injection E as <- <-. auto.
      - destruct (@a_take_multiple_spec K V OK bs s ks Hi) as (s' & ks' & out & H1 & H2 & H3 & H4 & _). rewrite H1 in E. injection E as <- <-. auto.
      - injection E as <- <-. repeat split; cbn; lia. }
    cbn [run]. cbn [St MArrayB ArrayB] in *. rewrite S. destruct (step (ArrayB srt bs) s o) as [[s1 r1]|] eqn:E1; [|reflexivity]. cbn [bind].
    destruct (N s1 r1 eq_refl) as (N1 & N2 & N3). rewrite IH; auto; try lia; try congruence. }
  apply G; auto. apply array_new_inv.
Qed.
End Array.

Section BTree.
Context {K V : Type} {OK : Ord K} {EK : OrdEq K} {OV : Ord V}.

Lemma ub_pop_ok E (s : btree K V) n : b_esz s = E -> b_idx s -> b_total s = sum_sz E (b_ct s) -> b_total s <= M ->
  ub_pop A s n = b_pop s n.
Proof.
  intros HE Hx Ht HM. unfold ub_pop, b_pop. destruct (b_map s) as [|e l] eqn:EM; auto. rewrite <- EM.
  destruct (b_total s <=? n); auto.
  assert (P : sum_sz (fun x : V * K * nat => b_esz s (snd (fst x), fst (fst x))) (b_set s) = b_total s).
  { rewrite Ht. rewrite <- (sum_sz_perm E (b_ct_set Hx)), sum_map. rewrite HE. reflexivity. }
  rewrite ufind_cut_ok by lia. cbn [bind].
  destruct (find_cut_at_size (b_set s) _ n) as [[cut c] o] eqn:F. destruct o as [e'|]; auto. cbn [unwrap bind].
  pose proof (find_cut_spec _ _ _ F) as (Fc & _). pose proof (sum_sz_split (fun x : V * K * nat => b_esz s (snd (fst x), fst (fst x))) cut (b_set s)).
  rewrite (proj2 HA) by lia. rewrite sub_chk_ok by lia. reflexivity.
Qed.
Lemma ub_take_ok E (s : btree K V) k : b_inv E s -> b_cap s <= M -> ub_take A s k = b_take s k.
Proof.
  intros (HE & Hx & Ht & Hc) HM. unfold ub_take, b_take. destruct (map_remove k (b_map s)) as [[x m]|] eqn:EM; auto.
  assert (L : b_esz s (k, fst x) <= b_total s).
  { rewrite Ht. apply map_remove_some in EM. unfold b_ct. rewrite <- (sum_sz_perm E (Permutation_map (@m2c K V) EM)).
    cbn [map]. rewrite sum_sz_cons. unfold m2c at 1. cbn [fst snd]. rewrite HE. lia. }
  rewrite (proj2 HA) by lia. rewrite sub_chk_ok by lia. reflexivity.
Qed.
Lemma ub_take_each_ok E : forall ks (s : btree K V), b_inv E s -> b_cap s <= M ->
  take_each (ub_take A) s ks = take_each b_take s ks.
Proof.
  induction ks as [|k ks IH]; intros s Hi HM; cbn [take_each]; auto. rewrite (ub_take_ok k Hi HM).
  destruct (b_take_spec k Hi) as (s' & o & H1 & H2 & H3 & _). rewrite H1. cbn [bind]. rewrite IH; auto. lia.
Qed.
Lemma ub_tm_ok E ks (s : btree K V) : b_inv E s -> b_cap s <= M ->
  default_take_multiple (ub_take A) s ks = default_take_multiple b_take s ks.
Proof. intros Hi HM. unfold default_take_multiple. rewrite (ub_take_each_ok ks Hi HM). auto. Qed.

Lemma ub_push_ok E (s : btree K V) vs : b_inv E s -> b_cap s <= M -> NoDup (keys vs) -> sum_sz E vs <= M ->
  ub_push A s vs = b_push s vs.
Proof.
  intros Hi HM HN HS. pose proof Hi as (HE & Hx & Ht & Hc). unfold ub_push, b_push.
  assert (ES : list_sum (map (b_esz s) vs) = sum_sz E vs) by (rewrite HE; reflexivity).
  rewrite usum_ok by lia. cbn [bind]. rewrite ES. replace (sum_sz (b_esz s) vs) with (sum_sz E vs) by (rewrite HE; auto).
  set (sz := sum_sz E vs) in *. destruct (b_cap s <=? sz) eqn:E1.
  - destruct (b_flush_spec HE Hx) as (s1 & F1 & F2 & F3 & F4 & F5). rewrite F1. cbn [bind].
    destruct (b_cap s <? sz) eqn:E2; auto. apply Nat.ltb_lt in E2. rewrite (proj2 HA) by lia. cbn [bind].
    assert (NN : NoDup (keys (b_ct s1 ++ vs))) by (rewrite F4; auto).
    destruct F2 as (G1 & G2 & G3 & G4).
    destruct (@b_insert_spec K V OK EK OV vs s1 G2 NN) as (B1 & B2 & B3 & B4 & B5).
    rewrite (@ub_pop_ok E); auto; cbn [with_total b_esz b_total].
    + rewrite B5. auto.
    + change (sz = sum_sz E (b_ct (b_insert s1 vs))). rewrite (sum_sz_perm E B2), F4. reflexivity.
  - apply Nat.leb_gt in E1. rewrite (ub_tm_ok (keys vs) Hi HM).
    destruct (law_take_multiple (btree_laws E) s (keys vs) Hi) as (s1 & ks' & out & T1 & T2 & T3 & T4 & _).
    cbn [take_multiple BTreeB] in T1. rewrite T1. cbn [bind]. destruct T2 as (U1 & U2 & U3 & U4). cbn [capacity size BTreeB] in T3, T4.
    rewrite (proj2 HA) by lia. rewrite sub_chk_ok by lia. cbn [bind].
    match goal with |- bind ?x _ = bind ?y _ => assert (Q : x = y) end.
    { destruct (_ <? _) eqn:E3; auto. apply Nat.ltb_lt in E3. rewrite (proj2 HA) by lia. cbn [bind]. apply (@ub_pop_ok E); auto. lia. }
    rewrite Q. clear Q.
    match goal with |- bind ?x _ = _ => assert (Z : exists s2 o2, x = Ok (s2, o2) /\ b_total s2 + sz <= M) end.
    { destruct (_ <? _) eqn:E3.
      - apply Nat.ltb_lt in E3. destruct (@b_pop_spec K V OK EK OV E s1 (sz - (b_cap s1 - b_total s1)) U1 U2 U3) as (s2 & o2 & P1 & P2 & P3 & P4 & P5 & P6 & P7 & P8 & _).
        exists s2, o2. split; auto. destruct P7 as [P7|P7]; [lia|]. rewrite P7 in P4. unfold sum_sz in P4. cbn in P4. lia.
      - apply Nat.ltb_ge in E3. exists s1, []. split; auto. lia. }
    destruct Z as (s2 & o2 & Z1 & Z2). rewrite Z1. cbn [bind].
    assert (TI : forall l (s : btree K V), b_total (b_insert s l) = b_total s).
    { clear. induction l as [|[k v] l IH]; intros s; cbn [b_insert]; auto. rewrite IH. reflexivity. }
    rewrite TI. rewrite (proj1 HA) by auto. reflexivity.
Qed.

Theorem C53_btree_size_arithmetic_exact : forall cap esz (h : list (op K V)), cap <= M -> pushes_fit esz h ->
  distinct_pushes h ->
  run (MBTreeB A) (btree_new cap esz) h = run BTreeB (btree_new cap esz) h.
Proof.
  intros cap esz h HM HF HD.
  assert (G : forall h (s : btree K V), b_inv esz s -> b_cap s <= M -> pushes_fit esz h -> distinct_pushes h ->
     run (MBTreeB A) s h = run BTreeB s h).
  { clear h HF HD. induction h as [|o h IH]; intros s Hi Hc HF HD; [reflexivity|].
    inversion HF as [|? ? F1 F2]; subst. inversion HD as [|? ? D1 D2]; subst.
    assert (S : step (MBTreeB A) s o = step BTreeB s o).
    { pose proof Hi as (I1 & I2 & I3 & I4).
      destruct o as [vs|n|k|ks|]; cbn [step MBTreeB BTreeB push pop take take_multiple flush].
      - apply (@ub_push_ok esz); auto.
      - apply (@ub_pop_ok esz); auto. lia.
      - rewrite (ub_take_ok k Hi Hc); auto.
      - rewrite (ub_tm_ok ks Hi Hc); auto.
      - auto. }
    cbn [run]. cbn [St MBTreeB BTreeB] in *. rewrite S.
    destruct (@btree_run K V OK EK OV esz [o] s Hi) as (s1 & r1 & R1 & R2 & R3 & _); [constructor; auto; constructor|].
    cbn [run] in R1. destruct (step BTreeB s o) as [[s2 r2]|] eqn:E1; auto. cbn [bind] in *.
    injection R1 as <- _. rewrite IH; auto. lia. }
  apply G; auto. apply btree_new_inv.
Qed.
End BTree.

(** Nested containers: while the exact size (capacity) is in range, so is every partial sum. *)
Section Nested.
Context {K : Type} {OK : Ord K}.
Lemma rmap_sum {X} (f : X -> res nat) (g : X -> nat) l :
  (forall x, In x l -> f x = Ok (g x)) -> rmap f l = Ok (map g l).
Proof.
  induction l as [|x l IH]; intros H; cbn [rmap map]; auto.
  rewrite (H x) by (left; auto). cbn [bind]. rewrite IH; auto. intros y Hy. apply H. right; auto.
Qed.
Lemma in_list_sum {X} (g : X -> nat) l x : In x l -> g x <= list_sum (map g l).
Proof. induction l as [|y l IH]; cbn; [tauto|]. intros [->|H]; [lia|]. specialize (IH H). unfold list_sum in IH. lia. Qed.

Theorem C53_nested_size_exact : forall V (a : arch K V) s, size (block a) s <= M ->
  machine_size A a s = Ok (size (block a) s).
Proof.
  induction a as [V OV srt bs cap esz|V OV cap esz|V n f IH|V bs l IHl r IHr|V a IH|V a IH|V a IH|V a IH|V D F f0 a IH|V hash n f IH|V OV L C srt bs cap|V a IH];
    intros s H; cbn [machine_size]; auto.
  - rewrite (rmap_sum _ (size (SumB (fun i => block (f i))))).
    + cbn [bind]. apply usum_ok. exact H.
    + intros c Hc. apply IH. pose proof (in_list_sum (size (SumB (fun i => block (f i)))) _ _ Hc) as I. change (list_sum (map (size (SumB (fun i => block (f i)))) s) <= M) in H.
      eapply Nat.le_trans; [exact I|exact H].
  - change (size (block l) (fst s) + size (block r) (snd s) <= M) in H. rewrite IHl by lia. rewrite IHr by lia. cbn [bind]. apply (proj1 HA). auto.
  - exact (IH s H).
  - exact (IH s H).
  - exact (IH s H).
  - exact (IH (snd s) H).
  - exact (IH (snd s) H).
  - rewrite (rmap_sum _ (size (SumB (fun i => block (f i))))).
    + cbn [bind]. apply usum_ok. exact H.
    + intros c Hc. apply IH. pose proof (in_list_sum (size (SumB (fun i => block (f i)))) _ _ Hc) as I. change (list_sum (map (size (SumB (fun i => block (f i)))) s) <= M) in H.
      eapply Nat.le_trans; [exact I|exact H].
  - exact (IH s H).
Qed.
Theorem C53_nested_capacity_exact : forall V (a : arch K V) s, capacity (block a) s <= M ->
  machine_capacity A a s = Ok (capacity (block a) s).
Proof.
  induction a as [V OV srt bs cap esz|V OV cap esz|V n f IH|V bs l IHl r IHr|V a IH|V a IH|V a IH|V a IH|V D F f0 a IH|V hash n f IH|V OV L C srt bs cap|V a IH];
    intros s H; cbn [machine_capacity]; auto.
  - rewrite (rmap_sum _ (capacity (SumB (fun i => block (f i))))).
    + cbn [bind]. apply usum_ok. exact H.
    + intros c Hc. apply IH. pose proof (in_list_sum (capacity (SumB (fun i => block (f i)))) _ _ Hc) as I. change (list_sum (map (capacity (SumB (fun i => block (f i)))) s) <= M) in H.
      eapply Nat.le_trans; [exact I|exact H].
  - change (capacity (block l) (fst s) + capacity (block r) (snd s) <= M) in H. rewrite IHl by lia. rewrite IHr by lia. cbn [bind]. apply (proj1 HA). auto.
  - exact (IH s H).
  - exact (IH s H).
  - exact (IH s H).
  - exact (IH (snd s) H).
  - exact (IH (snd s) H).
  - rewrite (rmap_sum _ (capacity (SumB (fun i => block (f i))))).
    + cbn [bind]. apply usum_ok. exact H.
    + intros c Hc. apply IH. pose proof (in_list_sum (capacity (SumB (fun i => block (f i)))) _ _ Hc) as I. change (list_sum (map (capacity (SumB (fun i => block (f i)))) s) <= M) in H.
      eapply Nat.le_trans; [exact I|exact H].
  - exact (IH s H).
Qed.
End Nested.
End Right.

(** In every state any allowed history leads to, size() and capacity() of an architecture whose leaves' capacities
    add up to a [usize] are the exact sums, in debug and release builds alike. *)
Theorem C53_no_overflow_in_any_architecture : forall K (OK : Ord K) (EK : OrdEq K) V dup (a : arch K V) s M A,
  right_up_to M A -> reaches dup a s -> leaves_capacity a <= M ->
  machine_size A a s = Ok (size (block a) s) /\ machine_capacity A a s = Ok (leaves_capacity a).
Proof.
  intros K OK EK V dup a s M A HA Hr HM. destruct (C21_size_within_constant_capacity Hr) as [H1 H2].
  split; [apply (@C53_nested_size_exact M A HA); lia|]. rewrite <- H2. apply (@C53_nested_capacity_exact M A HA). lia.
Qed.

Section Beyond.
Context {K V : Type} {OK : Ord K} {EK : OrdEq K} {OV : Ord V}.
Variable srt : Sorter (K * V) V snd.
Variable bs : BSearch K.
Lemma usum_debug_panics M : forall l acc, acc <= M -> M < acc + list_sum l -> usum_from (debug_arith M) acc l = Panic.
Proof.
  induction l as [|x l IH]; intros acc Ha H; cbn [usum_from list_sum fold_right] in *; [lia|].
  change (fold_right Nat.add 0 l) with (list_sum l) in *. cbn [debug_arith uadd].
  destruct (acc + x <=? M) eqn:E; cbn [bind]; auto. apply Nat.leb_le in E. apply IH; lia.
Qed.
(** Debug builds: out of range, and only then, a push panics. *)
Theorem C53_debug_push_panics_exactly_out_of_range : forall M cap esz (h : list (op K V)) s out vs,
  cap <= M -> run (ArrayB srt bs) (array_new cap esz) h = Ok (s, out) ->
  (push (MArrayB (debug_arith M) srt bs) s vs = Panic <-> M < sum_sz esz vs).
Proof.
  intros M cap esz h s out vs HM HR.
  destruct (@C02_array_size_exact K V OK EK OV srt bs cap esz h) as (s0 & o0 & R0 & _ & _ & HC).
  rewrite HR in R0. injection R0 as <- _.
  pose proof (@C03_reachable K V OK EK OV srt bs cap esz h s out HR) as Hi.
  assert (HE : a_esz s = esz).
  { assert (G : forall h (t t' : array K V) o, a_inv t -> run (ArrayB srt bs) t h = Ok (t', o) -> a_esz t' = a_esz t).
    { clear - EK. induction h as [|o h IH]; intros t t' r Hi R; cbn [run] in R; [injection R as <- _; auto|].
      destruct (step (ArrayB srt bs) t o) as [[t1 r1]|] eqn:E1; [|discriminate]. cbn [bind] in R.
      destruct (run (ArrayB srt bs) t1 h) as [[t2 r2]|] eqn:E2; [|discriminate]. injection R as <- _.
      assert (N : a_inv t1 /\ a_esz t1 = a_esz t).
      { destruct o as [vs|n|k|ks|]; cbn [step ArrayB push pop take take_multiple flush] in E1.
        - destruct (@a_push_spec K V OV srt t vs Hi) as (s' & out & H1 & H2 & H3 & H4 & _). rewrite H1 in E1. injection E1 as <- <-. auto.
        - destruct (@a_pop_spec K V OV srt t n Hi) as (s' & out & H1 & H2 & H3 & H4 & _). rewrite H1 in E1. injection E1 as <- <-. auto.
        - destruct (a_take_spec k Hi) as (s' & out & H1 & H2 & H3 & H4 & _). rewrite H1 in E1. injection E1 as <- <-. auto.
        - destruct (@a_take_multiple_spec K V OK bs t ks Hi) as (s' & ks' & out & H1 & H2 & H3 & H4 & _). rewrite H1 in E1. injection E1 as <- <-. auto.
        - injection E1 as <- <-. repeat split; cbn; lia. }
      destruct N as [N1 N2]. rewrite <- N2. apply (IH t1 t2 r2 N1 E2). }
    apply (G h (array_new cap esz) s out); auto. apply array_new_inv. }
  cbn [capacity ArrayB] in HC. unfold a_capacity in HC.
  cbn [push MArrayB]. split.
  - intros HP. destruct (Nat.le_gt_cases (sum_sz esz vs) M) as [L|L]; auto. exfalso.
    rewrite (@ua_push_ok M _ (debug_right M) K V OV srt s vs Hi) in HP by (rewrite ?HE; lia).
    destruct (@a_push_spec K V OV srt s vs Hi) as (s' & o' & H1 & _). congruence.
  - intros HL. unfold ua_push, usum. rewrite usum_debug_panics; auto; [lia|]. cbn [plus]. rewrite HE. exact HL.
Qed.
(** Release builds: an Array of capacity 1 takes in two pairs of sizes [M] and 2, reports the size 1, and holds
    far more than its capacity. *)
Theorem C53_release_push_wraps_refuted : forall M (k1 k2 : K) (v1 v2 : V) (esz : K * V -> nat), 1 <= M ->
  esz (k1, v1) = M -> esz (k2, v2) = 2 ->
  exists s, run (MArrayB (release_arith M) srt bs) (array_new 1 esz) [OpPush [(k1, v1); (k2, v2)]] = Ok (s, []) /\
    a_vals s = [(k1, v1); (k2, v2)] /\ size (MArrayB (release_arith M) srt bs) s = 1 /\
    sum_sz esz (a_vals s) = M + 2.
Proof.
  intros M k1 k2 v1 v2 esz HM H1 H2. eexists. split; [|split; [|split]].
  - cbn [run step MArrayB push]. unfold ua_push, usum, array_new. cbn [a_esz map usum_from]. rewrite H1, H2.
    cbn [release_arith uadd usub a_cap a_total]. cbn [plus]. cbn [bind].
    rewrite (Nat.mod_small M (S M)) by lia. cbn [bind].
    replace ((M + 2) mod S M) with 1.
    2: { replace (M + 2) with (1 + 1 * S M) by lia. rewrite Nat.mod_add by lia. rewrite Nat.mod_small; lia. }
    cbn [bind]. replace ((S (S M) - 0) mod S M) with 1.
    2: { replace (S (S M) - 0) with (1 + 1 * S M) by lia. rewrite Nat.mod_add by lia. rewrite Nat.mod_small; lia. }
    cbn [bind Nat.leb]. rewrite (Nat.mod_small 1 (S M)) by lia. cbn [bind a_vals app]. reflexivity.
  - reflexivity.
  - reflexivity.
  - cbn [a_vals]. rewrite !sum_sz_cons, H1, H2. unfold sum_sz; cbn. lia.
Qed.
End Beyond.

(** Numbers up to 20, in both builds: a push of total size 15 into an Array of capacity 10, a push of total size 21. *)
Definition ov_esz (p : nat * nat) : nat := snd p.
Example C53_example :
  (exists s, run (MArrayB (debug_arith 20) (std_sorter snd) linear_bs) (array_new 10 ov_esz)
      [OpPush [(1, 4); (2, 5)]; OpPush [(3, 8); (4, 7)]; OpPop 1; OpPush [(5, 3)]] = Ok (s, [(1, 4); (2, 5); (3, 8); (4, 7)]) /\
      a_vals s = [(5, 3)]) /\
  run (MArrayB (debug_arith 20) (std_sorter snd) linear_bs) (array_new 10 ov_esz) [OpPush [(1, 20); (2, 1)]] = Panic /\
  (exists s, run (MArrayB (release_arith 20) (std_sorter snd) linear_bs) (array_new 10 ov_esz) [OpPush [(1, 20); (2, 1)]] = Ok (s, []) /\
     size (MArrayB (release_arith 20) (std_sorter snd) linear_bs) s = 0 /\ a_vals s = [(1, 20); (2, 1)]).
Proof. split; [|split]; [eexists; vm_compute; auto|vm_compute; reflexivity|eexists; vm_compute; auto]. Qed.
Example C53_example_history : pushes_fit (K := nat) (V := nat) 20 ov_esz [OpPush [(1, 4); (2, 5)]; OpPush [(3, 8); (4, 7)]; OpPop 1; OpPush [(5, 3)]] /\
  distinct_pushes (K := nat) (V := nat) [OpPush [(1, 4); (2, 5)]; OpPush [(3, 8); (4, 7)]; OpPop 1; OpPush [(5, 3)]].
Proof.
  split; repeat constructor; cbn; try lia; intros H; repeat (destruct H as [H|H]; try discriminate H); auto.
Qed.
