(** PBTree.v -- property theorems: BTree (C07-C10), and C45 on BTree. *)
From Verif Require Import Base PermSolve Block Spec LawsProof Cut CutProof PArray BTree BTreeProof.
Set Implicit Arguments.
Local Arguments leb {A Ord} _ _ : simpl never.

Section PBTree.
Context {K V : Type} {OK : Ord K} {EK : OrdEq K} {OV : Ord V}.
Notation B := (@BTreeB K V OK OV).

(** The caller's discipline: the keys of each pushed vector are pairwise distinct (they may well be held). *)
Definition distinct_pushes (h : list (op K V)) : Prop :=
  Forall (fun o => match o with OpPush vs => NoDup (keys vs) | _ => True end) h.

Lemma btree_run E : forall h (s : btree K V), b_inv E s -> distinct_pushes h ->
  exists s' out, run B s h = Ok (s', out) /\ b_inv E s' /\ b_cap s' = b_cap s /\
    Permutation (out ++ b_ct s') (b_ct s ++ all_given h).
Proof.
  induction h as [|o h IH]; intros s Hi Hd.
  - exists s, []. repeat split; auto; try apply Hi. cbn. rewrite app_nil_r. auto.
  - apply Forall_cons_iff in Hd as [Ho Hd].
    assert (S1 : exists s1 r1, step B s o = Ok (s1, r1) /\ b_inv E s1 /\ b_cap s1 = b_cap s /\
              Permutation (r1 ++ b_ct s1) (b_ct s ++ given o)).
    { destruct o as [vs|n|k|ks|].
      - destruct (@b_push_spec K V OK EK OV E s vs Hi Ho) as (s' & out & H1 & H2 & H3 & H4 & _). exists s', out. auto.
      - apply (step_laws _ (OpPop n) (btree_laws E)); auto.
      - apply (step_laws _ (OpTake k) (btree_laws E)); auto.
      - apply (step_laws _ (OpTakeMultiple ks) (btree_laws E)); auto.
      - apply (step_laws _ OpFlush (btree_laws E)); auto. }
    destruct S1 as (s1 & r1 & E1 & I1 & C1 & P1). destruct (IH s1 I1 Hd) as (s2 & r2 & E2 & I2 & C2 & P2).
    cbn [run]. rewrite E1. cbn [bind]. rewrite E2. cbn [bind]. eexists _, _. split; [reflexivity|].
    split; [auto|]. split; [congruence|]. change (all_given (o :: h)) with (given o ++ all_given h).
    rewrite app_assoc, <- P1, <- !app_assoc, P2. auto.
Qed.

(** C07: no panic, nothing lost or invented, over every history of pushes with distinct keys. *)
Theorem C07_btree_conservation : forall cap esz (h : list (op K V)), distinct_pushes h ->
  exists s out, run B (btree_new cap esz) h = Ok (s, out) /\
    Permutation (all_given h) (b_ct s ++ out).
Proof.
  intros cap esz h Hd. destruct (@btree_new_inv K V OK OV cap esz) as [Hi He].
  destruct (btree_run Hi Hd) as (s & out & H1 & H2 & H3 & H4). exists s, out. split; auto.
  rewrite He in H4. cbn in H4. rewrite <- H4. apply Permutation_app_comm.
Qed.
Theorem C07_btree_flush_returns_all : forall cap esz (h : list (op K V)), distinct_pushes h ->
  exists s out, run B (btree_new cap esz) (h ++ [OpFlush]) = Ok (s, out) /\
    Permutation (all_given h) out /\ size B s = 0 /\ forall k, contains B s k = Ok false.
Proof.
  intros cap esz h Hd. destruct (@btree_new_inv K V OK OV cap esz) as [Hi He].
  destruct (btree_run Hi Hd) as (s & out & H1 & H2 & H3 & H4). rewrite He in H4. cbn in H4.
  destruct (b_flush_spec (E:=esz) (s:=s)) as (s1 & F1 & F2 & F3 & F4 & F5); [apply H2|apply H2|].
  rewrite run_app. rewrite H1. cbn [bind run step]. cbn [BTreeB flush]. rewrite F1. cbn [bind].
  eexists _, _. split; [reflexivity|]. split; [rewrite app_nil_r, H4; auto|]. split; [exact F5|].
  intros k. cbn. unfold b_contains. f_equal. apply has_key_not_in. rewrite <- keys_m2c.
  change (map m2c (b_map s1)) with (b_ct s1). rewrite F4. auto.
Qed.

(** The proviso is necessary: a vector with a repeated key, pushed with room to spare, loses a pair ... *)
Theorem C07_repeated_key_loses_pair_refuted : forall cap esz (k : K) (v1 v2 : V),
  esz (k, v1) + esz (k, v2) < cap ->
  exists s, run B (btree_new cap esz) [OpPush [(k, v1); (k, v2)]; OpFlush] = Ok (s, [(k, v2)]).
Proof.
  intros cap esz k v1 v2 Hlt.
  assert (H1 : (cap <=? esz (k, v1) + (esz (k, v2) + 0)) = false) by (apply Nat.leb_gt; lia).
  assert (H2 : (cap - 0 <? esz (k, v1) + (esz (k, v2) + 0)) = false) by (apply Nat.ltb_ge; lia).
  cbn -[Nat.leb Nat.ltb Nat.sub eqb]. unfold b_push. cbn -[Nat.leb Nat.ltb Nat.sub eqb]. unfold sum_sz.
  cbn -[Nat.leb Nat.ltb Nat.sub eqb]. rewrite H1. unfold sub_chk. cbn -[Nat.ltb Nat.sub eqb].
  rewrite H2. cbn -[eqb]. unfold map_insert. cbn -[eqb]. rewrite eqb_refl. cbn. eexists. reflexivity.
Qed.

(** C08: one pair per key, exact size within the constant capacity. *)
Theorem C08_btree_size_exact_keys_unique : forall cap esz (h : list (op K V)), distinct_pushes h ->
  exists s out, run B (btree_new cap esz) h = Ok (s, out) /\
    NoDup (keys (b_ct s)) /\ size B s = sum_sz esz (b_ct s) /\
    size B s <= capacity B s /\ capacity B s = cap.
Proof.
  intros cap esz h Hd. destruct (@btree_new_inv K V OK OV cap esz) as [Hi He].
  destruct (btree_run Hi Hd) as (s & out & H1 & H2 & H3 & H4). exists s, out. split; auto.
  destruct H2 as (I1 & I2 & I3 & I4). cbn. unfold b_ct at 1. rewrite keys_m2c.
  split; [apply I2|]. cbn in H3. rewrite H3 in *. auto.
Qed.

(** States of the pointwise theorems below: any state some history of distinct pushes leads to. *)
Definition btree_state (esz : K * V -> nat) (s : btree K V) : Prop :=
  exists cap h out, distinct_pushes h /\ run B (btree_new cap esz) h = Ok (s, out).
Lemma btree_state_inv esz s : btree_state esz s -> b_inv esz s.
Proof.
  intros (cap & h & out & Hd & Hr). destruct (@btree_new_inv K V OK OV cap esz) as [Hi He].
  destruct (btree_run Hi Hd) as (s' & out' & H1 & H2 & _). rewrite Hr in H1. inversion H1; subst; auto.
Qed.

Definition by_value_then_key (p : K * V) : V * K := (snd p, fst p).

Lemma s2c_fst (e : (V * K) * nat) : by_value_then_key (s2c e) = fst e.
Proof. destruct e as [[v k] i]. auto. Qed.
Lemma b_ct_set (s : btree K V) : b_idx s -> Permutation (map s2c (b_set s)) (b_ct s).
Proof.
  intros Hi. rewrite <- s2c_s2m. unfold b_ct. apply Permutation_map. apply Hi.
Qed.

(** C09 *)
Theorem C09_btree_pop_order : forall esz (s : btree K V) n, btree_state esz s -> 1 <= n -> n < size B s ->
  exists s' out, pop B s n = Ok (s', out) /\ Permutation (out ++ b_ct s') (b_ct s) /\
    evicts by_value_then_key esz n (b_ct s') out /\
    (* strictly above: ties of values are broken by keys *)
    (forall x y, In x (b_ct s') -> In y out -> leb (by_value_then_key y) (by_value_then_key x) = false).
Proof.
  intros esz s n Hs Hn Hlt. apply btree_state_inv in Hs. destruct Hs as (I1 & I2 & I3 & I4). cbn in Hlt.
  destruct (@b_pop_spec K V OK EK OV esz s n I1 I2 I3) as (s' & out & H1 & H2 & H3 & H4 & H5 & H6 & H7 & H8 & H9 & H10).
  destruct (H10 Hlt) as (x & b & S1 & S2 & S3 & S4). exists s', out. split; [exact H1|]. split; auto.
  pose proof (b_ct_set H3) as P'.
  assert (Hsort : sorted_by fst (b_set s' ++ x :: b)) by (rewrite <- S1; apply I2).
  assert (A1 : forall p q, In p (b_ct s') -> In q out -> leb (by_value_then_key p) (by_value_then_key q) = true).
  { intros p q Hp Hq. apply (Permutation_in _ (Permutation_sym P')) in Hp. apply in_map_iff in Hp as (ep & <- & Hp).
    rewrite S2 in Hq. apply in_map_iff in Hq as (eq & <- & Hq). rewrite !s2c_fst.
    apply (sorted_app_le _ _ Hsort); auto. }
  split; [split; [auto|split]|].
  - destruct S4 as [S4|S4]; [rewrite S2; auto|]. pose proof (sum_sz_perm esz H6) as Hsum.
    rewrite sum_sz_app in Hsum. rewrite S4 in P'. cbn in P'. apply Permutation_nil in P'. rewrite P' in Hsum.
    unfold sum_sz at 2 in Hsum. cbn in Hsum. lia.
  - exists (s2c x), (map s2c b). split; [rewrite S2; auto|]. split.
    + intros y Hy. apply in_map_iff in Hy as (e & <- & He). rewrite !s2c_fst.
      assert (Hs2 : sorted_by fst (x :: b)).
      { clear - Hsort. induction (b_set s') as [|z l IH]; auto. inversion Hsort; auto. }
      apply (sorted_head_le Hs2). right; auto.
    + destruct S3 as [->|]; auto.
  - intros p q Hp Hq. destruct (leb (by_value_then_key q) (by_value_then_key p)) eqn:E; auto. exfalso.
    assert (E2 : snd (by_value_then_key p) = snd (by_value_then_key q)).
    { apply lex_eqb_key. unfold eqb. rewrite E. rewrite A1; auto. }
    cbn in E2. assert (ND : NoDup (keys (out ++ b_ct s'))).
    { apply (nodup_keys_perm (Permutation_sym H6)). unfold b_ct. rewrite keys_m2c. apply I2. }
    rewrite keys_app in ND. apply NoDup_app_inv in ND as (_ & _ & D). apply (D (fst q)).
    + exact (List.in_map fst _ _ Hq).
    + rewrite <- E2. exact (List.in_map fst _ _ Hp).
Qed.
Theorem C09_btree_pop_all : forall esz (s : btree K V) n, btree_state esz s -> size B s <= n ->
  exists s' out, pop B s n = Ok (s', out) /\ Permutation out (b_ct s) /\ b_ct s' = [].
Proof.
  intros esz s n Hs Hle. apply btree_state_inv in Hs. destruct Hs as (I1 & I2 & I3 & I4). cbn in Hle.
  destruct (@b_pop_spec K V OK EK OV esz s n I1 I2 I3) as (s' & out & H1 & H2 & H3 & H4 & H5 & H6 & H7 & H8 & H9 & H10).
  exists s', out. split; [exact H1|]. rewrite (H9 Hle) in *. rewrite app_nil_r in H6. auto.
Qed.

(** C45 on BTree: asked to free nothing, every BTree of non-zero size evicts one element, the greatest. *)
Theorem C45_btree_pop_zero_evicts_one : forall esz (s : btree K V), btree_state esz s -> 0 < size B s ->
  exists s' victim, pop B s 0 = Ok (s', [victim]) /\ Permutation (victim :: b_ct s') (b_ct s) /\
    forall x, In x (b_ct s') -> leb (by_value_then_key x) (by_value_then_key victim) = true.
Proof.
  intros esz s Hs Hpos. apply btree_state_inv in Hs. destruct Hs as (I1 & I2 & I3 & I4). cbn in Hpos.
  destruct (@b_pop_spec K V OK EK OV esz s 0 I1 I2 I3) as (s' & out & H1 & H2 & H3 & H4 & H5 & H6 & H7 & H8 & H9 & H10).
  destruct (H10 Hpos) as (x & b & S1 & S2 & S3 & S4). destruct S3 as [->|S3]; [|lia]. cbn [map] in S2. subst out.
  exists s', (s2c x). split; [exact H1|]. split; [exact H6|]. intros y Hy.
  apply (Permutation_in _ (Permutation_sym (b_ct_set H3))) in Hy. apply in_map_iff in Hy as (e & <- & He). rewrite !s2c_fst.
  assert (Hsort : sorted_by fst (b_set s' ++ [x])) by (rewrite <- S1; apply I2).
  apply (sorted_app_le _ _ Hsort); auto. left. auto.
Qed.

(** C10 *)
Theorem C10_btree_push_replaces : forall esz (s : btree K V) vs, btree_state esz s ->
  NoDup (keys vs) -> sum_sz esz vs < capacity B s ->
  exists s' out, push B s vs = Ok (s', out) /\
    incl vs (b_ct s') /\
    (forall k v, In (k, v) (b_ct s) -> In k (keys vs) -> In (k, v) out) /\
    Permutation (out ++ b_ct s') (b_ct s ++ vs).
Proof.
  intros esz s vs Hs Hd Hlt. apply btree_state_inv in Hs.
  destruct (@b_push_spec K V OK EK OV esz s vs Hs Hd) as (s' & out & H1 & H2 & H3 & H4 & H5).
  destruct (H5 Hlt) as [H6 H7]. exists s', out. split; [exact H1|]. split; [exact H6|]. split; [|exact H4].
  intros k v Hin Hk. apply H7; auto.
Qed.
End PBTree.

(** ... corrupts size() (an empty BTree that reports size 1) ... *)
Theorem C08_repeated_key_corrupts_size_refuted : exists (s : btree nat nat) out,
  run BTreeB (btree_new 10 (fun _ => 1)) [OpPush [(1, 10); (1, 20)]; OpPop 1] = Ok (s, out) /\
  b_ct s = [] /\ size BTreeB s = 1.
Proof. eexists _, _. vm_compute. auto. Qed.
(** ... or makes a later pop panic. *)
Theorem C07_repeated_key_panics_refuted :
  run BTreeB (btree_new 10 (fun _ : nat * nat => 1)) [OpPush [(1, 20); (1, 10)]; OpPop 1] = Panic.
Proof. reflexivity. Qed.
(** A push that fills the BTree may hand back two pairs with one key (the old one and the new one): callers
    that feed what comes out into another BTree break its discipline. *)
Theorem C10_overflowing_push_returns_repeated_key : exists (s : btree nat nat),
  run BTreeB (btree_new 2 (fun _ => 1)) [OpPush [(1, 5)]; OpPush [(1, 9); (2, 4); (3, 3)]] = Ok (s, [(1, 5); (1, 9)]).
Proof. eexists. vm_compute. auto. Qed.
(** C45 on BTree. *)
Theorem C45_btree_pop_zero_refuted : exists (s s' : btree nat nat) victim,
  run BTreeB (btree_new 2 (fun _ => 1)) [OpPush [(1, 10)]] = Ok (s, []) /\ pop BTreeB s 0 = Ok (s', [victim]).
Proof. eexists _, _, _. split; reflexivity. Qed.

(** Non-vacuity: distinct pushes with held keys, replacement, eviction and pops. *)
Definition btree_h : list (op nat nat) :=
  [OpPush [(1, 10); (2, 20); (3, 30)]; OpPush [(2, 5); (4, 40)]; OpTake 1; OpPush [(5, 50)]].
Example btree_h_ok : distinct_pushes btree_h.
Proof. repeat constructor; cbn; intuition congruence. Qed.
Example btree_h_run : exists s, run BTreeB (btree_new 4 (fun _ => 1)) btree_h = Ok (s, [(2, 20); (1, 10)]) /\
  Permutation (b_ct s) [(2, 5); (3, 30); (4, 40); (5, 50)].
Proof. eexists. split; [vm_compute; reflexivity|]. vm_compute. auto. Qed.
Example c09_c10_case : exists s : btree nat nat, btree_state (fun _ => 1) s /\ 2 < size BTreeB s /\
  NoDup (keys [(5, 1); (6, 2)]) /\ sum_sz (fun _ : nat * nat => 1) [(5, 1); (6, 2)] < capacity BTreeB s.
Proof.
  eexists. split. { exists 4, btree_h. eexists. split; [apply btree_h_ok|vm_compute; reflexivity]. }
  vm_compute. repeat split; try lia. repeat constructor; cbn; intuition congruence.
Qed.

Print Assumptions C07_btree_conservation.
Print Assumptions C07_repeated_key_loses_pair_refuted.
Print Assumptions C08_btree_size_exact_keys_unique.
Print Assumptions C09_btree_pop_order.
Print Assumptions C10_btree_push_replaces.
