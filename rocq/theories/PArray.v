(** PArray.v -- property theorems: Array (C01-C04), the cut helper (C44), pop(0) on Array (C45). *)
From Verif Require Import Base PermSolve Block Spec LawsProof Cut CutProof Array ArrayProof.
Set Implicit Arguments.

Lemma sorted_app_le {T A} {O : Ord A} (f : T -> A) (a b : list T) :
  sorted_by f (a ++ b) -> forall x y, In x a -> In y b -> leb (f x) (f y) = true.
Proof.
  unfold sorted_by. induction a as [|z a IH]; cbn; intros H x y Hx Hy; [tauto|].
  inversion H as [|? ? H1 H2]; subst. destruct Hx as [->|Hx]; eauto.
  rewrite Forall_forall in H2. apply H2. apply in_or_app; auto.
Qed.
Lemma sorted_skipn {T A} {O : Ord A} (f : T -> A) i (l : list T) : sorted_by f l -> sorted_by f (skipn i l).
Proof.
  unfold sorted_by. intros H. revert i. induction H as [|x l H1 IH H2]; intros [|i]; cbn; auto; constructor; auto.
Qed.
Lemma sorted_head_le {T A} {O : Ord A} (f : T -> A) x (l : list T) :
  sorted_by f (x :: l) -> forall y, In y (x :: l) -> leb (f x) (f y) = true.
Proof.
  intros H y [->|Hy]; [apply leb_refl|]. inversion H as [|? ? H1 H2]; subst. rewrite Forall_forall in H2. auto.
Qed.

(** A set of victims [out] taken from a container, leaving [kept], to free [n]: the specification of
    "evict the greatest, enough of them, and no more than needed". *)
Definition evicts {T A} {O : Ord A} (value : T -> A) (sz : T -> nat) (n : nat) (kept out : list T) : Prop :=
  (forall x y, In x kept -> In y out -> leb (value x) (value y) = true) /\
  n <= sum_sz sz out /\
  exists smallest rest, Permutation out (smallest :: rest) /\
    (forall y, In y rest -> leb (value smallest) (value y) = true) /\
    sum_sz sz rest < n.

Lemma skipn_skipn {T} x y (l : list T) : skipn x (skipn y l) = skipn (x + y) l.
Proof.
  revert l; induction y as [|y IH]; intros l; cbn [skipn]; [rewrite Nat.add_0_r; auto|].
  rewrite Nat.add_succ_r. destruct l; cbn [skipn]; [apply skipn_nil|apply IH].
Qed.
Lemma sum_sz_split {T} (sz : T -> nat) i (vs : list T) : sum_sz sz vs = sum_sz sz (firstn i vs) + sum_sz sz (skipn i vs).
Proof. rewrite <- sum_sz_app, firstn_skipn. auto. Qed.

(** Cutting a sorted vector at the index computed by the helper evicts properly. *)
Lemma cut_evicts {T A} {O : Ord A} (value : T -> A) (sz : T -> nat) n vals i c e :
  sorted_by value vals -> 1 <= n -> n <= sum_sz sz vals ->
  find_cut_at_size vals sz n = (i, c, e) ->
  evicts value sz n (firstn i vals) (skipn i vals) /\ c = sum_sz sz (skipn i vals).
Proof.
  intros Hs Hn Hle F. apply find_cut_spec in F. destruct F as (Hc & He & Hr & Hl & Hmin).
  assert (Hne : vals <> []) by (intros ->; unfold sum_sz in Hle; cbn in Hle; lia).
  specialize (Hl Hne). specialize (Hmin Hne). split; [|auto]. split; [|split].
  - apply sorted_app_le. rewrite firstn_skipn. auto.
  - destruct Hr as [Hr|Hr]; [lia|]. rewrite Hr. cbn. auto.
  - destruct (skipn i vals) as [|x b] eqn:E.
    + apply (f_equal (@length T)) in E. rewrite skipn_length in E. cbn in E. lia.
    + exists x, b. split; auto. pose proof (sorted_skipn i Hs) as Hs2. rewrite E in Hs2. split.
      * intros y Hy. apply (sorted_head_le Hs2). right; auto.
      * assert (E2 : skipn (S i) vals = b).
        { replace (S i) with (1 + i) by lia. rewrite <- skipn_skipn. rewrite E. auto. }
        rewrite E2 in Hmin. destruct Hmin as [->|]; auto.
Qed.

Section PArray.
Context {K V : Type} {OK : Ord K} {EK : OrdEq K} {OV : Ord V}.
Variable srt : Sorter (K * V) V snd.
Variable bs : BSearch K.
Notation B := (ArrayB srt bs).

(** C01: for every capacity, size function and history: no panic, and everything pushed is either still
    held or has been handed back, exactly once. *)
Theorem C01_array_conservation : forall cap esz (h : list (op K V)),
  exists s out, run B (array_new cap esz) h = Ok (s, out) /\
    Permutation (all_given h) (a_vals s ++ out).
Proof.
  intros cap esz h. destruct (array_new_inv (K:=K) (V:=V) cap esz) as [Hi He].
  destruct (run_laws (array_laws srt bs) h _ Hi (allowed_all _ _ _ _)) as (s & out & H1 & H2 & H3 & H4).
  exists s, out. split; auto. rewrite He in H4. cbn in H4. rewrite <- H4. apply Permutation_app_comm.
Qed.

Theorem C01_array_flush_returns_all : forall cap esz (h : list (op K V)),
  exists s out, run B (array_new cap esz) (h ++ [OpFlush]) = Ok (s, out) /\
    Permutation (all_given h) out /\ a_vals s = [] /\ size B s = 0.
Proof.
  intros cap esz h. destruct (array_new_inv (K:=K) (V:=V) cap esz) as [Hi He].
  destruct (run_laws (array_laws srt bs) h _ Hi (allowed_all _ _ _ _)) as (s & out & H1 & H2 & H3 & H4).
  rewrite He in H4. cbn in H4. rewrite run_app. rewrite H1. cbn.
  eexists _, _. split; [reflexivity|]. cbn. repeat split. rewrite app_nil_r, H4. auto.
Qed.

(** C02: size() is exact and within a constant capacity() at every point of every history (every prefix of
    a history is a history). *)
Theorem C02_array_size_exact : forall cap esz (h : list (op K V)),
  exists s out, run B (array_new cap esz) h = Ok (s, out) /\
    size B s = sum_sz esz (a_vals s) /\ size B s <= capacity B s /\ capacity B s = cap.
Proof.
  intros cap esz h.
  assert (L : forall h (s : array K V), a_inv s -> exists s' out, run B s h = Ok (s', out) /\ a_inv s' /\
            a_cap s' = a_cap s /\ a_esz s' = a_esz s).
  { clear h cap esz. induction h as [|o h IH]; intros s Hi.
    - exists s, []. auto.
    - assert (S1 : exists s1 r1, step B s o = Ok (s1, r1) /\ a_inv s1 /\ a_cap s1 = a_cap s /\ a_esz s1 = a_esz s).
      { destruct o as [vs|n|k|ks|]; cbn [step ArrayB push pop take take_multiple flush].
        - destruct (a_push_spec srt vs Hi) as (s' & o & H1 & H2 & H3 & H4 & _). eauto 7.
        - destruct (a_pop_spec srt n Hi) as (s' & o & H1 & H2 & H3 & H4 & _). eauto 7.
        - destruct (a_take_spec k Hi) as (s' & o & H1 & H2 & H3 & H4 & _). rewrite H1. cbn. eauto 7.
        - destruct (a_take_multiple_spec bs ks Hi) as (s' & ks' & o & H1 & H2 & H3 & H4 & _). rewrite H1. cbn. eauto 7.
        - eexists _, _. split; [reflexivity|]. unfold a_inv; cbn. repeat split; auto; lia. }
      destruct S1 as (s1 & r1 & E1 & I1 & C1 & Z1). destruct (IH s1 I1) as (s2 & r2 & E2 & I2 & C2 & Z2).
      cbn [run]. rewrite E1. cbn [bind]. rewrite E2. cbn [bind]. eexists _, _. split; [reflexivity|].
      split; [auto|]. split; congruence. }
  destruct (array_new_inv (K:=K) (V:=V) cap esz) as [Hi He].
  destruct (L h _ Hi) as (s & out & H1 & [H2 H2'] & H3 & H4). exists s, out. split; [exact H1|].
  cbn in H3, H4. cbn. unfold a_size, a_capacity. rewrite H4 in H2. rewrite H3 in *. auto.
Qed.

(** C03 *)
Theorem C03_array_pop_order : forall (s : array K V) n, a_inv s -> 1 <= n -> n < size B s ->
  exists s' out, pop B s n = Ok (s', out) /\ Permutation (out ++ a_vals s') (a_vals s) /\
    evicts (@snd K V) (a_esz s) n (a_vals s') out.
Proof.
  intros s n [Ht Hc] Hn Hlt. cbn in *. unfold a_size in Hlt. unfold a_pop.
  destruct (a_vals s) as [|x l] eqn:E; [unfold sum_sz in Ht; cbn in Ht; lia|].
  rewrite <- E in *. replace (a_total s <=? n) with false by (symmetry; apply Nat.leb_gt; auto).
  set (vals := srt (a_vals s)). assert (P : Permutation vals (a_vals s)) by apply sort_perm.
  destruct (find_cut_at_size vals (a_esz s) n) as [[i c] e] eqn:F.
  destruct (cut_evicts (a_esz s) (vals:=vals) (sort_sorted srt _) Hn (ltac:(rewrite (sum_sz_perm _ P); lia)) F) as [Hev ->].
  pose proof (sum_sz_split (a_esz s) i vals) as Hs. rewrite (sum_sz_perm _ P) in Hs.
  unfold sub_chk. destruct (_ <=? a_total s) eqn:L2; [|apply Nat.leb_gt in L2; lia].
  cbn. eexists _, _. split; [reflexivity|]. cbn. split; auto.
  rewrite Permutation_app_comm, firstn_skipn. auto.
Qed.
Theorem C03_array_pop_all : forall (s : array K V) n, a_inv s -> size B s <= n ->
  exists s', pop B s n = Ok (s', a_vals s) /\ a_vals s' = [] /\ size B s' = 0.
Proof.
  intros s n [Ht Hc] Hle. cbn in *. unfold a_size in *. unfold a_pop. destruct (a_vals s) as [|x l] eqn:E.
  - exists s. rewrite E. repeat split; auto.
  - replace (a_total s <=? n) with true by (symmetry; apply Nat.leb_le; auto). eexists. split; [reflexivity|]. auto.
Qed.
(** The states of C03 and C04 are those of any history. *)
Theorem C03_reachable : forall cap esz (h : list (op K V)) s out,
  run B (array_new cap esz) h = Ok (s, out) -> a_inv s.
Proof.
  intros cap esz h s out H. destruct (array_new_inv (K:=K) (V:=V) cap esz) as [Hi He].
  destruct (run_laws (array_laws srt bs) h _ Hi (allowed_all _ _ _ _)) as (s1 & o1 & H1 & H2 & _).
  rewrite H in H1. inversion H1; subst; auto.
Qed.

(** C04, case by case on the total size [sum_sz esz vs] of what is pushed. *)
Theorem C04_push_fits : forall (s : array K V) vs, a_inv s ->
  sum_sz (a_esz s) vs + size B s <= capacity B s ->
  exists s', push B s vs = Ok (s', []) /\ Permutation (a_vals s') (a_vals s ++ vs).
Proof.
  intros s vs [Ht Hc] Hle. cbn in *. unfold a_size, a_capacity in *. unfold a_push, sub_chk.
  replace (a_total s <=? a_cap s) with true by (symmetry; apply Nat.leb_le; auto). cbn.
  replace (_ <=? _) with true by (symmetry; apply Nat.leb_le; lia). eexists. split; [reflexivity|]. auto.
Qed.
Theorem C04_push_exact : forall (s : array K V) vs, a_inv s ->
  sum_sz (a_esz s) vs = capacity B s -> 0 < size B s ->
  exists s', push B s vs = Ok (s', a_vals s) /\ a_vals s' = vs.
Proof.
  intros s vs [Ht Hc] Heq Hpos. cbn in *. unfold a_size, a_capacity in *. unfold a_push, sub_chk.
  replace (a_total s <=? a_cap s) with true by (symmetry; apply Nat.leb_le; auto). cbn [bind].
  replace (_ <=? _) with false by (symmetry; apply Nat.leb_gt; lia).
  replace (_ =? _) with true by (symmetry; apply Nat.eqb_eq; lia). eexists. split; [reflexivity|]. auto.
Qed.
Theorem C04_push_larger_than_capacity : forall (s : array K V) vs, a_inv s ->
  capacity B s < sum_sz (a_esz s) vs ->
  exists s' refused, push B s vs = Ok (s', a_vals s ++ refused) /\
    Permutation (refused ++ a_vals s') vs /\
    evicts (@snd K V) (a_esz s) (sum_sz (a_esz s) vs - capacity B s) (a_vals s') refused.
Proof.
  intros s vs [Ht Hc] Hlt. cbn in *. unfold a_capacity in *. unfold a_push. set (sz := sum_sz (a_esz s) vs) in *.
  unfold sub_chk at 1. replace (a_total s <=? a_cap s) with true by (symmetry; apply Nat.leb_le; auto). cbn [bind].
  replace (sz <=? _) with false by (symmetry; apply Nat.leb_gt; lia).
  replace (sz =? _) with false by (symmetry; apply Nat.eqb_neq; lia).
  replace (_ <? sz) with true by (symmetry; apply Nat.ltb_lt; lia).
  set (els := stable_sort snd vs). assert (P : Permutation els vs) by apply stable_sort_perm.
  destruct (find_cut_at_size els (a_esz s) (sz - a_cap s)) as [[i c] e] eqn:F.
  destruct (cut_evicts (a_esz s) (vals:=els) (stable_sort_sorted _ _) (ltac:(lia) : 1 <= sz - a_cap s)
    (ltac:(rewrite (sum_sz_perm _ P); fold sz; lia)) F) as [Hev ->].
  pose proof (sum_sz_split (a_esz s) i els) as Hs. rewrite (sum_sz_perm _ P) in Hs. fold sz in Hs.
  unfold sub_chk. destruct (_ <=? sz) eqn:L2; [|apply Nat.leb_gt in L2; lia].
  cbn. eexists _, _. split; [reflexivity|]. cbn. split; auto.
  rewrite Permutation_app_comm, firstn_skipn. auto.
Qed.
(** Otherwise all of [vs] is stored, and the victims are old elements making just enough room. *)
Theorem C04_push_evicts_old : forall (s : array K V) vs, a_inv s ->
  sum_sz (a_esz s) vs < capacity B s -> capacity B s < sum_sz (a_esz s) vs + size B s ->
  exists s' old out, push B s vs = Ok (s', out) /\ Permutation (a_vals s') (old ++ vs) /\
    Permutation (out ++ old) (a_vals s) /\
    (evicts (@snd K V) (a_esz s) (sum_sz (a_esz s) vs + size B s - capacity B s) old out).
Proof.
  intros s vs Hi Hlt Hgt. destruct Hi as [Ht Hc]. cbn in *. unfold a_capacity, a_size in *. unfold a_push.
  set (sz := sum_sz (a_esz s) vs) in *.
  unfold sub_chk at 1. replace (a_total s <=? a_cap s) with true by (symmetry; apply Nat.leb_le; auto). cbn [bind].
  set (n := sz - (a_cap s - a_total s)).
  replace (sz <=? _) with false by (symmetry; apply Nat.leb_gt; lia).
  replace (sz =? _) with false by (symmetry; apply Nat.eqb_neq; lia).
  replace (_ <? sz) with false by (symmetry; apply Nat.ltb_ge; lia).
  destruct (@C03_array_pop_order s n) as (s1 & out & H1 & H2 & H3).
  { split; auto. }
  { lia. }
  { cbn. unfold a_size. lia. }
  cbn in H1. fold n. rewrite H1. cbn [bind]. exists (mkArray (a_cap s1) (a_total s1 + sz) (a_vals s1 ++ vs) (a_esz s1)), (a_vals s1), out.
  split; [reflexivity|]. cbn. split; auto. split; auto.
  replace (sz + a_total s - a_cap s) with n by lia. auto.
Qed.

(** C45 on Array: asked to free nothing, a non-empty Array of non-zero size evicts one element, of greatest
    value; so "pop(0) evicts nothing" is refuted. *)
Theorem C45_array_pop_zero_evicts_one : forall (s : array K V), a_inv s -> 0 < size B s ->
  exists s' victim, pop B s 0 = Ok (s', [victim]) /\ Permutation (victim :: a_vals s') (a_vals s) /\
    forall x, In x (a_vals s') -> leb (snd x) (snd victim) = true.
Proof.
  intros s [Ht Hc] Hpos. cbn in *. unfold a_size in Hpos. unfold a_pop.
  destruct (a_vals s) as [|x0 l0] eqn:E; [unfold sum_sz in Ht; cbn in Ht; lia|]. rewrite <- E in *.
  replace (a_total s <=? 0) with false by (symmetry; apply Nat.leb_gt; auto).
  set (vals := srt (a_vals s)). assert (P : Permutation vals (a_vals s)) by apply sort_perm.
  pose proof (sort_sorted srt (a_vals s)) as Hs. fold vals in Hs.
  destruct (@exists_last _ vals) as (a & x & Ev).
  { intros E2. rewrite E2 in P. apply Permutation_nil in P. rewrite P in E; discriminate. }
  unfold find_cut_at_size. rewrite Ev, rev_app_distr. cbn [rev app cut_loop].
  replace (_ <? 0) with false by (symmetry; apply Nat.ltb_ge; lia). rewrite rev_length. cbn [Nat.add].
  rewrite firstn_app, firstn_all, Nat.sub_diag. cbn [firstn]. rewrite app_nil_r.
  rewrite skipn_app, skipn_all, Nat.sub_diag. cbn [skipn app].
  rewrite Ev in P, Hs. pose proof (sum_sz_perm (a_esz s) P) as Hsum. rewrite sum_sz_app in Hsum.
  unfold sum_sz in Hsum at 2. cbn in Hsum. unfold sub_chk. destruct (_ <=? a_total s) eqn:L2; [|apply Nat.leb_gt in L2; lia].
  cbn. eexists _, _. split; [reflexivity|]. cbn. split.
  - rewrite <- P. perm0.
  - intros y Hy. apply (sorted_app_le _ _ Hs); auto. left; auto.
Qed.
End PArray.

Theorem C45_pop_zero_refuted : exists (s s' : array nat nat) victim,
  run (ArrayB (std_sorter snd) linear_bs) (array_new 2 (fun _ => 1)) [OpPush [(1, 10)]] = Ok (s, []) /\
  pop (ArrayB (std_sorter snd) linear_bs) s 0 = Ok (s', [victim]).
Proof. eexists _, _, _. split; reflexivity. Qed.

(** C44 *)
Theorem C44_cut_is_shortest_suffix : forall {T} (sz : T -> nat) n (vs : list T) i c e,
  1 <= n -> find_cut_at_size vs sz n = (i, c, e) ->
  c = sum_sz sz (skipn i vs) /\
  (vs <> [] -> e = nth_error vs i /\ i < length vs) /\
  (n <= sum_sz sz vs -> n <= c /\ forall j, i < j -> sum_sz sz (skipn j vs) < n) /\
  (sum_sz sz vs < n -> i = 0 /\ c = sum_sz sz vs).
Proof.
  intros T sz n vs i c e Hn F. apply find_cut_spec in F. destruct F as (Hc & He & Hr & Hl & Hmin).
  assert (mono : forall j l, sum_sz sz (skipn j l) <= sum_sz sz l).
  { intros j l. rewrite (sum_sz_split sz j l). lia. }
  split; auto. split; [intros H; split; auto|]. split.
  - intros Hle. assert (Hne : vs <> []) by (intros ->; unfold sum_sz in Hle; cbn in Hle; lia).
    specialize (Hmin Hne). split.
    + destruct Hr as [Hr|Hr]; auto. subst i. cbn [skipn] in Hc. lia.
    + intros j Hj. replace j with ((j - S i) + S i) by lia. rewrite <- skipn_skipn.
      pose proof (mono (j - S i) (skipn (S i) vs)). destruct Hmin as [Hm|Hm]; [|lia].
      rewrite Hm in *. unfold sum_sz in *; cbn in *. lia.
  - intros Hlt. destruct Hr as [Hr|Hr].
    + pose proof (mono i vs). lia.
    + subst i. cbn in Hc. auto.
Qed.

(** Non-vacuity: a run that overflows, evicts by value, takes and flushes. *)
Example array_run : exists s,
  run (ArrayB (std_sorter snd) linear_bs) (array_new 3 (fun _ => 1))
    [OpPush [(1, 30); (2, 10)]; OpPush [(3, 20); (4, 5)]; OpTake 2; OpTakeMultiple [4; 9]; OpPush [(5, 7); (6, 8)]; OpPop 2]
  = Ok (s, [(1, 30); (2, 10); (4, 5); (6, 8); (3, 20)]) /\ a_vals s = [(5, 7)] /\ a_inv s.
Proof. eexists. split; [vm_compute; reflexivity|]. vm_compute. repeat split; lia. Qed.
Example c03_case : exists s, a_inv s /\ 1 <= 2 /\ 2 < size (ArrayB (std_sorter snd) linear_bs) s /\
  pop (ArrayB (std_sorter snd) linear_bs) s 2 <> Panic.
Proof. exists (mkArray 9 9 [(1, 3); (2, 5); (3, 4)] (fun _ => 3)). vm_compute. repeat split; try lia. discriminate. Qed.
Example c04_cases : let s0 := mkArray 9 6 [(1, 3); (2, 5)] (fun p => snd p - 1) in
  a_inv s0 /\ 9 < sum_sz (a_esz s0) [(3, 6); (4, 6)] /\
  (sum_sz (a_esz s0) [(3, 6)] < 9 /\ 9 < sum_sz (a_esz s0) [(3, 6)] + 6) /\ sum_sz (a_esz s0) [(3, 10)] = 9.
Proof. vm_compute. repeat split; lia. Qed.

Print Assumptions C01_array_conservation.
Print Assumptions C02_array_size_exact.
Print Assumptions C03_array_pop_order.
Print Assumptions C04_push_evicts_old.
Print Assumptions C44_cut_is_shortest_suffix.
Print Assumptions C45_array_pop_zero_evicts_one.
