(** PLevels.v -- C63: a hierarchy of Lru levels is one Lru cache of the total capacity. *)
From Verif Require Import Base PermSolve Block Spec LawsProof Cut Array ArrayProof BTree BTreeProof
  Batch Exclusive ExclusiveProof Wrappers Associative WrappersProof Arch ArchProof PArch Get GetProof PGet
  Decorations Repr ReprProof Minus Alike PRepr ReprGet PReprGet Levels.
Set Implicit Arguments.

Section PLevels.
Context {K : Type} {OK : Ord K} {EK : OrdEq K}.

(** What the tree holds, newest first: the front has the newest, and is full if anything is behind it. *)
Fixpoint str {V} (a : arch K V) : St (block a) -> list (K * V) -> Prop :=
  match a in arch _ V return St (block a) -> list (K * V) -> Prop with
  | AExclusive _ l r => fun s x => exists x1 x2, x = x1 ++ x2 /\ str l (@fst (St (block l)) (St (block r)) s) x1 /\
      str r (@snd (St (block l)) (St (block r)) s) x2 /\ (x2 = [] \/ length x1 = leaves_capacity l)
  | AFlushStopper a => str a
  | ASequential a => str a
  | ADyn a => str a
  | ARemote a => str a
  | AProfiler a => fun s => str a (@snd stats (St (block a)) s)
  | a => fun s x => ainv false a s /\ capacity (block a) s = leaves_capacity a /\ Permutation (held a s) x /\ length x <= leaves_capacity a
  end.

Section Ranked.
Context {D : Type}.
Variable stamp : D -> nat.
Notation O := (later_first stamp).
Local Hint Extern 0 (Ord D) => exact (later_first stamp) : typeclass_instances.
Implicit Types (x y : list (K * D)) (p q z : K * D).

(** Latest stamp first. *)
Definition ranked x : Prop := StronglySorted (fun p q => stamp (snd q) < stamp (snd p)) x.
Notation apart := (@apart K D (later_first stamp)).
Definition but (k : K) x : list (K * D) := without (fun j => eqb j k) x.

Lemma str_leaf cap (a : arch K D) s x : leaf_of O cap (fun _ => 1) a ->
  str a s x <-> ainv false a s /\ capacity (block a) s = leaves_capacity a /\ Permutation (held a s) x /\ length x <= leaves_capacity a.
Proof. intros La. revert s. destruct La as [srt bs|]; intros s; cbn [str]; tauto. Qed.
Lemma str_held (a : arch K D) : levels O a -> forall s x, str a s x -> Permutation (held a s) x /\ length x <= leaves_capacity a.
Proof.
  induction 1 as [cap a La|bs l r Hl IHl Hr IHr Hc|a H IH|a a' H IH W]; intros s x Hs.
  - rewrite (str_leaf s x La) in Hs. tauto.
  - destruct Hs as (x1 & x2 & -> & H1 & H2 & _). destruct (IHl _ _ H1), (IHr _ _ H2). cbn [held leaves_capacity]. rewrite app_length. split; [|lia].
    apply Permutation_app; auto.
  - apply IH; auto.
  - destruct W; cbn [held leaves_capacity str] in *; try (apply IH; auto).
Qed.

(** *** Lists *)
Lemma ranked_sorted x : ranked x -> @sorted_by (K * D) D (later_first stamp) snd x.
Proof.
  intros H. induction H as [|p x H IH F]; [constructor|]. constructor; auto. eapply Forall_impl; [|exact F]. cbn. intros q Hq. apply Nat.leb_le. lia.
Qed.
Lemma ranked_apart x : NoDup (keys x) -> ranked x -> apart x.
Proof.
  intros N H. split; auto. clear N. induction H as [|p x H IH F]; [intros p q []|].
  rewrite Forall_forall in F. intros q r Hq Hr E.
  assert (Es : stamp (snd q) = stamp (snd r)).
  { unfold eqb in E. cbn in E. apply andb_prop in E. destruct E as [E1 E2]. apply Nat.leb_le in E1, E2. lia. }
  destruct Hq as [<-|Hq], Hr as [<-|Hr]; auto.
  - specialize (F r Hr). lia.
  - specialize (F q Hq). lia.
Qed.
Lemma ranked_app x y : ranked (x ++ y) -> ranked x /\ ranked y.
Proof.
  induction x as [|p x IH]; cbn [app]; intros H; [split; [constructor|auto]|].
  apply StronglySorted_inv in H. destruct H as [H F]. destruct (IH H). split; auto. constructor; auto.
  apply Forall_app in F. tauto.
Qed.
Lemma split_full p x n : length x = n -> exists f z, p :: x = f ++ [z] /\ length f = n /\ firstn n (p :: x) = f /\ skipn n (p :: x) = [z].
Proof.
  intros E. destruct (exists_last (l := p :: x)) as (f & z & Ef); [discriminate|]. exists f, z.
  assert (Lf : length f = n). { assert (X : length (p :: x) = length (f ++ [z])) by congruence. rewrite app_length in X. cbn in X. lia. }
  split; auto. split; auto. rewrite Ef, <- Lf. split.
  - rewrite firstn_app, Nat.sub_diag, firstn_all. apply app_nil_r.
  - rewrite skipn_app, Nat.sub_diag, skipn_all. reflexivity.
Qed.
Lemma but_app k x y : but k (x ++ y) = but k x ++ but k y.
Proof. apply without_app. Qed.
Lemma but_absent k x : ~ In k (keys x) -> but k x = x.
Proof. intros N. apply without_none. intros j Hj. destruct (eqb j k) eqn:E; auto. apply eqb_eq in E. subst. contradiction. Qed.
Lemma but_same k d x : but k ((k, d) :: x) = but k x.
Proof. unfold but, without. cbn [filter fst]. assert (E : eqb k k = true) by (apply eqb_eq; auto). rewrite E. auto. Qed.
Lemma but_in k x p : In p (but k x) <-> In p x /\ fst p <> k.
Proof.
  unfold but, without. rewrite filter_In. destruct (eqb (fst p) k) eqn:E; cbn.
  - apply eqb_eq in E. intuition congruence.
  - assert (fst p <> k) by (intros X; apply eqb_eq in X; congruence). tauto.
Qed.
Lemma but_keys k x : keys (but k x) = filter (fun j => negb (eqb j k)) (keys x).
Proof.
  unfold but, without, keys. induction x as [|[j v] x IH]; auto. cbn [filter map fst]. destruct (eqb j k); cbn [negb map fst]; rewrite IH; auto.
Qed.
Lemma but_nodup k x : NoDup (keys x) -> NoDup (keys (but k x)).
Proof. rewrite but_keys. apply NoDup_filter. Qed.
Lemma but_length k x : length (but k x) <= length x.
Proof. unfold but, without. induction x as [|q x IH]; cbn; auto. destruct (negb _); cbn; lia. Qed.
Lemma but_split k d x : NoDup (keys x) -> In (k, d) x -> Permutation x ((k, d) :: but k x).
Proof.
  induction x as [|[j v] x IH]; intros N Hk; [destruct Hk|]. change (NoDup (j :: keys x)) in N. inversion N as [|? ? N1 N2]; subst. destruct Hk as [E|Hk].
  - inversion E; subst. rewrite but_same, but_absent; auto.
  - assert (Nj : j <> k) by (intros ->; apply N1; apply (in_keys _ _ _ Hk)).
    unfold but, without. cbn [filter fst]. destruct (eqb j k) eqn:E; [apply eqb_eq in E; contradiction|]. cbn [negb].
    rewrite perm_swap. constructor. apply IH; auto.
Qed.
Lemma ranked_filter (g : K * D -> bool) x : ranked x -> ranked (filter g x).
Proof.
  induction 1 as [|p x H IH F]; [constructor|]. cbn. destruct (g p); auto. constructor; auto.
  rewrite Forall_forall in *. intros q Hq. apply filter_In in Hq. apply F. tauto.
Qed.
Lemma ranked_but k x : ranked x -> ranked (but k x).
Proof. apply ranked_filter. Qed.
Lemma apart_incl x y : apart y -> incl x y -> NoDup (keys x) -> apart x.
Proof. intros H Hi N. apply (apart_sub H); auto. Qed.

(** *** A leaf *)
Section Leaf.
Variables (cap : nat) (a : arch K D).
Hypothesis La : leaf_of O cap (fun _ => 1) a.
Let one1 : forall e : K * D, 1 <= 1 := fun _ => le_n 1.
Lemma leaf_cap : leaves_capacity a = cap.
Proof. destruct La; reflexivity. Qed.
Lemma sum_one x : sum_sz (fun _ => 1) x = length x.
Proof. apply sum_sz_unit. auto. Qed.
Lemma leaf_push0 s x : ranked x -> NoDup (keys x) -> str a s x -> exists s', push (block a) s [] = Ok (s', []) /\ str a s' x.
Proof.
  intros Rx N H. rewrite (str_leaf s x La) in H. destruct H as (Hi & Hc & P & Hl). destruct (leaf_of_leaf one1 La) as (L & _ & _).
  assert (Ha : apart (held a s ++ [])).
  { rewrite app_nil_r. eapply apart_perm; [symmetry; exact P|]. apply ranked_apart; auto. }
  destruct (lf_push L _ _ Hi Ha) as (s' & o & E & I1 & C1 & Po & Pk). unfold push_evict, push_keep in *.
  change (sum_sz (fun _ => 1) (@nil (K * D))) with 0 in *. cbn [Nat.leb] in *.
  apply Permutation_sym, Permutation_nil in Po. subst o. exists s'. split; auto. rewrite (str_leaf s' x La).
  rewrite app_nil_r in Pk. split; auto. split; [congruence|]. split; auto. rewrite Pk. auto.
Qed.
Lemma leaf_push1 s x p : ranked x -> apart (p :: x) -> str a s x ->
  exists s', push (block a) s [p] = Ok (s', skipn (leaves_capacity a) (p :: x)) /\ str a s' (firstn (leaves_capacity a) (p :: x)).
Proof.
  intros Rx Ha H. rewrite (str_leaf s x La) in H. destruct H as (Hi & Hc & P & Hl). destruct (leaf_of_leaf one1 La) as (L & _ & _).
  assert (Pa : Permutation (held a s ++ [p]) (p :: x)) by (rewrite Permutation_app_comm; cbn; auto).
  assert (Ha' : apart (held a s ++ [p])) by (eapply apart_perm; [symmetry; exact Pa|auto]).
  destruct (lf_push L _ _ Hi Ha') as (s' & o & E & I1 & C1 & Po & Pk). rewrite Hc in *.
  set (n := leaves_capacity a) in *. pose proof (Permutation_length P) as Lp.
  assert (G : Permutation (@push_evict K D O (fun _ => 1) n (held a s) [p]) (skipn n (p :: x)) /\ Permutation (@push_keep K D O (fun _ => 1) n (held a s) [p]) (firstn n (p :: x))).
  { unfold push_evict, push_keep. rewrite !sum_one. change (length [p]) with 1. rewrite Lp.
    destruct (1 <=? n - length x) eqn:E1.
    - apply Nat.leb_le in E1. rewrite skipn_all2, firstn_all2 by (cbn [length]; lia). auto.
    - apply Nat.leb_gt in E1. destruct (1 =? n) eqn:E2.
      + apply Nat.eqb_eq in E2. rewrite <- E2. cbn [skipn firstn]. auto.
      + apply Nat.eqb_neq in E2. destruct (n <? 1) eqn:E3.
        * apply Nat.ltb_lt in E3. assert (n = 0) as -> by lia. assert (x = []) as -> by (destruct x; [auto|cbn in Hl; lia]).
          apply Permutation_sym, Permutation_nil in P. rewrite P. split; [|reflexivity].
          unfold evict. rewrite sum_one. reflexivity.
        * apply Nat.ltb_ge in E3. assert (Ex : length x = n) by lia. rewrite Ex. replace (1 - (n - n)) with 1 by lia.
          assert (Es : @stable_sort _ _ O snd (held a s) = x).
          { apply sorted_unique; [apply stable_sort_sorted|apply ranked_sorted; auto|rewrite stable_sort_perm; auto|].
            eapply apart_perm; [symmetry; apply stable_sort_perm|]. apply (apart_app_l _ _ Ha'). }
          unfold evict, keep. rewrite sum_one, Lp, Es. destruct (length x <=? 1) eqn:E4; [apply Nat.leb_le in E4; lia|].
          destruct (exists_last (l := x)) as (f & z & Ef); [intros ->; cbn in Ex; lia|]. clear Es. subst x.
          assert (Ec : cut_of (fun _ => 1) 1 (f ++ [z]) = length f).
          { apply cut_at with (x := z) (b := []); [auto|]. left. cbn. lia. }
          rewrite Ec. rewrite firstn_app, Nat.sub_diag, firstn_all, skipn_app, Nat.sub_diag, skipn_all. cbn [firstn skipn app].
          rewrite app_length in Ex. cbn [length] in Ex. rewrite app_nil_r.
          rewrite app_comm_cons. rewrite firstn_app, skipn_app. replace (n - length (p :: f)) with 0 by (cbn [length]; lia).
          rewrite (firstn_all2 (p :: f)), (skipn_all2 (p :: f)) by (cbn [length]; lia). cbn [firstn skipn app]. rewrite app_nil_r. split; auto.
          rewrite Permutation_app_comm. reflexivity. }
  destruct G as [G1 G2]. rewrite G1 in Po. rewrite G2 in Pk.
  assert (Eo : o = skipn n (p :: x)).
  { assert (Ls : length (skipn n (p :: x)) <= 1) by (rewrite skipn_length; cbn [length]; lia).
    destruct (skipn n (p :: x)) as [|q [|? ?]]; [apply Permutation_sym, Permutation_nil in Po; auto|apply Permutation_sym, Permutation_length_1_inv in Po; auto|cbn in Ls; lia]. }
  subst o. exists s'. split; auto. rewrite (str_leaf s' _ La). split; auto. split; [exact C1|]. split; auto.
  rewrite firstn_length. lia.
Qed.
Lemma leaf_contains s x k : str a s x -> contains (block a) s k = Ok (has_key k x).
Proof.
  intros H. rewrite (str_leaf s x La) in H. destruct H as (Hi & Hc & P & Hl). rewrite (law_contains (laws_of a) s k Hi). f_equal.
  apply has_key_perm. auto.
Qed.
Lemma leaf_take_miss s x k : str a s x -> ~ In k (keys x) -> exists s', take (block a) s k = Ok (s', None) /\ str a s' x.
Proof.
  intros H N. rewrite (str_leaf s x La) in H. destruct H as (Hi & Hc & P & Hl).
  destruct (law_take (laws_of a) s k Hi) as (s' & o & E & I1 & C1 & _ & Ho). destruct o as [[k' v]|].
  - exfalso. destruct Ho as [-> Ho]. apply N. rewrite <- (keys_perm P), <- (keys_perm Ho). left; auto.
  - destruct Ho as [_ Ho]. exists s'. split; auto. rewrite (str_leaf s' x La). split; auto. split; [congruence|]. split; auto. rewrite Ho. auto.
Qed.
Lemma leaf_take_hit s x k d : str a s x -> NoDup (keys x) -> In (k, d) x ->
  exists s', take (block a) s k = Ok (s', Some (k, d)) /\ str a s' (but k x).
Proof.
  intros H N Hk. rewrite (str_leaf s x La) in H. destruct H as (Hi & Hc & P & Hl).
  destruct (law_take (laws_of a) s k Hi) as (s' & o & E & I1 & C1 & _ & Ho). destruct o as [[k' v]|].
  - destruct Ho as [-> Ho]. rewrite P in Ho.
    assert (v = d) as -> by (eapply keys_nodup_fun; [exact N| |exact Hk]; rewrite <- Ho; left; auto).
    exists s'. split; auto. rewrite (str_leaf s' _ La). split; auto. split; [congruence|].
    assert (Pb : Permutation (held a s') (but k x)).
    { apply Permutation_cons_inv with (a := (k, d)). rewrite Ho. apply but_split; auto. }
    split; auto. pose proof (but_length k x). lia.
  - exfalso. destruct Ho as [X _]. apply X. rewrite (keys_perm P). apply (in_keys _ _ _ Hk).
Qed.
Lemma leaf_get_ok m f s k : ainv false a s -> get_ok (block a) (ainv false a) (held a) (aget m a) s k f.
Proof.
  intros Hi. apply (leaf_gets one1 La); auto. apply (proj2 (leaf_size m f La)). auto.
Qed.
Lemma leaf_get_miss m f s x k : str a s x -> ~ In k (keys x) -> exists s', aget m a s k f = Ok (s', None) /\ str a s' x.
Proof.
  intros H N. rewrite (str_leaf s x La) in H. destruct H as (Hi & Hc & P & Hl).
  destruct (leaf_get_ok m f s k Hi) as (s' & o & E & I1 & C1 & _ & Ho). destruct o as [v|].
  - exfalso. destruct Ho as (rest & Ho & _). apply N. rewrite <- (keys_perm P), (keys_perm Ho). left; auto.
  - destruct Ho as [_ Ho]. exists s'. split; auto. rewrite (str_leaf s' x La). split; auto. split; [congruence|]. split; auto. rewrite Ho. auto.
Qed.
Lemma leaf_get_hit m f s x k d : str a s x -> NoDup (keys x) -> In (k, d) x ->
  exists s', aget m a s k f = Ok (s', Some d) /\ str a s' ((k, f d) :: but k x).
Proof.
  intros H N Hk. rewrite (str_leaf s x La) in H. destruct H as (Hi & Hc & P & Hl).
  destruct (leaf_get_ok m f s k Hi) as (s' & o & E & I1 & C1 & _ & Ho). destruct o as [v|].
  - destruct Ho as (rest & H1 & H2). rewrite P in H1.
    assert (v = d) as -> by (eapply keys_nodup_fun; [exact N| |exact Hk]; rewrite H1; left; auto).
    exists s'. split; auto. rewrite (str_leaf s' _ La). split; auto. split; [congruence|].
    pose proof (but_split k d x N Hk) as Pb. split.
    + rewrite H2. constructor. apply Permutation_cons_inv with (a := (k, d)). rewrite <- H1. auto.
    + apply Permutation_length in Pb. cbn [length] in *. lia.
  - exfalso. destruct Ho as [X _]. apply X. rewrite (keys_perm P). apply (in_keys _ _ _ Hk).
Qed.
End Leaf.

(** *** The tree *)
Lemma apart_nodup x : apart x -> NoDup (keys x).
Proof. intros [H _]. exact H. Qed.
Lemma nodup_keys_app x y : NoDup (keys (x ++ y)) -> NoDup (keys x) /\ NoDup (keys y) /\ (forall k, In k (keys x) -> ~ In k (keys y)).
Proof. rewrite keys_app. intros H. apply NoDup_app_inv in H. destruct H as (A & B & C). split; auto. Qed.
Lemma has_key_app k x y : has_key k (x ++ y) = has_key k x || has_key k y.
Proof. unfold has_key. apply existsb_app. Qed.
Lemma key_in k x : In k (keys x) -> exists d, In (k, d) x.
Proof. unfold keys. intros H. apply in_map_iff in H. destruct H as ([j d] & <- & H). exists d. auto. Qed.
Lemma absent_has k x : ~ In k (keys x) -> has_key k x = false.
Proof. intros H. destruct (has_key k x) eqn:E; auto. apply has_key_in in E. contradiction. Qed.
Lemma present_has k d x : In (k, d) x -> has_key k x = true.
Proof. intros H. apply has_key_in. apply (in_keys _ _ _ H). Qed.

Lemma str_contains (a : arch K D) : levels O a -> forall s x k, str a s x -> contains (block a) s k = Ok (has_key k x).
Proof.
  induction 1 as [cap a La|bs l r Hl IHl Hr IHr Hc|a H IH|a a' H IH W]; intros s x k Hs.
  - eapply leaf_contains; eauto.
  - destruct Hs as (x1 & x2 & -> & H1 & H2 & _). cbn [block contains ExclusiveB]. unfold ex_contains. rewrite (IHl _ _ k H1). cbn [bind].
    rewrite has_key_app. destruct (has_key k x1); auto. rewrite (IHr _ _ k H2). auto.
  - apply IH; auto.
  - destruct W; apply IH; auto.
Qed.

Lemma str_push0 (a : arch K D) : levels O a -> forall s x, ranked x -> NoDup (keys x) -> str a s x ->
  exists s', push (block a) s [] = Ok (s', []) /\ str a s' x.
Proof.
  induction 1 as [cap a La|bs l r Hl IHl Hr IHr Hc|a H IH|a a' H IH W]; intros s x Rx Nx Hs.
  - eapply leaf_push0; eauto.
  - destruct Hs as (x1 & x2 & -> & H1 & H2 & H3). apply ranked_app in Rx. destruct Rx as [R1 R2]. apply nodup_keys_app in Nx. destruct Nx as (N1 & N2 & _).
    destruct (IHl _ _ R1 N1 H1) as (s1 & E1 & S1). destruct (IHr _ _ R2 N2 H2) as (s2 & E2 & S2).
    exists (s1, s2). cbn [block push ExclusiveB]. unfold ex_push. rewrite E1. cbn [bind]. rewrite E2. cbn [bind]. split; auto.
    cbn [str fst snd]. exists x1, x2. auto.
  - apply IH; auto.
  - destruct W; cbn [block str] in *; try (apply IH; auto; fail). destruct s as [t s]. cbn [snd] in Hs. destruct (IH s x Rx Nx Hs) as (s' & E & S).
    cbn [push ProfilerB]. unfold pf_push. cbn [snd fst]. rewrite E. cbn [bind]. eexists (_, s'). split; [reflexivity|]. exact S.
Qed.

Lemma str_push1 (a : arch K D) : levels O a -> forall s x p, ranked x -> apart (p :: x) -> str a s x ->
  exists s', push (block a) s [p] = Ok (s', skipn (leaves_capacity a) (p :: x)) /\ str a s' (firstn (leaves_capacity a) (p :: x)).
Proof.
  induction 1 as [cap a La|bs l r Hl IHl Hr IHr Hc|a H IH|a a' H IH W]; intros s x p Rx Ax Hs.
  - eapply leaf_push1; eauto.
  - destruct Hs as (x1 & x2 & -> & H1 & H2 & H3). apply ranked_app in Rx. destruct Rx as [R1 R2].
    pose proof (str_held Hl _ _ H1) as [_ L1]. pose proof (str_held Hr _ _ H2) as [_ L2].
    change (p :: x1 ++ x2) with ((p :: x1) ++ x2) in *. pose proof (apart_app_l _ _ Ax) as A1.
    destruct (IHl _ _ p R1 A1 H1) as (s1 & E1 & S1). set (n1 := leaves_capacity l) in *. set (n2 := leaves_capacity r) in *.
    cbn [block push ExclusiveB leaves_capacity]. unfold ex_push. rewrite E1. cbn [bind]. fold n1 n2.
    destruct (Nat.eq_dec (length x1) n1) as [F|F].
    + destruct (split_full p x1 F) as (f & z & Ef & Lf & Ff & Fs). rewrite Fs. rewrite Ff in S1.
      assert (Az : apart (z :: x2)). { rewrite Ef, <- app_assoc in Ax. apply (apart_app_r _ _ Ax). }
      destruct (IHr _ _ z R2 Az H2) as (s2 & E2 & S2). fold n2 in E2, S2. rewrite E2. cbn [bind]. exists (s1, s2).
      rewrite Ef, <- app_assoc. cbn [app]. rewrite firstn_app, skipn_app, Lf. replace (n1 + n2 - n1) with n2 by lia.
      rewrite firstn_all2, (skipn_all2 f) by lia. cbn [app]. split; auto. cbn [str fst snd]. exists f, (firstn n2 (z :: x2)). auto.
    + assert (x2 = []) as -> by tauto. rewrite skipn_all2 by (cbn [length]; lia). rewrite firstn_all2 in S1 by (cbn [length]; lia).
      destruct (str_push0 Hr _ R2 (NoDup_nil _) H2) as (s2 & E2 & S2). rewrite E2. cbn [bind]. exists (s1, s2). rewrite app_nil_r.
      rewrite skipn_all2, firstn_all2 by (cbn [length]; lia). split; auto. cbn [str fst snd]. exists (p :: x1), []. rewrite app_nil_r. auto.
  - apply IH; auto.
  - destruct W; cbn [block str leaves_capacity] in *; try (apply IH; auto; fail). destruct s as [t s]. cbn [snd] in Hs. destruct (IH s x p Rx Ax Hs) as (s' & E & S).
    cbn [push ProfilerB]. unfold pf_push. cbn [snd fst]. rewrite E. cbn [bind]. eexists (_, s'). split; [reflexivity|]. exact S.
Qed.

Lemma str_take_miss (a : arch K D) : levels O a -> forall s x k, str a s x -> ~ In k (keys x) ->
  exists s', take (block a) s k = Ok (s', None) /\ str a s' x.
Proof.
  induction 1 as [cap a La|bs l r Hl IHl Hr IHr Hc|a H IH|a a' H IH W]; intros s x k Hs Nk.
  - eapply leaf_take_miss; eauto.
  - destruct Hs as (x1 & x2 & -> & H1 & H2 & H3). rewrite keys_app in Nk.
    destruct (IHl _ _ k H1) as (s1 & E1 & S1); [intros X; apply Nk; apply in_or_app; auto|].
    destruct (IHr _ _ k H2) as (s2 & E2 & S2); [intros X; apply Nk; apply in_or_app; auto|].
    exists (s1, s2). cbn [block take ExclusiveB]. unfold ex_take. rewrite E1. cbn [bind]. rewrite E2. cbn [bind]. split; auto.
    cbn [str fst snd]. exists x1, x2. auto.
  - apply IH; auto.
  - destruct W; cbn [block str] in *; try (apply IH; auto; fail). destruct s as [t s]. cbn [snd] in Hs. destruct (IH s x k Hs Nk) as (s' & E & S).
    cbn [take ProfilerB]. unfold pf_take. cbn [snd fst]. rewrite E. cbn [bind]. eexists (_, s'). split; [reflexivity|]. exact S.
Qed.

(** Taking an element and pushing another one. *)
Lemma str_swap (a : arch K D) : levels O a -> forall s x k d, ranked x -> NoDup (keys x) -> str a s x -> In (k, d) x ->
  exists s1, take (block a) s k = Ok (s1, Some (k, d)) /\
    forall y : K * D, apart (y :: but k x) -> exists s2, push (block a) s1 [y] = Ok (s2, []) /\ str a s2 (y :: but k x).
Proof.
  induction 1 as [cap a La|bs l r Hl IHl Hr IHr Hc|a H IH|a a' H IH W]; intros s x k d Rx Nx Hs Hk.
  - destruct (leaf_take_hit La s x k d Hs Nx Hk) as (s1 & E1 & S1). exists s1. split; auto. intros y Ay.
    destruct (leaf_push1 La s1 (ranked_but k Rx) Ay S1) as (s2 & E2 & S2). pose proof (str_held (LvLeaf La) _ _ Hs) as [_ Ln].
    assert (Lb : length (y :: but k x) <= leaves_capacity a). { pose proof (Permutation_length (but_split k d x Nx Hk)) as X. cbn [length] in *. lia. }
    rewrite skipn_all2 in E2 by auto. rewrite firstn_all2 in S2 by auto. eauto.
  - destruct s as [sl sr]. destruct Hs as (x1 & x2 & -> & H1 & H2 & H3). cbn [fst snd] in H1, H2. apply ranked_app in Rx. destruct Rx as [R1 R2]. apply nodup_keys_app in Nx. destruct Nx as (N1 & N2 & N3).
    pose proof (str_held Hl _ _ H1) as [_ L1]. pose proof (str_held Hr _ _ H2) as [_ L2].
    cbn [block push take ExclusiveB]. unfold ex_push, ex_take. cbn [fst snd]. rewrite but_app.
    apply in_app_or in Hk. destruct Hk as [Hk|Hk].
    + destruct (IHl _ _ k d R1 N1 H1 Hk) as (s1 & E1 & S1). rewrite E1. cbn [bind]. exists (s1, sr). split; auto.
      assert (B2 : but k x2 = x2) by (apply but_absent; apply N3; apply (in_keys _ _ _ Hk)). rewrite B2. intros y Ay.
      destruct (S1 y) as (s2 & E2 & S2); [change (y :: but k x1 ++ x2) with ((y :: but k x1) ++ x2) in Ay; apply (apart_app_l _ _ Ay)|].
      destruct (str_push0 Hr _ R2 N2 H2) as (s3 & E3 & S3). cbn [fst snd]. rewrite E2. cbn [bind]. rewrite E3. cbn [bind]. exists (s2, s3). split; auto.
      cbn [str fst snd]. exists (y :: but k x1), x2. repeat split; auto. destruct H3 as [H3|H3]; auto. right.
      pose proof (Permutation_length (but_split k d x1 N1 Hk)) as X. cbn [length] in *. lia.
    + assert (Nk : ~ In k (keys x1)). { intros X. apply (N3 k X). apply (in_keys _ _ _ Hk). }
      destruct (str_take_miss Hl _ _ k H1 Nk) as (s1 & E1 & S1). rewrite E1. cbn [bind].
      destruct (IHr _ _ k d R2 N2 H2 Hk) as (s2 & E2 & S2). rewrite E2. cbn [bind]. exists (s1, s2). split; auto. rewrite (but_absent k x1 Nk).
      intros y Ay. change (y :: x1 ++ but k x2) with ((y :: x1) ++ but k x2) in *. cbn [fst snd].
      destruct (str_push1 Hl _ R1 (apart_app_l _ _ Ay) S1) as (s3 & E3 & S3). rewrite E3. cbn [bind].
      assert (F : length x1 = leaves_capacity l) by (destruct H3 as [H3|H3]; auto; subst x2; destruct Hk).
      destruct (split_full y x1 F) as (f & z & Ef & Lf & Ff & Fs). rewrite Fs. rewrite Ff in S3.
      destruct (S2 z) as (s4 & E4 & S4). { rewrite Ef, <- app_assoc in Ay. apply (apart_app_r _ _ Ay). }
      rewrite E4. cbn [bind]. exists (s3, s4). split; auto. cbn [str fst snd]. exists f, (z :: but k x2). rewrite Ef, <- app_assoc. auto.
  - apply IH; auto.
  - destruct W; cbn [block str leaves_capacity] in *; try (apply IH; auto; fail). destruct s as [t s]. cbn [snd] in Hs. destruct (IH s x k d Rx Nx Hs Hk) as (s1 & E1 & S1).
    cbn [take push ProfilerB]. unfold pf_take, pf_push. cbn [snd fst]. rewrite E1. cbn [bind]. eexists (_, s1). split; [reflexivity|]. intros y Ay.
    destruct (S1 y Ay) as (s2 & E2 & S2). cbn [snd fst]. rewrite E2. cbn [bind]. eexists (_, s2). split; [reflexivity|]. exact S2.
Qed.

Lemma str_get_miss (a : arch K D) : levels O a -> readable a -> forall m f s x k, str a s x -> ~ In k (keys x) ->
  exists s', aget m a s k f = Ok (s', None) /\ str a s' x.
Proof.
  induction 1 as [cap a La|bs l r Hl IHl Hr IHr Hc|a H IH|a a' H IH W]; intros Ra m f s x k Hs Nk.
  - eapply leaf_get_miss; eauto.
  - destruct s as [sl sr]. destruct Hs as (x1 & x2 & -> & H1 & H2 & H3). cbn [fst snd] in H1, H2. rewrite keys_app in Nk.
    assert (Nk1 : ~ In k (keys x1)) by (intros X; apply Nk; apply in_or_app; auto).
    assert (Nk2 : ~ In k (keys x2)) by (intros X; apply Nk; apply in_or_app; auto).
    cbn [aget]. unfold ex_get. cbn [fst snd]. rewrite (str_contains Hl _ _ k H1), (absent_has k x1 Nk1). cbn [bind]. unfold ex_downgrade. cbn [fst snd].
    destruct (str_take_miss Hr _ _ k H2 Nk2) as (s2 & E2 & S2). rewrite E2. cbn [bind]. exists (sl, s2). split; auto.
    cbn [str fst snd]. exists x1, x2. auto.
  - apply IH; auto.
  - destruct W; cbn [block str readable aget] in *; try (apply IH; auto; fail); try contradiction. destruct s as [t s]. cbn [snd] in Hs. destruct (IH Ra m f s x k Hs Nk) as (s' & E & S).
    unfold pf_get. cbn [snd fst]. rewrite E. cbn [bind]. eexists (_, s'). split; [reflexivity|]. exact S.
Qed.

(** The newest element is at hand. *)
Lemma str_get_head (a : arch K D) : levels O a -> readable a -> 1 <= leaves_capacity a -> forall m f s x k d, NoDup (keys ((k, d) :: x)) -> str a s ((k, d) :: x) ->
  exists s', aget m a s k f = Ok (s', Some d) /\ str a s' ((k, f d) :: x).
Proof.
  induction 1 as [cap a La|bs l r Hl IHl Hr IHr Hc|a H IH|a a' H IH W]; intros Ra Hca m f s x k d Nx Hs.
  - destruct (leaf_get_hit La m f s _ k d Hs Nx) as (s' & E & S); [left; auto|]. exists s'. split; auto.
    rewrite but_same, but_absent in S; auto. change (NoDup (k :: keys x)) in Nx. inversion Nx; auto.
  - rewrite init_capacity in Hc. destruct s as [sl sr]. destruct Hs as (x1 & x2 & E & H1 & H2 & H3). cbn [fst snd] in H1, H2. destruct x1 as [|q x1].
    + cbn [app] in E. destruct H3 as [->|H3]; [discriminate|]. cbn in H3. lia.
    + cbn [app] in E. injection E as <- ->. change ((k, d) :: x1 ++ x2) with (((k, d) :: x1) ++ x2) in Nx. apply nodup_keys_app in Nx. destruct Nx as (N1 & N2 & N3).
      cbn [aget]. unfold ex_get. cbn [fst snd]. rewrite (str_contains Hl _ _ k H1). cbn [bind]. rewrite (present_has k d) by (left; auto).
      destruct (IHl Ra Hc m f _ _ _ _ N1 H1) as (s1 & E1 & S1). rewrite E1. cbn [bind]. exists (s1, sr). split; auto.
      cbn [str fst snd]. exists ((k, f d) :: x1), x2. auto.
  - apply IH; auto.
  - destruct W; cbn [block str readable aget leaves_capacity] in *; try (apply IH; auto; fail); try contradiction. destruct s as [t s]. cbn [snd] in Hs. destruct (IH Ra Hca m f s x k d Nx Hs) as (s' & E & S).
    unfold pf_get. cbn [snd fst]. rewrite E. cbn [bind]. eexists (_, s'). split; [reflexivity|]. exact S.
Qed.

Lemma str_get_hit (a : arch K D) : levels O a -> readable a -> forall m f s x k d, ranked x -> NoDup (keys x) -> str a s x -> In (k, d) x ->
  exists s', aget m a s k f = Ok (s', Some d) /\ str a s' ((k, f d) :: but k x).
Proof.
  induction 1 as [cap a La|bs l r Hl IHl Hr IHr Hc|a H IH|a a' H IH W]; intros Ra m f s x k d Rx Nx Hs Hk.
  - eapply leaf_get_hit; eauto.
  - rewrite init_capacity in Hc. destruct s as [sl sr]. destruct Hs as (x1 & x2 & -> & H1 & H2 & H3). cbn [fst snd] in H1, H2. pose proof (ranked_apart Nx Rx) as Ax. apply ranked_app in Rx. destruct Rx as [R1 R2].
    apply nodup_keys_app in Nx. destruct Nx as (N1 & N2 & N3). cbn [aget]. unfold ex_get. cbn [fst snd]. rewrite (str_contains Hl _ _ k H1). cbn [bind]. rewrite but_app.
    apply in_app_or in Hk. destruct Hk as [Hk|Hk].
    + rewrite (present_has k d) by auto. assert (B2 : but k x2 = x2) by (apply but_absent; apply N3; apply (in_keys _ _ _ Hk)). rewrite B2.
      destruct (IHl Ra m f _ _ _ _ R1 N1 H1 Hk) as (s1 & E1 & S1). rewrite E1. cbn [bind]. exists (s1, sr). split; auto.
      cbn [str fst snd]. exists ((k, f d) :: but k x1), x2. repeat split; auto. destruct H3 as [H3|H3]; auto. right.
      pose proof (Permutation_length (but_split k d x1 N1 Hk)) as X. cbn [length] in *. lia.
    + assert (Nk : ~ In k (keys x1)). { intros X. apply (N3 k X). apply (in_keys _ _ _ Hk). }
      rewrite (absent_has k x1 Nk), (but_absent k x1 Nk). unfold ex_downgrade. cbn [fst snd].
      destruct (str_swap Hr _ k d R2 N2 H2 Hk) as (s2 & E2 & S2). rewrite E2. cbn [bind].
      assert (F : length x1 = leaves_capacity l) by (destruct H3 as [H3|H3]; auto; subst x2; destruct Hk).
      assert (Px : Permutation (x1 ++ x2) (((k, d) :: x1) ++ but k x2)).
      { rewrite (but_split k d x2 N2 Hk) at 1. rewrite <- Permutation_middle. reflexivity. }
      pose proof (apart_perm Px Ax) as A1.
      destruct (str_push1 Hl _ R1 (apart_app_l _ _ A1) H1) as (s3 & E3 & S3). rewrite E3. cbn [bind].
      destruct (split_full (k, d) x1 F) as (g & z & Eg & Lg & Fg & Fs). rewrite Fs. rewrite Fg in S3. cbn [bind].
      destruct (S2 z) as (s4 & E4 & S4). { rewrite Eg, <- app_assoc in A1. apply (apart_app_r _ _ A1). }
      rewrite E4. cbn [bind fst snd]. destruct g as [|q g]; [cbn in Lg; lia|]. cbn [app] in Eg. injection Eg as <- Ex.
      destruct (str_get_head Hl Ra Hc m f) with (s := s3) (k := k) (d := d) (x := g) as (s5 & E5 & S5); auto.
      { assert (X : apart ((k, d) :: g)). { rewrite Ex in A1. apply (apart_app_l ((k, d) :: g) [z]). apply (apart_app_l _ _ A1). }
        apply (apart_nodup X). }
      rewrite E5. cbn [bind]. exists (s5, s4). split; auto. cbn [str fst snd]. exists ((k, f d) :: g), (z :: but k x2).
      rewrite Ex. cbn [app]. rewrite <- app_assoc. repeat split; auto.
  - apply IH; auto.
  - destruct W; cbn [block str readable aget] in *; try (apply IH; auto; fail); try contradiction. destruct s as [t s]. cbn [snd] in Hs. destruct (IH Ra m f s x k d Rx Nx Hs Hk) as (s' & E & S).
    unfold pf_get. cbn [snd fst]. rewrite E. cbn [bind]. eexists (_, s'). split; [reflexivity|]. exact S.
Qed.
End Ranked.
End PLevels.

(** ** Lists of keys *)
Section Recency.
Context {K : Type} {OK : Ord K} {EK : OrdEq K}.
Implicit Types (l R : list K).
Lemma in_existsb (k : K) l : existsb (eqb k) l = true <-> In k l.
Proof.
  rewrite existsb_exists. split.
  - intros (j & Hj & E). apply eqb_eq in E. subst. auto.
  - intros H. exists k. split; auto. apply eqb_eq. auto.
Qed.
Lemma filter_absent (k : K) l : ~ In k l -> filter (fun j => negb (eqb j k)) l = l.
Proof.
  induction l as [|j l IH]; intros N; auto. cbn. destruct (eqb j k) eqn:E; cbn.
  - apply eqb_eq in E. subst. exfalso. apply N. left; auto.
  - rewrite IH; auto. intros X. apply N. right; auto.
Qed.
Lemma firstn_in n l (k : K) : In k (firstn n l) -> In k l.
Proof. intros H. rewrite <- (firstn_skipn n l). apply in_or_app. auto. Qed.
Lemma touch_hit n (k : K) R : NoDup R -> In k (firstn n R) -> k :: filter (fun j => negb (eqb j k)) (firstn n R) = firstn n (touch k R).
Proof.
  destruct n as [|n]; [intros _ []|]. intros N H. unfold touch. rewrite firstn_cons. f_equal. revert n H.
  induction R as [|r R IH]; intros n H; [destruct H|]. inversion N as [|? ? N1 N2]; subst. rewrite firstn_cons in *. cbn [filter]. destruct (eqb r k) eqn:E; cbn [negb].
  - apply eqb_eq in E. subst r. rewrite !filter_absent; auto. intros X. apply N1. apply (firstn_in _ _ _ X).
  - destruct H as [->|H]; [assert (X : eqb k k = true) by (apply eqb_eq; auto); congruence|].
    destruct n as [|n]; [destruct H|]. rewrite (IH N2 n H). reflexivity.
Qed.
Lemma firstn_filter_absent n (k : K) R : ~ In k (firstn n R) -> firstn n (filter (fun j => negb (eqb j k)) R) = firstn n R.
Proof.
  revert n. induction R as [|r R IH]; intros n N; auto. destruct n as [|n]; auto. cbn [firstn filter] in *. destruct (eqb r k) eqn:E; cbn [negb].
  - apply eqb_eq in E. subst. exfalso. apply N. left; auto.
  - cbn [firstn]. rewrite IH; auto. intros X. apply N. right; auto.
Qed.
Lemma touch_miss n (k : K) R : ~ In k (firstn n R) -> firstn n (k :: firstn n R) = firstn n (touch k R).
Proof.
  intros N. destruct n as [|n]; auto. unfold touch. rewrite !firstn_cons. f_equal.
  assert (X : ~ In k (firstn n R)). { intros H. apply N. clear N. revert n H. induction R as [|r R IH]; intros n H; [destruct n; destruct H|]. destruct n as [|n]; [destruct H|]. destruct H as [->|H]; [left; auto|right; apply IH; auto]. }
  rewrite firstn_filter_absent by auto. rewrite firstn_firstn. f_equal. lia.
Qed.
Lemma touch_nodup (k : K) R : NoDup R -> NoDup (touch k R).
Proof.
  intros N. constructor; [|apply NoDup_filter; auto]. rewrite filter_In. intros [_ H]. assert (X : eqb k k = true) by (apply eqb_eq; auto). rewrite X in H. discriminate.
Qed.
Lemma recent_nodup (tr : list K) : NoDup (recent tr).
Proof.
  unfold recent. assert (X : forall l, NoDup l -> NoDup (fold_left (fun l k => touch k l) tr l)).
  { induction tr as [|k tr IH]; intros l N; auto. cbn. apply IH. apply touch_nodup. auto. }
  apply X. constructor.
Qed.
End Recency.

Section Lru.
Context {K : Type} {OK : Ord K} {EK : OrdEq K}.
Variable V : Type.
Variables (clock : nat -> nat) (f0 : nat).
Hypothesis clock_up : forall n, clock n < clock (S n).
Variable a : arch K (lru_cell V).
Hypothesis Ha : levels lru_ord a.
Hypothesis Ra : readable a.
Notation A := (ADecorator (Lru clock) f0 a).
Notation n := (leaves_capacity a).

Definition mru (t : nat * St (block a)) (R : list K) : Prop :=
  exists x, str a (snd t) x /\ ranked (@lru_stamp V) x /\ Forall (fun p => lru_stamp (snd p) < clock (fst t)) x /\ keys x = firstn n R.

Lemma keys_firstn (m : nat) (x : list (K * lru_cell V)) : keys (firstn m x) = firstn m (keys x).
Proof. unfold keys. symmetry. apply firstn_map. Qed.
Lemma nodup_firstn (m : nat) (R : list K) : NoDup R -> NoDup (firstn m R).
Proof. intros H. rewrite <- (firstn_skipn m R) in H. apply NoDup_app_inv in H. tauto. Qed.
Lemma ranked_firstn m (x : list (K * lru_cell V)) : ranked (@lru_stamp V) x -> ranked (@lru_stamp V) (firstn m x).
Proof. intros H. rewrite <- (firstn_skipn m x) in H. apply ranked_app in H. tauto. Qed.
Lemma Forall_firstn {T} (P : T -> Prop) m l : Forall P l -> Forall P (firstn m l).
Proof. intros H. rewrite <- (firstn_skipn m l) in H. apply Forall_app in H. tauto. Qed.

Lemma mru_new : mru (init A) [].
Proof.
  exists []. assert (X : str a (init a) []).
  { clear - Ha. induction Ha as [cap a La|bs l r Hl IHl Hr IHr Hc|a H IH|a a' H IH W].
    - rewrite (str_leaf _ _ La). split; [apply ainv_new|]. rewrite init_empty. split; [|split; [reflexivity|cbn; lia]]. destruct La; reflexivity.
    - cbn [str init fst snd]. exists [], []. auto.
    - apply IH; auto.
    - destruct W; apply IH; auto. }
  split; [exact X|]. split; [constructor|]. split; [constructor|]. rewrite firstn_nil. auto.
Qed.
Lemma mru_hit t R m k f : mru t R -> NoDup R -> In k (firstn n R) ->
  exists t' v, aget m A t k f = Ok (t', Some v) /\ mru t' (touch k R).
Proof.
  destruct t as [c s]. intros (x & Hs & Rx & Fx & Ex) NR Hk. cbn [snd fst] in *. rewrite <- Ex in Hk. destruct (key_in k x Hk) as [d Hd].
  assert (Nx : NoDup (keys x)) by (rewrite Ex; apply nodup_firstn; auto).
  destruct (str_get_hit Ha Ra m (fun d => touched (Lru clock) c d f) s k d Rx Nx Hs Hd) as (s' & E & S).
  cbn [aget]. unfold dc_get. cbn [snd fst]. rewrite E. cbn [bind option_map]. eexists (_, s'), _. split; [reflexivity|].
  eexists. split; [exact S|]. cbn [fst tick Lru]. specialize (clock_up c). split; [|split].
  - constructor; [apply ranked_but; auto|]. apply Forall_forall. intros q Hq. apply but_in in Hq. rewrite Forall_forall in Fx. cbn. apply (Fx q). tauto.
  - constructor; [cbn; lia|]. apply Forall_forall. intros q Hq. apply but_in in Hq. rewrite Forall_forall in Fx. specialize (Fx q (proj1 Hq)). lia.
  - change (keys ((k, touched (Lru clock) c d f) :: but k x)) with (k :: keys (but k x)). rewrite but_keys, Ex. apply touch_hit; auto. rewrite <- Ex. auto.
Qed.
Lemma mru_miss t R m k f v : mru t R -> NoDup R -> ~ In k (firstn n R) ->
  exists t1 t' o, aget m A t k f = Ok (t1, None) /\ push (block A) t1 [(k, v)] = Ok (t', o) /\ mru t' (touch k R).
Proof.
  destruct t as [c s]. intros (x & Hs & Rx & Fx & Ex) NR Hk. cbn [snd fst] in *. rewrite <- Ex in Hk.
  assert (Nx : NoDup (keys x)) by (rewrite Ex; apply nodup_firstn; auto).
  destruct (str_get_miss Ha Ra m (fun d => touched (Lru clock) c d f) s _ k Hs Hk) as (s1 & E1 & S1).
  cbn [aget]. unfold dc_get. cbn [snd fst]. rewrite E1. cbn [bind option_map]. 
  set (p := (k, mkLru v (clock c))).
  assert (Rp : ranked (@lru_stamp V) (p :: x)) by (constructor; auto).
  destruct (str_push1 Ha s1 (p := p) Rx) as (s2 & E2 & S2); [apply ranked_apart; auto; constructor; auto|exact S1|].
  eexists (c, s1), (S c, s2), _. split; [reflexivity|]. split.
  - cbn [block push DecoratorB]. cbn [wrap_all wrap Lru fst snd]. fold p. rewrite E2. cbn [bind]. reflexivity.
  - specialize (clock_up c). eexists. split; [exact S2|]. cbn [fst]. split; [apply ranked_firstn; auto|]. split.
    + apply Forall_firstn. constructor; [cbn; lia|]. eapply Forall_impl; [|exact Fx]. cbn. intros q Hq. lia.
    + rewrite keys_firstn. change (keys (p :: x)) with (k :: keys x). rewrite Ex. apply touch_miss. rewrite <- Ex. auto.
Qed.
Lemma mru_run load : forall tr t R, mru t R -> NoDup R ->
  exists t', read_through A load t tr = Ok (t', lru_hits n R (used_keys tr)) /\ mru t' (fold_left (fun l k => touch k l) (used_keys tr) R).
Proof.
  induction tr as [|[[m k] f] tr IH]; intros t R Ht NR.
  - exists t. auto.
  - cbn [read_through used_keys map fst snd lru_hits fold_left]. destruct (existsb (eqb k) (firstn n R)) eqn:E.
    + apply in_existsb in E. destruct (mru_hit m k f Ht NR E) as (t1 & v & E1 & H1). destruct (IH _ _ H1 (touch_nodup k NR)) as (t' & E2 & H2).
      rewrite E1. cbn [bind]. rewrite E2. cbn [bind]. exists t'. auto.
    + assert (Nk : ~ In k (firstn n R)) by (intros X; apply in_existsb in X; congruence).
      destruct (mru_miss m k f (load k) Ht NR Nk) as (t1 & t2 & o & E1 & E2 & H1). destruct (IH _ _ H1 (touch_nodup k NR)) as (t' & E3 & H2).
      rewrite E1. cbn [bind]. rewrite E2. cbn [bind]. rewrite E3. cbn [bind]. exists t'. auto.
Qed.
End Lru.

Section Theorems.
Context {K : Type} {OK : Ord K} {EK : OrdEq K}.
Variable V : Type.

(** Any stack of Lru levels -- Arrays, BTrees, Exclusive of such, profiled or not -- used as a read-through cache hits
    exactly when one ideal Lru cache of the same capacity would, and it holds the most recently used keys. *)
Theorem C63_levels_are_one_lru : forall (clock : nat -> nat) f0 (a : arch K (lru_cell V)) load tr,
  (forall n, clock n < clock (S n)) -> levels lru_ord a -> readable a ->
  let A := ADecorator (Lru clock) f0 a in
  let n := capacity (block A) (init A) in
  exists s, read_through A load (init A) tr = Ok (s, lru_hits n [] (used_keys tr)) /\
            Permutation (keys (held A s)) (firstn n (recent (used_keys tr))).
Proof.
  intros clock f0 a load tr Hc Ha Ra A n.
  destruct (mru_run f0 Hc Ha Ra load tr (mru_new clock f0 Ha) (NoDup_nil _)) as (t' & E & (x & Hs & _ & _ & Ex)).
  assert (En : n = leaves_capacity a) by (unfold n, A; rewrite init_capacity; reflexivity). rewrite En. exists t'. split; [exact E|].
  unfold recent. rewrite <- Ex. unfold A. cbn [held]. rewrite keys_unwrap. apply keys_perm. apply (str_held Ha _ _ Hs).
Qed.

(** The front level holds the newest keys, the back level the next ones. *)
Theorem C63_newest_in_front : forall (clock : nat -> nat) f0 bs (l r : arch K (lru_cell V)) load tr,
  (forall n, clock n < clock (S n)) -> levels lru_ord l -> levels lru_ord r -> 1 <= capacity (block l) (init l) -> readable l ->
  let A := ADecorator (Lru clock) f0 (AExclusive bs l r) in
  exists s hits, read_through A load (init A) tr = Ok (s, hits) /\
    let n := capacity (block l) (init l) in
    Permutation (keys (held l (fst (snd s)))) (firstn n (recent (used_keys tr))) /\
    Permutation (keys (held r (snd (snd s)))) (firstn (capacity (block r) (init r)) (skipn n (recent (used_keys tr)))).
Proof.
  intros clock f0 bs l r load tr Hc Hl Hr H1l Ra A. pose proof (LvExclusive bs Hl Hr H1l) as Ha.
  destruct (mru_run f0 Hc Ha Ra load tr (mru_new clock f0 Ha) (NoDup_nil _)) as (t' & E & (x & Hs & _ & _ & Ex)).
  eexists t', _. split; [exact E|]. cbv zeta. rewrite !init_capacity. destruct t' as [c [sl sr]]. cbn [fst snd] in *.
  destruct Hs as (x1 & x2 & -> & H1 & H2 & H3). cbn [fst snd] in H1, H2.
  destruct (str_held Hl _ _ H1) as [P1 L1], (str_held Hr _ _ H2) as [P2 L2].
  change (fold_left (fun l k => touch k l) (used_keys tr) []) with (recent (used_keys tr)) in Ex. set (R := recent (used_keys tr)) in *.
  rewrite keys_app in Ex. cbn [leaves_capacity] in Ex. set (n1 := leaves_capacity l) in *. set (n2 := leaves_capacity r) in *.
  assert (Len : length (keys x1) = length x1 /\ length (keys x2) = length x2) by (unfold keys; rewrite !map_length; auto). destruct Len as [K1 K2].
  assert (E1 : keys x1 = firstn n1 R).
  { assert (X : firstn n1 (keys x1 ++ keys x2) = firstn n1 R) by (rewrite Ex, firstn_firstn; f_equal; lia).
    rewrite <- X. rewrite firstn_app, firstn_all2 by lia. destruct H3 as [->|H3]; [cbn; rewrite firstn_nil, app_nil_r; auto|].
    replace (n1 - length (keys x1)) with 0 by lia. cbn [firstn]. rewrite app_nil_r. auto. }
  assert (E2 : keys x2 = firstn n2 (skipn n1 R)).
  { rewrite firstn_skipn_comm, <- Ex. rewrite skipn_app, skipn_all2 by lia. cbn [app]. destruct H3 as [->|H3]; [cbn; rewrite skipn_nil; auto|].
    replace (n1 - length (keys x1)) with 0 by lia. reflexivity. }
  rewrite <- E1, <- E2. split; apply keys_perm; auto.
Qed.

(** The shape of the hierarchy does not matter, only its capacity; and more capacity never turns a hit into a miss. *)
Lemma lru_hits_mono (n n' : nat) : n <= n' -> forall (tr : list K) l, Forall2 (fun x y => x = true -> y = true) (lru_hits n l tr) (lru_hits n' l tr).
Proof.
  intros Hn. induction tr as [|k tr IH]; intros l; cbn [lru_hits]; constructor; auto.
  rewrite !in_existsb. intros H. replace n with (min n n') in H by lia. rewrite <- firstn_firstn in H. apply (firstn_in _ _ _ H).
Qed.
Theorem C63_larger_lru_never_misses_more : forall (clock clock' : nat -> nat) f0 f0' (a b : arch K (lru_cell V)) load tr,
  (forall n, clock n < clock (S n)) -> (forall n, clock' n < clock' (S n)) ->
  levels lru_ord a -> readable a -> levels lru_ord b -> readable b ->
  let A := ADecorator (Lru clock) f0 a in let B := ADecorator (Lru clock') f0' b in
  capacity (block A) (init A) <= capacity (block B) (init B) ->
  exists s hs t ht, read_through A load (init A) tr = Ok (s, hs) /\ read_through B load (init B) tr = Ok (t, ht) /\
    Forall2 (fun x y => x = true -> y = true) hs ht /\
    (capacity (block A) (init A) = capacity (block B) (init B) -> hs = ht).
Proof.
  intros clock clock' f0 f0' a b load tr Hc Hc' Ha Ra Hb Rb A B Hn.
  destruct (C63_levels_are_one_lru f0 load tr Hc Ha Ra) as (s & E1 & _). destruct (C63_levels_are_one_lru f0' load tr Hc' Hb Rb) as (t & E2 & _).
  eexists s, _, t, _. split; [exact E1|]. split; [exact E2|]. split; [apply lru_hits_mono; auto|]. fold A B. intros ->. auto.
Qed.
End Theorems.

(** ** Fifo: one level, and Belady's anomaly *)
Section FifoLevel.
Context {K : Type} {OK : Ord K} {EK : OrdEq K}.
Variable V : Type.
Variables (f0 cap : nat) (a : arch K (fifo_cell V)).
Hypothesis La : leaf_of fifo_ord cap (fun _ => 1) a.
Notation A := (ADecorator Fifo f0 a).
Notation n := (leaves_capacity a).
Implicit Types x : list (K * fifo_cell V).

Definition fif (t : nat * St (block a)) (R : list K) : Prop :=
  exists x, str a (snd t) x /\ ranked (@fifo_counter V) x /\ Forall (fun p => fifo_counter (snd p) < fst t) x /\ keys x = R.
Definition edit (k : K) (g : fifo_cell V -> fifo_cell V) x := map (fun p => if eqb (fst p) k then (fst p, g (snd p)) else p) x.
Lemma edit_absent k g x : ~ In k (keys x) -> edit k g x = x.
Proof.
  induction x as [|[j d] x IH]; intros N; auto. cbn [edit map fst snd]. destruct (eqb j k) eqn:E.
  - apply eqb_eq in E. subst. exfalso. apply N. left; auto.
  - f_equal. apply IH. intros X. apply N. right; auto.
Qed.
Lemma edit_perm k d g x : NoDup (keys x) -> In (k, d) x -> Permutation ((k, g d) :: but k x) (edit k g x).
Proof.
  induction x as [|[j v] x IH]; intros N Hk; [destruct Hk|]. change (NoDup (j :: keys x)) in N. inversion N as [|? ? N1 N2]; subst. destruct Hk as [E|Hk].
  - inversion E; subst. rewrite but_same, but_absent by auto. cbn [edit map fst snd]. assert (X : eqb k k = true) by (apply eqb_eq; auto). rewrite X.
    constructor. fold (edit k g x). rewrite edit_absent; auto.
  - assert (Nj : j <> k) by (intros ->; apply N1; apply (in_keys _ _ _ Hk)). unfold but, without, edit. cbn [filter map fst].
    destruct (eqb j k) eqn:E; [apply eqb_eq in E; contradiction|]. cbn [negb]. rewrite perm_swap. constructor. apply IH; auto.
Qed.
Lemma edit_keys k g x : keys (edit k g x) = keys x.
Proof. unfold keys, edit. rewrite map_map. apply map_ext. intros [j d]. cbn. destruct (eqb j k); auto. Qed.
Lemma edit_stamps k f x : map (fun p => fifo_counter (snd p)) (edit k (fun d => mkFifo (f (fifo_value d)) (fifo_counter d)) x) = map (fun p => fifo_counter (snd p)) x.
Proof. unfold edit. rewrite map_map. apply map_ext. intros [j d]. cbn. destruct (eqb j k); auto. Qed.
Lemma ranked_map x : ranked (@fifo_counter V) x <-> StronglySorted (fun i j => j < i) (map (fun p => fifo_counter (snd p)) x).
Proof.
  unfold ranked. induction x as [|p x IH]; [split; constructor|]. split; intros H; apply StronglySorted_inv in H; destruct H as [H F]; constructor; try (apply IH; auto; fail).
  - rewrite Forall_forall in *. intros i Hi. apply in_map_iff in Hi. destruct Hi as (q & <- & Hq). auto.
  - rewrite Forall_forall in *. intros q Hq. apply F. apply in_map_iff. eauto.
Qed.
Lemma below_map (c : nat) x : Forall (fun p => fifo_counter (snd p) < c) x <-> Forall (fun i => i < c) (map (fun p => fifo_counter (snd p)) x).
Proof. symmetry. apply Forall_map. Qed.

Lemma fif_hit t R m k f : fif t R -> NoDup R -> In k R -> exists t' v, aget m A t k f = Ok (t', Some v) /\ fif t' R.
Proof.
  destruct t as [c s]. intros (x & Hs & Rx & Fx & Ex) NR Hk. cbn [snd fst] in *. rewrite <- Ex in Hk. destruct (key_in k x Hk) as [d Hd].
  assert (Nx : NoDup (keys x)) by (rewrite Ex; auto).
  destruct (leaf_get_hit La m (fun d => touched Fifo c d f) s x k d Hs Nx Hd) as (s' & E & S).
  cbn [aget]. unfold dc_get. cbn [snd fst]. rewrite E. cbn [bind option_map]. eexists (_, s'), _. split; [reflexivity|].
  exists (edit k (fun d => mkFifo (f (fifo_value d)) (fifo_counter d)) x). cbn [fst snd tick Fifo]. split; [|split; [|split]].
  - apply (str_leaf s' _ La). apply (str_leaf s' _ La) in S. destruct S as (S1 & S2 & S3 & S4).
    pose proof (edit_perm k d (fun d => touched Fifo c d f) x Nx Hd) as P. split; auto. split; auto. split; [rewrite S3; exact P|].
    apply Permutation_length in P. cbn [length touched Fifo] in *. lia.
  - apply ranked_map. rewrite edit_stamps. apply ranked_map. auto.
  - apply below_map. rewrite edit_stamps. apply below_map. auto.
  - rewrite edit_keys. auto.
Qed.
Lemma fif_miss t R m k f v : fif t R -> NoDup R -> ~ In k R ->
  exists t1 t' o, aget m A t k f = Ok (t1, None) /\ push (block A) t1 [(k, v)] = Ok (t', o) /\ fif t' (firstn n (k :: R)).
Proof.
  destruct t as [c s]. intros (x & Hs & Rx & Fx & Ex) NR Hk. cbn [snd fst] in *. rewrite <- Ex in Hk.
  assert (Nx : NoDup (keys x)) by (rewrite Ex; auto).
  destruct (leaf_get_miss La m (fun d => touched Fifo c d f) s _ k Hs Hk) as (s1 & E1 & S1).
  cbn [aget]. unfold dc_get. cbn [snd fst]. rewrite E1. cbn [bind option_map].
  set (p := (k, mkFifo v c)).
  assert (Rp : ranked (@fifo_counter V) (p :: x)) by (constructor; auto).
  destruct (leaf_push1 La s1 (p := p) Rx) as (s2 & E2 & S2); [apply ranked_apart; auto; constructor; auto|exact S1|].
  eexists (c, s1), (S c, s2), _. split; [reflexivity|]. split.
  - cbn [block push DecoratorB]. cbn [wrap_all wrap Fifo fst snd]. fold p. rewrite E2. cbn [bind]. reflexivity.
  - eexists. split; [exact S2|]. cbn [fst]. split; [|split].
    + rewrite <- (firstn_skipn n (p :: x)) in Rp. apply ranked_app in Rp. tauto.
    + apply Forall_firstn. constructor; [cbn; lia|]. eapply Forall_impl; [|exact Fx]. cbn. intros q Hq. lia.
    + unfold keys. rewrite <- firstn_map. change (map fst (p :: x)) with (k :: keys x). rewrite Ex. auto.
Qed.
Lemma fif_run load : forall tr t R, fif t R -> NoDup R ->
  exists t', read_through A load t tr = Ok (t', fifo_hits n R (used_keys tr)) /\ fif t' (fold_left (fifo_step n) (used_keys tr) R).
Proof.
  induction tr as [|[[m k] f] tr IH]; intros t R Ht NR.
  - exists t. auto.
  - cbn [read_through used_keys map fst snd fifo_hits fold_left]. unfold fifo_step at 1 3. destruct (existsb (eqb k) R) eqn:E.
    + apply in_existsb in E. destruct (fif_hit m k f Ht NR E) as (t1 & v & E1 & H1). destruct (IH _ _ H1 NR) as (t' & E2 & H2).
      rewrite E1. cbn [bind]. rewrite E2. cbn [bind]. exists t'. auto.
    + assert (Nk : ~ In k R) by (intros X; apply in_existsb in X; congruence).
      destruct (fif_miss m k f (load k) Ht NR Nk) as (t1 & t2 & o & E1 & E2 & H1).
      destruct (IH _ _ H1) as (t' & E3 & H2); [apply nodup_firstn; constructor; auto|].
      rewrite E1. cbn [bind]. rewrite E2. cbn [bind]. rewrite E3. cbn [bind]. exists t'. auto.
Qed.
End FifoLevel.

(** One level of Fifo is an ideal Fifo cache. *)
Theorem C63_fifo_level : forall K (OK : Ord K) (EK : OrdEq K) V f0 cap (a : arch K (fifo_cell V)) load tr,
  leaf_of fifo_ord cap (fun _ => 1) a ->
  let A := ADecorator Fifo f0 a in
  exists s, read_through A load (init A) tr = Ok (s, fifo_hits cap [] (used_keys tr)) /\
            Permutation (keys (held A s)) (fold_left (fifo_step cap) (used_keys tr) []).
Proof.
  intros K OK EK V f0 cap a load tr La A.
  assert (H0 : fif a (init A) []).
  { exists []. split; [|split; [constructor|split; [constructor|auto]]]. cbn [init A snd]. rewrite (str_leaf _ _ La). split; [apply ainv_new|].
    rewrite init_capacity, init_empty. split; auto. split; auto. cbn. lia. }
  destruct (fif_run f0 La load tr H0 (NoDup_nil _)) as (t' & E & (x & Hs & _ & _ & Ex)). rewrite (leaf_cap La) in *. exists t'. split; [exact E|].
  rewrite <- Ex. unfold A. cbn [held]. rewrite keys_unwrap. apply keys_perm. apply (str_held (LvLeaf La) _ _ Hs).
Qed.

(** *** Cases *)
Definition fifo_of (n : nat) : arch nat nat := ADecorator Fifo fifo_new (ABTree fifo_ord n (fun _ => 1)).
Definition belady : list (bool * nat * (nat -> nat)) := map (fun k => (false, k, fun v => v)) [1; 2; 3; 4; 1; 2; 5; 1; 2; 3; 4; 5].
Definition misses {T} (r : res (T * list bool)) : option nat := match r with Ok (_, l) => Some (length (filter negb l)) | _ => None end.
(** Four elements of Fifo miss more than three (so C63_larger_lru_never_misses_more does not hold of Fifo). *)
Theorem C63_larger_fifo_refuted :
  misses (read_through (fifo_of 3) (fun k => k) (init (fifo_of 3)) belady) = Some 9 /\
  misses (read_through (fifo_of 4) (fun k => k) (init (fifo_of 4)) belady) = Some 10.
Proof. split; vm_compute; reflexivity. Qed.

(** Two levels of 2 and 3 elements, with a profiler around the front. *)
Definition lru_front : arch nat (lru_cell nat) := AProfiler (@AArray nat _ _ lru_ord (std_sorter snd) linear_bs 2 (fun _ => 1)).
Definition lru_back : arch nat (lru_cell nat) := AFlushStopper (ABTree lru_ord 3 (fun _ => 1)).
Definition lru_two : arch nat nat := ADecorator (Lru (fun n => n)) 0 (AExclusive linear_bs lru_front lru_back).
Definition two_trace : list (bool * nat * (nat -> nat)) := map (fun k => (Nat.even k, k, fun v => S v)) [1; 2; 3; 4; 1; 5; 6; 2; 3; 7; 6].
Theorem C63_example :
  levels lru_ord (AExclusive linear_bs lru_front lru_back) /\ readable (AExclusive linear_bs lru_front lru_back) /\
  option_map (fun r => (fst r, keys (held lru_two (snd r))))
    (match read_through lru_two (fun k => 10 * k) (init lru_two) two_trace with Ok (s, l) => Some (l, s) | _ => None end) =
  Some ([false; false; false; false; true; false; false; false; false; false; true], [7; 6; 2; 3; 5]) /\
  recent (used_keys two_trace) = [6; 7; 3; 2; 5; 1; 4].
Proof.
  split; [|split; [cbn; auto|split; vm_compute; reflexivity]].
  constructor; [|constructor; econstructor; constructor|vm_compute; lia].
  econstructor; [econstructor; constructor|constructor].
Qed.
Print Assumptions C63_levels_are_one_lru.
Print Assumptions C63_newest_in_front.
Print Assumptions C63_larger_lru_never_misses_more.
Print Assumptions C63_fifo_level.
