(** PAssocPop.v -- property theorems: pop on trees with an Associative inside (C16, C17, C19). *)
From Coq Require Import NArith.
From Verif Require Import Base PermSolve Block Spec LawsProof Cut Array ArrayProof BTree BTreeProof
  Batch BatchProof Exclusive ExclusiveProof Wrappers WrappersProof Associative AssociativeProof TmLen Arch ArchProof PArch.
From Verif Require PCompressed.
Set Implicit Arguments.

(** A pop that returns keeps every element, whatever it was asked. *)
Definition pop_keeps {K V} {OK : Ord K} (B : Block K V) (Inv : St B -> Prop) (ct : St B -> list (K * V)) : Prop :=
  forall s n s' out, Inv s -> pop B s n = Ok (s', out) ->
    Inv s' /\ capacity B s' = capacity B s /\ Permutation (out ++ ct s') (ct s).

Section Keeps.
Context {K : Type} {OK : Ord K} {EK : OrdEq K}.

Lemma laws_pop_keeps V (B : Block K V) Inv ct d e : Laws B Inv ct d true e -> pop_keeps B Inv ct.
Proof.
  intros L s n s' out Hi E. destruct (law_pop L eq_refl s n Hi) as (s1 & o1 & H1 & H2 & H3 & H4 & _).
  rewrite E in H1. inversion H1; subst. auto.
Qed.
Lemma sum_pop_keeps V (C : nat -> Block K V) Inv ct : (forall i, pop_keeps (C i) (Inv i) (ct i)) ->
  pop_keeps (SumB C) (fun c => Inv (projT1 c) (projT2 c)) (fun c => ct (projT1 c) (projT2 c)).
Proof.
  intros H [i s] n s' out Hi E. cbn in *. destruct (pop (C i) s n) as [[s1 o1]|] eqn:E1; cbn in E; [|discriminate].
  inversion E; subst. cbn. exact (H _ _ _ _ _ Hi E1).
Qed.
Section Composite.
Variable V : Type.
Variable C : Block K V.
Variable Inv : St C -> Prop.
Variable ct : St C -> list (K * V).
Variable dup : bool.
Hypothesis H : pop_keeps C Inv ct.

Lemma batch_pop_keeps : pop_keeps (BatchB C) (@bt_inv K V C Inv ct dup) (@bt_ct K V C ct).
Proof.
  assert (LP : forall rs n rs' out, Forall Inv rs -> bt_pop_loop C rs n = Ok (rs', out) ->
    Forall Inv rs' /\ bt_capacity C rs' = bt_capacity C rs /\ Permutation (out ++ @bt_ct K V C ct rs') (@bt_ct K V C ct rs)).
  { induction rs as [|c rs IH]; intros n rs' out Hf E; cbn [bt_pop_loop] in E; [inversion E; subst; auto|].
    apply Forall_cons_iff in Hf as [Hc Hf]. destruct (pop C c n) as [[c1 o]|] eqn:E1; cbn [bind] in E; [|discriminate].
    destruct (H _ Hc E1) as (P1 & P2 & P3). destruct (sub_chk (size C c) (size C c1)) as [p|]; cbn [bind] in E; [|discriminate].
    destruct (n <=? p).
    - inversion E; subst. split; [auto|]. rewrite !bt_cap_cons, !bt_ct_cons. split; [lia|]. perm1 P3.
    - destruct (bt_pop_loop C rs (n - p)) as [[rs1 o1]|] eqn:E2; cbn [bind] in E; [|discriminate]. inversion E; subst.
      destruct (IH _ _ _ Hf E2) as (Q1 & Q2 & Q3). split; [auto|]. rewrite !bt_cap_cons, !bt_ct_cons. split; [lia|]. perm2 P3 Q3. }
  intros s n s' out [Hf Hu] E. cbn [BatchB pop] in E. unfold bt_pop in E.
  destruct (bt_pop_loop C (rev s) n) as [[rs o]|] eqn:E1; cbn [bind] in E; [|discriminate]. inversion E; subst.
  destruct (LP _ _ _ _ (Forall_rev Hf) E1) as (P1 & P2 & P3).
  pose proof (@bt_ct_rev K V C ct rs) as R1. pose proof (@bt_ct_rev K V C ct s) as R2.
  assert (P : Permutation (out ++ @bt_ct K V C ct (rev rs)) (@bt_ct K V C ct s)) by perm3 P3 R1 R2.
  split; [|split; [|exact P]].
  - split; [apply Forall_rev; auto|]. intros Ed. eapply nodup_keys_sub; eauto.
  - cbn [BatchB capacity]. unfold bt_capacity in *. rewrite !bt_perm_sum in *. auto.
Qed.

(** Popping from some sets, given by their numbers and what each is asked. *)
Fixpoint pops (s : list (St C)) (l : list (nat * nat)) : res (list (St C) * list (K * V)) :=
  match l with
  | [] => Ok (s, [])
  | (i, n) :: l' =>
      match nth_error s i with
      | None => Panic
      | Some c =>
          match pop C c n with
          | Panic => Panic
          | Ok (c', o) =>
              match pops (firstn i s ++ c' :: skipn (S i) s) l' with
              | Panic => Panic
              | Ok (s', o') => Ok (s', o ++ o')
              end
          end
      end
  end.
Lemma replace_firstn {T} (x : T) : forall i s, i < length s -> replace_nth i x s = firstn i s ++ x :: skipn (S i) s.
Proof. induction i as [|i IH]; intros [|y s] Hi; cbn [length] in Hi; try lia; cbn; auto. rewrite IH by lia. auto. Qed.
Lemma pops_keeps hash l : forall s s' out, @as_inv K V hash C Inv ct dup s -> pops s l = Ok (s', out) ->
  @as_inv K V hash C Inv ct dup s' /\ as_capacity C s' = as_capacity C s /\ Permutation (out ++ @as_ct K V C ct s') (@as_ct K V C ct s).
Proof.
  induction l as [|[i n] l IH]; intros s s' out Hi E; cbn [pops] in E; [inversion E; subst; auto|].
  destruct (nth_error s i) as [c|] eqn:En; [|discriminate]. destruct (pop C c n) as [[c' o]|] eqn:E1; [|discriminate].
  apply nth_error_split in En as (a & b & Es & Hl). subst i s.
  rewrite firstn_app, firstn_all, Nat.sub_diag, firstn_O, app_nil_r in E.
  replace (skipn (S (length a)) (a ++ c :: b)) with b in E
    by (rewrite skipn_app, skipn_all2 by lia; replace (S (length a) - length a) with 1 by lia; reflexivity).
  destruct (pops (a ++ c' :: b) l) as [[s2 o2]|] eqn:E2; [|discriminate]. inversion E; subst.
  destruct Hi as (I1 & I2 & I3 & I4). pose proof I2 as I2'. rewrite Forall_app, Forall_cons_iff in I2'. destruct I2' as (J1 & J2 & J3).
  destruct (H _ J2 E1) as (P1 & P2 & P3).
  assert (LE : length (a ++ c' :: b) = length (a ++ c :: b)) by (rewrite !app_length; reflexivity).
  assert (P : Permutation (o ++ @as_ct K V C ct (a ++ c' :: b)) (@as_ct K V C ct (a ++ c :: b))).
  { rewrite !as_ct_app, !as_ct_cons. perm1 P3. }
  assert (INV : @as_inv K V hash C Inv ct dup (a ++ c' :: b)).
  { split; [lia|]. split; [apply Forall_app; auto|]. split; [|intros Ed; eapply nodup_keys_sub; eauto].
    rewrite LE. eapply placed_mid; [|exact I3]. eapply incl_keys_sub; eauto. }
  destruct (IH _ _ _ INV E2) as (Q1 & Q2 & Q3). split; [auto|]. split; [|perm2 P Q3].
  rewrite Q2, !as_cap_app, !as_cap_cons. lia.
Qed.

(** What each remaining set is left with, when [j] sets have been put aside. *)
Definition level (sizes : list nat) (m j : nat) : nat := (list_sum sizes - list_sum (seq 0 j) - m) / (length sizes + 1 - j).
(** The sets asked for room and how much: for each number [i] from [j] on, the set whose number is the size of set [i]
    is asked for [i] less the level. *)
Definition asks (sizes : list nat) (m j : nat) : list (nat * nat) :=
  map (fun i => (nth i sizes 0, i - level sizes m j)) (seq j (length sizes - j)).

Lemma pop_loop_pops t : forall pb s, Forall (fun p => t <= fst p) pb ->
  as_pop_loop C s t pb = pops s (map (fun p => (snd p, fst p - t)) pb).
Proof.
  induction pb as [|[x y] pb IH]; intros s Hf; cbn [as_pop_loop map pops fst snd]; auto.
  apply Forall_cons_iff in Hf as [H1 H2]. cbn in H1. destruct (nth_error s y) as [c|] eqn:En; cbn [unwrap bind]; auto.
  unfold sub_chk. replace (t <=? x) with true by (symmetry; apply Nat.leb_le; auto). cbn [bind].
  destruct (pop C c (x - t)) as [[c' o]|]; cbn [bind]; auto.
  rewrite IH by auto. rewrite replace_firstn by (apply nth_error_Some; congruence).
  destruct (pops _ _) as [[s' o']|]; auto.
Qed.
Lemma enumerate_nth (l : list nat) : forall i, enumerate_from i l = map (fun j => (j, nth (j - i) l 0)) (seq i (length l)).
Proof.
  induction l as [|x l IH]; intros i; cbn [enumerate_from length seq map]; auto. rewrite Nat.sub_diag. cbn [nth]. f_equal.
  rewrite IH. apply map_ext_in. intros j Hj. apply in_seq in Hj. replace (j - i) with (S (j - S i)) by lia. auto.
Qed.
Lemma list_sum_seq_S j : list_sum (seq 0 (S j)) = list_sum (seq 0 j) + j.
Proof. rewrite seq_S, list_sum_app. cbn. lia. Qed.
(** The search for the level. *)
Lemma target_spec sizes m : m < list_sum sizes -> forall k j, j + k = length sizes -> m + list_sum (seq 0 j) < list_sum sizes ->
  (forall i, i < j -> i < level sizes m i) ->
  let pb := map (fun i => (i, nth i sizes 0)) (seq j k) in
  (exists j', j <= j' /\ j' < length sizes /\ level sizes m j' <= j' /\ (forall i, i < j' -> i < level sizes m i) /\
    as_target pb (list_sum sizes - list_sum (seq 0 j)) m =
      Ok (level sizes m j', map (fun i => (i, nth i sizes 0)) (seq j' (length sizes - j')))) \/
  ((forall i, i < length sizes -> i < level sizes m i) /\ as_target pb (list_sum sizes - list_sum (seq 0 j)) m = Panic).
Proof.
  intros Hm. induction k as [|k IH]; intros j Hj Ht Hbelow; cbn zeta.
  - right. split; [intros i Hi; apply Hbelow; lia|]. cbn [seq map as_target]. destruct (sub_chk _ _); reflexivity.
  - set (pb' := map (fun i => (i, nth i sizes 0)) (seq (S j) k)).
    assert (EL : forall x, (list_sum sizes - list_sum (seq 0 j) - m) / (length ((j, x) :: pb') + 1) = level sizes m j).
    { intros x. unfold level, pb'. f_equal. cbn [length]. rewrite map_length, seq_length. lia. }
    assert (EX : as_target ((j, nth j sizes 0) :: pb') (list_sum sizes - list_sum (seq 0 j)) m =
      if level sizes m j <=? j then Ok (level sizes m j, (j, nth j sizes 0) :: pb') else as_target pb' (list_sum sizes - list_sum (seq 0 (S j))) m).
    { cbn [as_target]. unfold sub_chk. destruct (Nat.leb_spec m (list_sum sizes - list_sum (seq 0 j))) as [_|?]; [|lia]. cbn [bind].
      rewrite EL. destruct (Nat.leb_spec (level sizes m j) j) as [L|L]; [auto|].
      assert (D : j < list_sum sizes - list_sum (seq 0 j) - m).
      { unfold level in L. assert (1 <= length sizes + 1 - j) by lia. generalize dependent (length sizes + 1 - j).
        generalize (list_sum sizes - list_sum (seq 0 j) - m). intros x y L Hy.
        assert (x / y <= x) by (apply Nat.div_le_upper_bound; nia). lia. }
      destruct (Nat.leb_spec j (list_sum sizes - list_sum (seq 0 j))); [|lia]. cbn [bind].
      destruct (Nat.ltb_spec m (list_sum sizes - list_sum (seq 0 j) - j)); [|lia].
      f_equal. rewrite list_sum_seq_S. lia. }
    change (as_target (map (fun i => (i, nth i sizes 0)) (seq j (S k)))) with (as_target ((j, nth j sizes 0) :: pb')). 
    rewrite EX. destruct (Nat.leb_spec (level sizes m j) j) as [L|L].
    + left. exists j. split; [lia|]. split; [lia|]. split; [auto|]. split; [auto|]. f_equal. f_equal.
      replace (length sizes - j) with (S k) by lia. reflexivity.
    + assert (D : j < list_sum sizes - list_sum (seq 0 j) - m).
      { unfold level in L. assert (1 <= length sizes + 1 - j) by lia. generalize dependent (length sizes + 1 - j).
        generalize (list_sum sizes - list_sum (seq 0 j) - m). intros x y L Hy.
        assert (x / y <= x) by (apply Nat.div_le_upper_bound; nia). lia. }
      destruct (IH (S j)) as [(j' & J1 & J2 & J3 & J4 & J5)|[J1 J2]].
      * lia.
      * rewrite list_sum_seq_S. lia.
      * intros i Hi. destruct (Nat.eq_dec i j) as [->|]; auto. apply Hbelow. lia.
      * left. exists j'. split; [lia|]. auto.
      * right. auto.
Qed.
Lemma pop_in_between hash (s : list (St C)) m : 0 < m -> m < size (AssociativeB hash C) s ->
  let sizes := map (size C) s in
  (exists j, j < length s /\ level sizes m j <= j /\ (forall i, i < j -> i < level sizes m i) /\
     pop (AssociativeB hash C) s m = pops s (asks sizes m j)) \/
  ((forall i, i < length s -> i < level sizes m i) /\ pop (AssociativeB hash C) s m = Panic).
Proof.
  intros H0 Hm sizes. cbn [AssociativeB pop size] in *. unfold as_pop, as_size in *. fold sizes in Hm. fold sizes.
  assert (Htot : forall j (l : list nat), list_sum (map snd (enumerate_from j l)) = list_sum l).
  { intros j l. revert j. induction l as [|x l IH]; intros j; cbn; auto. }
  rewrite Htot. replace (m =? 0) with false by (symmetry; apply Nat.eqb_neq; lia).
  replace (_ =? 0) with false by (symmetry; apply Nat.eqb_neq; lia). cbn [orb].
  replace (_ <=? m) with false by (symmetry; apply Nat.leb_gt; lia).
  assert (E : enumerate_from 0 sizes = map (fun i => (i, nth i sizes 0)) (seq 0 (length sizes))).
  { rewrite enumerate_nth. apply map_ext. intros i. rewrite Nat.sub_0_r. auto. }
  rewrite E. assert (LS : length sizes = length s) by apply map_length.
  destruct (@target_spec sizes m Hm (length sizes) 0) as [(j & J1 & J2 & J3 & J4 & J5)|[J1 J2]].
  - lia.
  - cbn. lia.
  - intros i Hi. lia.
  - cbn [seq list_sum fold_right] in J5. rewrite Nat.sub_0_r in J5. left. exists j. split; [lia|]. split; [auto|]. split; [auto|].
    rewrite J5. cbn [bind]. rewrite pop_loop_pops.
    + unfold asks. rewrite map_map. cbn [fst snd]. auto.
    + apply Forall_forall. intros p Hp. apply in_map_iff in Hp as (i & <- & Hi). apply in_seq in Hi. cbn. lia.
  - cbn [seq list_sum fold_right] in J2. rewrite Nat.sub_0_r in J2. right. split; [intros i Hi; apply J1; lia|]. rewrite J2. auto.
Qed.
Lemma assoc_pop_keeps hash e : Laws C Inv ct dup false e ->
  pop_keeps (AssociativeB hash C) (@as_inv K V hash C Inv ct dup) (@as_ct K V C ct).
Proof.
  intros L s n s' out Hi E. destruct (Nat.eq_dec n 0) as [->|N0].
  { cbn in E. inversion E; subst. auto. }
  destruct (Nat.lt_ge_cases n (size (AssociativeB hash C) s)) as [Hlt|Hge].
  - destruct (@pop_in_between hash s n ltac:(lia) Hlt) as [(j & _ & _ & _ & Ep)|[_ Ep]]; rewrite Ep in E; [|discriminate].
    exact (@pops_keeps hash _ _ _ _ Hi E).
  - assert (E' : pop (AssociativeB hash C) s n = if size (AssociativeB hash C) s =? 0 then Ok (s, []) else flush (AssociativeB hash C) s).
    { cbn [AssociativeB pop size flush]. unfold as_pop, as_size in *.
      assert (Htot : forall j (l : list nat), list_sum (map snd (enumerate_from j l)) = list_sum l).
      { intros j l. revert j. induction l as [|x l IH]; intros j; cbn; auto. }
      rewrite Htot. replace (n =? 0) with false by (symmetry; apply Nat.eqb_neq; lia). cbn [orb].
      destruct (_ =? 0); auto. replace (_ <=? n) with true by (symmetry; apply Nat.leb_le; cbn in Hge; unfold as_size in Hge; lia). auto. }
    rewrite E' in E. destruct (size _ s =? 0); [inversion E; subst; auto|].
    destruct (law_flush (associative_laws hash L) s Hi) as (s1 & o1 & F1 & F2 & F3 & F4 & _). rewrite F1 in E. inversion E; subst. auto.
Qed.
End Composite.

Theorem arch_pop_keeps dup {V} (a : arch K V) : (dup = true -> any_keys a = true) -> pop_keeps (block a) (ainv dup a) (held a).
Proof.
  unfold any_keys.
  induction a as [V OV srt bs cap esz|V OV cap esz|V n f IH|V bs l IHl r IHr|V a IH|V a IH|V a IH|V a IH|V D F f0 a IH|V hash n f IH|V OV L C srt bs cap|V a IH];
    intros Hd.
  - apply (laws_pop_keeps (arch_laws (AArray srt bs cap esz) (fun _ => eq_refl))).
  - destruct dup; [specialize (Hd eq_refl); discriminate|]. apply (laws_pop_keeps (arch_laws (@ABTree _ _ _ OV cap esz) Hd)).
  - cbn [block ainv held]. apply batch_pop_keeps.
    apply (@sum_pop_keeps V (fun i => block (f i)) (fun i => if i <? n then ainv dup (f i) else fun _ => False) (fun i => held (f i))).
    intros i. destruct (i <? n) eqn:Ei; [|intros ? ? ? ? []]. apply Nat.ltb_lt in Ei. apply IH. cbn [needs_new_keys profiled_dyn] in Hd.
    intros E. specialize (Hd E). apply andb_prop in Hd. destruct Hd as [Hd1 Hd2].
    rewrite (negb_existsb_in (fun i => needs_new_keys (f i)) (seq 0 n) i Hd1 (in_seq0 Ei)).
    rewrite (negb_existsb_in (fun i => profiled_dyn (f i)) (seq 0 n) i Hd2 (in_seq0 Ei)). auto.
  - cbn [needs_new_keys profiled_dyn] in Hd.
    assert (Hdl : dup = true -> negb (needs_new_keys l) && negb (profiled_dyn l) = true).
    { intros E. specialize (Hd E). rewrite !negb_orb in Hd. destruct (needs_new_keys l), (profiled_dyn l); cbn in *; auto. rewrite andb_false_r in Hd. auto. }
    assert (Hdr : dup = true -> negb (needs_new_keys r) && negb (profiled_dyn r) = true).
    { intros E. specialize (Hd E). rewrite !negb_orb in Hd. destruct (needs_new_keys r), (profiled_dyn r), (needs_new_keys l), (profiled_dyn l); cbn in *; auto. }
    specialize (IHl Hdl). specialize (IHr Hdr). clear Hd Hdl Hdr.
    intros [f b] n s' out ([Hf Hc] & Hb & Hu) E. cbn [fst snd] in *. cbn [block ExclusiveB pop] in E. unfold ex_pop in E. cbn [fst snd] in E.
    destruct (pop (block r) b n) as [[b1 o1]|] eqn:E1; cbn [bind] in E; [|discriminate]. destruct (IHr _ _ _ _ Hb E1) as (P1 & P2 & P3).
    destruct (sub_chk _ _) as [ev|]; cbn [bind] in E; [|discriminate].
    assert (G : exists f1 o2, s' = (f1, b1) /\ out = o1 ++ o2 /\ ainv dup l f1 /\ capacity (block l) f1 = capacity (block l) f /\ Permutation (o2 ++ held l f1) (held l f)).
    { destruct (ev <? n).
      - destruct (pop (block l) f (n - ev)) as [[f1 o2]|] eqn:E2; cbn [bind] in E; [|discriminate]. inversion E; subst. exists f1, o2.
        destruct (IHl _ _ _ _ Hf E2) as (Q1 & Q2 & Q3). auto.
      - inversion E; subst. exists f, []. rewrite app_nil_r. auto. }
    destruct G as (f1 & o2 & -> & -> & Q1 & Q2 & Q3). cbn [held fst snd].
    assert (Q : Permutation ((o1 ++ o2) ++ held l f1 ++ held r b1) (held l f ++ held r b)) by perm2 P3 Q3.
    split; [|split; [|exact Q]].
    + split; [cbn; split; [auto|congruence]|]. split; [auto|]. intros Ed. eapply nodup_keys_sub; [exact Q|auto].
    + cbn [block ExclusiveB capacity]. unfold ex_capacity. cbn [fst snd]. lia.
  - exact (IH Hd).
  - exact (IH Hd).
  - exact (IH Hd).
  - assert (Hd' : dup = true -> negb (needs_new_keys a) && negb (profiled_dyn a) = true).
    { intros E. specialize (Hd E). cbn [needs_new_keys profiled_dyn] in Hd. rewrite negb_orb in Hd.
      destruct (needs_new_keys a), (profiled_dyn a), (has_dyn a); cbn in *; auto. }
    intros [t s] n [t' s'] out Hi E. cbn [block ProfilerB pop] in E. unfold pf_pop in E. cbn [fst snd] in E.
    destruct (pop (block a) s n) as [[s1 o1]|] eqn:E1; cbn [bind] in E; [|discriminate].
    destruct (sub_chk _ _); cbn [bind] in E; [|discriminate]. inversion E; subst. exact (IH Hd' _ _ _ _ Hi E1).
  - intros [t s] n [t' s'] out Hi E. cbn [block DecoratorB pop fst snd] in E.
    destruct (pop (block a) s n) as [[s1 o1]|] eqn:E1; cbn [bind] in E; [|discriminate]. inversion E; subst.
    destruct (IH Hd _ _ _ _ Hi E1) as (P1 & P2 & P3). split; [exact P1|]. split; [exact P2|]. cbn [held snd]. rewrite <- map_app. apply Permutation_map. auto.
  - cbn [block ainv held].
    assert (Hd' : forall i, i < S n -> dup = true -> negb (needs_new_keys (f i)) && negb (profiled_dyn (f i)) = true).
    { intros i Hi E. specialize (Hd E). cbn [needs_new_keys profiled_dyn] in Hd. apply andb_prop in Hd. destruct Hd as [Hd1 Hd2].
      rewrite (negb_existsb_in (fun i => needs_new_keys (f i)) (seq 0 (S n)) i Hd1 (in_seq0 Hi)).
      rewrite (negb_existsb_in (fun i => profiled_dyn (f i)) (seq 0 (S n)) i Hd2 (in_seq0 Hi)). auto. }
    refine (@assoc_pop_keeps V (SumB (fun i => block (f i))) _ (fun c => held (f (projT1 c)) (projT2 c)) dup _ hash false _).
    + apply (@sum_pop_keeps V (fun i => block (f i)) (fun i => if i <? S n then ainv dup (f i) else fun _ => False) (fun i => held (f i))).
      intros i. destruct (i <? S n) eqn:Ei; [|intros ? ? ? ? []]. apply Nat.ltb_lt in Ei. apply IH. auto.
    + apply family_laws. intros i Hi. eapply laws_flags; [apply arch_laws; exact (Hd' i Hi)|discriminate|discriminate].
  - destruct dup; [specialize (Hd eq_refl); discriminate|]. apply (laws_pop_keeps (arch_laws (@ACompressed _ _ _ OV L C srt bs cap) Hd)).
  - exact (IH Hd).
Qed.

(** Any history, with any pops: the pushes follow the discipline of the architecture, pop is called at will, and every call returned. *)
Definition pushes_ok {V} (dup : bool) (a : arch K V) (h : list (op K V)) : Prop :=
  (dup = true -> any_keys a = true) /\ allowed (block a) (held a) dup true (init a) h.
Lemma keeps_step {V} dup (a : arch K V) s o s' r : (dup = true -> any_keys a = true) -> ainv dup a s ->
  (match o with OpPush vs => may_push (block a) (held a) dup s vs | _ => True end) -> step (block a) s o = Ok (s', r) ->
  ainv dup a s' /\ capacity (block a) s' = capacity (block a) s /\ Permutation (r ++ held a s') (held a s ++ given o).
Proof.
  intros Hd Hi Ho E. destruct o as [vs|n|k|ks|].
  2:{ destruct (@arch_pop_keeps dup V a Hd s n s' r Hi E) as (P1 & P2 & P3). cbn [given]. rewrite app_nil_r. auto. }
  all: match type of E with step _ _ ?o = _ => destruct (step_laws _ o (arch_laws a Hd) Hi Ho) as (s1 & r1 & H1 & H2 & H3 & H4) end;
    rewrite E in H1; inversion H1; subst; auto.
Qed.
Lemma keeps_run {V} dup (a : arch K V) : (dup = true -> any_keys a = true) -> forall h s s' out, ainv dup a s ->
  allowed (block a) (held a) dup true s h -> run (block a) s h = Ok (s', out) ->
  ainv dup a s' /\ capacity (block a) s' = capacity (block a) s /\ Permutation (out ++ held a s') (held a s ++ all_given h).
Proof.
  intros Hd. induction h as [|o h IH]; intros s s' out Hi Ha E; cbn [run] in E.
  - inversion E; subst. unfold all_given. cbn. rewrite app_nil_r. auto.
  - destruct Ha as [Ho Ha]. destruct (step (block a) s o) as [[s1 r1]|] eqn:E1; cbn [bind] in E; [|discriminate].
    destruct (run (block a) s1 h) as [[s2 r2]|] eqn:E2; cbn [bind] in E; [|discriminate]. inversion E; subst.
    destruct (@keeps_step V dup a s o s1 r1 Hd Hi) as (P1 & P2 & P3); [destruct o; auto|auto|].
    destruct (IH _ _ _ P1 (Ha _ _ eq_refl) E2) as (Q1 & Q2 & Q3). split; [auto|]. split; [congruence|].
    unfold all_given in *. cbn [flat_map]. perm2 P3 Q3.
Qed.
Definition returns_to {V} (dup : bool) (a : arch K V) (s : St (block a)) : Prop :=
  exists h out, pushes_ok dup a h /\ run (block a) (init a) h = Ok (s, out).
Lemma returns_inv {V} dup (a : arch K V) s : returns_to dup a s -> (dup = true -> any_keys a = true) /\ ainv dup a s.
Proof.
  intros (h & out & [Hd Ha] & Hr). split; [auto|]. destruct (init_ok dup a) as [Hi _].
  exact (proj1 (@keeps_run V dup a Hd h _ _ _ Hi Ha Hr)).
Qed.

(** C19: whatever is called, pops on an Associative included: as long as the calls return, nothing is lost or invented. *)
Theorem C19_whenever_it_returns : forall V dup (a : arch K V) h s out, pushes_ok dup a h ->
  run (block a) (init a) h = Ok (s, out) ->
  Permutation (out ++ held a s) (all_given h) /\ size (block a) s <= capacity (block a) s /\ capacity (block a) s = leaves_capacity a.
Proof.
  intros V dup a h s out [Hd Ha] Hr. destruct (init_ok dup a) as [Hi He].
  destruct (@keeps_run V dup a Hd h _ _ _ Hi Ha Hr) as (P1 & P2 & P3). rewrite He in P3. split; [exact P3|].
  split; [apply (law_size (arch_laws a Hd) s P1)|]. rewrite P2. apply init_capacity.
Qed.
(** C16: the placement of the keys survives any pop. *)
Theorem C16_each_key_in_its_set_after_pops : forall V dup hash n (f : nat -> arch K V) s,
  returns_to dup (AAssociative hash n f) s ->
  length s = S n /\
  forall i c, nth_error s i = Some c ->
  forall k, In k (keys (held (f (projT1 c)) (projT2 c))) -> set_index hash (S n) k = i.
Proof.
  intros V dup hash n f s Hre. assert (Hl : length s = S n).
  { destruct Hre as (h & out & _ & Hr). apply assoc_run_length in Hr. etransitivity; [exact Hr|].
    cbn [init]. rewrite map_length, seq_length. auto. }
  split; auto. intros i c Hn k Hk. pose proof (returns_inv Hre) as [Hd (I1 & I2 & I3 & I4)].
  unfold ckeys in I3. pose proof (@placed_nth _ _ _ _ _ 0 i c I3 Hn k Hk) as E. cbn in E. rewrite <- E. unfold set_index, set_of.
  exact (f_equal (fun m => N.to_nat (N.modulo (hash k) (N.of_nat m))) (eq_sym Hl)).
Qed.
(** C17: a pop on an Associative that returns gives out elements it held, and holds the others. *)
Theorem C17_pop_keeps : forall V dup hash n (f : nat -> arch K V) s m s' out, returns_to dup (AAssociative hash n f) s ->
  pop (block (AAssociative hash n f)) s m = Ok (s', out) ->
  Permutation (out ++ held (AAssociative hash n f) s') (held (AAssociative hash n f) s) /\ returns_to dup (AAssociative hash n f) s'.
Proof.
  intros V dup hash n f s m s' out Hre E. pose proof (returns_inv Hre) as [Hd Hi].
  split; [exact (proj2 (proj2 (@arch_pop_keeps dup V _ Hd s m s' out Hi E)))|].
  destruct Hre as (h & out0 & [_ Hu] & Hr). exists (h ++ [OpPop m]), (out0 ++ (out ++ [])). split.
  - split; [auto|]. eapply allowed_snoc; eauto. split; [reflexivity|]. intros s1 r1 _. exact I.
  - rewrite run_app, Hr. cbn [bind run step]. rewrite E. reflexivity.
Qed.
(** C17: exactly what pop does of a request that is neither nothing nor everything.  Put aside the sets 0, 1, ... until the
    first [j] for which the level, computed from the total size less the numbers of the sets put aside, is at most [j]; then
    for every [i] from [j] on, the set whose number is the size of set [i] is asked for [i] less the level. *)
Theorem C17_pop_in_between_exactly : forall V hash (C : Block K V) (s : St (AssociativeB hash C)) m,
  0 < m -> m < size (AssociativeB hash C) s ->
  let sizes := map (size C) s in
  (exists j, j < length s /\ level sizes m j <= j /\ (forall i, i < j -> i < level sizes m i) /\
     pop (AssociativeB hash C) s m = pops C s (asks sizes m j)) \/
  ((forall i, i < length s -> i < level sizes m i) /\ pop (AssociativeB hash C) s m = Panic).
Proof. intros V hash C s m H1 H2. apply (@pop_in_between V C hash s m H1 H2). Qed.
(** All the sets together are never asked for more than 0 + 1 + ... + (number of sets - 1), whatever was asked of pop. *)
Theorem C17_pop_asks_little_refuted : forall (sizes : list nat) m j, j < length sizes ->
  list_sum (map snd (asks sizes m j)) <= list_sum (seq 0 (length sizes)).
Proof.
  intros sizes m j Hj. unfold asks. rewrite map_map. cbn [snd]. generalize (level sizes m j). intros t.
  assert (G : forall k i, list_sum (map (fun x => x - t) (seq i k)) <= list_sum (seq i k)).
  { induction k as [|k IH]; intros i; cbn; [auto|]. specialize (IH (S i)). unfold list_sum in *. lia. }
  specialize (G (length sizes - j) j).
  assert (E : list_sum (seq 0 (length sizes)) = list_sum (seq 0 j) + list_sum (seq j (length sizes - j))).
  { pose proof (seq_app j (length sizes - j) 0) as A. replace (j + (length sizes - j)) with (length sizes) in A by lia. rewrite A, list_sum_app. reflexivity. }
  lia.
Qed.
End Keeps.

(** Witness: five sets of an element each under a Profiler; pop(4) returns one element, and the account is still exact. *)
Definition five : arch nat nat := AAssociative N.of_nat 4 (fun _ => ar 2).
Definition five_h : list (op nat nat) := [OpPush [(0, 0); (1, 1); (2, 2); (3, 3); (4, 4)]; OpPop 4; OpTake 2].
Example five_pushes : pushes_ok true (AProfiler five) five_h.
Proof. split; [reflexivity|]. apply allowedb_ok. vm_compute. reflexivity. Qed.
Example five_run : exists s out, run (block (AProfiler five)) (init (AProfiler five)) five_h = Ok (s, out) /\ length out = 2 /\ size (block (AProfiler five)) s = 3.
Proof. 
  assert (E : match run (block (AProfiler five)) (init (AProfiler five)) five_h with Ok (s, out) => (length out =? 2) && (size (block (AProfiler five)) s =? 3) | Panic => false end = true)
    by (vm_compute; reflexivity).
  destruct (run _ _ five_h) as [[s out]|]; [|discriminate]. exists s, out. apply andb_prop in E as [E1 E2].
  split; [reflexivity|]. split; [exact (proj1 (Nat.eqb_eq _ _) E1)|exact (proj1 (Nat.eqb_eq _ _) E2)].
 Qed.
Example five_exactly : exists s, returns_to true five s /\ 0 < 4 /\ 4 < size (block five) s /\
  level (map (size (SumB (fun _ : nat => block (@ar nat _ 2)))) s) 4 0 <= 0.
Proof.
  assert (R : exists s out, run (block five) (init five) [OpPush [(0, 0); (1, 1); (2, 2); (3, 3); (4, 4)]] = Ok (s, out) /\
    (4 < size (block five) s /\ level (map (size (SumB (fun _ : nat => block (@ar nat _ 2)))) s) 4 0 <= 0)).
  { apply (ok_case (fun s => 4 < size (block five) s /\ level (map (size (SumB (fun _ : nat => block (@ar nat _ 2)))) s) 4 0 <= 0)).
    vm_compute. split; auto. }
  destruct R as [s R]. destruct R as [out R]. destruct R as [R1 [R2 R3]]. exists s.
  split; [|split; [lia|split; [exact R2|exact R3]]]. exists [OpPush [(0, 0); (1, 1); (2, 2); (3, 3); (4, 4)]], out. split; [|exact R1].
  split; [reflexivity|]. apply allowedb_ok. vm_compute. reflexivity.
Qed.
