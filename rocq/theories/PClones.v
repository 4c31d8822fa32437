(** PClones.v -- property theorems: clones are handles on one container, copies are containers of their own (C56). *)
From Coq Require Import NArith.
From Verif Require Import Base PermSolve Block Spec LawsProof Cut Array Wrappers Associative AssociativeProof
  Arch ArchProof PArch Sim Linear Decorations PStream PDeco Clones.
Set Implicit Arguments.

Section See.
Context {P : nat -> Type}.
Variable g : forall i, P i -> P i -> P i.
Lemma see_one_idx o c : projT1 (see_one g o c) = projT1 c.
Proof. unfold see_one. destruct (Nat.eq_dec _ _); auto. Qed.
Lemma see_one_case o c : see_one g o c = c \/ exists x, see_one g o c = existT P (projT1 c) (g x (projT2 c)).
Proof. unfold see_one. destruct (Nat.eq_dec _ _); eauto. Qed.
Lemma see_each_shared own cur : (forall i (o c : P i), g o c = c) -> see_each g own cur = cur.
Proof.
  intros H. revert cur. induction own as [|o own IH]; intros [|c cur]; auto. cbn [see_each]. rewrite IH. f_equal.
  destruct (see_one_case o c) as [E|[x E]]; rewrite E; auto. rewrite H. destruct c; auto.
Qed.
(** Anything of a component that does not depend on the handle's own part. *)
Lemma see_each_map {T} (obs : {i : nat & P i} -> T) own cur :
  (forall i (x c : P i), obs (existT P i (g x c)) = obs (existT P i c)) ->
  map obs (see_each g own cur) = map obs cur.
Proof.
  intros H. revert cur. induction own as [|o own IH]; intros [|c cur]; auto. cbn [see_each map]. rewrite IH. f_equal.
  destruct (see_one_case o c) as [E|[x E]]; rewrite E; auto. rewrite H. destruct c; auto.
Qed.
Lemma see_each_length own cur : length (see_each g own cur) = length cur.
Proof. rewrite <- (map_length (fun _ => tt)), see_each_map by auto. apply map_length. Qed.
End See.

Lemma flat_map_via {A B} (f : A -> list B) l : flat_map f l = concat (map f l).
Proof. apply flat_map_concat_map. Qed.

Lemma nth_obs {T O} (obs : T -> res O) l1 l2 m : map obs l1 = map obs l2 ->
  bind (unwrap (nth_error l1 m)) obs = bind (unwrap (nth_error l2 m)) obs.
Proof.
  intros E. apply (f_equal (fun l => nth_error l m)) in E. rewrite !nth_error_map in E.
  destruct (nth_error l1 m), (nth_error l2 m); cbn in *; congruence.
Qed.

Section Through.
Context {K : Type} {OK : Ord K} {EK : OrdEq K}.

Lemma through_shared V (a : arch K V) (i : concurrent a) own cur : all_shared i -> through i own cur = cur.
Proof.
  induction i as [V a|V a|V a i IH|V D F f0 b a i IH|V hash n f im IH]; cbn [all_shared through]; intros H; auto.
  - rewrite IH by auto. destruct cur; auto.
  - destruct H as [-> H]. rewrite IH by auto. destruct cur; auto.
  - apply (@see_each_shared (fun j => St (block (f j))) (fun j => through (im j))). intros j o c. apply IH, H.
Qed.

(** What is seen of a container does not depend on the handle. *)
Lemma through_held V (a : arch K V) (i : concurrent a) : forall own cur, held a (through i own cur) = held a cur.
Proof.
  induction i as [V a|V a|V a i IH|V D F f0 b a i IH|V hash n f im IH]; cbn [held through]; intros own cur; auto.
  - cbn [snd]. auto.
  - cbn [snd]. rewrite IH. auto.
  - rewrite !flat_map_via. f_equal.
    apply (@see_each_map (fun j => St (block (f j))) (fun j => through (im j)) _ (fun c => held (f (projT1 c)) (projT2 c))).
    intros j x c. cbn. apply IH.
Qed.
Lemma through_capacity V (a : arch K V) (i : concurrent a) : forall own cur,
  capacity (block a) (through i own cur) = capacity (block a) cur.
Proof.
  induction i as [V a|V a|V a i IH|V D F f0 b a i IH|V hash n f im IH]; cbn [block through]; intros own cur; auto.
  - cbn. auto.
  - cbn. auto.
  - cbn [capacity AssociativeB]. unfold as_capacity. f_equal.
    apply (@see_each_map (fun j => St (block (f j))) (fun j => through (im j)) _ (capacity (SumB (fun i => block (f i))))).
    intros j x c. cbn. apply IH.
Qed.
Lemma through_size V (a : arch K V) (i : concurrent a) : forall own cur,
  size (block a) (through i own cur) = size (block a) cur.
Proof.
  induction i as [V a|V a|V a i IH|V D F f0 b a i IH|V hash n f im IH]; cbn [block through]; intros own cur; auto.
  - cbn. auto.
  - cbn. auto.
  - cbn [size AssociativeB]. unfold as_size. f_equal.
    apply (@see_each_map (fun j => St (block (f j))) (fun j => through (im j)) _ (size (SumB (fun i => block (f i))))).
    intros j x c. cbn. apply IH.
Qed.
Lemma through_contains V (a : arch K V) (i : concurrent a) : forall own cur k,
  contains (block a) (through i own cur) k = contains (block a) cur k.
Proof.
  induction i as [V a|V a|V a i IH|V D F f0 b a i IH|V hash n f im IH]; cbn [block through]; intros own cur k; auto.
  - cbn. auto.
  - cbn. auto.
  - cbn [contains AssociativeB]. unfold as_contains, as_set.
    rewrite (@see_each_length (fun j => St (block (f j))) (fun j => through (im j))).
    match goal with |- bind ?x _ = bind ?y _ => change x with y; destruct y as [m|]; [cbn [bind]|auto] end.
    apply (@nth_obs {j : nat & St (block (f j))} bool (fun c => contains (block (f (projT1 c))) (projT2 c) k)).
    apply (@see_each_map (fun j => St (block (f j))) (fun j => through (im j))). intros j x c; cbn; apply IH.
Qed.
Lemma through_inv dup V (a : arch K V) (i : concurrent a) : forall own cur,
  ainv dup a cur -> ainv dup a (through i own cur).
Proof.
  induction i as [V a|V a|V a i IH|V D F f0 b a i IH|V hash n f im IH]; cbn [ainv through]; intros own cur H; auto.
  - cbn [snd]. auto.
  - cbn [snd]. auto.
  - destruct H as (H1 & H2 & H3 & H4).
    pose proof (@see_each_map (fun j => St (block (f j))) (fun j => through (im j)) _ (fun c => held (f (projT1 c)) (projT2 c)) own cur
      ltac:(intros j x c; cbn; apply through_held)) as Eh.
    pose proof (@see_each_length (fun j => St (block (f j))) (fun j => through (im j)) own cur) as El.
    unfold as_inv. cbn [St SumB] in *. rewrite El. split; [auto|]. split; [|split].
    + clear H1 H3 H4 Eh El. revert own. induction cur as [|c cur IHc]; intros [|o own]; cbn [see_each]; auto.
      inversion H2 as [|? ? G1 G2]; subst. constructor; [|apply IHc; auto].
      destruct (see_one_case (fun j => through (im j)) o c) as [E|[x E]]; rewrite E; auto. cbn [projT1 projT2].
      destruct (projT1 c <? S n); auto.
    + unfold ckeys in *. match goal with |- placed _ _ ?l => replace l with (map (fun c : {j : nat & St (block (f j))} => keys (held (f (projT1 c)) (projT2 c))) cur) end; auto.
      rewrite <- !(map_map (fun c : {j : nat & St (block (f j))} => held (f (projT1 c)) (projT2 c)) keys). f_equal. auto.
    + intros E. specialize (H4 E). pose proof (through_held (KAssociative hash n f im) own cur) as Eh2.
      exact (eq_ind_r (fun l => NoDup (keys l)) H4 Eh2).
Qed.
End Through.

(** ** Worlds *)
Section World.
Context {K : Type} {OK : Ord K} {EK : OrdEq K} {V : Type}.
Variable a : arch K V.
Variable i : concurrent a.
Notation world := (world a).

(** Every handle is on a container. *)
Definition wf (w : world) : Prop := Forall (fun h => fst h < length (boxes w)) (handles w).
Lemma wf_start s : wf (start a s).
Proof. repeat constructor. Qed.
Lemma wf_seen w h b own : wf w -> nth_error (handles w) h = Some (b, own) ->
  exists c, nth_error (boxes w) b = Some c /\ seen i w h = Some (through i own c).
Proof.
  intros Hw E. unfold wf in Hw. rewrite Forall_forall in Hw. pose proof (Hw _ (nth_error_In _ _ E)) as Hl. cbn in Hl.
  destruct (nth_error (boxes w) b) as [c|] eqn:Ec; [|apply nth_error_None in Ec; lia].
  exists c. split; auto. unfold seen. rewrite E, Ec. auto.
Qed.
Lemma box_of_inv (w : world) h b : box_of w h = Some b -> exists own, nth_error (handles w) h = Some (b, own).
Proof. unfold box_of. destruct (nth_error (handles w) h) as [[b' own]|]; [|discriminate]. cbn. intros [= <-]. eauto. Qed.
Lemma wf_happens w e l w' : wf w -> happens i w e l w' -> wf w'.
Proof.
  intros Hw H. inversion H as [w0 h b own E|w0 h s E|w0 h b q s s' r Eb Es Ea]; subst; unfold wf; cbn [boxes handles].
  - apply Forall_app. split; auto. constructor; auto. unfold wf in Hw. rewrite Forall_forall in Hw.
    apply (Hw _ (nth_error_In _ _ E)).
  - rewrite app_length. cbn. apply Forall_app. split; [|constructor; auto; cbn; lia].
    eapply Forall_impl; [|exact Hw]. cbn. intros; lia.
  - rewrite replace_nth_length. apply replace_nth_Forall; auto. cbn. apply box_of_inv in Eb as [own E].
    unfold wf in Hw. rewrite Forall_forall in Hw. apply (Hw _ (nth_error_In _ _ E)).
Qed.
Lemma wf_history w es l w' : wf w -> history i w es l w' -> wf w'.
Proof. intros Hw H. induction H; auto. eauto using wf_happens. Qed.

(** A handle keeps its container, and so do the clones made of it. *)
Lemma box_of_keeps w e l w' h b : happens i w e l w' -> box_of w h = Some b -> box_of w' h = Some b.
Proof.
  intros H Hb. inversion H as [w0 h0 b0 own E|w0 h0 s E|w0 h0 b0 q s s' r Eb Es Ea]; subst; unfold box_of in *; cbn [handles].
  - apply box_of_inv in Hb as [own' E']. rewrite nth_error_app1 by (apply nth_error_Some; congruence). rewrite E'. auto.
  - apply box_of_inv in Hb as [own' E']. rewrite nth_error_app1 by (apply nth_error_Some; congruence). rewrite E'. auto.
  - destruct (Nat.eq_dec h0 h) as [->|N]; [|rewrite replace_nth_other; auto].
    assert (h < length (handles w)). { apply nth_error_Some. destruct (nth_error (handles w) h); discriminate. }
    rewrite replace_nth_same by auto. cbn. congruence.
Qed.

(** The same container. *)
Definition same (w : world) (h1 h2 : nat) : Prop := exists b, box_of w h1 = Some b /\ box_of w h2 = Some b.

(** C56: a clone is a handle on the same container, and a copy is a container of its own. *)
Theorem C56_clone_shares : forall w h l w', happens i w (Shallow h) l w' -> same w' h (length (handles w)).
Proof.
  intros w h l w' H. inversion H as [w0 h0 b own E| |]; subst. exists b. unfold box_of; cbn [handles]. split.
  - rewrite nth_error_app1 by (apply nth_error_Some; congruence). rewrite E. auto.
  - rewrite nth_error_app2, Nat.sub_diag by lia. auto.
Qed.
Theorem C56_copy_is_new : forall w h l w', wf w -> happens i w (Deep h) l w' ->
  (forall h', h' < length (handles w) -> ~ same w' h' (length (handles w))) /\
  exists s s', seen i w h = Some s /\ seen i w' (length (handles w)) = Some s' /\
    held a s' = held a s /\ (all_shared i -> s' = s).
Proof.
  intros w h l w' Hw H. inversion H as [|w0 h0 s E|]; subst. split.
  - intros h' Hl (b & Hb & Hb'). unfold box_of in *; cbn [handles] in *.
    rewrite nth_error_app2, Nat.sub_diag in Hb' by lia. cbn in Hb'. injection Hb' as <-.
    rewrite nth_error_app1 in Hb by lia. destruct (nth_error (handles w) h') as [[b own]|] eqn:E'; [|discriminate].
    injection Hb as ->. unfold wf in Hw. rewrite Forall_forall in Hw. pose proof (Hw _ (nth_error_In _ _ E')). cbn in *. lia.
  - exists s, (through i s s). split; auto. split; [|split; [apply through_held|apply through_shared]].
    unfold seen; cbn [handles boxes]. rewrite nth_error_app2, Nat.sub_diag by lia. cbn [nth_error option_map].
    rewrite nth_error_app2, Nat.sub_diag by lia. auto.
Qed.

(** Handles on one container see the same container: the same contents, the same answers to contains, size and
    capacity -- whatever was done through which of them. *)
Theorem C56_handles_agree : forall s0 es l w h1 h2, history i (start a s0) es l w -> same w h1 h2 ->
  exists s1 s2, seen i w h1 = Some s1 /\ seen i w h2 = Some s2 /\ held a s1 = held a s2 /\
    size (block a) s1 = size (block a) s2 /\ capacity (block a) s1 = capacity (block a) s2 /\
    (forall k, contains (block a) s1 k = contains (block a) s2 k) /\ (all_shared i -> s1 = s2).
Proof.
  intros s0 es l w h1 h2 H (b & H1 & H2). apply (wf_history (@wf_start s0)) in H.
  apply box_of_inv in H1 as [o1 E1]. apply box_of_inv in H2 as [o2 E2].
  destruct (wf_seen _ H E1) as (c & Ec & S1). destruct (wf_seen _ H E2) as (c' & Ec' & S2).
  assert (c' = c) by congruence. subst c'. eexists _, _. split; [exact S1|]. split; [exact S2|].
  rewrite !through_held, !through_size, !through_capacity. repeat split; auto.
  - intros k. rewrite !through_contains. auto.
  - intros Hs. rewrite !through_shared by auto. auto.
Qed.

(** A call through a handle leaves the containers of other handles alone. *)
Theorem C56_other_containers_untouched : forall w h q l w' h', wf w -> happens i w (Ask h q) l w' ->
  h' < length (handles w) -> ~ same w h h' -> seen i w' h' = seen i w h'.
Proof.
  intros w h q l w' h' Hw H Hl N. inversion H as [| |w0 h0 b q0 s s' r Eb Es Ea]; subst. unfold seen; cbn [boxes handles].
  rewrite replace_nth_other. 2:{ intros <-. apply N. exists b; auto. }
  destruct (nth_error (handles w) h') as [[b' own]|] eqn:E; auto. rewrite replace_nth_other; auto.
  intros <-. apply N. exists b. split; auto. unfold box_of. rewrite E. auto.
Qed.

(** ** Every container answers as if it had one handle *)
Lemma answers_app l1 : forall s l2 s', answers a s (l1 ++ l2) s' <-> exists s1, answers a s l1 s1 /\ answers a s1 l2 s'.
Proof.
  induction l1 as [|[q r] l1 IH]; intros s l2 s'; cbn [answers app].
  - split; [eauto|]. intros (s1 & -> & H). auto.
  - split.
    + intros (s1 & E & H). apply IH in H as (s2 & H1 & H2). eauto 6.
    + intros (s2 & (s1 & E & H1) & H2). exists s1. split; auto. apply IH. eauto.
Qed.
Lemma asked_of_app b l1 l2 : asked_of b (l1 ++ l2) = asked_of (K := K) (V := V) b l1 ++ asked_of b l2.
Proof. apply flat_map_app. Qed.

(** C56: if no part of the container belongs to the handle, the calls made on one container, through whichever handle
    and whatever else happens in between, get the answers they would get through a single handle. *)
Lemma one_container_step w e l w' b s : wf w -> all_shared i -> happens i w e l w' -> nth_error (boxes w) b = Some s ->
  exists s', answers a s (asked_of b l) s' /\ nth_error (boxes w') b = Some s'.
Proof.
  intros Hw Hs H Hb. inversion H as [w0 h b0 own E|w0 h s0 E|w0 h b0 q s0 s' r Eb Es Ea]; subst; cbn [boxes asked_of flat_map answers].
  - eauto.
  - exists s. split; auto. rewrite nth_error_app1; auto. apply nth_error_Some. congruence.
  - cbn [fst snd]. destruct (Nat.eqb_spec b0 b) as [->|N]; cbn [app answers].
    + apply box_of_inv in Eb as [own E]. destruct (wf_seen _ Hw E) as (c & Ec & S1).
      rewrite through_shared in S1 by auto. assert (c = s) by congruence. assert (s0 = s) by congruence. subst.
      exists s'. split; [eauto|]. apply replace_nth_same. apply nth_error_Some. congruence.
    + exists s. split; auto. rewrite replace_nth_other; auto.
Qed.
Theorem C56_one_container : forall s0 es0 l0 w es l w' b s,
  all_shared i -> history i (start a s0) es0 l0 w -> history i w es l w' -> nth_error (boxes w) b = Some s ->
  exists s', answers a s (asked_of b l) s' /\ nth_error (boxes w') b = Some s' /\
    forall h, box_of w' h = Some b -> seen i w' h = Some s'.
Proof.
  intros s0 es0 l0 w es l w' b s Hs H0 H Hb. apply (wf_history (@wf_start s0)) in H0. clear es0 l0 s0.
  revert s Hb. induction H as [w|w e l w1 es ls w2 H1 H2 IH]; intros s Hb.
  - exists s. cbn. split; auto. split; auto. intros h Hh. apply box_of_inv in Hh as [own E].
    destruct (wf_seen _ H0 E) as (c & Ec & S1). rewrite through_shared in S1 by auto. congruence.
  - destruct (one_container_step _ H0 Hs H1 Hb) as (s1 & A1 & B1).
    destruct (IH (wf_happens H0 H1) _ B1) as (s2 & A2 & B2 & C2). exists s2. split; auto.
    rewrite asked_of_app. apply answers_app. eauto.
Qed.

(** ** With a Fifo too: nothing is lost and every call answers *)
(** The calls the discipline of [dup] allows on a container in state [s] (PArch.v). *)
Definition proper (dup : bool) (s : St (block a)) (q : ask K V) : Prop :=
  match q with
  | AskPush vs => may_push (block a) (held a) dup s vs
  | AskPop _ => has_associative a = false
  | _ => True
  end.
Lemma answer_laws dup s q : (dup = true -> any_keys a = true) -> ainv dup a s -> proper dup s q ->
  exists s' r, answer (block a) s q = Ok (s', r) /\ ainv dup a s' /\
    Permutation (got r ++ held a s') (held a s ++ put q).
Proof.
  intros Hd Hi Hp. pose proof (arch_laws a Hd) as L. destruct q as [| |k|k|ks|n|vs|]; cbn [answer put proper] in *; rewrite ?app_nil_r.
  - eexists _, _; split; [reflexivity|]. cbn. auto.
  - eexists _, _; split; [reflexivity|]. cbn. auto.
  - rewrite (law_contains L s k Hi). eexists _, _; split; [reflexivity|]. cbn. auto.
  - destruct (law_take L s k Hi) as (s' & o & H1 & H2 & _ & _ & H5). rewrite H1. eexists _, _; split; [reflexivity|].
    split; auto. cbn [got]. destruct o as [[k' v]|]; cbn [opt_list app]; [destruct H5 as [-> H5]|destruct H5 as [_ H5]]; auto.
  - destruct (law_take_multiple L s ks Hi) as (s' & ks' & out & H1 & H2 & _ & _ & H5 & _). rewrite H1.
    eexists _, _; split; [reflexivity|]. auto.
  - rewrite Hp in L. destruct (law_pop L eq_refl s n Hi) as (s' & out & H1 & H2 & _ & H5 & _). rewrite H1.
    eexists _, _; split; [reflexivity|]. auto.
  - destruct (law_push L s vs Hi Hp) as (s' & out & H1 & H2 & _ & H5). rewrite H1.
    eexists _, _; split; [reflexivity|]. auto.
  - destruct (law_flush L s Hi) as (s' & out & H1 & H2 & _ & H5 & _). rewrite H1.
    eexists _, _; split; [reflexivity|]. auto.
Qed.

(** Histories in which every call is proper. *)
Inductive disciplined (dup : bool) : world -> list (happening (K := K) (V := V)) -> list (nat * ask K V * saw K V) -> world -> Prop :=
| D_none : forall w, disciplined dup w [] [] w
| D_more : forall w e l w1 es ls w2, happens i w e l w1 ->
    (forall h q s, e = Ask h q -> seen i w h = Some s -> proper dup s q) ->
    disciplined dup w1 es ls w2 -> disciplined dup w (e :: es) (l ++ ls) w2.

Definition fine (dup : bool) (w : world) : Prop := Forall (ainv dup a) (boxes w).
Lemma nth_Forall {T} (P : T -> Prop) l n x : Forall P l -> nth_error l n = Some x -> P x.
Proof. rewrite Forall_forall. intros H E. apply H. eapply nth_error_In; eauto. Qed.
Lemma fine_seen dup w h s : fine dup w -> seen i w h = Some s -> ainv dup a s.
Proof.
  intros Hf. unfold seen. destruct (nth_error (handles w) h) as [[b own]|]; [|discriminate].
  destruct (nth_error (boxes w) b) as [c|] eqn:E; [|discriminate]. cbn. intros [= <-].
  apply through_inv. eapply nth_Forall; eauto.
Qed.
Lemma fine_step dup w e l w1 : (dup = true -> any_keys a = true) -> wf w -> fine dup w -> happens i w e l w1 ->
  (forall h q s, e = Ask h q -> seen i w h = Some s -> proper dup s q) -> fine dup w1 /\
  forall b c, nth_error (boxes w) b = Some c -> exists c', nth_error (boxes w1) b = Some c' /\
    Permutation (all_got (asked_of b l) ++ held a c') (held a c ++ all_put (asked_of b l)).
Proof.
  intros Hd Hw Hf H Hp. inversion H as [w0 h b0 own E|w0 h s0 E|w0 h b0 q s0 s' r Eb Es Ea]; subst; cbn [asked_of flat_map].
  - split; auto. cbn. intros b c Hb. exists c. rewrite app_nil_r. auto.
  - split.
    + unfold fine; cbn [boxes]. apply Forall_app. split; auto. constructor; auto. eapply fine_seen; eauto.
    + cbn. intros b c Hb. exists c. rewrite app_nil_r, nth_error_app1; auto. apply nth_error_Some. congruence.
  - pose proof (fine_seen _ Hf Es) as Hi. destruct (answer_laws _ _ Hd Hi (Hp _ _ _ eq_refl Es)) as (s1 & r1 & A1 & A2 & A3).
    rewrite Ea in A1. injection A1 as <- <-. split; [apply replace_nth_Forall; auto|]. cbn [fst snd boxes].
    intros b c Hb. destruct (Nat.eqb_spec b0 b) as [->|N]; cbn [app all_got all_put flat_map]; rewrite ?app_nil_r.
    + exists s'. split; [apply replace_nth_same; apply nth_error_Some; congruence|].
      apply box_of_inv in Eb as [own E]. destruct (wf_seen _ Hw E) as (c' & Ec & S1).
      assert (c' = c) by congruence. subst c'. rewrite S1 in Es. injection Es as <-. rewrite through_held in A3. auto.
    + exists c. rewrite replace_nth_other; auto.
Qed.
Lemma all_got_app l1 l2 : all_got (l1 ++ l2) = all_got (K := K) (V := V) l1 ++ all_got l2.
Proof. apply flat_map_app. Qed.
Lemma all_put_app l1 l2 : all_put (l1 ++ l2) = all_put (K := K) (V := V) l1 ++ all_put l2.
Proof. apply flat_map_app. Qed.
Lemma fine_history dup w es l w' : (dup = true -> any_keys a = true) -> wf w -> fine dup w -> disciplined dup w es l w' ->
  wf w' /\ fine dup w' /\
  forall b c, nth_error (boxes w) b = Some c -> exists c', nth_error (boxes w') b = Some c' /\
    Permutation (all_got (asked_of b l) ++ held a c') (held a c ++ all_put (asked_of b l)).
Proof.
  intros Hd Hw Hf H. induction H as [w|w e l w1 es ls w2 H1 Hp H2 IH].
  - split; auto. split; auto. intros b c Hb. exists c. cbn. rewrite app_nil_r. auto.
  - destruct (fine_step Hd Hw Hf H1 Hp) as [Hf1 P1]. destruct (IH (wf_happens Hw H1) Hf1) as (Hw2 & Hf2 & P2).
    split; auto. split; auto. intros b c Hb. destruct (P1 b c Hb) as (c1 & Hb1 & Q1). destruct (P2 b c1 Hb1) as (c2 & Hb2 & Q2).
    exists c2. split; auto. rewrite asked_of_app, all_got_app, all_put_app, <- app_assoc, Q2, !app_assoc, Q1. auto.
Qed.
Lemma start_fine dup : fine dup (start a (init a)).
Proof. constructor; auto. apply init_ok. Qed.

(** C56, for every Concurrent container (Fifo decorators included): of all that is pushed to a new container through
    its handles, what does not come back through one of them is held, and every handle sees exactly that. *)
Theorem C56_nothing_lost : forall dup es l w h s, (dup = true -> any_keys a = true) ->
  disciplined dup (start a (init a)) es l w -> box_of w h = Some 0 -> seen i w h = Some s ->
  Permutation (all_got (asked_of 0 l) ++ held a s) (all_put (asked_of 0 l)) /\
  size (block a) s <= capacity (block a) s /\
  forall k, contains (block a) s k = Ok (has_key k (held a s)).
Proof.
  intros dup es l w h s Hd H Hb Hs. destruct (fine_history Hd (@wf_start (init a)) (start_fine dup) H) as (Hw & Hf & P).
  destruct (P 0 (init a) eq_refl) as (c & Hc & Q). rewrite (proj2 (init_ok dup a)) in Q. cbn [app] in Q.
  pose proof (fine_seen _ Hf Hs) as Hi. pose proof (arch_laws a Hd) as L.
  split; [|split; [apply (law_size L _ Hi)|intros k; apply (law_contains L _ k Hi)]].
  apply box_of_inv in Hb as [own E]. destruct (wf_seen _ Hw E) as (c' & Ec & S1). assert (c' = c) by congruence. subst c'.
  rewrite S1 in Hs. injection Hs as <-. rewrite through_held. auto.
Qed.
(** ... and no proper call through any handle panics. *)
Theorem C56_every_call_answers : forall dup es l w h s q, (dup = true -> any_keys a = true) ->
  disciplined dup (start a (init a)) es l w -> seen i w h = Some s -> proper dup s q ->
  exists l' w', happens i w (Ask h q) l' w'.
Proof.
  intros dup es l w h s q Hd H Hs Hp. destruct (fine_history Hd (@wf_start (init a)) (start_fine dup) H) as (Hw & Hf & _).
  destruct (answer_laws _ _ Hd (fine_seen _ Hf Hs) Hp) as (s' & r & A & _).
  pose proof Hs as Hs'. unfold seen in Hs'. destruct (nth_error (handles w) h) as [[b own]|] eqn:E; [|discriminate].
  eexists _, _. eapply H_ask; [unfold box_of; rewrite E; reflexivity|exact Hs|exact A].
Qed.
End World.

(** ** Examples *)
Section Play.
Context {K : Type} {OK : Ord K} {V : Type} {a : arch K V}.
Variable i : concurrent a.
Definition play_one (w : world a) (e : happening (K := K) (V := V)) : option (list (nat * ask K V * saw K V) * world a) :=
  match e with
  | Shallow h => match nth_error (handles w) h with Some x => Some ([], mkW a (boxes w) (handles w ++ [x])) | None => None end
  | Deep h => match seen i w h with
              | Some s => Some ([], mkW a (boxes w ++ [s]) (handles w ++ [(length (boxes w), s)])) | None => None end
  | Ask h q =>
      match box_of w h, seen i w h with
      | Some b, Some s => match answer (block a) s q with
          | Ok (s', r) => Some ([(b, q, r)], mkW a (replace_nth b s' (boxes w)) (replace_nth h (b, s') (handles w)))
          | Panic => None
          end
      | _, _ => None
      end
  end.
Fixpoint play (w : world a) (es : list (happening (K := K) (V := V))) : option (list (nat * ask K V * saw K V) * world a) :=
  match es with
  | [] => Some ([], w)
  | e :: es' => match play_one w e with
      | Some (l, w1) => match play w1 es' with Some (ls, w2) => Some (l ++ ls, w2) | None => None end
      | None => None
      end
  end.
Lemma play_one_ok w e l w' : play_one w e = Some (l, w') -> happens i w e l w'.
Proof.
  destruct e as [h|h|h q]; cbn [play_one].
  - destruct (nth_error (handles w) h) as [[b own]|] eqn:E; [|discriminate]. intros [= <- <-]. constructor; auto.
  - destruct (seen i w h) as [s|] eqn:E; [|discriminate]. intros [= <- <-]. constructor; auto.
  - destruct (box_of w h) as [b|] eqn:Eb; [|discriminate]. destruct (seen i w h) as [s|] eqn:Es; [|discriminate].
    destruct (answer (block a) s q) as [[s' r]|] eqn:Ea; [|discriminate]. intros [= <- <-]. econstructor; eauto.
Qed.
Lemma play_ok es : forall w l w', play w es = Some (l, w') -> history i w es l w'.
Proof.
  induction es as [|e es IH]; intros w l w'; cbn [play].
  - intros [= <- <-]. constructor.
  - destruct (play_one w e) as [[l1 w1]|] eqn:E; [|discriminate].
    destruct (play w1 es) as [[ls w2]|] eqn:E2; [|discriminate]. intros [= <- <-].
    eapply H_more; [apply play_one_ok; exact E|auto].
Qed.
(** Only what can be read of the result is computed. *)
Lemma play_sees es w (obs : world a -> list (list (K * V))) l o :
  option_map (fun x => (fst x, obs (snd x))) (play w es) = Some (l, o) -> exists w', history i w es l w' /\ obs w' = o.
Proof.
  destruct (play w es) as [[l' w']|] eqn:E; [|discriminate]. cbn. intros H.
  exists w'. pose proof (f_equal (fun x => match x with Some y => fst y | None => [] end) H) as H1.
  pose proof (f_equal (fun x => match x with Some y => snd y | None => [] end) H) as H2. cbn in H1, H2. subst.
  split; auto. apply play_ok; auto.
Qed.
End Play.

(** Two sets with a Lru in each, cloned; a copy of the whole; the copy does not see what is done to the original. *)
Definition cl_set : arch nat nat :=
  ADecorator (Lru (fun n => n)) 0 (ASequential (@AArray nat _ _ (@lru_ord nat) (@std_sorter _ _ (@lru_ord nat) snd) linear_bs 2 (fun _ => 1))).
Definition cl_set_c : concurrent cl_set := KDecorator (Lru (fun n => n)) 0 false (KSequential _).
Definition cl_ex : arch nat nat := AProfiler (AAssociative (fun k => N.of_nat k) 1 (fun _ => cl_set)).
Definition cl_ex_c : concurrent cl_ex := KProfiler (KAssociative (fun k => N.of_nat k) 1 (fun _ => cl_set) (fun _ => cl_set_c)).
Example clones_example : all_shared cl_ex_c /\ exists w,
  history cl_ex_c (start cl_ex (init cl_ex))
    [Shallow 0; Ask 0 (AskPush [(1, 10); (2, 20)]); Deep 1; Ask 1 (AskTake 2); Ask 2 (AskContains 2);
     Ask 0 (AskPush [(3, 30); (5, 50)]); Ask 2 AskSize]
    [(0, AskPush [(1, 10); (2, 20)], SawPairs []); (0, AskTake 2, SawOne (Some (2, 20)));
     (1, AskContains 2, SawBool true); (0, AskPush [(3, 30); (5, 50)], SawPairs [(1, 10)]); (1, AskSize, SawNum 2)] w /\
  map (held cl_ex) (boxes w) = [[(3, 30); (5, 50)]; [(2, 20); (1, 10)]].
Proof.
  split; [cbn; auto|]. apply (play_sees cl_ex_c _ _ (fun w => map (held cl_ex) (boxes w))). vm_compute. reflexivity.
Qed.

(** With a Fifo the order in which pairs leave depends on the handle: 3 is pushed last, through a clone that did not
    see the other pushes, and leaves first. *)
Definition cl_fifo : arch nat nat := ADecorator Fifo fifo_new (ASequential (fifo_arr 3)).
Definition cl_fifo_c : concurrent cl_fifo := KDecorator Fifo fifo_new true (KSequential (fifo_arr 3)).
Theorem C56_fifo_order_refuted : exists w,
  history cl_fifo_c (start cl_fifo (init cl_fifo))
    [Shallow 0; Ask 0 (AskPush [(1, 10); (2, 20)]); Ask 1 (AskPush [(3, 30)]); Ask 0 (AskTake 1); Ask 0 (AskPop 1)]
    [(0, AskPush [(1, 10); (2, 20)], SawPairs []); (0, AskPush [(3, 30)], SawPairs []); (0, AskTake 1, SawOne (Some (1, 10)));
     (0, AskPop 1, SawPairs [(3, 30)])] w /\
  ~ exists s, answers cl_fifo (init cl_fifo)
    [(AskPush [(1, 10); (2, 20)], SawPairs []); (AskPush [(3, 30)], SawPairs []); (AskTake 1, SawOne (Some (1, 10)));
     (AskPop 1, SawPairs [(3, 30)])] s.
Proof.
  destruct (@play_sees _ _ _ _ cl_fifo_c
    [Shallow 0; Ask 0 (AskPush [(1, 10); (2, 20)]); Ask 1 (AskPush [(3, 30)]); Ask 0 (AskTake 1); Ask 0 (AskPop 1)]
    (start cl_fifo (init cl_fifo)) (fun w => map (held cl_fifo) (boxes w))
    [(0, AskPush [(1, 10); (2, 20)], SawPairs []); (0, AskPush [(3, 30)], SawPairs []); (0, AskTake 1, SawOne (Some (1, 10)));
     (0, AskPop 1, SawPairs [(3, 30)])] [[(2, 20)]] ltac:(vm_compute; reflexivity)) as (w & H & _).
  exists w. split; [exact H|]. intros (s & s1 & E1 & s2 & E2 & s3 & E3 & s4 & E4 & _).
  assert (W : watch (block cl_fifo) (init cl_fifo) [AskPush [(1, 10); (2, 20)]; AskPush [(3, 30)]; AskTake 1; AskPop 1]
    = [SawPairs []; SawPairs []; SawOne (Some (1, 10)); SawPairs [(2, 20)]]) by (vm_compute; reflexivity).
  clear H. cbn [answer watch] in *.
  destruct (push (block cl_fifo) (init cl_fifo) [(1, 10); (2, 20)]) as [[t1 o1]|]; [|discriminate E1]. cbn [bind] in E1.
  pose proof (f_equal (fun x => match x with Ok (y, _) => y | Panic => t1 end) E1) as X1. cbn [fst] in X1. subst s1.
  destruct (push (block cl_fifo) t1 [(3, 30)]) as [[t2 o2]|]; [|discriminate E2]. cbn [bind] in E2.
  pose proof (f_equal (fun x => match x with Ok (y, _) => y | Panic => t1 end) E2) as X2. cbn [fst] in X2. subst s2.
  destruct (take (block cl_fifo) t2 1) as [[t3 o3]|]; [|discriminate E3]. cbn [bind] in E3.
  pose proof (f_equal (fun x => match x with Ok (y, _) => y | Panic => t1 end) E3) as X3. cbn [fst] in X3. subst s3.
  destruct (pop (block cl_fifo) t3 1) as [[t4 o4]|]; [|discriminate E4]. cbn [bind] in E4.
  pose proof (f_equal (fun x => match x with Ok (_, SawPairs y) => y | _ => [] end) E4) as X4. cbn in X4.
  rewrite X4 in W. discriminate W.
Qed.
