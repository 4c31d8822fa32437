(** PStamps.v -- C65: timestamps and counters. *)
From Verif Require Import Base PermSolve Block Spec LawsProof Cut Array PArray Wrappers Decorations Get Calls AssociativeProof Stamps.
Set Implicit Arguments.

(** ** C65: readings of Counter by any number of threads *)
Definition opt_values (l : list pending) : list nat := flat_map (fun p => opt_list (p_value p)) l.
Record sound (w n : nat) (x : world) : Prop := {
  so_counter : w_counter x = n mod 2 ^ w;
  so_distinct : NoDup (opt_values (w_calls x) ++ map s_value (w_done x));
  so_below : forall v, In v (opt_values (w_calls x) ++ map s_value (w_done x)) -> v < n;
  so_ended : forall a, In a (w_done x) -> s_begin a < s_end a < w_moment x;
  so_begun : forall p, In p (w_calls x) -> p_begin p < w_moment x;
  so_order : forall a b, In a (w_done x) -> In b (w_done x) -> s_end a < s_begin b -> s_value a < s_value b;
  so_under_way : forall a p v, In a (w_done x) -> In p (w_calls x) -> p_value p = Some v -> s_end a < p_begin p -> s_value a < v
}.
Lemma remove_nth_mid {T} (a : list T) p b : remove_nth (length a) (a ++ p :: b) = a ++ b.
Proof. induction a as [|x a IH]; cbn; auto. f_equal. auto. Qed.
Lemma happens_sound w n x e x' : sound w n x -> n + adds [e] <= 2 ^ w -> happens w x e = Some x' -> sound w (n + adds [e]) x'.
Proof.
  intros [H1 H2 H3 H4 H5 H6 H7] Hn E. destruct e as [|i|i]; cbn [happens adds filter length] in *; rewrite ?Nat.add_0_r in *.
  - inversion E; subst. clear E. constructor; cbn [w_counter w_moment w_calls w_done]; auto;
      unfold opt_values in *; rewrite ?flat_map_app; cbn [flat_map opt_list p_value app]; rewrite ?app_nil_r; auto.
    + intros a Ha. specialize (H4 a Ha). lia.
    + intros p Hp. apply in_app_or in Hp as [Hp|[<-|[]]]; cbn; [specialize (H5 p Hp); lia|lia].
    + intros a p v Ha Hp Hv. apply in_app_or in Hp as [Hp|[<-|[]]]; [eauto|discriminate].
  - destruct (nth_error (w_calls x) i) as [[b [v|]]|] eqn:En; try discriminate. cbn [fetch_add] in E. inversion E; subst. clear E.
    destruct (nth_error_split _ _ En) as (l1 & l2 & Ec & <-). rewrite Ec in *. rewrite replace_nth_mid.
    assert (Hc : w_counter x = n) by (rewrite H1; apply Nat.mod_small; lia). rewrite Hc in *.
    assert (Hv : Permutation (opt_values (l1 ++ mkPending b (Some n) :: l2) ++ map s_value (w_done x)) (n :: opt_values (l1 ++ mkPending b None :: l2) ++ map s_value (w_done x))).
    { unfold opt_values. rewrite !flat_map_app. cbn [flat_map opt_list p_value app]. perm0. }
    constructor; cbn [w_counter w_moment w_calls w_done]; auto.
    + eapply Permutation_NoDup; [symmetry; exact Hv|]. constructor; auto. intros Hi. apply H3 in Hi. lia.
    + intros v Hi. rewrite Hv in Hi. destruct Hi as [<-|Hi]; [lia|]. apply H3 in Hi. lia.
    + intros a Ha. specialize (H4 a Ha). lia.
    + intros p Hp. apply in_app_or in Hp as [Hp|[<-|Hp]]; cbn [p_begin].
      * assert (p_begin p < w_moment x) by (apply H5; apply in_or_app; auto). lia.
      * assert (p_begin (mkPending b None) < w_moment x) by (apply H5; apply in_or_app; right; left; auto). cbn in *. lia.
      * assert (p_begin p < w_moment x) by (apply H5; apply in_or_app; right; right; auto). lia.
    + intros a p v Ha Hp Hpv Hlt. apply in_app_or in Hp as [Hp|[<-|Hp]].
      * apply (H7 a p v Ha); auto. apply in_or_app. auto.
      * cbn in Hpv. inversion Hpv; subst. apply H3. apply in_or_app. right. apply List.in_map. auto.
      * apply (H7 a p v Ha); auto. apply in_or_app. right. right. auto.
  - destruct (nth_error (w_calls x) i) as [[b [v|]]|] eqn:En; try discriminate. inversion E; subst. clear E.
    destruct (nth_error_split _ _ En) as (l1 & l2 & Ec & <-). rewrite Ec in *. rewrite remove_nth_mid.
    assert (Hin : forall p, In p (l1 ++ l2) -> In p (l1 ++ mkPending b (Some v) :: l2)) by (intros p Hp; rewrite in_app_iff in *; cbn; tauto).
    assert (Hv : Permutation (opt_values (l1 ++ l2) ++ map s_value (w_done x ++ [mkStamp b (w_moment x) v])) (opt_values (l1 ++ mkPending b (Some v) :: l2) ++ map s_value (w_done x))).
    { unfold opt_values. rewrite !flat_map_app, map_app. cbn [flat_map opt_list p_value app map s_value]. perm0. }
    assert (Hb : b < w_moment x) by (apply (H5 (mkPending b (Some v))); apply in_or_app; right; left; auto).
    constructor; cbn [w_counter w_moment w_calls w_done]; auto.
    + eapply Permutation_NoDup; [symmetry; exact Hv|auto].
    + intros u Hu. apply H3. rewrite <- Hv. auto.
    + intros a Ha. apply in_app_or in Ha as [Ha|[<-|[]]]; cbn; [specialize (H4 a Ha)|]; lia.
    + intros p Hp. specialize (H5 p (Hin p Hp)). lia.
    + intros a c Ha Hc Hlt. apply in_app_or in Ha as [Ha|[<-|[]]]; apply in_app_or in Hc as [Hc|[<-|[]]]; cbn [s_end s_begin s_value] in *.
      * auto.
      * apply (H7 a (mkPending b (Some v)) v); auto. apply in_or_app. right. left. auto.
      * pose proof (H4 c Hc). lia.
      * lia.
    + intros a p u Ha Hp Hpv Hlt. apply in_app_or in Ha as [Ha|[<-|[]]]; cbn [s_end s_value] in *; [eauto|].
      pose proof (H5 p (Hin p Hp)). lia.
Qed.
Lemma unfolds_sound w : forall es n x x', sound w n x -> n + adds es <= 2 ^ w -> unfolds w x es = Some x' -> sound w (n + adds es) x'.
Proof.
  induction es as [|e es IH]; intros n x x' H Hn E; cbn [unfolds] in E.
  - inversion E; subst. rewrite Nat.add_0_r. auto.
  - destruct (happens w x e) as [x1|] eqn:E1; [|discriminate].
    assert (Ha : adds (e :: es) = adds [e] + adds es) by (unfold adds; cbn [filter]; destruct e; cbn; auto).
    rewrite Ha, Nat.add_assoc in *. apply (IH _ x1 x'); auto. apply (@happens_sound w n x e x1 H); [lia|auto].
Qed.
Definition fresh (c : nat) : world := mkWorld c 0 [] [].
Lemma fresh_sound w c : c < 2 ^ w -> sound w c (fresh c).
Proof. intros H. constructor; cbn; try (rewrite Nat.mod_small; auto; fail); try constructor; try contradiction. Qed.

(** As long as the counter does not wrap, for every interleaving of any number of threads: no two calls return the same
    timestamp, and a call that begins after another has returned gets a greater one, whose difference can be taken. *)
Theorem C65_now_follows_real_time : forall w c es x, c + adds es <= 2 ^ w -> c < 2 ^ w -> unfolds w (fresh c) es = Some x ->
  NoDup (map s_value (w_done x)) /\
  forall a b, In a (w_done x) -> In b (w_done x) -> s_end a < s_begin b ->
    s_value a < s_value b /\ counter_diff (s_value b) (s_value a) = Ok (s_value b - s_value a) /\ counter_diff (s_value a) (s_value b) = Panic.
Proof.
  intros w c es x Hn Hc E. pose proof (@unfolds_sound w es c _ x (@fresh_sound w c Hc) Hn E) as H. split.
  - pose proof (so_distinct H) as N. apply NoDup_app_inv in N. tauto.
  - intros a b Ha Hb Hlt. pose proof (so_order H a b Ha Hb Hlt) as Hv. split; [auto|]. unfold counter_diff, sub_chk.
    rewrite (proj2 (Nat.leb_le _ _)) by lia. rewrite (proj2 (Nat.leb_gt _ _)) by lia. auto.
Qed.
(** Beyond 2^w readings it is false: time goes backwards, and the difference with an earlier timestamp panics (with overflow
    checks). *)
Fixpoint one_by_one (n : nat) : list event := match n with 0 => [] | S n => [EBegin; EAdd 0; EEnd 0] ++ one_by_one n end.
Lemma one_by_one_run w : forall n c m d, c + n < 2 ^ w -> unfolds w (mkWorld c m [] d) (one_by_one n) = Some (mkWorld (c + n) (m + 3 * n) [] (d ++ map (fun i => mkStamp (m + 3 * i) (m + 3 * i + 2) (c + i)) (seq 0 n))).
Proof.
  induction n as [|n IH]; intros c m d Hc.
  - cbn. rewrite !Nat.add_0_r, app_nil_r. auto.
  - cbn [one_by_one app unfolds happens w_calls w_counter w_moment w_done nth_error fetch_add replace_nth remove_nth].
    rewrite (Nat.mod_small (c + 1)) by lia. rewrite IH by lia. f_equal. f_equal; try lia.
    rewrite <- app_assoc. f_equal. cbn [seq map app]. f_equal; [f_equal; lia|]. rewrite <- seq_shift, map_map. apply map_ext. intros i. f_equal; lia.
Qed.
(** When nothing else reads the counter, successive timestamps differ by one. *)
Theorem C65_alone_by_one : forall w c n, c + n < 2 ^ w ->
  exists x, unfolds w (fresh c) (one_by_one n) = Some x /\ map s_value (w_done x) = seq c n.
Proof.
  intros w c n H. eexists. split; [apply one_by_one_run; auto|]. cbn [w_done app]. rewrite map_map. cbn [s_value].
  clear H. revert c. induction n as [|n IH]; intros c; cbn [seq map]; [auto|]. rewrite Nat.add_0_r. f_equal.
  rewrite <- seq_shift, map_map, <- (IH (S c)). apply map_ext. intros i. lia.
Qed.
Lemma unfolds_app w x es es' : unfolds w x (es ++ es') = match unfolds w x es with Some x' => unfolds w x' es' | None => None end.
Proof. revert x. induction es as [|e es IH]; intros x; cbn; auto. destruct (happens w x e); auto. Qed.
Theorem C65_after_the_wrap_refuted : forall w, 1 <= w -> exists es x a b, unfolds w (fresh 0) es = Some x /\ adds es = 2 ^ w + 1 /\
  In a (w_done x) /\ In b (w_done x) /\ s_end a < s_begin b /\ s_value b < s_value a /\ counter_diff (s_value b) (s_value a) = Panic.
Proof.
  intros w Hw. assert (H2 : 2 <= 2 ^ w) by (change 2 with (2 ^ 1) at 1; apply Nat.pow_le_mono_r; lia).
  exists (one_by_one (2 ^ w - 1) ++ one_by_one 2).
  assert (Ha : forall n, adds (one_by_one n) = n) by (induction n as [|n IH]; cbn; auto; unfold adds in *; cbn; f_equal; auto).
  unfold fresh. rewrite unfolds_app, one_by_one_run by lia. rewrite !Nat.add_0_l. cbn [app].
  cbn [one_by_one app unfolds happens w_calls w_counter w_moment w_done nth_error fetch_add replace_nth remove_nth].
  replace (2 ^ w - 1 + 1) with (2 ^ w) by lia. rewrite Nat.mod_same by lia.
  eexists _, _, _. split; [reflexivity|]. split.
  { unfold adds. rewrite filter_app, app_length. change (adds (one_by_one (2 ^ w - 1)) + 2 = 2 ^ w + 1). rewrite Ha. lia. }
  cbn [w_done]. split; [apply in_or_app; left; apply in_or_app; right; left; reflexivity|].
  split; [apply in_or_app; right; left; reflexivity|]. cbn [s_end s_begin s_value]. split; [lia|]. split; [lia|].
  unfold counter_diff, sub_chk. rewrite (proj2 (Nat.leb_gt _ _)) by lia. auto.
Qed.

(** ** C65: Fifo and Lru over counters of bounded width *)
(** How many elements a history pushes, and how many times it may read the clock. *)
Definition pushed {K V} (h : list (call K V)) : nat := list_sum (map (fun x => match x with COp o => length (given o) | _ => 0 end) h).
Definition uses {K V} (h : list (call K V)) : nat := list_sum (map (fun x => match x with COp o => length (given o) | CContains _ => 0 | _ => 1 end) h).
Definition deco_machine {K V D} (F : Factory V D) (C : Block K D) (g g' : Getter C) : St (DecoratorB F C) -> call K V -> res (St (DecoratorB F C) * reply K V) :=
  @do_call K V (DecoratorB F C) (fun s k => dc_get F g s k (fun v => v)) (fun s k f => dc_get F g' s k f).
Definition replies {S R} (x : res (S * R)) : res R := let* (_, r) := x in Ok r.
(** Two machines with the same answers from related states. *)
Lemma same_replies {K V S S'} (d : S -> call K V -> res (S * reply K V)) (d' : S' -> call K V -> res (S' * reply K V)) (R : nat -> S -> S' -> Prop) (cost : call K V -> nat) N :
  (forall n s s' x, R n s s' -> n + cost x <= N -> match d s x, d' s' x with
    | Ok (s1, r), Ok (s1', r') => r = r' /\ exists n', n' <= n + cost x /\ R n' s1 s1' | Panic, Panic => True | _, _ => False end) ->
  forall h n s s', R n s s' -> n + list_sum (map cost h) <= N -> replies (play d s h) = replies (play d' s' h).
Proof.
  intros H. induction h as [|x h IH]; intros n s s' HR Hn; cbn [play]; auto. cbn [map list_sum fold_right] in Hn. fold (list_sum (map cost h)) in Hn.
  specialize (H n s s' x HR ltac:(lia)). destruct (d s x) as [[s1 r]|], (d' s' x) as [[s1' r']|]; try contradiction; auto.
  destruct H as [-> (n' & Hn' & H)]. cbn [bind]. specialize (IH n' s1 s1' H ltac:(lia)).
  destruct (play d s1 h) as [[s2 rs]|], (play d' s1' h) as [[s2' rs']|]; cbn in *; congruence.
Qed.
Lemma fifo_wraps {K V} w : forall (vs : list (K * V)) f, f + length vs <= 2 ^ w ->
  wrap_all Fifo f vs = (f + length vs, snd (wrap_all (FifoW w) (f mod 2 ^ w) vs)) /\ fst (wrap_all (FifoW w) (f mod 2 ^ w) vs) = (f + length vs) mod 2 ^ w.
Proof.
  induction vs as [|[k v] vs IH]; intros f Hf; cbn [wrap_all wrap Fifo FifoW fetch_add length].
  - rewrite Nat.add_0_r. auto.
  - cbn [length] in Hf. rewrite (Nat.mod_small f) by lia. destruct (IH (S f)) as [I1 I2]; [lia|]. rewrite I1. rewrite Nat.add_1_r.
    destruct (wrap_all (FifoW w) (S f mod 2 ^ w) vs) as [f2 ds]. cbn [fst snd] in *. rewrite I2. split; f_equal; lia.
Qed.
(** Fifo over a counter of [w] bits answers as over an unbounded one until 2^w elements were pushed, over any container. *)
Theorem C65_fifo_as_unbounded : forall K V w (C : Block K (fifo_cell V)) (g g' : Getter C) (s : St C) (h : list (call K V)), pushed h <= 2 ^ w ->
  replies (play (@deco_machine K V _ (FifoW w) C g g') (0, s) h) = replies (play (@deco_machine K V _ Fifo C g g') (0, s) h).
Proof.
  intros K V w C g g' s h Hp. assert (P : 0 < 2 ^ w) by (apply Nat.neq_0_lt_0; apply Nat.pow_nonzero; lia).
  apply (@same_replies K V _ _ _ _ (fun n (a b : nat * St C) => fst b = n /\ fst a = n mod 2 ^ w /\ snd a = snd b)
    (fun x => match x with COp o => length (given o) | _ => 0 end) (2 ^ w)) with (n := 0).
  - intros n [f1 s1] [f2 s2] x (E1 & E2 & E3) Hn. cbn [fst snd] in *. subst f1 f2 s2.
    unfold deco_machine, do_call. destruct x as [o|k|k|k f].
    + destruct o as [vs|m|k|ks|]; cbn [step push pop take take_multiple flush DecoratorB fst snd given length] in *.
      * destruct (@fifo_wraps K V w vs n Hn) as [W1 W2]. rewrite W1. destruct (wrap_all (FifoW w) (n mod 2 ^ w) vs) as [f2 ds]. cbn [fst snd] in *.
        destruct (push C s1 ds) as [[c o]|]; cbn [bind]; auto. split; auto. exists (n + length vs). split; [lia|]. cbn. auto.
      * destruct (pop C s1 m) as [[c o]|]; cbn [bind]; auto. split; auto. exists n. split; [lia|]. cbn. auto.
      * destruct (take C s1 k) as [[c o]|]; cbn [bind]; auto. split; auto. exists n. split; [lia|]. cbn. auto.
      * destruct (take_multiple C s1 ks) as [[[c ks'] o]|]; cbn [bind]; auto. split; auto. exists n. split; [lia|]. cbn. auto.
      * destruct (flush C s1) as [[c o]|]; cbn [bind]; auto. split; auto. exists n. split; [lia|]. cbn. auto.
    + cbn [contains DecoratorB snd]. destruct (contains C s1 k) as [b|]; cbn [bind]; auto. split; auto. exists n. split; [lia|]. cbn. auto.
    + unfold dc_get. cbn [fst snd touched tick Fifo FifoW]. destruct (g s1 k _) as [[c [v|]]|]; cbn [bind]; auto; split; auto; exists n; (split; [lia|cbn; auto]).
    + unfold dc_get. cbn [fst snd touched tick Fifo FifoW]. destruct (g' s1 k _) as [[c [v|]]|]; cbn [bind]; auto; split; auto; exists n; (split; [lia|cbn; auto]).
  - cbn [fst snd]. rewrite Nat.mod_0_l by lia. auto.
  - exact Hp.
Qed.
(** Lru over Counter likewise until the counter wraps ([k n]: which reading of the program is the n-th of this decorator),
    whatever else reads the counter. *)
Theorem C65_lru_as_unbounded : forall K V w (k : nat -> nat) (C : Block K (lru_cell V)) (g g' : Getter C) (s : St C) (h : list (call K V)),
  (forall n, n < uses h -> k n < 2 ^ w) ->
  replies (play (@deco_machine K V _ (LruW w k) C g g') (0, s) h) = replies (play (@deco_machine K V _ (Lru k) C g g') (0, s) h).
Proof.
  intros K V w k C g g' s h Hk.
  assert (W : forall (vs : list (K * V)) n, n + length vs <= uses h -> wrap_all (LruW w k) n vs = wrap_all (Lru k) n vs /\ fst (wrap_all (Lru k) n vs) = n + length vs).
  { induction vs as [|[k0 v] vs IH]; intros n Hn; [cbn; auto|]. cbn [length] in Hn.
    destruct (IH (S n)) as [I1 I2]; [lia|].
    change (wrap_all (LruW w k) n ((k0, v) :: vs)) with (let (f2, ds) := wrap_all (LruW w k) (S n) vs in (f2, (k0, mkLru v (k n mod 2 ^ w)) :: ds)).
    change (wrap_all (Lru k) n ((k0, v) :: vs)) with (let (f2, ds) := wrap_all (Lru k) (S n) vs in (f2, (k0, mkLru v (k n)) :: ds)).
    rewrite I1. destruct (wrap_all (Lru k) (S n) vs) as [f ds]. cbn [fst length] in *.
    rewrite Nat.mod_small by (apply Hk; lia). split; auto. cbn. lia. }
  apply (@same_replies K V _ _ _ _ (fun n (a b : nat * St C) => fst b = n /\ a = b)
    (fun x => match x with COp o => length (given o) | CContains _ => 0 | _ => 1 end) (uses h)) with (n := 0).
  - intros n [f1 s1] [f2 s2] x (E1 & E2) Hn. cbn [fst] in E1. inversion E2; subst. clear E2.
    unfold deco_machine, do_call. destruct x as [o|k0|k0|k0 f].
    + destruct o as [vs|m|k0|ks|]; cbn [step push pop take take_multiple flush DecoratorB fst snd given length] in *.
      * destruct (W vs n Hn) as [W1 W2]. rewrite W1. destruct (wrap_all (Lru k) n vs) as [f2 ds]. cbn [fst snd] in *.
        destruct (push C s2 ds) as [[c o]|]; cbn [bind]; auto. split; auto. exists (n + length vs). split; [lia|]. cbn. auto.
      * destruct (pop C s2 m) as [[c o]|]; cbn [bind]; auto. split; auto. exists n. split; [lia|]. cbn. auto.
      * destruct (take C s2 k0) as [[c o]|]; cbn [bind]; auto. split; auto. exists n. split; [lia|]. cbn. auto.
      * destruct (take_multiple C s2 ks) as [[[c ks'] o]|]; cbn [bind]; auto. split; auto. exists n. split; [lia|]. cbn. auto.
      * destruct (flush C s2) as [[c o]|]; cbn [bind]; auto. split; auto. exists n. split; [lia|]. cbn. auto.
    + cbn [contains DecoratorB snd]. destruct (contains C s2 k0) as [b|]; cbn [bind]; auto. split; auto. exists n. split; [lia|]. cbn. auto.
    + unfold dc_get. cbn [fst snd touched tick Lru LruW]. rewrite (Nat.mod_small (k n)) by (apply Hk; lia).
      destruct (g s2 k0 _) as [[c [v|]]|]; cbn [bind]; auto; split; auto; [exists (S n)|exists n]; (split; [lia|cbn; auto]).
    + unfold dc_get. cbn [fst snd touched tick Lru LruW]. rewrite (Nat.mod_small (k n)) by (apply Hk; lia).
      destruct (g' s2 k0 _) as [[c [v|]]|]; cbn [bind]; auto; split; auto; [exists (S n)|exists n]; (split; [lia|cbn; auto]).
  - cbn. auto.
  - exact (le_n _).
Qed.

(** Beyond 2^w pushes it is false, for every width: a Fifo of capacity two whose counter has wrapped evicts the newest of
    its two elements. *)
Definition fifo_two (w : nat) := @deco_machine nat nat _ (FifoW w) (@ArrayB nat (fifo_cell nat) _ fifo_ord (@std_sorter _ _ fifo_ord snd) linear_bs) (fun s k f => a_get s k f) (fun s k f => a_get_mut s k f).
Arguments fifo_two : clear implicits.
Fixpoint in_and_out (n : nat) : list (call nat nat) := match n with 0 => [] | S n => COp (OpPush [(0, 0)]) :: COp (OpTake 0) :: in_and_out n end.
Lemma in_and_out_fifo w : forall n c rest, c + n < 2 ^ w ->
  exists rs, forall s rs', play (fifo_two w) (c + n, array_new 2 (fun _ => 1)) rest = Ok (s, rs') -> play (fifo_two w) (c, array_new 2 (fun _ => 1)) (in_and_out n ++ rest) = Ok (s, rs ++ rs').
Proof.
  induction n as [|n IH]; intros c rest Hc.
  - exists []. intros s rs' E. rewrite Nat.add_0_r in E. exact E.
  - destruct (IH (S c) rest) as [rs H]; [lia|]. exists (RPairs [] :: RPairs [(0, 0)] :: rs). intros s rs' E.
    replace (c + S n) with (S c + n) in E by lia. specialize (H s rs' E). cbn [in_and_out app play].
    assert (E1 : fifo_two w (c, array_new 2 (fun _ => 1)) (COp (OpPush [(0, 0)])) = Ok ((S c, mkArray 2 1 [(0, mkFifo 0 c)] (fun _ => 1)), RPairs [])).
    { unfold fifo_two, deco_machine, do_call. cbn [step push DecoratorB fst snd wrap_all wrap FifoW fetch_add].
      rewrite Nat.mod_small by lia. rewrite Nat.add_1_r. reflexivity. }
    rewrite E1. cbn [bind].
    change (fifo_two w (S c, mkArray 2 1 [(0, mkFifo 0 c)] (fun _ => 1)) (COp (OpTake 0))) with (Ok ((S c, array_new 2 (fun _ : nat * fifo_cell nat => 1)), RPairs (V := nat) [(0, 0)])).
    cbn [bind]. rewrite H. reflexivity.
Qed.
Theorem C65_fifo_after_the_wrap_refuted : forall w, 1 <= w -> exists h s rs, pushed h = 2 ^ w - 1 /\
  play (fifo_two w) (0, array_new 2 (fun _ => 1)) (h ++ [COp (OpPush [(1, 10)]); COp (OpPush [(2, 20)]); COp (OpPop 1)]) = Ok (s, rs ++ [RPairs []; RPairs []; RPairs [(2, 20)]]).
Proof.
  intros w Hw. assert (H2 : 2 <= 2 ^ w) by (change 2 with (2 ^ 1) at 1; apply Nat.pow_le_mono_r; lia).
  assert (Hp : forall n, pushed (in_and_out n) = n).
  { induction n as [|n IH]; auto. unfold pushed in *. cbn [in_and_out map list_sum fold_right given length] in *. fold (list_sum (map (fun x : call nat nat => match x with COp o => length (given o) | _ => 0 end) (in_and_out n))). rewrite IH. lia. }
  exists (in_and_out (2 ^ w - 1)).
  destruct (@in_and_out_fifo w (2 ^ w - 1) 0 [COp (OpPush [(1, 10)]); COp (OpPush [(2, 20)]); COp (OpPop 1)]) as [rs H]; [lia|].
  exists (1 mod 2 ^ w, mkArray 2 1 [(1, mkFifo 10 (2 ^ w - 1))] (fun _ => 1)), rs. split; [apply Hp|]. apply H. rewrite Nat.add_0_l.
  unfold fifo_two, deco_machine. cbn [play]. unfold do_call. cbn [step push pop DecoratorB fst snd wrap_all wrap FifoW fetch_add].
  replace (2 ^ w - 1 + 1) with (2 ^ w) by lia. rewrite Nat.mod_same by lia.
  assert (Hm : exists m, 2 ^ w - 1 = S m) by (exists (2 ^ w - 2); lia). destruct Hm as [m ->]. reflexivity.
Qed.

(** The same for Lru over a program's counter of [w] bits that nothing else reads. *)
Definition lru_two (w : nat) := @deco_machine nat nat _ (LruW w (fun n => n)) (@ArrayB nat (lru_cell nat) _ lru_ord (@std_sorter _ _ lru_ord snd) linear_bs) (fun s k f => a_get s k f) (fun s k f => a_get_mut s k f).
Arguments lru_two : clear implicits.
Lemma in_and_out_lru w : forall n c rest,
  exists rs, forall s rs', play (lru_two w) (c + n, array_new 2 (fun _ => 1)) rest = Ok (s, rs') -> play (lru_two w) (c, array_new 2 (fun _ => 1)) (in_and_out n ++ rest) = Ok (s, rs ++ rs').
Proof.
  induction n as [|n IH]; intros c rest.
  - exists []. intros s rs' E. rewrite Nat.add_0_r in E. exact E.
  - destruct (IH (S c) rest) as [rs H]. exists (RPairs [] :: RPairs [(0, 0)] :: rs). intros s rs' E.
    replace (c + S n) with (S c + n) in E by lia. specialize (H s rs' E). cbn [in_and_out app play].
    change (lru_two w (c, array_new 2 (fun _ => 1)) (COp (OpPush [(0, 0)]))) with (Ok ((S c, mkArray 2 1 [(0, mkLru 0 (c mod 2 ^ w))] (fun _ => 1)), RPairs (K := nat) (V := nat) [])).
    cbn [bind].
    change (lru_two w (S c, mkArray 2 1 [(0, mkLru 0 (c mod 2 ^ w))] (fun _ => 1)) (COp (OpTake 0))) with (Ok ((S c, array_new 2 (fun _ : nat * lru_cell nat => 1)), RPairs (V := nat) [(0, 0)])).
    cbn [bind]. rewrite H. reflexivity.
Qed.
Theorem C65_lru_after_the_wrap_refuted : forall w, 1 <= w -> exists h s rs, pushed h = 2 ^ w - 1 /\
  play (lru_two w) (0, array_new 2 (fun _ => 1)) (h ++ [COp (OpPush [(1, 10)]); COp (OpPush [(2, 20)]); COp (OpPop 1)]) = Ok (s, rs ++ [RPairs []; RPairs []; RPairs [(2, 20)]]).
Proof.
  intros w Hw. assert (H2 : 2 <= 2 ^ w) by (change 2 with (2 ^ 1) at 1; apply Nat.pow_le_mono_r; lia).
  assert (Hp : forall n, pushed (in_and_out n) = n).
  { induction n as [|n IH]; auto. unfold pushed in *. cbn [in_and_out map list_sum fold_right given length] in *. fold (list_sum (map (fun x : call nat nat => match x with COp o => length (given o) | _ => 0 end) (in_and_out n))). rewrite IH. lia. }
  exists (in_and_out (2 ^ w - 1)).
  destruct (@in_and_out_lru w (2 ^ w - 1) 0 [COp (OpPush [(1, 10)]); COp (OpPush [(2, 20)]); COp (OpPop 1)]) as [rs H].
  exists (2 ^ w + 1, mkArray 2 1 [(1, mkLru 10 (2 ^ w - 1))] (fun _ => 1)), rs. split; [apply Hp|]. apply H. rewrite Nat.add_0_l.
  assert (E1 : lru_two w (2 ^ w - 1, array_new 2 (fun _ => 1)) (COp (OpPush [(1, 10)])) = Ok ((2 ^ w, mkArray 2 1 [(1, mkLru 10 (2 ^ w - 1))] (fun _ => 1)), RPairs [])).
  { unfold lru_two, deco_machine, do_call. cbn [step push DecoratorB fst snd wrap_all wrap LruW Lru]. rewrite Nat.mod_small by lia. replace (S (2 ^ w - 1)) with (2 ^ w) by lia. reflexivity. }
  assert (E2 : lru_two w (2 ^ w, mkArray 2 1 [(1, mkLru 10 (2 ^ w - 1))] (fun _ => 1)) (COp (OpPush [(2, 20)])) = Ok ((2 ^ w + 1, mkArray 2 2 [(1, mkLru 10 (2 ^ w - 1)); (2, mkLru 20 0)] (fun _ => 1)), RPairs [])).
  { unfold lru_two, deco_machine, do_call. cbn [step push DecoratorB fst snd wrap_all wrap LruW Lru]. rewrite Nat.mod_same by lia. rewrite Nat.add_1_r. reflexivity. }
  assert (E3 : lru_two w (2 ^ w + 1, mkArray 2 2 [(1, mkLru 10 (2 ^ w - 1)); (2, mkLru 20 0)] (fun _ => 1)) (COp (OpPop 1)) = Ok ((2 ^ w + 1, mkArray 2 1 [(1, mkLru 10 (2 ^ w - 1))] (fun _ => 1)), RPairs [(2, 20)])).
  { assert (Hm : exists m, 2 ^ w - 1 = S m) by (exists (2 ^ w - 2); lia). destruct Hm as [m ->]. reflexivity. }
  cbn [play]. rewrite E1. cbn [bind]. rewrite E2. cbn [bind]. rewrite E3. reflexivity.
Qed.

(** Non-vacuity: two threads whose calls overlap, then a third call; a Fifo and a Lru with 2-bit counters for four elements. *)
Example C65_threads : unfolds 64 (fresh 5) [EBegin; EBegin; EAdd 1; EAdd 0; EEnd 0; EEnd 0; EBegin; EAdd 0; EEnd 0]
  = Some (mkWorld 8 9 [] [mkStamp 0 4 6; mkStamp 1 5 5; mkStamp 6 8 7]).
Proof. unfold unfolds, happens, fresh, fetch_add. cbn [w_calls w_counter w_moment w_done nth_error app replace_nth remove_nth].
  assert (H : forall n, n < 9 -> n mod 2 ^ 64 = n). { intros n Hn. apply Nat.mod_small. apply (Nat.lt_le_trans _ (2 ^ 4)); [cbn; lia|apply Nat.pow_le_mono_r; lia]. }
  rewrite (H (5 + 1)), (H (5 + 1 + 1)), (H (5 + 1 + 1 + 1)) by lia. reflexivity.
Qed.
Definition four : list (call nat nat) := [COp (OpPush [(1, 10); (2, 20)]); CRead 1; COp (OpPush [(3, 30)]); COp (OpTake 3); COp (OpPop 1); COp (OpPop 1)].
Example C65_caches : pushed four <= 2 ^ 2 /\ uses four <= 2 ^ 2 /\
  replies (play (fifo_two 2) (0, array_new 2 (fun _ => 1)) four) = Ok [RPairs []; RValue (Some 10); RPairs [(1, 10)]; RPairs [(3, 30)]; RPairs [(2, 20)]; RPairs []] /\
  replies (play (lru_two 2) (0, array_new 2 (fun _ => 1)) four) = Ok [RPairs []; RValue (Some 10); RPairs [(2, 20)]; RPairs [(3, 30)]; RPairs [(1, 10)]; RPairs []].
Proof. repeat split; vm_compute; auto; lia. Qed.

Print Assumptions C65_now_follows_real_time.
Print Assumptions C65_alone_by_one.
Print Assumptions C65_after_the_wrap_refuted.
Print Assumptions C65_fifo_as_unbounded.
Print Assumptions C65_lru_as_unbounded.
Print Assumptions C65_fifo_after_the_wrap_refuted.
Print Assumptions C65_lru_after_the_wrap_refuted.
