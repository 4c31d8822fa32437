(** PInPlace.v -- property theorems: the guards of a shared Sequential over containers that forward get and get_mut (C70). *)
From Coq Require Import NArith.
From Verif Require Import Base Block Exclusive Batch Associative Wrappers Decorations Arch Stream Compressed Guards Sim Lock SeqConc PSeqConc Linear PLinear Array BTree Get GuardConc PGuardConc InPlace.
Set Implicit Arguments.

(** ** Guards that point into the container, through every layer *)
Record pointed {K V} (B : Block K V) (G : Cells B) (g : bool -> Getter B) : Prop := {
  pt_open : forall m s k s' o, open_cell G m s k = Ok (s', o) -> s' = s;
  pt_none : forall m s k, open_cell G m s k = Ok (s, None) -> forall f, g m s k f = Ok (s, None);
  pt_some : forall m s k c, open_cell G m s k = Ok (s, Some c) -> exists v, see G s c = Some v /\ put G s c v = Some (s, c) /\
    forall h, exists s', put G s c (h v) = Some (s', c) /\ g m s k h = Ok (s', Some v) /\ alike B s' s;
  pt_put : forall s c w s' c', put G s c w = Some (s', c') -> c' = c /\ see G s' c = Some w /\ forall w', put G s' c w' = put G s c w';
  pt_close : forall s c, close_cell G s c = Ok s
}.
Lemma pointed_in_place {K V} (B : Block K V) (G : Cells B) g : pointed G g -> in_place G g.
Proof.
  intros P. constructor.
  - apply (pt_open P).
  - apply (pt_none P).
  - intros m s k c H. destruct (pt_some P _ _ H) as (v & H1 & H2 & H3). exists v. split; [auto|]. split; [auto|]. intros w. apply (H3 (fun _ => w)).
  - apply (pt_put P).
  - apply (pt_close P).
Qed.

Lemma array_pointed {K V} {OK : Ord K} {EK : OrdEq K} {OV : Ord V} (srt : Sorter (K * V) V snd) (bs : BSearch K) :
  pointed (array_cells srt bs) (fun _ s k f => a_get s k f).
Proof.
  pose proof (@array_in_place K V OK OV srt bs) as P. constructor; try apply P.
  intros m s k c H. destruct (ip_some P _ _ H) as (v & H1 & H2 & H3). exists v. split; [auto|]. split; [auto|]. intros h.
  destruct (H3 (h v)) as (s' & P1 & P2 & P3). exists s'. split; [auto|]. split; [|auto].
  unfold array_getter, a_get in P2. injection P2 as P2 P4. unfold a_get. rewrite P4. f_equal. f_equal. rewrite <- P2. f_equal.
  clear - P4. induction (a_vals s) as [|[x y] l IH]; cbn [find update_first fst snd] in *; [auto|].
  destruct (eqb x k); [injection P4 as ->; auto|f_equal; auto].
Qed.

Lemma flush_pointed {K V} (C : Block K V) (G : Cells C) g : pointed G g -> pointed (flush_cells G) g.
Proof. intros P. constructor; apply P. Qed.

(** One container among several. *)
Section Sum.
Context {K V : Type}.
Variable C : nat -> Block K V.
Variable G : forall i, Cells (C i).
Variable g : forall i, bool -> Getter (C i).
Hypothesis P : forall i, pointed (G i) (g i).
Lemma the_one_same {T} i (s : St (C i)) (f : St (C i) -> option T) : @the_one K V C T (existT _ i s) i f = f s.
Proof.
  unfold the_one. cbn [projT1 projT2]. destruct (Nat.eq_dec i i) as [e|n]; [|congruence].
  rewrite <- (Eqdep_dec.eq_rect_eq_dec Nat.eq_dec). reflexivity.
Qed.
Lemma the_one_some {T} s j (f : St (C j) -> option T) x : @the_one K V C T s j f = Some x -> exists c, s = existT _ j c /\ f c = Some x.
Proof.
  unfold the_one. destruct s as [i s]. cbn [projT1 projT2]. destruct (Nat.eq_dec i j) as [e|n]; [|discriminate]. subst j. intros H. exists s. auto.
Qed.
Lemma sum_pointed : pointed (sum_cells C G) (fun m => @sum_get K V nat C (fun i => g i m)).
Proof.
  constructor; cbn [open_cell see put close_cell sum_cells].
  - intros m [i s] k s' o. unfold sum_open. cbn [projT1 projT2]. destruct (open_cell (G i) m s k) as [[c x]|] eqn:E; [|discriminate].
    cbn. intros H. injection H as <- _. rewrite (pt_open (P i) _ _ _ E). auto.
  - intros m [i s] k. unfold sum_open, sum_get. cbn [projT1 projT2]. destruct (open_cell (G i) m s k) as [[c x]|] eqn:E; [|discriminate].
    cbn. intros H. injection H as _ H. destruct x; [discriminate|]. intros f. rewrite (pt_open (P i) _ _ _ E) in E. rewrite (pt_none (P i) _ _ E). reflexivity.
  - intros m [i s] k x. unfold sum_open, sum_get, sum_see, sum_put. cbn [projT1 projT2]. destruct (open_cell (G i) m s k) as [[c y]|] eqn:E; [|discriminate].
    cbn [bind]. intros H. injection H as _ H. destruct y as [y|]; [|discriminate]. cbn [option_map] in H. injection H as <-. cbn [projT1 projT2].
    pose proof (pt_open (P i) _ _ _ E) as ->. destruct (pt_some (P i) _ _ E) as (v & V1 & V2 & V3). exists v. rewrite !the_one_same. split; [auto|]. split; [rewrite V2; auto|].
    intros h. destruct (V3 h) as (s' & W1 & W2 & W3). exists (existT _ i s'). rewrite the_one_same, W1, W2. split; [auto|]. split; [reflexivity|].
    destruct W3 as (W3 & W4 & W5). repeat split; cbn; auto.
  - intros s x w s' x' H. unfold sum_put in H. apply the_one_some in H as (c & -> & H). destruct (put (G (projT1 x)) c (projT2 x) w) as [[c' y]|] eqn:E; [|discriminate].
    injection H as <- <-. destruct (pt_put (P (projT1 x)) _ _ _ E) as (-> & H2 & H3). split; [destruct x; auto|].
    unfold sum_see, sum_put. rewrite the_one_same. split; [auto|]. intros w'. rewrite !the_one_same, H3. reflexivity.
  - intros s x. unfold sum_close. match goal with |- context [@the_one ?a ?b ?c ?d ?e ?f ?h] => destruct (@the_one a b c d e f h) as [r|] eqn:E end; [|auto]. apply the_one_some in E as (c & -> & E). injection E as <-.
    rewrite (pt_close (P (projT1 x))). reflexivity.
Qed.
End Sum.

(** Among several containers in a list. *)
Section Among.
Context {K V : Type}.
Variable C : Block K V.
Variable G : Cells C.
Variable g : bool -> Getter C.
Hypothesis P : pointed G g.
Lemma among_put_ok s c w s' c' : among_put G s c w = Some (s', c') -> c' = c /\ among_see G s' c = Some w /\ forall w', among_put G s' c w' = among_put G s c w'.
Proof.
  unfold among_put, among_see. destruct c as [i x]. cbn [fst snd]. destruct (nth_error s i) as [c|] eqn:E; [|discriminate].
  destruct (put G c x w) as [[c1 y]|] eqn:E1; [|discriminate]. intros H. injection H as <- <-. destruct (pt_put P _ _ _ E1) as (-> & H2 & H3).
  split; [auto|]. rewrite (nth_replaced _ _ _ E). split; [auto|]. intros w'. rewrite H3. destruct (put G c x w') as [[c2 y]|]; [|auto]. rewrite replace_twice. auto.
Qed.
Lemma among_close_ok s c : among_close G s c = Ok s.
Proof.
  unfold among_close. destruct (nth_error s (fst c)) as [d|] eqn:E; [|auto]. rewrite (pt_close P). cbn. rewrite replace_self; auto.
Qed.
Lemma batch_pointed : pointed (batch_cells G) (fun m => bt_get (g m)).
Proof.
  constructor; cbn [open_cell see put close_cell batch_cells].
  - intros m s k. induction s as [|c s IH]; cbn [batch_open]; intros s' o; [intros H; injection H as <- _; auto|].
    destruct (open_cell G m c k) as [[c1 [x|]]|] eqn:E; cbn [bind]; [| |discriminate]; rewrite (pt_open P _ _ _ E).
    + intros H. injection H as <- _. auto.
    + destruct (batch_open G m s k) as [[s1 o1]|] eqn:E1; [|discriminate]. cbn [bind]. intros H. injection H as <- _. f_equal. eapply IH; eauto.
  - intros m s k. induction s as [|c s IH]; cbn [batch_open bt_get]; [auto|].
    destruct (open_cell G m c k) as [[c1 [x|]]|] eqn:E; cbn [bind]; [discriminate| |discriminate].
    pose proof (pt_open P _ _ _ E) as ->. destruct (batch_open G m s k) as [[s1 o1]|] eqn:E1; [|discriminate]. cbn [bind]. intros H f. injection H as -> H. destruct o1; [discriminate|].
    rewrite (pt_none P _ _ E). cbn [bind]. rewrite (IH eq_refl). reflexivity.
  - intros m s k. induction s as [|c s IH]; cbn [batch_open bt_get]; [discriminate|]. intros p.
    destruct (open_cell G m c k) as [[c1 [x|]]|] eqn:E; cbn [bind]; [| |discriminate]; pose proof (pt_open P _ _ _ E) as ->.
    + intros H. injection H as <-. destruct (pt_some P _ _ E) as (v & V1 & V2 & V3). exists v. unfold among_see, among_put. cbn [fst snd nth_error replace_nth].
      split; [auto|]. split; [rewrite V2; auto|]. intros h. destruct (V3 h) as (c' & W1 & W2 & W3). exists (c' :: s). rewrite W1, W2. split; [auto|]. split; [reflexivity|].
      destruct W3 as (W3 & W4 & W5). repeat split; cbn; [rewrite W3|rewrite W4|intros k'; rewrite W5]; auto.
    + destruct (batch_open G m s k) as [[s1 o1]|] eqn:E1; [|discriminate]. cbn [bind]. intros H. injection H as -> H. destruct o1 as [[i y]|]; [|discriminate]. injection H as <-.
      destruct (IH _ eq_refl) as (v & V1 & V2 & V3). exists v. unfold among_see, among_put in *. cbn [fst snd nth_error replace_nth] in *.
      split; [auto|]. destruct (nth_error s i) as [d|]; [|discriminate]. split.
      { destruct (put G d y v) as [[d' y']|]; [|discriminate]. injection V2 as -> ->. auto. }
      intros h. destruct (V3 h) as (s' & W1 & W2 & W3). destruct (put G d y (h v)) as [[d' y']|]; [|discriminate]. injection W1 as <- ->. eexists. split; [reflexivity|].
      rewrite (pt_none P _ _ E). cbn [bind]. rewrite W2. cbn [bind]. split; [reflexivity|].
      destruct W3 as (W3 & W4 & W5). cbn [capacity size contains BatchB] in *. repeat split; cbn [capacity size contains BatchB]; unfold bt_capacity, bt_size in *; cbn [map list_sum fold_right bt_contains] in *.
      * f_equal. exact W3.
      * f_equal. exact W4.
      * intros k'. destruct (contains C c k') as [[]|]; cbn; auto.
  - apply among_put_ok.
  - apply among_close_ok.
Qed.
Lemma sum_replace (f : St C -> nat) i c d s : nth_error s i = Some c -> f d = f c -> list_sum (map f (replace_nth i d s)) = list_sum (map f s).
Proof. revert i. induction s as [|x s IH]; intros [|i] H E; cbn in *; try discriminate; [injection H as ->; congruence|]. erewrite IH; eauto. Qed.
Lemma assoc_pointed hash : pointed (assoc_cells G hash) (fun m => @as_get K V hash C (g m)).
Proof.
  constructor; cbn [open_cell see put close_cell assoc_cells].
  - intros m s k s' o. unfold assoc_open. destruct (as_set hash C s k) as [i|]; [|discriminate]. cbn [bind].
    destruct (nth_error s i) as [c|] eqn:En; [|discriminate]. cbn [unwrap bind]. destruct (open_cell G m c k) as [[c1 x]|] eqn:E; [|discriminate]. cbn [bind].
    intros H. injection H as <- _. rewrite (pt_open P _ _ _ E). apply replace_self; auto.
  - intros m s k. unfold assoc_open, as_get. destruct (as_set hash C s k) as [i|]; [|discriminate]. cbn [bind].
    destruct (nth_error s i) as [c|] eqn:En; [|discriminate]. cbn [unwrap bind]. destruct (open_cell G m c k) as [[c1 x]|] eqn:E; [|discriminate]. cbn [bind].
    pose proof (pt_open P _ _ _ E) as ->. intros H f. injection H as _ H. destruct x; [discriminate|]. rewrite (pt_none P _ _ E). cbn [bind]. rewrite replace_self; auto.
  - intros m s k p. unfold assoc_open, as_get. destruct (as_set hash C s k) as [i|] eqn:Es; [|discriminate]. cbn [bind].
    destruct (nth_error s i) as [c|] eqn:En; [|discriminate]. cbn [unwrap bind]. destruct (open_cell G m c k) as [[c1 x]|] eqn:E; [|discriminate]. cbn [bind].
    pose proof (pt_open P _ _ _ E) as ->. intros H. injection H as _ H. destruct x as [x|]; [|discriminate]. cbn [option_map] in H. injection H as <-.
    destruct (pt_some P _ _ E) as (v & V1 & V2 & V3). exists v. unfold among_see, among_put. cbn [fst snd]. rewrite En.
    split; [auto|]. split; [rewrite V2, replace_self; auto|]. intros h. destruct (V3 h) as (c' & W1 & W2 & W3). exists (replace_nth i c' s). rewrite W1, W2. split; [auto|]. split; [reflexivity|].
    destruct W3 as (W3 & W4 & W5). repeat split; cbn [capacity size contains AssociativeB].
    + eapply sum_replace; eauto.
    + eapply sum_replace; eauto.
    + intros k'. unfold as_contains, as_set. rewrite replace_nth_length. destruct (length s); [auto|]. cbn [bind].
      match goal with |- context [nth_error _ ?j] => destruct (Nat.eq_dec i j) as [<-|Hn] end.
      * rewrite (nth_replaced _ _ _ En), En. cbn. auto.
      * assert (X : forall (l : list (St C)) a b d, a <> b -> nth_error (replace_nth a d l) b = nth_error l b).
        { clear. induction l as [|y l IH]; intros [|a] [|b] d H; cbn; auto; congruence. }
        rewrite X by auto. auto.
  - apply among_put_ok.
  - apply among_close_ok.
Qed.
End Among.

(** Through a decoration that a look leaves as it is. *)
Definition steady {V D} (F : Factory V D) : Prop :=
  (forall st, tick F st = st) /\
  (forall st d h, touched F st d h = touched F st d (fun _ => h (unwrap_deco F d))) /\
  (forall st d w w', touched F st (touched F st d (fun _ => w)) (fun _ => w') = touched F st d (fun _ => w')) /\
  (forall st d, touched F st d (fun _ => unwrap_deco F d) = d).
Lemma fifo_steady V : steady (@Fifo V).
Proof. repeat split. intros st []. reflexivity. Qed.
Lemma deco_pointed {K V D} (F : Factory V D) (C : Block K D) (G : Cells C) g : steady F -> pointed G g -> pointed (deco_cells F G) (fun m => @dc_get K V D F C (g m)).
Proof.
  intros (F1 & F2 & F3 & F4) P. constructor; cbn [open_cell see put close_cell deco_cells].
  - intros m [f s] k s' o. cbn [fst snd]. destruct (open_cell G m s k) as [[c x]|] eqn:E; [|discriminate]. cbn. intros H. injection H as <- _. rewrite (pt_open P _ _ _ E). auto.
  - intros m [f s] k. cbn [fst snd]. destruct (open_cell G m s k) as [[c x]|] eqn:E; [|discriminate]. cbn. intros H h. injection H as -> ->.
    unfold dc_get. cbn [fst snd]. rewrite (pt_none P _ _ E). reflexivity.
  - intros m [f s] k x. cbn [fst snd]. destruct (open_cell G m s k) as [[c y]|] eqn:E; [|discriminate]. cbn [bind]. intros H. injection H as -> ->.
    destruct (pt_some P _ _ E) as (d & V1 & V2 & V3). exists (unwrap_deco F d). rewrite V1. cbn [option_map]. split; [auto|]. split; [rewrite F4, V2; auto|].
    intros h. destruct (V3 (fun d => touched F f d h)) as (s' & W1 & W2 & W3). exists (f, s'). rewrite <- F2, W1. split; [auto|].
    unfold dc_get. cbn [fst snd]. rewrite W2. cbn. rewrite F1. split; [auto|]. destruct W3 as (W3 & W4 & W5). repeat split; cbn; auto.
  - intros [f s] x w s' x'. cbn [fst snd]. destruct (see G s x) as [d|] eqn:E; [|discriminate]. destruct (put G s x (touched F f d (fun _ => w))) as [[c y]|] eqn:E1; [|discriminate].
    intros H. injection H as <- <-. destruct (pt_put P _ _ _ E1) as (-> & H2 & H3). split; [auto|]. cbn [fst snd]. rewrite H2. cbn [option_map]. split; [f_equal; apply unwrap_touched|].
    intros w'. rewrite F3, H3. reflexivity.
  - intros [f s] x. cbn [fst snd]. rewrite (pt_close P). reflexivity.
Qed.

(** ** The architectures *)
(** Arrays, behind any nesting of Batch, Associative, FlushStopper and Decorator with a decoration like Fifo. *)
Fixpoint placed {K} {OK : Ord K} {V} (a : arch K V) : Prop :=
  match a with
  | AArray _ _ _ _ => True
  | ABatch _ f => forall i, placed (f i)
  | AAssociative _ _ f => forall i, placed (f i)
  | AFlushStopper a => placed a
  | @ADecorator _ _ _ _ F _ a => steady F /\ placed a
  | _ => False
  end.
Lemma placed_pointed {K} {OK : Ord K} {EK : OrdEq K} {V} (a : arch K V) : placed a -> pointed (acells a) (fun m => aget m a).
Proof.
  induction a as [| | V n f IH | | V a IH | | | | V D F f0 a IH | V hash n f IH | |]; cbn [placed]; intros HP; try contradiction.
  - apply array_pointed.
  - apply (@batch_pointed K V (SumB (fun i => block (f i)))). apply (@sum_pointed K V (fun i => block (f i)) (fun i => acells (f i)) (fun i m => aget m (f i))). auto.
  - apply flush_pointed. auto.
  - destruct HP. apply deco_pointed; auto.
  - apply (@assoc_pointed K V (SumB (fun i => block (f i)))). apply (@sum_pointed K V (fun i => block (f i)) (fun i => acells (f i)) (fun i m => aget m (f i))). auto.
Qed.

(** C70 for these containers: as C70_guards_are_atomic_partial.
    Missing: take, take_multiple, pop and flush, for which it is false; BTree, Compressed and Exclusive, for which it is
    false (PGuardConc.v, below); decorations that a look changes, Profiler, a Sequential inside. *)
Theorem C70_family_guards_are_atomic_partial : forall K (OK : Ord K) (EK : OrdEq K) V (a : arch K V), placed a -> forall st n s,
  gsteps gentle (ginit (acells a) st n) s -> exists ref,
  in_turn (fun m => aget m a) st (map pair_of (g_effects s)) ref /\ by_time (g_effects s) /\
  (Forall (fun t => ~ writing t) (g_threads s) -> g_st s = ref) /\
  forall i, i < n -> exists finished pending,
    filter (fun e => ge_who e =? i) (g_effects s) = finished ++ pending /\
    Forall2 geffect_of finished (filter (fun r => gr_who r =? i) (g_returns s)) /\
    length pending <= 1 /\ (nth_error (g_threads s) i = Some (GIdle (acells a)) -> pending = []).
Proof. intros K OK EK V a HP st n s H. exact (atomic_guards (pointed_in_place (placed_pointed a HP)) H). Qed.

(** What a guard shows: as C70_reads_are_stable_partial. *)
Theorem C70_family_reads_are_stable_partial : forall K (OK : Ord K) (EK : OrdEq K) V (a : arch K V), placed a -> forall st n s,
  gsteps gentle (ginit (acells a) st n) s ->
  (forall e m k log, List.In e (g_effects s) -> ge_ask e = GGet m k -> ge_saw e = GUsed log ->
     exists v v', heard v log v' /\ (m = false -> Forall (fun e => e = Saw v) log)) /\
  (forall m k p d t v c log, List.In (GBusy (acells a) (GGet m k) p d t v (Some c) log None) (g_threads s) ->
     exists v v', heard v log v' /\ see (acells a) (g_st s) c = Some v' /\ (m = false -> Forall (fun e => e = Saw v) log)).
Proof.
  intros K OK EK V a HP st n s H. pose proof (pointed_in_place (placed_pointed a HP)) as IP.
  destruct (gsteps_inv IP H) as (ref & A1 & A2 & A3 & A4 & A5 & _). split.
  - intros e m k log He E1 E2. assert (X : List.In (GGet m k, GUsed log) (map pair_of (g_effects s))).
    { apply in_map_iff. exists e. split; [|auto]. unfold pair_of. congruence. }
    clear - A1 X. revert st A1. induction (map pair_of (g_effects s)) as [|[b q] l IH]; intros st A1; [destruct X|].
    cbn [in_turn] in A1. destruct A1 as (s1 & B1 & B2). destruct X as [X|X]; [|eauto].
    injection X as -> ->. cbn [alone] in B1. destruct B1 as (v & v' & C1 & C2 & _). eauto.
  - intros m k p d t v c log Hin. rewrite Forall_forall in A5. specialize (A5 _ Hin). cbn [gthread_ok] in A5.
    destruct A5 as (_ & _ & _ & _ & _ & (m' & k' & E1 & _ & [(_ & _ & S)|[F _]])); [|congruence]. injection E1 as <- <-.
    destruct S as (v1 & w & _ & _ & S3 & S4 & S5). exists v1, w. split; [auto|]. split; [|intros Hm; apply (S5 Hm)].
    destruct (ip_put IP _ _ _ S4) as (_ & P & _). exact P.
Qed.

(** ** Updates are not lost *)
(** What get shows. *)
Definition peek {K V} (B : Block K V) (g : bool -> Getter B) (s : St B) (k : K) : res (option V) :=
  let* (_, o) := g false s k (fun v => v) in Ok o.
Arguments peek {K V} B g s k.
Record sound {K V} {OK : Ord K} (B : Block K V) (g : bool -> Getter B) : Prop := {
  sd_ok : forall m s k f s' o, g m s k f = Ok (s', o) -> peek B g s k = Ok o /\ forall k', peek B g s' k' = if eqb k k' then Ok (option_map f o) else peek B g s k';
  sd_panic : forall m s k f, g m s k f = Panic -> peek B g s k = Panic
}.
Arguments sound {K V OK} B g.
Section Sound.
Context {K : Type} {OK : Ord K} {EK : OrdEq K}.
Lemma array_sound {V} {OV : Ord V} (srt : Sorter (K * V) V snd) (bs : BSearch K) : sound (ArrayB srt bs) (fun _ s k f => a_get s k f).
Proof.
  constructor; [|discriminate]. intros m s k f s' o H. unfold peek, a_get in *. injection H as <- <-. cbn [bind a_vals]. split; [auto|]. intros k'.
  induction (a_vals s) as [|[x v] l IH]; cbn [update_first find fst]; [destruct (eqb k k'); auto|].
  destruct (eqb x k) eqn:E1; cbn [find fst].
  - apply eqb_eq in E1. subst x. destruct (eqb k k') eqn:E2; reflexivity.
  - destruct (eqb x k') eqn:E2; [|apply IH]. destruct (eqb k k') eqn:E3; [|auto]. apply eqb_eq in E2, E3. subst. rewrite eqb_refl in E1. discriminate.
Qed.
Lemma sum_sound {V} (C : nat -> Block K V) (g : forall i, bool -> Getter (C i)) : (forall i, sound (C i) (g i)) -> sound (SumB C) (fun m => @sum_get K V nat C (fun i => g i m)).
Proof.
  intros H.
  assert (Y : forall i s k, peek (SumB C) (fun m => @sum_get K V nat C (fun i => g i m)) (existT _ i s) k = peek (C i) (g i) s k).
  { intros i s k. unfold peek, sum_get. cbn [projT1 projT2]. destruct (g i false s k _) as [[? ?]|]; auto. }
  constructor.
  - intros m [i s] k f s' o. unfold sum_get at 1. cbn [projT1 projT2]. destruct (g i m s k f) as [[c x]|] eqn:E; [|discriminate]. cbn [bind]. intros X. injection X as <- <-.
    destruct (sd_ok (H i) _ _ _ _ E) as [H1 H2]. rewrite Y. split; [auto|]. intros k'. rewrite !Y. auto.
  - intros m [i s] k f. unfold sum_get at 1. cbn [projT1 projT2]. destruct (g i m s k f) as [[c x]|] eqn:E; [discriminate|]. intros _. rewrite Y. eapply (sd_panic (H i)). exact E.
Qed.
Section Among.
Context {V : Type} (C : Block K V) (g : bool -> Getter C).
Hypothesis H : sound C g.
Lemma peek_cons c s k : peek (BatchB C) (fun m => bt_get (g m)) (c :: s) k =
  let* o := peek C g c k in match o with Some v => Ok (Some v) | None => peek (BatchB C) (fun m => bt_get (g m)) s k end.
Proof.
  unfold peek. cbn [bt_get]. destruct (g false c k _) as [[c1 [v|]]|]; cbn [bind]; auto.
  destruct (bt_get (g false) s k _) as [[? ?]|]; auto.
Qed.
Lemma batch_sound : sound (BatchB C) (fun m => bt_get (g m)).
Proof.
  constructor.
  - intros m s k f. induction s as [|c s IH]; intros s' o; cbn [bt_get].
    + intros X. injection X as <- <-. split; [auto|]. intros k'. destruct (eqb k k'); auto.
    + destruct (g m c k f) as [[c1 [v|]]|] eqn:E; cbn [bind]; [| |discriminate]; destruct (sd_ok H _ _ _ _ E) as [H1 H2].
      * intros X. injection X as <- <-. rewrite peek_cons, H1. cbn [bind]. split; [auto|]. intros k'. rewrite !peek_cons, H2. destruct (eqb k k'); auto.
      * destruct (bt_get (g m) s k f) as [[s1 o1]|] eqn:E1; cbn [bind]; [|discriminate]. intros X. injection X as <- <-. destruct (IH _ _ eq_refl) as [I1 I2].
        rewrite peek_cons, H1. cbn [bind]. split; [auto|]. intros k'. rewrite !peek_cons, H2, I2. destruct (eqb k k'); auto.
  - intros m s k f. induction s as [|c s IH]; cbn [bt_get]; [discriminate|]. rewrite peek_cons.
    destruct (g m c k f) as [[c1 [v|]]|] eqn:E; cbn [bind]; [discriminate| |].
    + destruct (bt_get (g m) s k f) as [[s1 o1]|] eqn:E1; cbn [bind]; [discriminate|]. intros _. rewrite (proj1 (sd_ok H _ _ _ _ E)). cbn [bind]. auto.
    + rewrite (sd_panic H _ _ _ _ E). auto.
Qed.
Lemma peek_assoc hash s k : peek (AssociativeB hash C) (fun m => @as_get K V hash C (g m)) s k =
  let* i := as_set hash C s k in let* c := unwrap (nth_error s i) in peek C g c k.
Proof.
  unfold peek, as_get. destruct (as_set hash C s k) as [i|]; cbn [bind]; [|auto]. destruct (nth_error s i) as [c|]; cbn [unwrap bind]; [|auto].
  destruct (g false c k _) as [[? ?]|]; auto.
Qed.
Lemma assoc_sound hash : sound (AssociativeB hash C) (fun m => @as_get K V hash C (g m)).
Proof.
  constructor.
  - intros m s k f s' o. unfold as_get at 1. destruct (as_set hash C s k) as [i|] eqn:Es; cbn [bind]; [|discriminate].
    destruct (nth_error s i) as [c|] eqn:En; cbn [unwrap bind]; [|discriminate]. destruct (g m c k f) as [[c1 x]|] eqn:E; cbn [bind]; [|discriminate].
    intros X. injection X as <- <-. destruct (sd_ok H _ _ _ _ E) as [H1 H2]. rewrite peek_assoc, Es. cbn [bind]. rewrite En. split; [auto|]. intros k'.
    rewrite !peek_assoc. assert (X : as_set hash C (replace_nth i c1 s) k' = as_set hash C s k') by (unfold as_set; rewrite replace_nth_length; auto). rewrite X. clear X.
    destruct (as_set hash C s k') as [j|] eqn:Ej; cbn [bind].
    + destruct (Nat.eq_dec i j) as [<-|Hn].
      * rewrite (nth_replaced _ _ _ En), En. cbn [unwrap bind]. apply H2.
      * assert (X : forall (l : list (St C)) a b d, a <> b -> nth_error (replace_nth a d l) b = nth_error l b).
        { clear. induction l as [|y l IH]; intros [|a] [|b] d Hn; cbn; auto; congruence. }
        rewrite X by auto. destruct (eqb k k') eqn:Ek; [|auto]. apply eqb_eq in Ek. congruence.
    + destruct (eqb k k') eqn:Ek; [|auto]. apply eqb_eq in Ek. congruence.
  - intros m s k f. unfold as_get at 1. rewrite peek_assoc. destruct (as_set hash C s k) as [i|] eqn:Es; cbn [bind]; [|auto].
    destruct (nth_error s i) as [c|] eqn:En; cbn [unwrap bind]; [|auto]. destruct (g m c k f) as [[c1 x]|] eqn:E; cbn [bind]; [discriminate|]. intros _. eapply (sd_panic H); eauto.
Qed.
End Among.
Lemma deco_sound {V D} (F : Factory V D) (C : Block K D) g : sound C g -> sound (DecoratorB F C) (fun m => @dc_get K V D F C (g m)).
Proof.
  intros H.
  assert (Y : forall st s k, peek (DecoratorB F C) (fun m => @dc_get K V D F C (g m)) (st, s) k = let* o := peek C g s k in Ok (option_map (unwrap_deco F) o)).
  { intros st s k. unfold peek at 1, dc_get. cbn [fst snd]. destruct (g false s k (fun d => touched F st d (fun v => v))) as [[c o]|] eqn:E; cbn [bind].
    - rewrite (proj1 (sd_ok H _ _ _ _ E)). auto.
    - rewrite (sd_panic H _ _ _ _ E). auto. }
  constructor.
  - intros m [st s] k f s' o. unfold dc_get at 1. cbn [fst snd]. destruct (g m s k _) as [[c x]|] eqn:E; cbn [bind]; [|discriminate]. intros X. injection X as <- <-.
    destruct (sd_ok H _ _ _ _ E) as [H1 H2]. rewrite Y, H1. split; [auto|]. intros k'. rewrite !Y, H2. destruct (eqb k k'); [|auto]. cbn [bind].
    destruct x; cbn [option_map]; [rewrite unwrap_touched|]; auto.
  - intros m [st s] k f. unfold dc_get at 1. cbn [fst snd]. destruct (g m s k _) as [[c x]|] eqn:E; cbn [bind]; [discriminate|]. intros _. rewrite Y, (sd_panic H _ _ _ _ E). auto.
Qed.
Lemma placed_sound {V} (a : arch K V) : placed a -> sound (block a) (fun m => aget m a).
Proof.
  induction a as [| | V n f IH | | V a IH | | | | V D F f0 a IH | V hash n f IH | |]; cbn [placed]; intros HP; try contradiction.
  - apply array_sound.
  - apply (@batch_sound V (SumB (fun i => block (f i)))). apply (@sum_sound V (fun i => block (f i)) (fun i m => aget m (f i))). auto.
  - destruct (IH HP) as [H1 H2]. constructor; [exact H1|exact H2].
  - destruct HP. apply deco_sound; auto.
  - apply (@assoc_sound V (SumB (fun i => block (f i)))). apply (@sum_sound V (fun i => block (f i)) (fun i m => aget m (f i))). auto.
Qed.

Lemma tally_sound (B : Block K nat) (g : bool -> Getter B) (k : K) es : sound B g -> forall st ref v0, in_turn g st (map pair_of es) ref ->
  Forall (fun e => looks (ge_ask e)) es -> peek B g st k = Ok (Some v0) ->
  (forall e log, List.In e es -> ge_ask e = GGet true k -> ge_saw e = GUsed log -> exists v, log = [Saw v; Wrote (S v)]) ->
  peek B g ref k = Ok (Some (v0 + length (filter (updates k) es))) /\ forall e m, List.In e es -> ge_ask e = GGet m k -> ge_saw e <> GNone.
Proof.
  intros SD. induction es as [|[i a q t] es IH]; intros st ref v0 H F V0 L; cbn [map in_turn pair_of ge_ask ge_saw filter] in *.
  - subst ref. rewrite Nat.add_0_r. split; [auto|intros e m []].
  - destruct H as (s1 & H1 & H2). inversion F as [|? ? F1 F2]; subst. cbn [ge_ask] in F1.
    assert (X : (peek B g s1 k = Ok (Some (v0 + if updates k (mkGE i a q t) then 1 else 0))) /\ (forall m, a = GGet m k -> q <> GNone)).
    { unfold updates. cbn [ge_ask ge_saw]. destruct a as [a|m k'].
      - split; [|discriminate]. rewrite Nat.add_0_r. destruct a; try contradiction; cbn [alone answer] in H1; destruct q as [q| |]; try contradiction.
        + injection H1 as <- _. auto.
        + injection H1 as <- _. auto.
        + match type of H1 with context [contains B st ?x] => destruct (contains B st x) end; [injection H1 as <- _; auto|discriminate].
      - destruct q as [q| |log]; cbn [alone] in H1; [destruct H1| |].
        + specialize (H1 (fun x => x)). destruct (sd_ok SD _ _ _ _ H1) as [H3 H4]. split.
          * rewrite H4. destruct (eqb k' k) eqn:E; [apply eqb_eq in E; subst k'; congruence|]. rewrite V0. destruct m; rewrite Nat.add_0_r; auto.
          * intros m' Hm. injection Hm as -> ->. congruence.
        + split; [|discriminate]. destruct H1 as (v & v' & A1 & A2 & A3). destruct (sd_ok SD _ _ _ _ A3) as [A4 A5]. rewrite A5, V0.
          destruct (eqb k' k) eqn:E; [|destruct m; rewrite Nat.add_0_r; auto]. apply eqb_eq in E. subst k'. rewrite V0 in A4. injection A4 as ->. cbn [option_map].
          destruct m.
          * destruct (L _ log (or_introl eq_refl) eq_refl eq_refl) as (x & ->). cbn [heard] in A1. destruct A1 as [-> ->]. f_equal. f_equal. lia.
          * rewrite Nat.add_0_r. f_equal. f_equal. specialize (A2 eq_refl). clear - A1 A2. revert A1.
            induction log as [|y log IH]; cbn [heard]; [auto|]. inversion A2 as [|? ? B1 B2]; subst. intros [_ A1]. auto. }
    destruct X as [X1 X2]. destruct (IH _ _ _ H2 F2 X1 (fun e log He => L e log (or_intror He))) as [Y1 Y2]. split.
    + rewrite Y1. f_equal. f_equal. destruct (updates k _); cbn [length]; lia.
    + intros e m [<-|He] Ha; [exact (X2 m Ha)|eauto].
Qed.
End Sound.

(** The value that get shows for a key. *)
Definition shows {K} {OK : Ord K} {V} (a : arch K V) (s : St (block a)) (k : K) (v : V) : Prop :=
  exists s', aget false a s k (fun v => v) = Ok (s', Some v).
(** As C70_no_lost_update_partial, for these containers. *)
Theorem C70_family_no_lost_update_partial : forall K (OK : Ord K) (EK : OrdEq K) (a : arch K nat), placed a -> forall st n s k v0,
  gsteps looks (ginit (acells a) st n) s -> shows a st k v0 ->
  (forall e log, List.In e (g_effects s) -> ge_ask e = GGet true k -> ge_saw e = GUsed log -> exists v, log = [Saw v; Wrote (S v)]) ->
  (Forall (fun t => ~ writing t) (g_threads s) -> shows a (g_st s) k (v0 + length (filter (updates k) (g_effects s)))) /\
  forall e m, List.In e (g_effects s) -> ge_ask e = GGet m k -> ge_saw e <> GNone.
Proof.
  intros K OK EK a HP st n s k v0 H [s0 V0] L. destruct (gsteps_allowed H) as [_ F].
  assert (H' : gsteps gentle (ginit (acells a) st n) s). { eapply gsteps_more; [|exact H]. intros [[]|]; cbn; auto. }
  destruct (C70_family_guards_are_atomic_partial _ _ HP H') as (ref & A1 & _ & A2 & _).
  assert (P : peek (block a) (fun m => aget m a) st k = Ok (Some v0)) by (unfold peek; rewrite V0; auto).
  destruct (tally_sound (placed_sound a HP) _ _ A1 F P L) as [T1 T2]. split; [|auto]. intros W. rewrite (A2 W).
  unfold peek in T1. destruct (aget false a ref k _) as [[s' o]|] eqn:E; [|discriminate]. cbn in T1. injection T1 as ->. exists s'. exact E.
Qed.

(** ** The hypotheses are met *)
(** Two sets, each a Batch of two Arrays behind a Fifo, an Array behind a FlushStopper. *)
Definition leaf {V} {OV : Ord V} (cap : nat) : arch nat V := @AArray nat _ V _ (std_sorter snd) linear_bs cap (fun _ => 1).
#[local] Existing Instance fifo_ord.
Definition deep : arch nat nat := AAssociative N.of_nat 1 (fun i => if i =? 0 then ABatch 2 (fun _ => ADecorator Fifo fifo_new (leaf 1)) else AFlushStopper (leaf 2)).
Lemma deep_placed : placed deep.
Proof. cbn [placed deep]. intros [|i]; cbn; auto. intros _. split; [apply fifo_steady|exact I]. Qed.
Definition deep_state : St (block deep) := match push (block deep) (init deep) [(2, 20); (4, 40); (3, 30)] with Ok (s, _) => s | Panic => init deep end.
Definition deep_moves : list (nat * gmove nat nat) :=
  grab 0 (GGet true 4) ++ [(1, MCall (GGet true 4)); (2, MCall (GAsk (AskContains 3)))] ++ incr 0 40 ++ steps 0 4 ++
  steps 1 5 ++ incr 1 41 ++ steps 1 4 ++ steps 2 7 ++ grab 2 (GGet false 3) ++ [(2, MRead); (2, MRead); (2, MDone)] ++ steps 2 4.
Definition peeked (s : St (block deep)) (k : nat) : option nat := match aget false deep s k (fun v => v) with Ok (_, o) => o | Panic => None end.
Example c70_deep : match gplay (ginit (acells deep) deep_state 3) deep_moves with
  | Some s => all_idle s = true /\ map (peeked (g_st s)) [1; 2; 3; 4] = [None; Some 20; Some 30; Some 42] /\
      map pair_of (g_effects s) = [(GGet true 4, GUsed [Saw 40; Wrote 41]); (GGet true 4, GUsed [Saw 41; Wrote 42]);
                                   (GAsk (AskContains 3), GSaw (SawBool true)); (GGet false 3, GUsed [Saw 30; Saw 30])]
  | None => False
  end.
Proof. vm_compute. repeat split. Qed.
Example c70_deep_looks : Forall (move_ok looks) deep_moves.
Proof. unfold deep_moves, grab, incr, steps. cbn [repeat app]. repeat (constructor; [exact I|]). constructor. Qed.

(** ** C70 is false of an Exclusive, even of threads that only call get *)
(** A get under the shared lock moves pairs between the two containers: the guard of one thread points to the front, where
    the get of another brings another pair. *)
Definition levels : arch nat nat := AExclusive linear_bs (leaf 1) (leaf 4).
Definition levels_state : St (block levels) := match push (block levels) (init levels) [(1, 10); (2, 20)] with Ok (s, _) => s | Panic => init levels end.
Definition moved_away : list (nat * gmove nat nat) :=
  grab 0 (GGet false 1) ++ [(0, MRead)] ++ grab 1 (GGet false 2) ++ [(0, MRead); (1, MRead); (0, MDone); (1, MDone)] ++ steps 0 4 ++ steps 1 4.
Theorem C70_exclusive_get_moves_refuted : exists s,
  gsteps (only [GGet false 1; GGet false 2]) (ginit (acells levels) levels_state 2) s /\ all_idle s = true /\
  map (held levels) [levels_state; g_st s] = [[(1, 10); (2, 20)]; [(2, 20); (1, 10)]] /\
  map pair_of (g_effects s) = [(GGet false 1, GUsed [Saw 10; Saw 20]); (GGet false 2, GUsed [Saw 20])].
Proof.
  assert (E : match gplay (ginit (acells levels) levels_state 2) moved_away with
    | Some s => all_idle s = true /\ map (held levels) [levels_state; g_st s] = [[(1, 10); (2, 20)]; [(2, 20); (1, 10)]] /\
        map pair_of (g_effects s) = [(GGet false 1, GUsed [Saw 10; Saw 20]); (GGet false 2, GUsed [Saw 20])]
    | None => False end) by (vm_compute; repeat split).
  destruct (gplay (ginit (acells levels) levels_state 2) moved_away) as [s|] eqn:P; [|destruct E].
  exists s. split; [|exact E]. eapply gplay_ok; [exact P|]. unfold moved_away, grab, steps, only. cbn [repeat app].
  repeat (constructor; [cbn; auto|]). constructor.
Qed.
