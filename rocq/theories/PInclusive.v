(** PInclusive.v -- property theorems about Inclusive: C14. *)
From Coq Require Import NArith.
From Verif Require Import Base PermSolve Block Spec LawsProof Cut Array ArrayProof BTree BTreeProof
  Arch ArchProof PArch Get GetProof PGet Calls Inclusive InclusiveProof.
Set Implicit Arguments.

(** ** The containers an Inclusive is made of *)
Section Parts.
Context {K : Type} {OK : Ord K} {EK : OrdEq K}.
(** The containers whose get hands out a pointer to the element where it is stored: an Array, and what passes on the guard of
    a container of this kind (an Exclusive passes on that of its front, where it has brought the element).  Not a BTree (the pair is
    taken out), not a Compressed (the guard has a copy), not a Sequential (the guard holds the lock): see C72. *)
Fixpoint pointers {D} (a : arch K D) : Prop :=
  match a with
  | AArray _ _ _ _ => True
  | ABatch n f => forall i, i < n -> pointers (f i)
  | AExclusive _ l _ => pointers l
  | AFlushStopper a | AProfiler a => pointers a
  | ADecorator _ _ a => pointers a
  | AAssociative _ n f => forall i, i < S n -> pointers (f i)
  | ABTree _ _ _ | ASequential _ | ADyn _ | ACompressed _ _ _ _ _ | ARemote _ => False
  end.
(** The back: a BTree, or any architecture of pointers whose get is faithful and whose flush empties it. *)
Definition backing {D} (b : arch K D) : Prop :=
  match b with ABTree _ _ _ => True | _ => get_ready b /\ pointers b /\ has_stopper b = false end.
(** The guards of its get, kept while other calls are made (see Inclusive.v): dropping a pointer does nothing. *)
Definition pointer_tget {D} (b : arch K D) : TGetter (block b) :=
  @mkTG K _ (block b) unit (fun s k f => let* (s', o) := aget false b s k f in Ok (s', option_map (fun v => (v, tt)) o)) (fun s _ => Ok s).
Definition back_tget {D} (b : arch K D) : TGetter (block b) :=
  match b in arch _ D return TGetter (block b) with
  | ABTree _ _ _ => btree_tget
  | b' => pointer_tget b'
  end.
Lemma pointer_tget_ok {D} (b : arch K D) : get_ready b -> unit_arch b -> TGet_ok (ainv false b) (held b) (pointer_tget b) (fun _ => []).
Proof.
  intros Hr Hu. split.
  - intros s k f Hi. cbn [t_open pointer_tget].
    assert (G : get_ok (block b) (ainv false b) (held b) (aget false b) s k f) by (apply arch_get; auto; [discriminate|apply unit_keeps_size; auto]).
    destruct G as (s' & o & H1 & H2 & H3 & H4 & H5).
    rewrite H1. cbn [bind]. eexists s', _. split; [reflexivity|]. split; [exact H2|]. split; [exact H3|]. destruct o as [v|]; cbn [option_map app]; auto.
    destruct H5 as (rest & P1 & P2). exists rest. split; auto. split; auto. intros x [].
  - intros s g Hi _ _. exists s. auto.
Qed.
Lemma back_tget_ok {D} (b : arch K D) : backing b -> unit_arch b ->
  exists pending, TGet_ok (ainv false b) (held b) (back_tget b) pending.
Proof.
  destruct b as [V OV srt bs cap esz|V OV cap esz|V n f|V bs l r|V a|V a|V a|V a|V D F f0 a|V hash n f|V OV L C srt bs cap|V a]; cbn [backing back_tget]; intros Hb Hu;
    try (exists (fun _ => []); apply pointer_tget_ok; tauto).
  exists (fun kv => [kv]). apply (@btree_tget_ok K V OK EK OV esz Hu).
Qed.
Lemma unit_no_assoc {D} (b : arch K D) : unit_arch b -> has_associative b = false.
Proof.
  induction b as [V OV srt bs cap esz|V OV cap esz|V n f IH|V bs l IHl r IHr|V a IH|V a IH|V a IH|V a IH|V D F f0 a IH|V hash n f IH|V OV L C srt bs cap|V a IH];
    cbn [unit_arch has_associative]; intros H; auto; try contradiction.
  - destruct (existsb (fun i => has_associative (f i)) (seq 0 n)) eqn:E; auto. apply existsb_exists in E. destruct E as (i & Hi & E). apply in_seq in Hi.
    rewrite (IH i (H i ltac:(lia))) in E. discriminate.
  - rewrite IHl, IHr by tauto. auto.
Qed.
Lemma back_flags {D} (b : arch K D) : backing b -> unit_arch b -> has_associative b = false /\ has_stopper b = false.
Proof. intros Hb Hu. split; [apply unit_no_assoc; auto|]. destruct b; cbn [backing] in Hb; try tauto. Qed.
(** The front: any architecture whose get is faithful (see PGet.v), whose elements count for one and whose
    flush empties it. *)
Definition parts {V} (front back : arch K (cell V)) : Prop :=
  unit_arch front /\ get_ready front /\ has_stopper front = false /\ backing back /\ unit_arch back.
End Parts.

Section PInclusive.
Context {K V : Type} {OK : Ord K} {EK : OrdEq K}.
Variables front back : arch K (cell V).
Hypothesis Hparts : parts front back.
Notation L := (block front).
Notation R := (block back).
Notation B := (InclusiveB L R).
Notation start := (init front, init back).
Notation cap := (leaves_capacity back).
Variable m : bool.

(** The whole Inclusive, as a machine answering calls. *)
Definition inclusive_does : inclusive L R -> call K V -> res (inclusive L R * reply K V) :=
  @do_call K V B (in_get (back_tget back) (aget m front)) (in_get_mut (back_tget back) (aget m front)).

(** What it holds: the pairs of the back container, with the value of the copy of the front if there is one. *)
Definition content (s : inclusive L R) : list (K * V) := in_ct (held front) (held back) s.
(** A key marked as copied in the back whose copy is not in the front any more. *)
Definition orphan (s : inclusive L R) (k : K) : Prop := stale (held front) (held back) s k.
Definition sound (s : inclusive L R) : Prop :=
  in_inv (ainv false front) (ainv false back) (held front) (held back) s.

Lemma HL : Laws L (ainv false front) (held front) false (negb (has_associative front)) true.
Proof.
  destruct Hparts as (_ & _ & H & _). eapply laws_flags; [apply (arch_laws front)| |]; auto; [discriminate|]. rewrite H. auto.
Qed.
Lemma HR : Laws R (ainv false back) (held back) false true true.
Proof.
  destruct Hparts as (_ & _ & _ & H & Hu). destruct (back_flags _ H Hu) as [H1 H2].
  eapply laws_flags; [apply (arch_laws back)| |]; [discriminate| |]; rewrite ?H1, ?H2; auto.
Qed.
Lemma UL : Unit L (ainv false front) (held front) false.
Proof. apply arch_unit; [discriminate|apply Hparts]. Qed.
Lemma UR : Unit R (ainv false back) (held back) false.
Proof. apply arch_unit; [discriminate|apply Hparts]. Qed.
Lemma HG f k touch : ainv false front f -> get_ok L (ainv false front) (held front) (aget m front) f k touch.
Proof. intros H. apply arch_get; auto; [discriminate|apply Hparts|apply unit_keeps_size, Hparts]. Qed.

Lemma start_sound : sound start /\ content start = [] /\ (forall k, ~ orphan start k).
Proof.
  destruct (init_ok false front) as [H1 H2]. destruct (init_ok false back) as [H3 H4]. unfold sound, content, orphan, in_inv, in_ct, stale.
  cbn [fst snd]. rewrite H2, H4. split; [split; [auto|split; [auto|]]|split; auto].
  - split; [constructor|]. split; [constructor|]. intros k cf [].
  - intros k (c & [] & _).
Qed.
Lemma content_size s : sound s -> in_size s = length (content s).
Proof. intros (_ & H & _). unfold in_size, content, in_ct, latest. rewrite map_length. apply (u_size UR); auto. Qed.
Lemma content_nodup s : sound s -> NoDup (keys (content s)).
Proof. apply in_inv_nodup. Qed.
Lemma front_below s : sound s -> length (held front (fst s)) <= length (content s).
Proof.
  intros (_ & _ & Lk). pose proof Lk as (N1 & _ & _). unfold content, in_ct, latest. rewrite map_length.
  assert (Hi : incl (keys (held front (fst s))) (keys (held back (snd s)))) by (intros k; apply (@linked_sub K V _ _ _ Lk)).
  apply (NoDup_incl_length N1) in Hi. unfold keys in Hi. rewrite !map_length in Hi. auto.
Qed.
Lemma front_strict s k : sound s -> In k (keys (content s)) -> ~ In k (keys (held front (fst s))) ->
  length (held front (fst s)) < length (content s).
Proof.
  intros (_ & _ & Lk) Hk Hn. pose proof Lk as (N1 & _ & _). unfold content, in_ct in *. rewrite keys_latest in Hk. unfold latest. rewrite map_length.
  assert (Hi : incl (k :: keys (held front (fst s))) (keys (held back (snd s)))).
  { intros x [<-|Hx]; auto. apply (@linked_sub K V _ _ _ Lk); auto. }
  apply NoDup_incl_length in Hi; [|constructor; auto]. cbn in Hi. unfold keys in Hi. rewrite !map_length in Hi. lia.
Qed.
Ltac caps := try (cbn [fst snd] in *; congruence).

(** The calls whose answer is right, and what they leave, in any state. *)
Definition safe (s : inclusive L R) (x : call K V) : Prop :=
  match x with
  | COp (OpPush vs) => NoDup (keys (content s ++ vs)) /\ ((forall k, ~ orphan s k) \/ length (content s) + length vs <= in_capacity s)
  | COp (OpPop _) => forall k, ~ orphan s k
  | COp (OpTake k) => ~ orphan s k
  | COp (OpTakeMultiple ks) => forall k, In k ks -> ~ orphan s k
  | COp OpFlush => True
  | CContains _ => True
  | CRead k | CWrite k _ => In k (keys (content s)) -> 1 <= capacity L (fst s)
  end.
(** The calls that make no orphan. *)
Definition roomy (s : inclusive L R) (x : call K V) : Prop :=
  match x with
  | CRead k | CWrite k _ => length (held front (fst s)) < capacity L (fst s) \/ In k (keys (held front (fst s))) \/ ~ In k (keys (content s))
  | _ => True
  end.
Lemma does_safe s x : sound s -> safe s x -> exists s' r, inclusive_does s x = Ok (s', r) /\ sound s' /\
  in_capacity s' = in_capacity s /\ capacity L (fst s') = capacity L (fst s) /\ effect (in_capacity s) (content s) x r (content s') /\
  (roomy s x -> forall k, orphan s' k -> orphan s k).
Proof.
  intros Hi Hs. unfold inclusive_does. destruct x as [o|k|k|k w]; cbn [do_call]; [destruct o as [vs|n|k|ks|]; cbn [step]| | | ].
  - destruct Hs as [N Hs]. destruct (in_push_ok HL HR UR vs Hi N) as (s' & out & lost & H1 & H2 & H3 & H4 & H5 & H6 & H7 & H8 & H9).
    cbn [push InclusiveB]. rewrite H1. cbn [bind]. eexists s', _. split; [reflexivity|]. split; auto. split; auto. split; auto. split; auto.
    cbn [effect]. split; auto. assert (E : lost = []); [|subst; auto]. destruct Hs as [Hs|Hs].
    + destruct lost as [|[k v] l]; auto. exfalso. apply (Hs k). apply H7. left; auto.
    + apply Permutation_length in H6. rewrite !app_length in H6. unfold content in Hs. destruct lost; auto. cbn in H6. lia.
  - destruct (in_pop_ok HL HR n eq_refl Hi) as (b' & l & _ & _ & H). destruct H as (s' & out & H1 & H2 & H3 & H4 & H5 & H6 & H7 & H8 & H9).
    { intros (k & _ & Hk). apply (Hs k Hk). }
    cbn [pop InclusiveB]. rewrite H1. cbn [bind]. eexists s', _. split; [reflexivity|]. split; auto. split; auto. split; auto. split; auto.
    cbn [effect]. split; auto. destruct H8 as [H8|H8]; auto. left. rewrite !content_size in H8 by auto. apply Permutation_length in H6.
    rewrite app_length in H6. unfold content in H8. lia.
  - destruct (in_take_ok HL HR k Hi) as [H _]. destruct (H Hs) as (s' & o & H1 & H2 & H3 & H4 & H5 & H6 & H7). cbn [take InclusiveB]. rewrite H1. cbn [bind].
    eexists s', _. split; [reflexivity|]. split; auto. split; auto. split; auto. split; auto. cbn [effect]. destruct o as [[k' v]|].
    + destruct H7 as [-> P]. left. exists v. auto.
    + right. destruct H7. auto.
  - destruct (in_take_multiple_ok HL HR ks Hi) as (s' & ks' & out & lost & H1 & H2 & H3 & H4 & H5 & H6 & H7 & H8 & H9 & H10 & H11 & _).
    cbn [take_multiple InclusiveB]. rewrite H1. cbn [bind]. eexists s', _. split; [reflexivity|]. split; auto. split; auto. split; auto. split; auto.
    cbn [effect]. assert (E : lost = []).
    { destruct lost as [|[k v] l]; auto. exfalso. apply (Hs k); [|apply H8; left; auto]. apply H10. rewrite keys_app. apply in_or_app. right. left; auto. }
    subst lost. rewrite app_nil_r in *. split; auto. intros k. split; [|intros [X Y]; auto]. intros Hk. split; auto.
    apply (in_keys_perm k H7). rewrite keys_app. apply in_or_app; auto.
  - destruct (in_flush_ok HL HR UR Hi) as (s' & out & H1 & H2 & H3 & H4 & H5 & H6 & H7 & H8). cbn [flush InclusiveB]. rewrite H1. cbn [bind].
    eexists s', _. split; [reflexivity|]. split; auto. split; auto. split; auto. split; [cbn [effect]; auto|].
    intros _ k (c & Hc & _). rewrite H8 in Hc. destruct Hc.
  - cbn [contains InclusiveB]. rewrite (in_contains_ok HL HR k Hi). cbn [bind]. eexists s, _. split; [reflexivity|]. split; auto. split; auto. split; auto.
    split; auto. cbn [effect]. split; auto. apply has_key_in.
  - destruct (back_tget_ok back) as (pend & HT); try apply Hparts.
    destruct (in_access_ok HL HR UL UR HT HG k (@touching_read V) Hs Hi) as (s' & o & H1 & H2 & H3 & H4 & H5 & H6 & H7).
    unfold in_get. rewrite H1. cbn [bind]. eexists s', _. split; [reflexivity|]. split; auto. split; auto. split; auto. split; auto.
    cbn [effect]. destruct o as [v|]; auto. destruct H6 as (rest & P1 & P2). split; [apply (Permutation_in _ (Permutation_sym P1)); left; auto|]. rewrite P1. auto.
  - destruct (back_tget_ok back) as (pend & HT); try apply Hparts.
    destruct (in_access_ok HL HR UL UR HT HG k (@touching_write V w) Hs Hi) as (s' & o & H1 & H2 & H3 & H4 & H5 & H6 & H7).
    unfold in_get_mut. rewrite H1. cbn [bind]. eexists s', _. split; [reflexivity|]. split; auto.
Qed.

(** A history whose calls are all safe when they are made is answered as the specification says. *)
Lemma play_follows (ok : list (call K V) -> Prop) (good : inclusive L R -> Prop) :
  good start ->
  (forall h x, ok (h ++ [x]) -> ok h) ->
  (forall h x s rs c, ok (h ++ [x]) -> play inclusive_does start h = Ok (s, rs) -> follows cap h rs c -> Permutation c (content s) -> sound s ->
     in_capacity s = cap -> capacity L (fst s) = leaves_capacity front -> good s -> safe s x /\
     (forall s' r, inclusive_does s x = Ok (s', r) -> sound s' -> (roomy s x -> forall k, orphan s' k -> orphan s k) -> good s')) ->
  forall h, ok h -> exists s rs c, play inclusive_does start h = Ok (s, rs) /\ follows cap h rs c /\ Permutation c (content s) /\ sound s /\
    in_capacity s = cap /\ capacity L (fst s) = leaves_capacity front /\ good s.
Proof.
  intros G0 Hpre Hstep h. induction h as [|x h IH] using rev_ind; intros Hok.
  - destruct start_sound as (H1 & H2 & _). exists start, [], []. rewrite H2. split; auto. split; [constructor|]. split; auto. split; auto.
    unfold in_capacity. cbn [fst snd]. rewrite !init_capacity. auto.
  - destruct (IH (Hpre _ _ Hok)) as (s & rs & c & H1 & H2 & H3 & H4 & H5 & H6 & H7).
    destruct (Hstep _ _ _ _ _ Hok H1 H2 H3 H4 H5 H6 H7) as [Hs Hg]. destruct (does_safe x H4 Hs) as (s' & r & D1 & D2 & D3 & D4 & D5 & D6).
    exists s', (rs ++ [r]), (content s'). rewrite play_snoc, H1. cbn [bind]. rewrite D1. cbn [bind]. split; auto. split.
    { econstructor; [exact H2|]. rewrite <- H5. eapply effect_perm; eauto. }
    split; auto. split; auto. split; [congruence|]. split; [congruence|]. eapply Hg; eauto.
Qed.

(** C14 as stated, for a front as large as the back: whatever the history, no call panics, nothing is lost, and
    every answer is that of a cache where a write is what the next lookup of that key finds. *)
Theorem C14_front_as_large_partial : leaves_capacity front = leaves_capacity back ->
  forall h, new_keys_only (answers inclusive_does start) cap h ->
  exists s rs c, play inclusive_does start h = Ok (s, rs) /\ follows cap h rs c.
Proof.
  intros Hc h Hh.
  destruct (@play_follows (new_keys_only (answers inclusive_does start) cap) (fun s => forall k, ~ orphan s k)) with (h := h) as (s & rs & c & H1 & H2 & _); auto.
  - apply start_sound.
  - intros h' x. apply new_keys_prefix.
  - intros h' x s rs c Hok Hp Hf HP Hi Hcb Hcf Hn. split.
    + destruct x as [[vs|n|k|ks|]|k|k|k w]; cbn [safe]; auto.
      * split; auto. eapply (nodup_keys_perm (c := c ++ vs)); [apply Permutation_app_tail; auto|]. eapply Hok; eauto. exists s; auto.
      * intros Hk. rewrite Hcf, Hc, <- Hcb. pose proof (content_size Hi) as Z. destruct (content s); [destruct Hk|].
        cbn in Z. pose proof Hi as (_ & I2 & _). pose proof (law_size HR _ I2) as Y. unfold in_size, in_capacity in *. lia.
      * intros Hk. rewrite Hcf, Hc, <- Hcb. pose proof (content_size Hi) as Z. destruct (content s); [destruct Hk|].
        cbn in Z. pose proof Hi as (_ & I2 & _). pose proof (law_size HR _ I2) as Y. unfold in_size, in_capacity in *. lia.
    + intros s' r _ _ Ho k Hk. apply (Hn k). apply Ho; auto.
      assert (Room : forall k', length (held front (fst s)) < capacity L (fst s) \/ In k' (keys (held front (fst s))) \/ ~ In k' (keys (content s))).
      { intros k'. destruct (in_dec eq_dec_ord k' (keys (held front (fst s)))) as [G|G]; auto. destruct (in_dec eq_dec_ord k' (keys (content s))) as [G'|G']; auto.
        left. pose proof (front_strict k' Hi G' G) as Z. pose proof Hi as (_ & I2 & _). pose proof (law_size HR _ I2) as Y.
        pose proof (content_size Hi) as Z'. unfold in_size, in_capacity in *. lia. }
      destruct x as [[vs|n|k'|ks|]|k'|k'|k' w]; cbn [roomy]; auto.
  - exists s, rs, c. auto.
Qed.

(** For any front that can hold an element: as long as nothing leaves the cache but by flush. *)
Definition stays (h : list (call K V)) : Prop :=
  forall h1 x h2 rs c, h = h1 ++ x :: h2 -> answers inclusive_does start h1 rs -> follows cap h1 rs c ->
    match x with
    | COp (OpPush vs) => NoDup (keys (c ++ vs)) /\ length c + length vs <= cap
    | COp (OpPop _) | COp (OpTake _) | COp (OpTakeMultiple _) => False
    | _ => True
    end.
Theorem C14_small_front_until_something_leaves_partial : 1 <= leaves_capacity front ->
  forall h, stays h -> exists s rs c, play inclusive_does start h = Ok (s, rs) /\ follows cap h rs c.
Proof.
  intros Hc h Hh. destruct (@play_follows stays (fun _ => True)) with (h := h) as (s & rs & c & H1 & H2 & _); auto.
  - intros h' x H h1 y h2 rs c E. apply (H h1 y (h2 ++ [x])). rewrite E, <- app_assoc. auto.
  - intros h' x s rs c Hok Hp Hf HP Hi Hcb Hcf _. split; auto.
    assert (X := Hok h' x [] rs c eq_refl (ex_intro _ s Hp) Hf). destruct x as [[vs|n|k|ks|]|k|k|k w]; cbn [safe]; auto; try tauto; try (rewrite Hcf; auto).
    destruct X as [X1 X2]. split; [|right; rewrite Hcb, <- (Permutation_length HP); auto].
    eapply (nodup_keys_perm (c := c ++ vs)); [apply Permutation_app_tail; auto|auto].
  - exists s, rs, c. auto.
Qed.

(** ** What happens in general *)
(** The states a caller pushing new keys only can bring it to, whatever it lost on the way. *)
Inductive visited : inclusive L R -> Prop :=
| visited_start : visited start
| visited_call s x s' r : visited s -> (forall vs, x = COp (OpPush vs) -> NoDup (keys (content s ++ vs))) ->
    inclusive_does s x = Ok (s', r) -> visited s'.
Hypothesis Hfront : 1 <= leaves_capacity front.
Lemma visited_sound s : visited s -> sound s /\ in_capacity s = cap /\ capacity L (fst s) = leaves_capacity front.
Proof.
  induction 1 as [|s x s' r Hv (Hi & Hcb & Hcf) Hn Hx].
  - split; [apply start_sound|]. unfold in_capacity. cbn [fst snd]. rewrite !init_capacity. auto.
  - assert (Cl : safe s x -> sound s' /\ in_capacity s' = cap /\ capacity L (fst s') = leaves_capacity front).
    { intros Hs. destruct (does_safe x Hi Hs) as (s2 & r2 & D1 & D2 & D3 & D4 & _). rewrite D1 in Hx. injection Hx as <- <-. split; auto. split; congruence. }
    unfold inclusive_does in Hx. destruct x as [[vs|n|k|ks|]|k|k|k w]; try (apply Cl; cbn [safe]; auto; rewrite Hcf; auto; fail); cbn [do_call step] in Hx.
    + destruct (in_push_ok HL HR UR vs Hi (Hn vs eq_refl)) as (s2 & out & lost & H1 & H2 & H3 & H4 & _). cbn [push InclusiveB] in Hx. rewrite H1 in Hx. cbn [bind] in Hx.
      injection Hx as <- <-. split; auto. split; congruence.
    + destruct (in_pop_ok HL HR n eq_refl Hi) as (b' & l & H0 & HP & HQ). cbn [pop InclusiveB] in Hx. destruct (in_pop s n) as [[s2 o]|] eqn:E; [|discriminate].
      cbn [bind] in Hx. injection Hx as <- <-.
      destruct HQ as (s3 & o3 & H1 & H2 & H3 & H4 & _); [intros Hs; apply HP in Hs; discriminate|]. injection H1 as <- <-. split; auto. split; congruence.
    + destruct (in_take_ok HL HR k Hi) as [HA HB]. cbn [take InclusiveB] in Hx. destruct (in_take s k) as [[s2 o]|] eqn:E; [|discriminate]. cbn [bind] in Hx. injection Hx as <- <-.
      destruct HA as (s3 & o3 & H1 & H2 & H3 & _ & H4 & _); [intros Hs; apply HB in Hs; discriminate|]. injection H1 as <- <-. split; auto. split; congruence.
    + destruct (in_take_multiple_ok HL HR ks Hi) as (s2 & ks' & out & lost & H1 & H2 & H3 & _ & H4 & _). cbn [take_multiple InclusiveB] in Hx. rewrite H1 in Hx. cbn [bind] in Hx.
      injection Hx as <- <-. split; auto. split; congruence.
Qed.

(** contains, get, get_mut and flush are right in every state: every value seen or returned is the last one
    written to its key. *)
Theorem C14_lookups_and_flush : forall s x, visited s ->
  match x with CContains _ | CRead _ | CWrite _ _ | COp OpFlush => True | _ => False end ->
  exists s' r, inclusive_does s x = Ok (s', r) /\ effect cap (content s) x r (content s').
Proof.
  intros s x Hv Hx. destruct (visited_sound Hv) as (Hi & Hcb & Hcf). destruct (@does_safe s x Hi) as (s' & r & D1 & _ & _ & _ & D5 & _).
  - destruct x as [[vs|n|k|ks|]|k|k|k w]; cbn [safe]; try tauto; rewrite Hcf; auto.
  - exists s', r. rewrite <- Hcb. auto.
Qed.
(** take panics on an orphan and is right on any other key. *)
Theorem C14_take_exact : forall s k, visited s ->
  (orphan s k -> In k (keys (content s)) /\ take B s k = Panic) /\
  (~ orphan s k -> exists s' o, take B s k = Ok (s', o) /\ effect cap (content s) (COp (OpTake k)) (RPairs (opt_list o)) (content s')).
Proof.
  intros s k Hv. destruct (visited_sound Hv) as (Hi & Hcb & Hcf). destruct (in_take_ok HL HR k Hi) as [HA HB]. split.
  - intros Ho. split; [|apply HB; auto]. destruct Ho as (c & Hc & _). unfold content. rewrite in_ct_keys. eapply in_keys; eauto.
  - intros Hn. destruct (HA Hn) as (s' & o & H1 & H2 & H3 & H4 & H5 & H6 & H7). exists s', o. split; auto. cbn [effect]. destruct o as [[k' v]|].
    + destruct H7 as [-> P]. left. exists v. auto.
    + right. destruct H7. auto.
Qed.
(** take_multiple returns exactly the requested keys that are held and not orphans, with their last values;
    the requested orphans are silently dropped. *)
Theorem C14_take_multiple_exact : forall s ks, visited s ->
  exists s' ks' out lost, take_multiple B s ks = Ok (s', ks', out) /\ Permutation (out ++ lost ++ content s') (content s) /\
    (forall k, In k (keys out) <-> In k ks /\ In k (keys (content s)) /\ ~ orphan s k) /\
    (forall k, In k (keys lost) <-> In k ks /\ orphan s k).
Proof.
  intros s ks Hv. destruct (visited_sound Hv) as (Hi & _ & _). pose proof (content_nodup Hi) as N.
  destruct (in_take_multiple_ok HL HR ks Hi) as (s' & ks' & out & lost & H1 & H2 & H3 & H4 & H5 & H6 & H7 & H8 & H9 & H10 & H11 & _).
  exists s', ks', out, lost. split; auto. split; auto. apply (nodup_keys_perm (Permutation_sym H7)) in N. rewrite !keys_app in N.
  apply NoDup_app_inv in N as (_ & _ & D). assert (Sub : forall k, In k (keys (out ++ lost)) -> In k (keys (content s))).
  { intros k Hk. apply (in_keys_perm k H7). rewrite app_assoc, keys_app. apply in_or_app; auto. }
  split; intros k; (split; [intros Hk|]).
  - split; [apply H10; rewrite keys_app; apply in_or_app; auto|]. split; [apply Sub; rewrite keys_app; apply in_or_app; auto|].
    intros Ho. assert (Hl : In k (keys lost)) by (apply H9; auto; apply H10; rewrite keys_app; apply in_or_app; auto).
    apply (D k Hk). apply in_or_app; auto.
  - intros (A1 & A2 & A3). assert (G := H11 k A1 A2). rewrite keys_app in G. apply in_app_or in G as [G|G]; auto. exfalso. apply A3. apply H8. auto.
  - split; [apply H10; rewrite keys_app; apply in_or_app; auto|apply H8; auto].
  - intros [A1 A2]. apply H9; auto.
Qed.
(** push loses the orphans among the pairs it evicts, and nothing else. *)
Theorem C14_push_exact : forall s vs, visited s -> NoDup (keys (content s ++ vs)) ->
  exists s' out lost, push B s vs = Ok (s', out) /\ Permutation (out ++ lost ++ content s') (content s ++ vs) /\
    length (content s') = Nat.min cap (length (content s) + length vs) /\ (forall k, In k (keys lost) -> orphan s k).
Proof.
  intros s vs Hv N. destruct (visited_sound Hv) as (Hi & Hcb & _).
  destruct (in_push_ok HL HR UR vs Hi N) as (s' & out & lost & H1 & H2 & H3 & H4 & H5 & H6 & H7 & H8 & H9). exists s', out, lost. rewrite <- Hcb. auto.
Qed.
(** pop panics if it picks an orphan and is right otherwise; [victims] is what the back container picks. *)
Theorem C14_pop_exact : forall s n, visited s -> exists b' victims, pop R (snd s) n = Ok (b', victims) /\
  ((exists k, In k (keys victims) /\ orphan s k) -> pop B s n = Panic) /\
  (~ (exists k, In k (keys victims) /\ orphan s k) -> exists s' out, pop B s n = Ok (s', out) /\ keys out = keys victims /\
     effect cap (content s) (COp (OpPop n)) (RPairs out) (content s')).
Proof.
  intros s n Hv. destruct (visited_sound Hv) as (Hi & _ & _). destruct (in_pop_ok HL HR n eq_refl Hi) as (b' & l & H0 & HP & HQ).
  exists b', l. split; auto. split; auto. intros Hn. destruct (HQ Hn) as (s' & out & H1 & H2 & H3 & H4 & H5 & H6 & H7 & H8 & H9). exists s', out.
  split; auto. split; auto. cbn [effect]. split; auto. destruct H8 as [H8|H8]; auto. left. rewrite !content_size in H8 by auto. apply Permutation_length in H6.
  rewrite app_length in H6. unfold content in H8. lia.
Qed.
(** Only a get or get_mut that evicts from the front makes orphans, and flush removes them all. *)
Theorem C14_orphans_come_from_evictions : forall s x s' r k, visited s -> (forall vs, x = COp (OpPush vs) -> NoDup (keys (content s ++ vs))) ->
  inclusive_does s x = Ok (s', r) -> orphan s' k -> ~ orphan s k ->
  exists k', (x = CRead k' \/ exists f, x = CWrite k' f) /\ In k' (keys (content s)) /\ ~ In k' (keys (held front (fst s))) /\
    capacity L (fst s) <= length (held front (fst s)).
Proof.
  intros s x s' r k Hv Hn Hx Ho Hno. destruct (visited_sound Hv) as (Hi & Hcb & Hcf).
  assert (Cl : safe s x -> roomy s x -> False).
  { intros Hs Hr. destruct (does_safe x Hi Hs) as (s2 & r2 & D1 & D2 & D3 & D4 & D5 & D6). rewrite D1 in Hx. injection Hx as <- <-. apply Hno. apply D6; auto. }
  assert (Rd : forall k', safe s x -> roomy s x = (length (held front (fst s)) < capacity L (fst s) \/ In k' (keys (held front (fst s))) \/ ~ In k' (keys (content s))) ->
    In k' (keys (content s)) /\ ~ In k' (keys (held front (fst s))) /\ capacity L (fst s) <= length (held front (fst s))).
  { intros k' Hs Er. rewrite Er in Cl. destruct (in_dec eq_dec_ord k' (keys (held front (fst s)))) as [G|G]; [exfalso; auto|].
    destruct (in_dec eq_dec_ord k' (keys (content s))) as [G'|G']; [|exfalso; auto].
    destruct (le_lt_dec (capacity L (fst s)) (length (held front (fst s)))); [auto|exfalso; auto]. }
  unfold inclusive_does in Hx. destruct x as [[vs|n|k'|ks|]|k'|k'|k' w]; try (exfalso; apply Cl; cbn; auto; fail); cbn [do_call step] in Hx.
  - exfalso. destruct (in_push_ok HL HR UR vs Hi (Hn vs eq_refl)) as (s2 & out & lost & H1 & H2 & H3 & H4 & H5 & _). cbn [push InclusiveB] in Hx. rewrite H1 in Hx. cbn [bind] in Hx.
    injection Hx as <- <-. apply Hno. apply H5. auto.
  - exfalso. destruct (C14_pop_exact n Hv) as (b' & l & H0 & HP & HQ). destruct (in_pop_ok HL HR n eq_refl Hi) as (b2 & l2 & G0 & GP & GQ). rewrite H0 in G0. injection G0 as <- <-.
    cbn [pop InclusiveB] in *. destruct (in_pop s n) as [[s2 out]|] eqn:E; [|discriminate]. cbn [bind] in Hx. injection Hx as <- <-.
    destruct GQ as (s3 & o3 & G1 & G2 & G3 & G4 & G5 & _); [intros X; apply GP in X; discriminate|]. injection G1 as <- <-. apply Hno. apply G5. auto.
  - exfalso. destruct (in_take_ok HL HR k' Hi) as [HA HB]. cbn [take InclusiveB] in Hx. destruct (in_take s k') as [[s2 o]|] eqn:E; [|discriminate]. cbn [bind] in Hx. injection Hx as <- <-.
    destruct HA as (s3 & o3 & H1 & H2 & H3 & _ & H4 & H5 & _); [intros Hs; apply HB in Hs; discriminate|]. injection H1 as <- <-. apply Hno. apply H5. auto.
  - exfalso. destruct (in_take_multiple_ok HL HR ks Hi) as (s2 & ks' & out & lost & H1 & H2 & H3 & _ & H4 & H5 & _). cbn [take_multiple InclusiveB] in Hx. rewrite H1 in Hx. cbn [bind] in Hx.
    injection Hx as <- <-. apply Hno. apply H5. auto.
  - exists k'. split; auto. apply Rd; auto. cbn. rewrite Hcf. auto.
  - exists k'. split; eauto. apply Rd; auto. cbn. rewrite Hcf. auto.
Qed.
End PInclusive.

(** Construction: the front may not be larger than the back. *)
Theorem C14_new : forall K V (OK : Ord K) (front back : arch K (cell V)),
  in_new (block front) (block back) (init front) (init back) =
  if leaves_capacity front <=? leaves_capacity back then Ok (init front, init back) else Panic.
Proof. intros. unfold in_new. rewrite !init_capacity. reflexivity. Qed.

(** ** Small fronts *)
Definition carr (cap : nat) : arch nat (cell nat) := AArray (std_sorter snd) linear_bs cap (fun _ => 1).
Definition ctree (cap : nat) : arch nat (cell nat) := @ABTree nat _ (cell nat) _ cap (fun _ => 1).
Definition small (front back : nat) := @inclusive_does nat nat _ (carr front) (carr back) true.
Arguments small : clear implicits.
Definition empty (front back : nat) : inclusive (block (carr front)) (block (carr back)) := (init (carr front), init (carr back)).
Definition reads : list (call nat nat) := [COp (OpPush [(1, 10); (2, 20)]); CRead 1; CRead 2].

(** Reading two keys through a front of one element, then taking the first: panic. *)
Theorem C14_take_refuted : exists s rs, play (small 1 2) (empty 1 2) reads = Ok (s, rs) /\
  rs = [RPairs []; RValue (Some 10); RValue (Some 20)] /\ contains (InclusiveB _ _) s 1 = Ok true /\
  take (InclusiveB _ _) s 1 = Panic.
Proof. eexists _, _. split; [vm_compute; reflexivity|]. repeat split; vm_compute; reflexivity. Qed.
(** The same with pop. *)
Theorem C14_pop_refuted : exists s rs, play (small 1 2) (empty 1 2) reads = Ok (s, rs) /\ pop (InclusiveB _ _) s 2 = Panic.
Proof. eexists _, _. split; vm_compute; reflexivity. Qed.
(** take_multiple removes the pair and does not return it. *)
Theorem C14_take_multiple_refuted : exists s rs s' ks', play (small 1 2) (empty 1 2) reads = Ok (s, rs) /\
  contains (InclusiveB _ _) s 1 = Ok true /\ take_multiple (InclusiveB _ _) s [1] = Ok (s', ks', []) /\ contains (InclusiveB _ _) s' 1 = Ok false.
Proof. eexists _, _, _, _. split; [vm_compute; reflexivity|]. split; [vm_compute; reflexivity|]. split; vm_compute; reflexivity. Qed.
(** push evicts it and does not return it. *)
Theorem C14_push_refuted : exists s rs s', play (small 1 2) (empty 1 2) [COp (OpPush [(1, 30); (2, 20)]); CRead 1; CRead 2] = Ok (s, rs) /\
  contains (InclusiveB _ _) s 1 = Ok true /\ push (InclusiveB _ _) s [(3, 5)] = Ok (s', []) /\ contains (InclusiveB _ _) s' 1 = Ok false.
Proof. eexists _, _, _. split; [vm_compute; reflexivity|]. split; [vm_compute; reflexivity|]. split; vm_compute; reflexivity. Qed.
(** With a front of capacity 0, a held key is not found by get, and then cannot be taken. *)
Theorem C14_front_0_refuted : exists s rs, play (small 0 2) (empty 0 2) [COp (OpPush [(1, 10)]); CRead 1] = Ok (s, rs) /\
  rs = [RPairs []; RValue None] /\ contains (InclusiveB _ _) s 1 = Ok true /\ take (InclusiveB _ _) s 1 = Panic.
Proof. eexists _, _. split; [vm_compute; reflexivity|]. repeat split; vm_compute; reflexivity. Qed.

(** ** The hypotheses are met *)
Example parts_small : forall n m, parts (carr n) (carr m) /\ parts (carr n) (ctree m) /\ parts (ctree n) (ctree m).
Proof. intros. unfold parts. cbn. repeat split; auto; intros; lia. Qed.
Definition tiered : arch nat (cell nat) := AExclusive linear_bs (ctree 1) (ABatch 2 (fun _ => carr 1)).
Example parts_tiered : parts tiered (ctree 3) /\ leaves_capacity tiered = leaves_capacity (ctree 3).
Proof. unfold parts. cbn. repeat split; auto; intros; lia. Qed.
Definition tiered_back : arch nat (cell nat) := AProfiler (AExclusive linear_bs (carr 2) (ABatch 2 (fun _ => ctree 1))).
Example parts_tiered_back : parts tiered tiered_back /\ parts (ctree 4) tiered_back /\ leaves_capacity tiered_back = 4.
Proof. unfold parts. cbn. repeat split; auto; intros; try lia. Qed.
(** A history with writes, evictions from a full back, and the values it returns. *)
Definition busy : list (call nat nat) :=
  [COp (OpPush [(1, 10); (2, 20); (3, 30)]); CRead 1; CWrite 2 (fun v => v + 80); CRead 3; CWrite 1 S; COp (OpPush [(4, 5)]);
   COp (OpTake 1); CRead 2; COp OpFlush].
Example busy_run : exists s, play (@inclusive_does nat nat _ tiered (ctree 3) true) (init tiered, init (ctree 3)) busy =
  Ok (s, [RPairs []; RValue (Some 10); RValue (Some 20); RValue (Some 30); RValue (Some 10); RPairs [(3, 30)];
          RPairs [(1, 11)]; RValue (Some 100); RPairs [(2, 100); (4, 5)]]).
Proof. eexists. vm_compute. reflexivity. Qed.
Example busy_run_tiered_back : match play (@inclusive_does nat nat _ (ctree 4) tiered_back true) (init (ctree 4), init tiered_back) busy with
  | Ok (_, rs) => rs = [RPairs []; RValue (Some 10); RValue (Some 20); RValue (Some 30); RValue (Some 10); RPairs [];
          RPairs [(1, 11)]; RValue (Some 100); RPairs [(3, 30); (4, 5); (2, 100)]]
  | Panic => False end.
Proof. vm_compute. reflexivity. Qed.
Example new_keys_met : forall ans, new_keys_only ans 3 (COp (OpPush [(1, 10); (2, 20); (3, 30)]) :: [CRead 1; CWrite 2 S; CRead 3; COp (OpTake 1); COp OpFlush]).
Proof.
  intros ans h1 vs h2 rs c E _ F. destruct h1 as [|x h1].
  - injection E as <- _. inversion F as [|h ? ? ? ? ? ? ? E1]; subst.
    + repeat constructor; cbn; intuition lia.
    + destruct h; discriminate.
  - exfalso. injection E as _ E. do 5 (destruct h1 as [|? h1]; [discriminate|injection E as _ E]). destruct h1; discriminate.
Qed.
