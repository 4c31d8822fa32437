(** PBacks.v -- property theorems: what an Inclusive does over each kind of back container (C72). *)
From Coq Require Import NArith Init.Byte.
From Verif Require Import Base PermSolve Block Spec LawsProof Cut Array ArrayProof BTree BTreeProof Exclusive Stream PStream IOVec IOVecProof ByteStream ByteStreamProof PByteStream
  Compressed CompressedProof PCompressed Arch ArchProof PArch Get GetProof PGet Calls Inclusive InclusiveProof PInclusive Backs.
Require Verif.Lock Verif.PLock.
Set Implicit Arguments.

(** ** A back container whose get shows a copy *)
(** Making and dropping a guard changes nothing. *)
Definition copies {K V} (B : Block K V) (tg : TGetter B) : Prop :=
  (forall s k f s' o, t_open tg s k f = Ok (s', o) -> s' = s) /\ (forall s g, t_close tg s g = Ok s).
Lemma compressed_copies {K V} {OK : Ord K} {OV : Ord V} S L (C : VCodec (K * V)) srt bs : copies (compressed_copy S L C srt bs).
Proof. split; cbn; intros; congruence. Qed.
Lemma stream_copies {K V} {OK : Ord K} {OV : Ord V} S bs (ser : K * V -> option (list byte)) de : copies (stream_copy S bs ser de).
Proof. split; cbn; intros; auto. destruct (bs_get de s k); cbn in H; [congruence|discriminate]. Qed.

Section Copy.
Context {K V : Type} {OK : Ord K} {EK : OrdEq K}.
Variable front : arch K (cell V).
Hypothesis Hfront : unit_arch front /\ get_ready front.
Notation L := (block front).
Variable R : Block K (cell V).
Variable tg : TGetter R.
Hypothesis Hcopy : copies tg.
Notation B := (InclusiveB L R).

(** The back holds the key, with this cell, once: what its calls say of it. *)
Definition stored_once (b : St R) (k : K) (c : cell V) : Prop :=
  (exists g, t_open tg b k (@cell_mark V) = Ok (b, Some (c, g))) /\ contains R b k = Ok true /\
  exists b' b'', take R b k = Ok (b', Some (k, c)) /\ contains R b' k = Ok false /\ take R b' k = Ok (b'', None) /\ contains R b'' k = Ok false.

(** What is written through get_mut is forgotten by take: the key is in the back, not in the front, which has room.  The value taken is the old
    one; the key is still there afterwards, with the value written, and cannot be taken any more. *)
Theorem C72_copy_written_value_lost_refuted : forall f b k v u w, ainv false front f -> ~ In k (keys (held front f)) -> length (held front f) < capacity L f ->
  stored_once b k (mkCell v u false) ->
  exists s1 s2 s3, in_get_mut tg (aget true front) (f, b) k w = Ok (s1, Some v) /\
    take B s1 k = Ok (s2, Some (k, v)) /\ contains B s2 k = Ok true /\
    take B s2 k = Ok (s3, None) /\ contains B s3 k = Ok true /\
    exists s4, in_get tg (aget false front) s3 k = Ok (s4, Some (w v)).
Proof.
  intros f b k v u w Hi Hk Hroom ((gd & Hopen) & Hcb & b' & b'' & T1 & T2 & T3 & T4). destruct Hfront as [Hu Hr]. destruct Hcopy as [_ Hclose].
  assert (HL : Laws L (ainv false front) (held front) false (negb (has_associative front)) false).
  { eapply laws_flags; [apply (arch_laws front)| |]; auto; discriminate. }
  assert (UL : Unit L (ainv false front) (held front) false) by (apply arch_unit; [discriminate|auto]).
  pose proof (law_contains HL f k Hi) as Hc. assert (Hck : has_key k (held front f) = false) by (destruct (has_key k (held front f)) eqn:E; auto; apply has_key_in in E; contradiction).
  rewrite Hck in Hc.
  assert (Mp : may_push L (held front) false f [(k, mkCell v u true)]).
  { intros _. rewrite keys_app. apply NoDup_app_inv. split; [apply (law_unique HL f Hi); auto|]. split; [repeat constructor; auto|]. intros x Hx [<-|[]]. auto. }
  destruct (law_push HL f _ Hi Mp) as (f1 & out & Q1 & Q2 & Q3 & Q4). destruct (push_len HL UL Hi Mp Q1) as (Z2 & Z3 & Z4 & Z5).
  assert (Ho : out = []) by (destruct out; auto; cbn [length] in *; lia). subst out. cbn [app] in Q4.
  assert (Hin : forall x, In x (held front f1) <-> In x ((k, mkCell v u true) :: held front f)).
  { intros x. split; intros G.
    - apply (Permutation_in _ Q4) in G. apply in_app_or in G as [G|[G|[]]]; [right|left]; auto.
    - apply (Permutation_in _ (Permutation_sym Q4)). apply in_or_app. destruct G as [G|G]; [right; left|left]; auto. }
  assert (N1 : NoDup (keys (held front f1))) by (apply (law_unique HL f1 Q2); auto).
  assert (GM : get_ok L (ainv false front) (held front) (aget true front) f1 k (cell_write w)) by (apply arch_get; auto; [discriminate|apply unit_keeps_size; auto]).
  destruct GM as (f2 & o & G1 & G2 & G3 & G4 & G5).
  destruct o as [c|]; [|exfalso; apply (proj1 G5); eapply Base.in_keys; apply Hin; left; reflexivity].
  destruct G5 as (rest & P1 & P2).
  assert (Ec : c = mkCell v u true).
  { apply (@keys_unique K (cell V) (held front f1) k); auto; [apply (Permutation_in _ (Permutation_sym P1)); left; auto|apply Hin; left; auto]. }
  subst c.
  assert (C2 : contains L f2 k = Ok true).
  { rewrite (law_contains HL f2 k G2). f_equal. apply has_key_in. apply (Permutation_in k (keys_perm (Permutation_sym P2))). left. auto. }
  assert (GR : get_ok L (ainv false front) (held front) (aget false front) f2 k (fun c => c)) by (apply arch_get; auto; [discriminate|apply unit_keeps_size; auto]).
  destruct GR as (f3 & o & R1 & R2 & R3 & R4 & R5).
  destruct o as [c|]; [|exfalso; apply (proj1 R5); apply (Permutation_in k (keys_perm (Permutation_sym P2))); left; auto].
  destruct R5 as (rest2 & P3 & _).
  assert (Ec : c = cell_write w (mkCell v u true)).
  { apply (@keys_unique K (cell V) (held front f2) k); [apply (law_unique HL f2 G2); auto|apply (Permutation_in _ (Permutation_sym P3)); left; auto|apply (Permutation_in _ (Permutation_sym P2)); left; auto]. }
  exists (f2, b), (f2, b'), (f2, b''). unfold in_get_mut, in_get, in_access. cbn [fst snd]. rewrite Hc. cbn [bind].
  unfold in_downgrade. cbn [fst snd]. rewrite Hopen. cbn [bind]. unfold cell_clone. cbn [c_value c_updated]. rewrite Q1. cbn [bind filter]. rewrite Hclose. cbn [bind fst snd].
  rewrite G1. cbn [bind option_map c_value]. split; [reflexivity|].
  cbn [take contains InclusiveB]. unfold in_take, in_contains. cbn [fst snd]. rewrite T1, C2. cbn [bind]. unfold in_resolve, is_clone, plain. cbn [fst snd c_cloned c_value bind].
  split; [reflexivity|]. split; [reflexivity|]. rewrite T3. cbn [bind]. split; [reflexivity|]. split; [reflexivity|].
  rewrite R1. cbn [bind option_map]. eexists. subst c. reflexivity.
Qed.
End Copy.

(** What a container that finds and takes what it holds stores once. *)
Lemma stored_once_of : forall K V (OK : Ord K) (EK : OrdEq K) (R : Block K (cell V)) (tg : TGetter R) (Inv : St R -> Prop) ct s k c,
  (forall s k, Inv s -> contains R s k = Ok (has_key k (ct s))) -> (forall s k, Inv s -> take_ok R Inv ct s k) ->
  (exists g, t_open tg s k (@cell_mark V) = Ok (s, Some (c, g))) ->
  Inv s -> NoDup (keys (ct s)) -> In (k, c) (ct s) -> stored_once tg s k c.
Proof.
  intros K V OK EK R tg Inv ct s k c HC HT Ho Hi N Hin. split; [exact Ho|]. split.
  { rewrite HC by auto. f_equal. apply has_key_in. eapply Base.in_keys. exact Hin. }
  destruct (HT s k Hi) as (s1 & o & E1 & I1 & _ & _ & P1). destruct o as [[k' c']|]; [|exfalso; apply (proj1 P1); eapply Base.in_keys; exact Hin].
  destruct P1 as [-> P1].
  assert (c' = c) by (apply (@keys_unique K (cell V) (ct s) k); auto; apply (Permutation_in _ P1); left; auto). subst c'.
  assert (Nk : ~ In k (keys (ct s1))).
  { apply keys_perm in P1. apply Permutation_sym in P1. apply (Permutation_NoDup P1) in N. unfold keys in *. cbn [map fst] in N. inversion N; auto. }
  assert (Hno : forall s, Inv s -> ~ In k (keys (ct s)) -> contains R s k = Ok false).
  { intros s0 I0 N0. rewrite HC by auto. f_equal. destruct (has_key k (ct s0)) eqn:E; auto. apply has_key_in in E. contradiction. }
  destruct (HT s1 k I1) as (s2 & o & E2 & I2 & _ & _ & P2). exists s1, s2. destruct o as [[k' c']|].
  { destruct P2 as [-> P2]. destruct Nk. apply (Permutation_in k (keys_perm P2)). left. auto. }
  destruct P2 as [_ P2]. split; [exact E1|]. split; [apply Hno; auto|]. split; [exact E2|]. apply Hno; auto.
  intros G. apply Nk. apply (Permutation_in k (keys_perm P2)). auto.
Qed.
(** A Compressed behind an Inclusive holds what it needs for this, and so does a ByteStream. *)
Theorem C72_compressed_stores_once : forall K V (OK : Ord K) (EK : OrdEq K) (OV : Ord V) L (C : VCodec (K * cell V)) srt bs (s : compressed VecStream) k c,
  c_inv L C s -> NoDup (keys (c_ct L C s)) -> In (k, c) (c_ct L C s) ->
  stored_once (compressed_copy VecStream L C srt bs) s k c.
Proof.
  intros K V OK EK OV L C srt bs s k c Hi N Hin.
  apply (@stored_once_of K V OK EK _ (compressed_copy VecStream L C srt bs) (inv L C false) (c_ct L C)); auto.
  - intros s0 k0 [H0 _]. apply C39_contains. auto.
  - intros s0 k0 H0. apply (C39_take (EK := EK)); exact H0.
  - exists tt. cbn [t_open compressed_copy]. pose proof (C05_compressed_get k Hi) as G.
    destruct (c_get L C s k) as [c'|]; [|exfalso; apply G; eapply Base.in_keys; exact Hin].
    rewrite (@keys_unique K (cell V) _ k _ _ N G Hin). reflexivity.
  - split; auto.
Qed.
Theorem C72_stream_stores_once : forall K V (OK : Ord K) (EK : OrdEq K) (OV : Ord V) bs (ser : K * cell V -> option (list byte)) de s k c,
  bs_inv ser de s -> NoDup (keys (bs_ct de s)) -> In (k, c) (bs_ct de s) ->
  stored_once (stream_copy VecStream bs ser de) s k c.
Proof.
  intros K V OK EK OV bs ser de s k c Hi N Hin.
  apply (@stored_once_of K V OK EK _ (stream_copy VecStream bs ser de) (bs_inv ser de) (bs_ct de)); auto.
  - intros s0 k0 H0. apply (C37_contains bs); auto.
  - intros s0 k0 H0. apply (C37_take bs); auto.
  - exists tt. cbn [t_open stream_copy]. destruct (C37_get k Hi) as (o & -> & G). cbn [bind].
    destruct o as [c'|]; [|exfalso; apply G; eapply Base.in_keys; exact Hin].
    rewrite (@keys_unique K (cell V) _ k _ _ N G Hin). reflexivity.
Qed.

(** ** A Sequential behind an Inclusive *)
Section Held.
Context {K V : Type} {OK : Ord K}.
Variables L R : Block K (cell V).
Variable tg : TGetter R.
Variable g : Getter L.
(** The pairs the front evicts when a copy of the element of this key is brought to it. *)
Definition evicts (f : St L) (b : St R) (k : K) (out : list (K * cell V)) : Prop :=
  contains L f k = Ok false /\ exists b1 c gd f1, t_open tg b k (@cell_mark V) = Ok (b1, Some (c, gd)) /\ push L f [(k, cell_clone c)] = Ok (f1, out).

(** The lock is free.  If the front evicts a copy that has been written, get and get_mut do not return: the thread waits for the lock
    that its own guard holds. *)
Theorem C72_sequential_waits_refuted : forall f b k out x, evicts f b k out -> In x out -> c_updated (snd x) = true ->
  forall touch, in_access (held_tget tg) g (f, (b, 0)) k touch = Panic.
Proof.
  intros f b k out x (Hc & b1 & c & gd & f1 & Ho & Hp) Hx Hu touch. unfold in_access, in_downgrade. cbn [fst snd t_open held_tget]. rewrite Hc. cbn [bind].
  rewrite Ho. cbn [bind]. rewrite Hp. cbn [bind]. destruct (filter (fun kc => c_updated (snd kc)) out) as [|y l] eqn:E.
  { assert (G : In x []) by (rewrite <- E; apply filter_In; auto). destruct G. }
  cbn [take_multiple push HeldB fst snd]. destruct (take_multiple R b1 (keys (y :: l))) as [[[b2 ks] o]|]; cbn [bind]; auto.
Qed.
(** In every other case the answer is that of the container without the lock, which is free again. *)
Theorem C72_sequential_same : forall f b k touch, (forall out, evicts f b k out -> forall x, In x out -> c_updated (snd x) = false) ->
  in_access (held_tget tg) g (f, (b, 0)) k touch =
  (let* (s, o) := in_access tg g (f, b) k touch in Ok ((fst s, (snd s, 0)), o)).
Proof.
  intros f b k touch He. unfold in_access, in_downgrade. cbn [fst snd t_open t_close held_tget].
  destruct (contains L f k) as [[|]|] eqn:Ec; cbn [bind]; auto.
  { cbn [fst snd]. destruct (g f k touch) as [[f1 o]|]; cbn [bind fst snd]; auto. }
  destruct (t_open tg b k (@cell_mark V)) as [[b1 [[c gd]|]]|] eqn:Eo; cbn [bind fst snd]; auto.
  destruct (push L f [(k, cell_clone c)]) as [[f1 out]|] eqn:Ep; cbn [bind fst snd]; auto.
  assert (E : filter (fun kc => c_updated (snd kc)) out = []).
  { specialize (He out). destruct (filter (fun kc => c_updated (snd kc)) out) as [|y l] eqn:E; auto. assert (G : In y (filter (fun kc => c_updated (snd kc)) out)) by (rewrite E; left; auto).
    apply filter_In in G. destruct G as [G1 G2]. rewrite (He ltac:(split; eauto 8) y G1) in G2. discriminate. }
  rewrite E. cbn [pred]. destruct (t_close tg b1 gd) as [b2|]; cbn [bind fst snd]; auto.
  destruct (g f1 k touch) as [[f2 o]|]; cbn [bind fst snd]; auto.
Qed.
(** The calls that are not accesses are those of the container without the lock. *)
Theorem C72_sequential_calls_same : forall f b, 
  (forall k, contains (InclusiveB L (HeldB R)) ((f, (b, 0)) : inclusive L (HeldB R)) k = contains (InclusiveB L R) ((f, b) : inclusive L R) k) /\
  (forall k, take (InclusiveB L (HeldB R)) ((f, (b, 0)) : inclusive L (HeldB R)) k = (let* (s, o) := take (InclusiveB L R) ((f, b) : inclusive L R) k in Ok ((fst s, (snd s, 0)), o))) /\
  (forall vs, push (InclusiveB L (HeldB R)) ((f, (b, 0)) : inclusive L (HeldB R)) vs = (let* (s, o) := push (InclusiveB L R) ((f, b) : inclusive L R) vs in Ok ((fst s, (snd s, 0)), o))) /\
  (forall n, pop (InclusiveB L (HeldB R)) ((f, (b, 0)) : inclusive L (HeldB R)) n = (let* (s, o) := pop (InclusiveB L R) ((f, b) : inclusive L R) n in Ok ((fst s, (snd s, 0)), o))) /\
  (forall ks, take_multiple (InclusiveB L (HeldB R)) ((f, (b, 0)) : inclusive L (HeldB R)) ks = (let* (s, ks', o) := take_multiple (InclusiveB L R) ((f, b) : inclusive L R) ks in Ok ((fst s, (snd s, 0)), ks', o))) /\
  flush (InclusiveB L (HeldB R)) ((f, (b, 0)) : inclusive L (HeldB R)) = (let* (s, o) := flush (InclusiveB L R) ((f, b) : inclusive L R) in Ok ((fst s, (snd s, 0)), o)).
Proof.
  intros f b. cbn [contains take push pop take_multiple flush InclusiveB]. unfold in_contains, in_take, in_push, in_pop, in_take_multiple, in_flush.
  cbn [fst snd contains take push pop take_multiple flush HeldB alone]. split; [auto|]. split; [|split; [|split; [|split]]].
  - intros k. destruct (take R b k) as [[b1 [x|]]|]; cbn [bind fst snd]; auto. destruct (in_resolve L f k x) as [[f1 y]|]; cbn [bind]; auto.
  - intros vs. destruct (push R b _) as [[b1 l]|]; cbn [bind fst snd]; auto. destruct (in_leave L f l) as [[f1 y]|]; cbn [bind]; auto.
  - intros n. destruct (pop R b n) as [[b1 l]|]; cbn [bind fst snd]; auto. destruct (in_resolve_all L f l) as [[f1 y]|]; cbn [bind]; auto.
  - intros ks. destruct (take_multiple R b ks) as [[[b1 ks1] l]|]; cbn [bind fst snd]; auto. destruct (in_leave L f l) as [[f1 y]|]; cbn [bind]; auto.
  - destruct (flush L f) as [[f1 all]|]; cbn [bind fst snd]; auto.
    destruct (take_multiple R b _) as [[[b1 ks1] l]|]; cbn [bind fst snd]; auto.
    unfold alone. cbn [snd fst]. destruct (push R b1 _) as [[b2 [|o1 o2]]|]; cbn [bind fst snd]; auto. destruct (flush R b2) as [[b3 o]|]; cbn [bind fst snd]; auto.
Qed.
End Held.

(** ** The same, through the calls *)
(** An Inclusive over an Array that takes its elements from some back, as a machine answering calls (C14). *)
Definition over (cap : nat) (R : Block nat (cell nat)) (tg : TGetter R) : inclusive (block (carr cap)) R -> call nat nat -> res (inclusive (block (carr cap)) R * reply nat nat) :=
  @do_call nat nat (InclusiveB (block (carr cap)) R) (in_get tg (aget true (carr cap))) (in_get_mut tg (aget true (carr cap))).
Arguments over : clear implicits.
Definition answers {S} (r : res (S * list (reply nat nat))) : option (list (reply nat nat)) := match r with Ok (_, rs) => Some rs | Panic => None end.

(** A Compressed and a ByteStream of cells. *)
Definition cell_nat (c : cell nat) : nat := c_value c * 4 + (if c_updated c then 2 else 0) + (if c_cloned c then 1 else 0).
Definition nat_cell (n : nat) : cell nat := mkCell (n / 4) (2 <=? n mod 4) (Nat.odd n).
Lemma cell_nat_back c : nat_cell (cell_nat c) = c.
Proof.
  destruct c as [v u c]. unfold nat_cell, cell_nat. cbn [c_value c_updated c_cloned].
  set (r := (if u then 2 else 0) + (if c then 1 else 0)). assert (Hr : r < 4) by (unfold r; destruct u, c; lia).
  replace (v * 4 + (if u then 2 else 0) + (if c then 1 else 0)) with (r + v * 4) by (unfold r; lia).
  assert (E1 : (r + v * 4) / 4 = v) by (rewrite Nat.div_add by lia; rewrite Nat.div_small by auto; auto).
  assert (E2 : (r + v * 4) mod 4 = r) by (rewrite Nat.mod_add by lia; apply Nat.mod_small; auto).
  rewrite E1, E2. f_equal; [unfold r; destruct u, c; auto|].
  replace (v * 4) with (2 * (v * 2)) by lia. rewrite Nat.odd_add_mul_2. unfold r. destruct u, c; auto.
Qed.
Definition cell_codec : VCodec (nat * cell nat) :=
  codec_via duo_codec (fun kc => (fst kc, cell_nat (snd kc))) (fun kn => (fst kn, nat_cell (snd kn)))
    (fun kc => match kc with (k, c) => f_equal (pair k) (cell_nat_back c) end).
Definition cell_compressed := CompressedB VecStream no_lz cell_codec (std_sorter snd) linear_bs.
Definition cell_ser (kc : nat * cell nat) := pair_ser (fst kc, cell_nat (snd kc)).
Definition cell_de (b : list byte) := option_map (fun kn => (fst kn, nat_cell (snd kn))) (pair_de b).
Definition cell_stream := ByteStreamB VecStream linear_bs cell_ser cell_de.
(** push 1, 2; write 1 through get_mut; take it; take it again; read it. *)
Definition writes : list (call nat nat) :=
  [COp (OpPush [(1, 10); (2, 20)]); CWrite 1 (fun v => v + 5); COp (OpTake 1); CContains 1; COp (OpTake 1); CContains 1; CRead 1].
Definition lost_answers : list (reply nat nat) :=
  [RPairs []; RValue (Some 10); RPairs [(1, 10)]; RBool true; RPairs []; RBool true; RValue (Some 15)].
(** What C14 says of a pointer: the value written is taken, and the key is gone. *)
Example array_does_not_lose : answers (play (over 2 _ (array_tget (std_sorter snd) linear_bs)) (init (carr 2), init (carr 4)) writes) =
  Some [RPairs []; RValue (Some 10); RPairs [(1, 15)]; RBool false; RPairs []; RBool false; RValue None].
Proof. vm_compute. reflexivity. Qed.
Theorem C72_compressed_behind_refuted :
  answers (play (over 2 _ (compressed_copy VecStream no_lz cell_codec (std_sorter snd) linear_bs)) (init (carr 2), cempty 100) writes) = Some lost_answers.
Proof. vm_compute. reflexivity. Qed.
Theorem C72_stream_behind_refuted :
  answers (play (over 2 _ (stream_copy VecStream linear_bs cell_ser cell_de)) (init (carr 2), bs_new VecStream 1000) writes) = Some lost_answers.
Proof. vm_compute. reflexivity. Qed.

(** push 1, 2; write 1 through get_mut; read 2, which evicts the copy of 1 from a front of one element. *)
Definition evicting : list (call nat nat) := [COp (OpPush [(1, 10); (2, 20)]); CWrite 1 (fun v => v + 5); CRead 2].
Example evicting_array : answers (play (over 1 _ (array_tget (std_sorter snd) linear_bs)) (init (carr 1), init (carr 2)) evicting) =
  Some [RPairs []; RValue (Some 10); RValue (Some 20)].
Proof. vm_compute. reflexivity. Qed.
(** With a Sequential: everything before the read answers, the read does not return. *)
Theorem C72_sequential_behind_refuted :
  let back := held_tget (@array_tget nat (cell nat) _ _ (std_sorter snd) linear_bs) in
  answers (play (over 1 _ back) (init (carr 1), (init (carr 2), 0)) (firstn 2 evicting)) = Some [RPairs []; RValue (Some 10)] /\
  play (over 1 _ back) (init (carr 1), (init (carr 2), 0)) evicting = Panic.
Proof. split; vm_compute; reflexivity. Qed.
(** With an Exclusive whose front is a BTree: the element brought is in the guard, its place is given to the one written back, and dropping the guard
    panics. *)
Theorem C72_btree_in_front_of_back_refuted :
  let back := @exclusive_tget nat (cell nat) _ linear_bs (block (ctree 1)) (block (carr 1)) btree_tget in
  answers (play (over 1 _ back) (init (carr 1), (init (ctree 1), init (carr 1))) (firstn 2 evicting)) = Some [RPairs []; RValue (Some 10)] /\
  play (over 1 _ back) (init (carr 1), (init (ctree 1), init (carr 1))) evicting = Panic.
Proof. split; vm_compute; reflexivity. Qed.

(** Why [HeldB] says that the call does not return: as long as the guard of a get, client [j] of the lock, is not dropped
    (it stays at [Hold Sh]), the call that wants the lock exclusively, client [i], has not got it, whatever the other
    clients do and however many steps it takes. *)
Theorem C72_own_guard_blocks : forall n s i j p, (N.of_nat n < 2 ^ 62)%N -> Lock.lsteps (fun _ => True) (Lock.linit n) s ->
  nth_error (Lock.clients s) j = Some (Lock.Hold Lock.Sh) -> nth_error (Lock.clients s) i = Some p -> i <> j -> ~ Lock.holds Lock.Ex p.
Proof.
  intros n s i j p Hn HR Hj Hi Hij Hp. apply (PLock.C27_writer_excludes_everyone (m := Lock.Sh) Hn HR Hi Hj Hij Hp). left. reflexivity.
Qed.

(** The hypotheses of the theorems above are met. *)
Definition two_cells : compressed VecStream := cstate [x01; x28; x02; x50] 100.
Example written_value_lost_case : push cell_compressed (cempty 100) [(1, cell_new 10); (2, cell_new 20)] = Ok (two_cells, []) /\
  stored_once (compressed_copy VecStream no_lz cell_codec (std_sorter snd) linear_bs) two_cells 1 (cell_new 10) /\
  ~ In 1 (keys (held (carr 2) (init (carr 2)))) /\ length (held (carr 2) (init (carr 2))) < capacity (block (carr 2)) (init (carr 2)).
Proof.
  split; [vm_compute; reflexivity|]. split; [|split; [intros []|apply Nat.ltb_lt; vm_compute; reflexivity]].
  apply (@C72_compressed_stores_once nat nat _ _ _).
  - exists [(1, cell_new 10); (2, cell_new 20)], (repeat x00 8 ++ [x01; x28; x02; x50]). split; [vm_compute; reflexivity|]. split; [reflexivity|]. apply Nat.leb_le. reflexivity.
  - replace (keys (c_ct no_lz cell_codec two_cells)) with [1; 2] by (vm_compute; reflexivity). repeat constructor; cbn; intuition lia.
  - replace (c_ct no_lz cell_codec two_cells) with [(1, cell_new 10); (2, cell_new 20)] by (vm_compute; reflexivity). left. reflexivity.
Qed.
Example sequential_waits_case : exists f b out x, evicts (block (carr 1)) (array_tget (std_sorter snd) linear_bs) f b 2 out /\ In x out /\ c_updated (snd x) = true.
Proof.
  exists (mkArray 1 1 [(1, mkCell 15 true true)] (fun _ => 1)), (mkArray 2 2 [(1, mkCell 10 false true); (2, cell_new 20)] (fun _ => 1)), [(1, mkCell 15 true true)], (1, mkCell 15 true true).
  split; [|split; [left; reflexivity|reflexivity]]. split; [vm_compute; reflexivity|]. eexists _, _, _, _. split; vm_compute; reflexivity.
Qed.
Print Assumptions C72_copy_written_value_lost_refuted.
Print Assumptions C72_compressed_stores_once.
Print Assumptions C72_stream_stores_once.
Print Assumptions C72_sequential_same.
Print Assumptions C72_compressed_behind_refuted.
