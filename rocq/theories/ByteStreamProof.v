(** ByteStreamProof.v -- invariant of a ByteStream over vector streams. *)
From Coq Require Import ZArith NArith Init.Byte.
From Verif Require Import Base PermSolve Block Spec BTree KMin PKMin Hasher PHasher Stream PStream IOVec IOVecProof PIOVec ByteStream.
Set Implicit Arguments.

(** ** Replacing one list among several *)
Lemma replace_nth_id {T} i (x : T) l : nth_error l i = Some x -> replace_nth i x l = l.
Proof. revert i; induction l; intros [|i] H; try discriminate; cbn in *; [inversion H; auto|]. f_equal; auto. Qed.
Lemma concat_replace_perm {T} (xss : list (list T)) i xs xs' d : nth_error xss i = Some xs -> Permutation xs (d ++ xs') ->
  Permutation (concat xss) (d ++ concat (replace_nth i xs' xss)).
Proof.
  revert i; induction xss as [|a xss IH]; intros [|i] H Hp; try discriminate; cbn in *.
  - inversion H; subst. rewrite Hp, app_assoc. auto.
  - rewrite (IH _ H Hp). perm0.
Qed.
Lemma list_sum_replace (l : list nat) i a b : nth_error l i = Some a ->
  list_sum (replace_nth i b l) + a = list_sum l + b.
Proof.
  revert i; induction l as [|x l IH]; intros [|i] H; try discriminate; cbn [replace_nth nth_error] in *;
    unfold list_sum in *; cbn [fold_right].
  - inversion H; subst. lia.
  - specialize (IH _ H). lia.
Qed.
Lemma map_replace_nth {A B} (f : A -> B) i x l : map f (replace_nth i x l) = replace_nth i (f x) (map f l).
Proof. revert i; induction l; intros [|i]; cbn; auto. f_equal; auto. Qed.
Lemma swap_remove_below {T} j (xs : list T) j' : j < length xs -> j' < j -> nth_error (swap_remove j xs) j' = nth_error xs j'.
Proof.
  intros Hj Hj'. destruct (nth_error xs (length xs - 1)) as [z|] eqn:Ez; [|apply nth_error_None in Ez; lia].
  rewrite (swap_remove_form _ Ez Hj). rewrite replace_nth_other by lia. apply nth_error_firstn. lia.
Qed.
Lemma swap_remove_length {T} j (xs : list T) : j < length xs -> length (swap_remove j xs) = length xs - 1.
Proof.
  intros Hj. destruct (nth_error xs j) as [x|] eqn:E; [|apply nth_error_None in E; lia].
  apply swap_remove_perm in E. apply Permutation_length in E. cbn in E. lia.
Qed.
Lemma Forall_swap_remove {T} (P : T -> Prop) j xs : j < length xs -> Forall P xs -> Forall P (swap_remove j xs).
Proof.
  intros Hj H. destruct (nth_error xs j) as [x|] eqn:E; [|apply nth_error_None in E; lia].
  apply swap_remove_perm in E. rewrite Forall_forall in *. intros y Hy. apply H. apply (Permutation_in _ E). right; auto.
Qed.

Section Proof.
Context {K V : Type} {OK : Ord K} {OV : Ord V} {EK : OrdEq K}.
Variable bs : BSearch K.
Variable ser : K * V -> option (list byte).
Variable de : list byte -> option (K * V).
Hypothesis Codec : codec_ok ser de.
(** No serialized pair is larger than 2^63 bytes: none fits in memory. *)
Definition sizes_ok : Prop := forall x b, ser x = Some b -> (N.of_nat (length b) <= 2 ^ 63)%N.
Hypothesis Sizes : sizes_ok.

Notation T := (K * V)%type.
Notation iovec := (iovec VecStream).
Notation slots := (list (option iovec)).

(** ** Specification of the contents: each stream holds chunks of one length, each read by [de]. *)
Fixpoint values_of (fuel c : nat) (w : list byte) : list T :=
  match fuel, w with
  | S fuel', _ :: _ => match de (firstn c w) with
                       | Some x => x :: values_of fuel' c (skipn c w)
                       | None => values_of fuel' c (skipn c w)
                       end
  | _, _ => []
  end.
Definition slot_ct (o : option iovec) : list T :=
  match o with None => [] | Some v => values_of (length (iv_w v : list byte)) (iv_chunk v) (iv_w v) end.
Definition bs_ct (s : bstream VecStream) : list T := concat (map slot_ct (st_slots s)).

Lemma values_of_ok c cs xs : 1 <= c -> Forall2 (encodes de c) cs xs -> forall fuel, length xs <= fuel -> values_of fuel c (concat cs) = xs.
Proof.
  intros Hc F. induction F as [|ch x cs xs [Hl Hd] F IH]; intros [|fuel] Hf; cbn [concat values_of]; cbn in Hf; auto; try lia.
  destruct (ch ++ concat cs) as [|z zs] eqn:Ez.
  { apply app_eq_nil in Ez as [-> _]. cbn in Hl. lia. }
  rewrite <- Ez. clear Ez z zs. subst c.
  assert (A1 : firstn (length ch) (ch ++ concat cs) = ch) by (rewrite firstn_app, firstn_all, Nat.sub_diag; cbn [firstn]; apply app_nil_r).
  assert (A2 : skipn (length ch) (ch ++ concat cs) = concat cs) by (rewrite skipn_app, skipn_all, Nat.sub_diag; auto).
  rewrite A1, A2, Hd. f_equal. apply IH; auto; lia.
Qed.
Lemma slot_ct_ok v xs k : iv_ok de v xs k -> slot_ct (Some v) = xs.
Proof.
  intros H. pose proof (iv_ok_length H) as L. destruct H as (Hc & _ & _ & _ & cs & E & F). cbn [slot_ct].
  rewrite L. rewrite E. apply values_of_ok; auto. nia.
Qed.

(** ** Representation: slot [i] holds [fst r] in chunks of 2^i, its own handle being at element [snd r]. *)
Definition slot_rep (i : nat) (o : option iovec) (r : list T * nat) : Prop :=
  match o with
  | None => r = ([], 0)
  | Some v => iv_chunk v = 2 ^ i /\ iv_ok de v (fst r) (snd r) /\ Forall (fits ser (2 ^ i)) (fst r)
  end.
Fixpoint slots_rep (i : nat) (sl : slots) (rs : list (list T * nat)) : Prop :=
  match sl, rs with
  | [], [] => True
  | o :: sl', r :: rs' => slot_rep i o r /\ slots_rep (S i) sl' rs'
  | _, _ => False
  end.
Definition items (rs : list (list T * nat)) : list (list T) := map fst rs.

Lemma slot_rep_ct i o r : slot_rep i o r -> slot_ct o = fst r.
Proof. destruct o as [v|]; cbn [slot_rep]; [intros (_ & H & _); eapply slot_ct_ok; eauto|]. intros ->. auto. Qed.
Lemma slots_rep_ct i sl rs : slots_rep i sl rs -> map slot_ct sl = items rs.
Proof.
  revert i rs; induction sl as [|o sl IH]; intros i [|r rs] H; cbn [slots_rep] in H; try tauto; auto.
  destruct H as [H1 H2]. cbn [map items]. rewrite (slot_rep_ct _ _ _ H1). f_equal. eapply IH; eauto.
Qed.
Lemma slots_rep_length i sl rs : slots_rep i sl rs -> length sl = length rs.
Proof.
  revert i rs; induction sl as [|o sl IH]; intros i [|r rs] H; cbn [slots_rep] in H; try tauto; auto. cbn. f_equal. eapply IH. apply H.
Qed.
Lemma slots_rep_nth i sl rs j r : slots_rep i sl rs -> nth_error rs j = Some r ->
  exists o, nth_error sl j = Some o /\ slot_rep (i + j) o r.
Proof.
  revert i rs j; induction sl as [|o sl IH]; intros i [|r' rs] j H E; cbn [slots_rep] in H; try tauto; destruct j as [|j]; try discriminate; cbn in E.
  - injection E as ->. exists o. rewrite Nat.add_0_r. split; auto. apply H.
  - destruct (IH (S i) rs j) as (o' & E' & H'); auto; [apply H|]. exists o'. split; auto. replace (i + S j) with (S i + j) by lia. auto.
Qed.
Lemma slots_rep_replace i sl rs j o r : slots_rep i sl rs -> slot_rep (i + j) o r ->
  slots_rep i (replace_nth j o sl) (replace_nth j r rs).
Proof.
  revert i rs j; induction sl as [|o' sl IH]; intros i [|r' rs] j H Hr; cbn [slots_rep] in H; try tauto; destruct j as [|j]; cbn [replace_nth slots_rep]; auto.
  - rewrite Nat.add_0_r in Hr. tauto.
  - split; [tauto|]. apply IH; [tauto|]. replace (S i + j) with (i + S j) by lia. auto.
Qed.

(** Sizes. *)
Definition slot_sz (i : nat) (r : list T * nat) : nat := length (fst r) * 2 ^ i.
Fixpoint sizes (i : nat) (rs : list (list T * nat)) : list nat :=
  match rs with [] => [] | r :: rs' => slot_sz i r :: sizes (S i) rs' end.
Lemma slot_size_ok i o r : slot_rep i o r -> slot_size o = slot_sz i r.
Proof.
  destruct o as [v|]; cbn [slot_rep]; [|intros ->; auto]. intros (Hc & H & _). unfold slot_size. rewrite (iv_size_ok H), Hc. auto.
Qed.
Lemma slots_size_ok i sl rs : slots_rep i sl rs -> map (@slot_size VecStream) sl = sizes i rs.
Proof.
  revert i rs; induction sl as [|o sl IH]; intros i [|r rs] H; cbn [slots_rep] in H; try tauto; auto.
  cbn [map sizes]. rewrite (slot_size_ok _ _ _ (proj1 H)). f_equal. apply IH, H.
Qed.
Lemma sizes_nth i rs j r : nth_error rs j = Some r -> nth_error (sizes i rs) j = Some (slot_sz (i + j) r).
Proof.
  revert i j; induction rs as [|a rs IH]; intros i [|j] E; try discriminate; cbn in E |- *.
  - injection E as ->. rewrite Nat.add_0_r. auto.
  - rewrite (IH (S i) j E). replace (S i + j) with (i + S j) by lia. auto.
Qed.
Lemma sizes_replace i rs j r : sizes i (replace_nth j r rs) = replace_nth j (slot_sz (i + j) r) (sizes i rs).
Proof.
  revert i j; induction rs as [|a rs IH]; intros i [|j]; cbn; auto; [rewrite Nat.add_0_r; auto|].
  f_equal. rewrite IH. replace (S i + j) with (i + S j) by lia. auto.
Qed.

(** The invariant. *)
Definition bs_ok (s : bstream VecStream) (rs : list (list T * nat)) : Prop :=
  slots_rep 0 (st_slots s) rs /\ length rs = 64 /\ bs_size s <= st_cap s.
Definition bs_inv (s : bstream VecStream) : Prop := exists rs, bs_ok s rs.

Lemma bs_ct_ok s rs : bs_ok s rs -> bs_ct s = concat (items rs).
Proof. intros (H & _). unfold bs_ct. rewrite (slots_rep_ct _ _ _ H). auto. Qed.
Lemma bs_size_ok s rs : bs_ok s rs -> bs_size s = list_sum (sizes 0 rs).
Proof. intros (H & _). unfold bs_size. rewrite (slots_size_ok _ _ _ H). auto. Qed.
Lemma bs_new_ok cap : bs_ok (bs_new VecStream cap) (repeat ([], 0) 64).
Proof.
  split; [|split; [apply repeat_length|]].
  - unfold bs_new. cbn [st_slots]. assert (G : forall n i, slots_rep i (repeat None n) (repeat ([], 0) n)).
    { induction n; intros i; cbn; auto. } apply G.
  - unfold bs_size, bs_new. cbn [st_slots st_cap]. assert (G : forall n, list_sum (map (@slot_size VecStream) (repeat None n)) = 0).
    { induction n; auto. } rewrite G. lia.
Qed.

(** ** Searching *)
Fixpoint find_items {A} (p : nat -> nat -> T -> option A) (i : nat) (xss : list (list T)) : option A :=
  match xss with
  | [] => None
  | xs :: r => match find_from (p i) 0 xs with Some a => Some a | None => find_items p (S i) r end
  end.
Lemma slot_aligned i v r : slot_rep i (Some v) r -> aligned (iv_chunk v).
Proof. intros (-> & _). apply aligned_pow2. Qed.
Lemma slots_find_ok {A} (p : nat -> nat -> T -> option A) i sl rs : slots_rep i sl rs ->
  slots_find de p i sl = Ok (find_items p i (items rs)).
Proof.
  revert i rs; induction sl as [|o sl IH]; intros i [|r rs] H; cbn [slots_rep] in H; try tauto; auto.
  destruct H as [H1 H2]. cbn [slots_find items map find_items]. destruct o as [v|].
  - pose proof (slot_aligned H1) as Ha. destruct H1 as (_ & H1 & _). rewrite (iv_find_ok (p i) Ha H1). cbn [bind].
    destruct (find_from (p i) 0 (fst r)); auto.
  - cbn in H1. subst r. cbn [fst find_from]. auto.
Qed.
Lemma find_from_spec {A} (p : nat -> T -> option A) : forall xs j,
  match find_from p j xs with
  | Some a => exists n x, nth_error xs n = Some x /\ p (j + n) x = Some a
  | None => forall n x, nth_error xs n = Some x -> p (j + n) x = None
  end.
Proof.
  induction xs as [|x xs IH]; intros j; cbn [find_from].
  - intros [|n] x E; discriminate.
  - destruct (p j x) as [a|] eqn:E.
    + exists 0, x. rewrite Nat.add_0_r. auto.
    + specialize (IH (S j)). destruct (find_from p (S j) xs) as [a|].
      * destruct IH as (n & y & E1 & E2). exists (S n), y. split; auto. replace (j + S n) with (S j + n) by lia. auto.
      * intros [|n] y E1; cbn in E1; [injection E1 as <-; rewrite Nat.add_0_r; auto|].
        replace (j + S n) with (S j + n) by lia. apply IH; auto.
Qed.
Lemma find_items_spec {A} (p : nat -> nat -> T -> option A) : forall xss i,
  match find_items p i xss with
  | Some a => exists n xs j x, nth_error xss n = Some xs /\ nth_error xs j = Some x /\ p (i + n) j x = Some a
  | None => forall n xs j x, nth_error xss n = Some xs -> nth_error xs j = Some x -> p (i + n) j x = None
  end.
Proof.
  induction xss as [|xs xss IH]; intros i; cbn [find_items].
  - intros [|n] xs j x E; discriminate.
  - pose proof (find_from_spec (p i) xs 0) as F. destruct (find_from (p i) 0 xs) as [a|].
    + destruct F as (j & x & E1 & E2). exists 0, xs, j, x. rewrite Nat.add_0_r. auto.
    + specialize (IH (S i)). destruct (find_items p (S i) xss) as [a|].
      * destruct IH as (n & ys & j & x & E1 & E2 & E3). exists (S n), ys, j, x. split; auto. split; auto.
        replace (i + S n) with (S i + n) by lia. auto.
      * intros [|n] ys j x E1 E2; cbn in E1.
        { injection E1 as <-. rewrite Nat.add_0_r. apply (F j x E2). }
        replace (i + S n) with (S i + n) by lia. eapply IH; eauto.
Qed.
Lemma in_concat_nth {A} (xss : list (list A)) x : In x (concat xss) <->
  exists n xs j, nth_error xss n = Some xs /\ nth_error xs j = Some x.
Proof.
  split.
  - induction xss as [|xs xss IH]; cbn; [tauto|]. intros H. apply in_app_or in H as [H|H].
    + apply In_nth_error in H as [j Hj]. exists 0, xs, j. auto.
    + destruct (IH H) as (n & ys & j & E1 & E2). exists (S n), ys, j. auto.
  - intros (n & xs & j & E1 & E2). apply in_concat. exists xs. split; eapply nth_error_In; eauto.
Qed.

Lemma bs_contains_ok s rs k : bs_ok s rs -> bs_contains de s k = Ok (has_key k (concat (items rs))).
Proof.
  intros (H & _). unfold bs_contains. rewrite (slots_find_ok _ _ _ _ H). cbn [bind]. f_equal.
  set (p := fun (_ _ : nat) (kv : T) => if eqb (fst kv) k then Some tt else None).
  pose proof (find_items_spec p (items rs) 0) as F. destruct (find_items p 0 (items rs)).
  - destruct F as (n & xs & j & x & E1 & E2 & E3). symmetry. apply has_key_in. unfold p in E3.
    destruct (eqb (fst x) k) eqn:E; [|discriminate]. apply eqb_eq in E. subst k. destruct x as [k v]. apply (in_keys _ k v).
    apply in_concat_nth. eauto.
  - symmetry. apply has_key_not_in. intros Hin. unfold keys in Hin. apply in_map_iff in Hin as ([k' v] & E & Hin). cbn in E. subst k'.
    apply in_concat_nth in Hin as (n & xs & j & E1 & E2). specialize (F n xs j _ E1 E2). unfold p in F. cbn [fst] in F.
    rewrite eqb_refl in F. discriminate.
Qed.

(** Removing one element of one slot. *)
Lemma slot_remove sl rs i r j x : slots_rep 0 sl rs -> nth_error rs i = Some r -> nth_error (fst r) j = Some x ->
  exists v v' k', nth_error sl i = Some (Some v) /\ iv_swap_remove de v j = Ok (v', Some (Some x)) /\
    slots_rep 0 (replace_nth i (Some v') sl) (replace_nth i (swap_remove j (fst r), k') rs) /\
    list_sum (sizes 0 (replace_nth i (swap_remove j (fst r), k') rs)) + 2 ^ i = list_sum (sizes 0 rs).
Proof.
  intros H Hr Hj. assert (Hjl : j < length (fst r)) by (apply nth_error_Some; congruence).
  destruct (slots_rep_nth _ _ _ _ H Hr) as (o & Eo & Ho). cbn [plus] in Ho.
  destruct o as [v|]; [|cbn in Ho; subst r; destruct j; discriminate].
  destruct Ho as (Hc & Hv & Hf). destruct (iv_swap_remove_ok Hv Hjl) as (v' & k' & E & Hc' & Hv' & _).
  exists v, v', k'. split; auto. split; [rewrite E, Hj; auto|]. split.
  - apply slots_rep_replace; auto. cbn [plus slot_rep fst snd]. rewrite Hc'. split; auto. split; auto. apply Forall_swap_remove; auto.
  - rewrite sizes_replace. pose proof (@sizes_nth 0 rs i r Hr) as Es. cbn [plus] in *.
    pose proof (list_sum_replace _ _ (slot_sz i (swap_remove j (fst r), k')) Es) as G.
    unfold slot_sz in *. cbn [fst] in *. rewrite swap_remove_length in * by auto.
    assert (length (fst r) * 2 ^ i = (length (fst r) - 1) * 2 ^ i + 2 ^ i) by nia. lia.
Qed.
Lemma items_replace i r rs : items (replace_nth i r rs) = replace_nth i (fst r) (items rs).
Proof. apply map_replace_nth. Qed.
Lemma nth_items rs i xs : nth_error (items rs) i = Some xs <-> exists r, nth_error rs i = Some r /\ fst r = xs.
Proof.
  unfold items. rewrite nth_error_map. destruct (nth_error rs i) as [r|]; cbn.
  - split; [intros E; injection E as <-; eauto | intros (r' & E & <-); congruence].
  - split; [discriminate | intros (r' & E & _); discriminate].
Qed.

Lemma bs_take_ok s rs k : bs_ok s rs ->
  exists s' rs' o, bs_take de s k = Ok (s', o) /\ bs_ok s' rs' /\ st_cap s' = st_cap s /\ bs_size s' <= bs_size s /\
    match o with
    | Some (k', v) => k' = k /\ Permutation ((k, v) :: concat (items rs')) (concat (items rs))
    | None => ~ In k (keys (concat (items rs))) /\ s' = s /\ rs' = rs
    end.
Proof.
  intros Hok. pose proof Hok as (H & Hl & Hs). unfold bs_take. rewrite (slots_find_ok _ _ _ _ H). cbn [bind].
  set (p := fun (i j : nat) (kv : T) => if eqb (fst kv) k then Some (i, j) else None).
  pose proof (find_items_spec p (items rs) 0) as F. destruct (find_items p 0 (items rs)) as [[i j]|].
  - destruct F as (n & xs & j' & [k' v] & E1 & E2 & E3). unfold p in E3. cbn [fst plus] in E3.
    destruct (eqb k' k) eqn:E; [|discriminate]. injection E3 as <- <-. apply eqb_eq in E. subst k'.
    apply nth_items in E1 as (r & Er & <-).
    destruct (slot_remove _ _ _ _ H Er E2) as (w & w' & kk & G1 & G2 & G3 & G4). rewrite G1. cbn [unwrap bind]. rewrite G2. cbn [bind].
    eexists _, _, _. split; [reflexivity|].
    assert (Hsz : bs_size (mkBS (replace_nth n (Some w') (st_slots s)) (st_cap s)) + 2 ^ n = bs_size s).
    { rewrite (bs_size_ok Hok), <- G4. f_equal. unfold bs_size. cbn [st_slots]. rewrite (slots_size_ok _ _ _ G3). auto. }
    split; [split; [exact G3|split; [rewrite replace_nth_length; auto|cbn [st_cap]; lia]]|]. cbn [st_cap]. split; auto. split; [lia|]. split; auto.
    rewrite items_replace. cbn [fst]. symmetry. apply (@concat_replace_perm _ (items rs) n (fst r) _ [(k, v)]).
    + apply nth_items. eauto.
    + symmetry. apply swap_remove_perm. auto.
  - exists s, rs, None. split; auto. split; auto. split; auto. split; auto. split; auto. intros Hin. unfold keys in Hin.
    apply in_map_iff in Hin as ([k' v] & E & Hin). cbn in E. subst k'. apply in_concat_nth in Hin as (n & xs & j & E1 & E2).
    specialize (F n xs j _ E1 E2). unfold p in F. cbn [fst] in F. rewrite eqb_refl in F. discriminate.
Qed.

(** ** push *)
(** Size an element takes: the next power of two. *)
Definition class (n : nat) : nat := match n with 0 => 1 | _ => Nat.log2_up n end.
Lemma chunk_size_class n : (N.of_nat n <= 2 ^ 63)%N -> exists iN, chunk_size (N.of_nat n) = Ok (iN, (2 ^ iN)%N) /\
  N.to_nat iN = class n /\ N.to_nat iN < 64 /\ n <= 2 ^ class n.
Proof.
  intros H. destruct n as [|n].
  - exists 1%N. split; [reflexivity|]. split; auto. split; [cbn; lia|cbn; lia].
  - destruct (@C34_chunk_size_is_next_power_of_two (N.of_nat (S n)) ltac:(lia) H) as (i & E & H1 & H2 & H3).
    exists i. split; auto. cbn [class].
    assert (E2 : N.to_nat i = Nat.log2_up (S n)).
    { assert (P : 2 ^ N.to_nat i = N.to_nat (2 ^ i)).
      { apply Nat2N.inj. rewrite Nat2N.inj_pow, !N2Nat.id. auto. }
      assert (B1 : S n <= 2 ^ N.to_nat i) by lia. assert (B2 : 2 ^ N.to_nat i < 2 * S n) by lia.
      destruct (N.to_nat i) as [|m].
      - assert (n = 0) as -> by (cbn in B1; lia). auto.
      - symmetry. apply Nat.log2_up_unique; [lia|]. cbn [Nat.pred]. cbn [Nat.pow] in B1, B2. cbn [Nat.pow]. lia. }
    split; auto. split; [lia|]. destruct n; [cbn; lia|]. apply Nat.log2_up_spec. lia.
Qed.
Lemma pow_to_nat i : N.to_nat (2 ^ i) = 2 ^ N.to_nat i.
Proof. apply Nat2N.inj. rewrite Nat2N.inj_pow, !N2Nat.id. auto. Qed.

(** What push does, as a specification: each element in turn, stored if it still fits. *)
Definition rounded (x : T) : option nat := option_map (fun b => 2 ^ class (length b)) (ser x).
Fixpoint greedy (room : nat) (vs : list T) : list T * list T :=
  match vs with
  | [] => ([], [])
  | x :: vs' =>
      match rounded x with
      | Some c => if c <=? room then let (st, out) := greedy (room - c) vs' in (x :: st, out)
                  else let (st, out) := greedy room vs' in (st, x :: out)
      | None => let (st, out) := greedy room vs' in (st, x :: out)
      end
  end.
Definition rounded_sum (l : list T) : nat := sum_sz (fun x => match rounded x with Some c => c | None => 0 end) l.

(** Adding one element to one slot. *)
Lemma slot_append sl rs i r x b : slots_rep 0 sl rs -> nth_error rs i = Some r -> ser x = Some b -> length b <= 2 ^ i ->
  exists o v', nth_error sl i = Some o /\
    iv_append ser (match o with Some v => v | None => iv_new VecStream (s_new VecStream) (2 ^ i) end) [x] = Ok (v', [], true) /\
    slots_rep 0 (replace_nth i (Some v') sl) (replace_nth i (fst r ++ [x], length (fst r ++ [x])) rs) /\
    list_sum (sizes 0 (replace_nth i (fst r ++ [x], length (fst r ++ [x])) rs)) = list_sum (sizes 0 rs) + 2 ^ i.
Proof.
  intros H Hr Hb Hlen. destruct (slots_rep_nth _ _ _ _ H Hr) as (o & Eo & Ho). cbn [plus] in Ho.
  exists o. set (v := match o with Some v => v | None => iv_new VecStream (s_new VecStream) (2 ^ i) end).
  assert (Hp : 1 <= 2 ^ i) by (pose proof (Nat.pow_nonzero 2 i); lia).
  assert (Hv : iv_chunk v = 2 ^ i /\ iv_ok de v (fst r) (snd r) /\ Forall (fits ser (2 ^ i)) (fst r)).
  { unfold v. destruct o as [v0|]; [exact Ho|]. cbn in Ho. subst r. cbn [fst snd]. split; auto. split; auto.
    apply iv_new_ok. auto. }
  destruct Hv as (Hc & Hv & Hf). assert (Hfx : fits ser (2 ^ i) x) by (exists b; auto).
  destruct (iv_append_ok Codec (values := [x]) Hv) as (v' & E & Hc' & Hv'); [rewrite Hc; auto|].
  exists v'. split; auto. split; auto. cbn [rev app] in Hv'. split.
  - apply slots_rep_replace; auto. cbn [plus slot_rep fst snd]. rewrite Hc'. split; auto. split; auto. apply Forall_app. auto.
  - rewrite sizes_replace. pose proof (@sizes_nth 0 rs i r Hr) as Es. cbn [plus] in *.
    pose proof (list_sum_replace _ _ (slot_sz i (fst r ++ [x], length (fst r ++ [x]))) Es) as G.
    unfold slot_sz in *. cbn [fst] in *. rewrite app_length in *. cbn [length] in *. lia.
Qed.

Lemma bs_push_loop_ok cap : forall vs sl rs total, slots_rep 0 sl rs -> length rs = 64 -> total = list_sum (sizes 0 rs) -> total <= cap ->
  exists sl' rs', bs_push_loop ser sl cap total vs = Ok (sl', snd (greedy (cap - total) vs)) /\
    slots_rep 0 sl' rs' /\ length rs' = 64 /\
    list_sum (sizes 0 rs') = total + rounded_sum (fst (greedy (cap - total) vs)) /\
    total + rounded_sum (fst (greedy (cap - total) vs)) <= cap /\
    Permutation (concat (items rs')) (concat (items rs) ++ fst (greedy (cap - total) vs)) /\
    (Forall (fun r => snd r = length (fst r)) rs -> Forall (fun r => snd r = length (fst r)) rs').
Proof.
  induction vs as [|x vs IH]; intros sl rs total H Hl Ht Hcap; cbn [bs_push_loop greedy].
  - exists sl, rs. cbn [fst snd]. unfold rounded_sum, sum_sz. cbn. rewrite app_nil_r. repeat split; auto; lia.
  - unfold rounded. destruct (ser x) as [b|] eqn:Eb; cbn [option_map].
    2:{ destruct (IH sl rs total H Hl Ht Hcap) as (sl' & rs' & E & G). rewrite E. cbn [bind].
        destruct (greedy (cap - total) vs) as [st out]. cbn [fst snd] in *. eauto 10. }
    destruct (chunk_size_class _ (Sizes Eb)) as (iN & E & Ei & Hi & Hb). rewrite E. cbn [bind].
    rewrite pow_to_nat, Ei. set (i := class (length b)) in *.
    destruct (cap <? 2 ^ i + total) eqn:Ec.
    + apply Nat.ltb_lt in Ec. replace (2 ^ i <=? cap - total) with false by (symmetry; apply Nat.leb_gt; lia).
      destruct (IH sl rs total H Hl Ht Hcap) as (sl' & rs' & E' & G). rewrite E'. cbn [bind].
      destruct (greedy (cap - total) vs) as [st out]. cbn [fst snd] in *. eauto 10.
    + apply Nat.ltb_ge in Ec. replace (2 ^ i <=? cap - total) with true by (symmetry; apply Nat.leb_le; lia).
      destruct (nth_error rs i) as [r|] eqn:Er; [|apply nth_error_None in Er; lia].
      destruct (slot_append _ _ _ H Er Eb Hb) as (o & v' & E1 & E2 & E3 & E4). rewrite E1. cbn [unwrap bind]. rewrite E2. cbn [bind].
      destruct (IH _ _ (total + 2 ^ i) E3) as (sl' & rs' & E5 & G1 & G2 & G3 & G4 & G5 & G6).
      { rewrite replace_nth_length. auto. } { lia. } { lia. }
      rewrite E5. replace (cap - (total + 2 ^ i)) with (cap - total - 2 ^ i) in * by lia.
      destruct (greedy (cap - total - 2 ^ i) vs) as [st out]. cbn [fst snd] in *.
      assert (Hsum : rounded_sum (x :: st) = 2 ^ i + rounded_sum st).
      { unfold rounded_sum. rewrite sum_sz_cons. unfold rounded at 1. rewrite Eb. auto. }
      exists sl', rs'. split; auto. split; auto. split; auto. split; [lia|]. split; [lia|]. split.
      * rewrite G5, items_replace. cbn [fst]. replace (x :: st) with ([x] ++ st) by auto. rewrite app_assoc. apply Permutation_app_tail.
        apply nth_error_split in Er as (l1 & l2 & -> & <-). unfold items. rewrite map_app. cbn [map].
        rewrite replace_nth_split by (rewrite app_length, map_length; cbn; lia).
        rewrite <- (map_length fst l1) at 1 2. rewrite firstn_app, firstn_all, Nat.sub_diag. cbn [firstn]. rewrite app_nil_r.
        rewrite skipn_app. rewrite skipn_all2 by lia. replace (S (length (map fst l1)) - length (map fst l1)) with 1 by lia.
        cbn [skipn app]. rewrite !concat_app. cbn [concat]. perm0.
      * intros Hend. apply G6. apply replace_nth_Forall; auto.
Qed.

(** ** pop *)
Definition tag : Type := (nat * nat * T)%type.
Fixpoint tag_from (i j : nat) (xs : list T) : list tag :=
  match xs with [] => [] | x :: xs' => (i, j, x) :: tag_from i (S j) xs' end.
Fixpoint tags (i : nat) (xss : list (list T)) : list tag :=
  match xss with [] => [] | xs :: r => tag_from i 0 xs ++ tags (S i) r end.
Definition entry_of (t : tag) : V * nat * nat * nat :=
  (snd (snd t), fst (fst t), snd (fst t), 2 ^ fst (fst t)).

Lemma number_tags i j xs : map (fun x => (x, 2 ^ i)) (number i j xs) = map entry_of (tag_from i j xs).
Proof. revert j; induction xs; intros j; cbn; auto. f_equal. apply IHxs. Qed.
Lemma km_push_all_app {A} {OA : Ord A} (l1 l2 : list (A * nat)) : forall m,
  km_push_all m (l1 ++ l2) = bind (km_push_all m l1) (fun m' => km_push_all m' l2).
Proof.
  induction l1 as [|[x n] l1 IH]; intros m; cbn [app km_push_all]; auto.
  destruct (km_push m x n) as [[m' b]|]; cbn [bind]; auto.
Qed.
Lemma bs_collect_ok i sl rs m : slots_rep i sl rs ->
  bs_collect de i sl m = km_push_all m (map entry_of (tags i (items rs))).
Proof.
  revert i rs m; induction sl as [|o sl IH]; intros i [|r rs] m H; cbn [slots_rep] in H; try tauto; auto.
  destruct H as [H1 H2]. cbn [bs_collect items map tags]. rewrite map_app, km_push_all_app. destruct o as [v|].
  - pose proof (slot_aligned H1) as Ha. destruct H1 as (Hc & H1 & _). rewrite (iv_list_ok Ha H1). cbn [bind].
    rewrite Hc, number_tags. destruct (km_push_all m (map entry_of (tag_from i 0 (fst r)))) as [m'|]; cbn [bind]; auto.
  - cbn in H1. subst r. cbn [fst tag_from map km_push_all bind]. auto.
Qed.
Lemma tag_from_snd i j xs : map snd (tag_from i j xs) = xs.
Proof. revert j; induction xs; intros j; cbn; auto. f_equal; auto. Qed.
Lemma tags_snd i xss : map snd (tags i xss) = concat xss.
Proof. revert i; induction xss; intros i; cbn; auto. rewrite map_app, tag_from_snd. f_equal; auto. Qed.
Lemma tag_from_in i j xs t : In t (tag_from i j xs) ->
  exists n, fst (fst t) = i /\ snd (fst t) = j + n /\ nth_error xs n = Some (snd t).
Proof.
  revert j; induction xs as [|x xs IH]; intros j H; cbn in H; [tauto|]. destruct H as [<-|H].
  - exists 0. cbn. rewrite Nat.add_0_r. auto.
  - destruct (IH _ H) as (n & E1 & E2 & E3). exists (S n). split; auto. split; [lia|auto].
Qed.
Lemma tags_in i xss t : In t (tags i xss) ->
  exists n xs, fst (fst t) = i + n /\ nth_error xss n = Some xs /\ nth_error xs (snd (fst t)) = Some (snd t).
Proof.
  revert i; induction xss as [|xs xss IH]; intros i H; cbn in H; [tauto|]. apply in_app_or in H as [H|H].
  - apply tag_from_in in H as (n & E1 & E2 & E3). exists 0, xs. rewrite E2. cbn. rewrite Nat.add_0_r. auto.
  - destruct (IH _ H) as (n & ys & E1 & E2 & E3). exists (S n), ys. split; [lia|auto].
Qed.
Lemma tag_from_nodup i j xs : NoDup (map fst (tag_from i j xs)).
Proof.
  revert j; induction xs as [|x xs IH]; intros j; cbn; constructor; auto. intros H. apply in_map_iff in H as (t & E & H).
  apply tag_from_in in H as (n & E1 & E2 & _). destruct t as [[a b] y]. cbn in *. inversion E; subst. lia.
Qed.
Lemma tags_nodup i xss : NoDup (map fst (tags i xss)).
Proof.
  revert i; induction xss as [|xs xss IH]; intros i; cbn; [constructor|]. rewrite map_app. apply NoDup_app_inv. split; [apply tag_from_nodup|].
  split; auto. intros p H1 H2. apply in_map_iff in H1 as (t1 & E1 & H1). apply in_map_iff in H2 as (t2 & E2 & H2).
  apply tag_from_in in H1 as (n1 & A1 & _). apply tags_in in H2 as (n2 & ys & A2 & _). rewrite <- E2 in E1. rewrite E1 in A1. lia.
Qed.
Lemma lex_eqb {A B} {OA : Ord A} {OB : Ord B} (x y : A * B) : eqb x y = true -> eqb (fst x) (fst y) = true /\ eqb (snd x) (snd y) = true.
Proof.
  unfold eqb. cbn [leb Ord_prod]. unfold lex_leb. intros H. apply andb_true_iff in H as [H1 H2].
  apply andb_true_iff in H1 as [A1 B1]. apply andb_true_iff in H2 as [A2 B2]. rewrite A1, A2 in *. cbn in *. rewrite B1, B2. auto.
Qed.
Lemma entries_distinct (ts : list tag) : NoDup (map fst ts) -> distinct (map entry_of ts).
Proof.
  unfold distinct. induction ts as [|t ts IH]; cbn [map]; intros H; [constructor|]. inversion H as [|? ? Hn Hd]; subst.
  constructor; [|apply IH; auto]. rewrite Forall_forall. intros e He. apply in_map_iff in He as (t' & <- & Ht').
  assert (Hne : fst t <> fst t') by (intros E; apply Hn; rewrite E; apply List.in_map; auto).
  assert (G : forall a b : tag, fst a <> fst b -> eqb (entry_of a) (entry_of b) = false).
  { intros a b Hab. destruct (eqb (entry_of a) (entry_of b)) eqn:E; auto. exfalso. apply Hab.
    apply lex_eqb in E as [E _]. cbn [fst entry_of] in E. apply lex_eqb in E as [E E2]. apply lex_eqb in E as [_ E1].
    cbn [fst snd entry_of] in *. apply eqb_eq in E1, E2. destruct a as [[a1 a2] a3], b as [[b1 b2] b3]. cbn in *. congruence. }
  split; apply G; auto.
Qed.

(** Strictly descending places. *)
Definition below (p q : nat * nat) : Prop := fst q < fst p \/ (fst q = fst p /\ snd q < snd p).
Lemma bs_remove_ok : forall (ts : list tag) sl rs, slots_rep 0 sl rs ->
  StronglySorted below (map fst ts) ->
  (forall t, In t ts -> exists xs, nth_error (items rs) (fst (fst t)) = Some xs /\ nth_error xs (snd (fst t)) = Some (snd t)) ->
  exists sl' rs', bs_remove de sl (map fst ts) = Ok (sl', map snd ts) /\ slots_rep 0 sl' rs' /\ length rs' = length rs /\
    Permutation (map snd ts ++ concat (items rs')) (concat (items rs)) /\
    list_sum (sizes 0 rs') + sum_sz (fun t => 2 ^ fst (fst t)) ts = list_sum (sizes 0 rs).
Proof.
  induction ts as [|[[i j] x] ts IH]; intros sl rs H Hs Hin; cbn [map bs_remove].
  - exists sl, rs. cbn. unfold sum_sz. cbn. repeat split; auto.
  - destruct (Hin _ (or_introl eq_refl)) as (xs & E1 & E2). cbn [fst snd] in E1, E2. apply nth_items in E1 as (r & Er & <-).
    destruct (slot_remove _ _ _ _ H Er E2) as (v & v' & k' & G1 & G2 & G3 & G4). cbn [fst]. rewrite G1. cbn [unwrap bind]. rewrite G2. cbn [bind].
    cbn [map] in Hs. inversion Hs as [|? ? Hs1 Hs2]; subst.
    assert (Hj : j < length (fst r)) by (apply nth_error_Some; congruence).
    destruct (IH _ _ G3 Hs1) as (sl' & rs' & F1 & F2 & F3 & F4 & F5).
    { intros t Ht. destruct (Hin t (or_intror Ht)) as (ys & A1 & A2). rewrite items_replace. cbn [fst].
      rewrite Forall_forall in Hs2. specialize (Hs2 (fst t) (List.in_map _ _ _ Ht)). unfold below in Hs2. cbn [fst snd] in Hs2.
      destruct Hs2 as [Hlt|[Heq Hlt]].
      - exists ys. split; auto. rewrite replace_nth_other by lia. auto.
      - rewrite Heq in *. assert (Ei : nth_error (items rs) i = Some (fst r)) by (apply nth_items; eauto).
        rewrite Ei in A1. injection A1 as <-. exists (swap_remove j (fst r)). split.
        + apply replace_nth_same. apply nth_error_Some. congruence.
        + rewrite swap_remove_below; auto. }
    rewrite F1. cbn [bind]. exists sl', rs'. split; auto. split; auto. split; [rewrite F3; apply replace_nth_length|]. split.
    + cbn [app]. rewrite F4. rewrite items_replace. cbn [fst]. symmetry.
      apply (@concat_replace_perm _ (items rs) i (fst r) _ [x]); [apply nth_items; eauto|]. symmetry. apply swap_remove_perm; auto.
    + rewrite sum_sz_cons. cbn [fst]. lia.
Qed.

Lemma sorted_strict (l : list (nat * nat)) : sorted_by (fun x => x) l -> NoDup l -> StronglySorted below (rev l).
Proof.
  intros Hs Hd. induction l as [|a l IH]; cbn [rev]; [constructor|]. inversion Hs as [|? ? S1 S2]; subst. inversion Hd as [|? ? D1 D2]; subst.
  specialize (IH S1 D2).
  assert (G : forall m : list (nat * nat), StronglySorted below m -> Forall (fun y => below y a) m -> StronglySorted below (m ++ [a])).
  { clear. induction m as [|b m IH]; intros H Hf; cbn; [repeat constructor|]. inversion H; subst. inversion Hf; subst. constructor; auto.
    apply Forall_app. split; auto. }
  apply G; auto. rewrite Forall_forall in *. intros y Hy. apply in_rev in Hy. specialize (S2 y Hy).
  assert (Hne : y <> a) by (intros ->; auto). destruct a as [a1 a2], y as [y1 y2]. unfold below. cbn [fst snd].
  cbn [leb Ord_prod] in S2. unfold lex_leb in S2. cbn [fst snd] in S2. apply andb_true_iff in S2 as [L1 L2].
  cbn [leb Ord_nat] in *. apply Nat.leb_le in L1. destruct (y1 <=? a1) eqn:E.
  - cbn in L2. apply Nat.leb_le in L2. apply Nat.leb_le in E. assert (a1 = y1) by lia. subst. right. split; auto.
    assert (a2 <> y2) by congruence. lia.
  - apply Nat.leb_gt in E. left. lia.
Qed.

Lemma bs_pop_ok s rs n : bs_ok s rs ->
  exists s' rs' out rest, bs_pop de s n = Ok (s', out) /\ bs_ok s' rs' /\ st_cap s' = st_cap s /\
    Permutation (concat (items rs')) rest /\ Permutation (out ++ rest) (concat (items rs)) /\
    (bs_size s' + n <= bs_size s \/ rest = []) /\ bs_size s' <= bs_size s /\
    (forall x y, In x rest -> In y out -> leb (snd x) (snd y) = true).
Proof.
  intros Hok. pose proof Hok as (H & Hl & Hc). unfold bs_pop. rewrite (bs_collect_ok _ _ _ (km_new n) H).
  set (ts := tags 0 (items rs)).
  destruct (@C33_kmin_keeps_greatest _ _ n (map entry_of ts) (entries_distinct _ (tags_nodup 0 (items rs)))) as (m & dropped & M1 & M2 & M3 & M4 & M5).
  rewrite M1. cbn [bind].
  destruct (Permutation_map_inv _ _ M2) as (ts' & Et & Pt). symmetry in Et.
  apply map_eq_app in Et as (t1 & t2 & -> & E1 & E2). rewrite <- E1 in *. rewrite <- E2 in *. clear E1 E2.
  set (ix := stable_sort _ _).
  assert (Eix : map (fun e : V * nat * nat * nat => (snd (fst (fst e)), snd (fst e))) (map entry_of t1) = map fst t1).
  { rewrite map_map. apply map_ext. intros [[a b] c]. auto. }
  assert (Pix : Permutation ix (map fst t1)) by (unfold ix; rewrite <- Eix; apply stable_sort_perm).
  assert (Six : sorted_by (fun x => x) ix) by apply stable_sort_sorted.
  assert (Nix : NoDup ix).
  { eapply NoDup_perm; [symmetry; exact Pix|]. assert (N0 : NoDup (map fst (t1 ++ t2))).
    { eapply NoDup_perm; [apply Permutation_map; exact Pt|]. apply tags_nodup. }
    rewrite map_app in N0. apply NoDup_app_inv in N0. tauto. }
  assert (Prev : Permutation (rev ix) (map fst t1)) by (rewrite <- Permutation_rev; auto).
  destruct (Permutation_map_inv _ _ Prev) as (u & Eu & Pu). rewrite Eu.
  assert (Hin : forall t, In t (t1 ++ t2) -> exists xs, nth_error (items rs) (fst (fst t)) = Some xs /\ nth_error xs (snd (fst t)) = Some (snd t)).
  { intros t Ht. apply (Permutation_in _ (Permutation_sym Pt)) in Ht. apply tags_in in Ht as (k & xs & A1 & A2 & A3). exists xs. rewrite A1. auto. }
  destruct (@bs_remove_ok u (st_slots s) rs H) as (sl' & rs' & F1 & F2 & F3 & F4 & F5).
  { rewrite <- Eu. apply sorted_strict; auto. }
  { intros t Ht. apply Hin. apply in_or_app. left. apply (Permutation_in _ (Permutation_sym Pu)); auto. }
  rewrite F1. cbn [bind].
  assert (Hsz : bs_size (mkBS sl' (st_cap s)) + sum_sz (fun t : tag => 2 ^ fst (fst t)) t1 = bs_size s).
  { rewrite (bs_size_ok Hok), <- F5. rewrite (sum_sz_perm _ Pu). f_equal. unfold bs_size. cbn [st_slots]. rewrite (slots_size_ok _ _ _ F2). auto. }
  assert (Hall : Permutation (map snd u ++ map snd t2) (concat (items rs))).
  { rewrite <- (tags_snd 0 (items rs)). fold ts. rewrite Pt, map_app. apply Permutation_app_tail. apply Permutation_map. symmetry; auto. }
  exists (mkBS sl' (st_cap s)), rs', (map snd u), (map snd t2). split; auto. split; [split; [exact F2|split; [lia|cbn [st_cap]; lia]]|].
  split; auto. split; [apply (Permutation_app_inv_l (map snd u)); rewrite F4, Hall; auto|]. split; auto. split; [|split; [lia|]].
  - destruct M4 as [M4|M4].
    + right. apply map_eq_nil in M4. subst t2. auto.
    + left. assert (Es : sum_sz snd (map entry_of t1) = sum_sz (fun t : tag => 2 ^ fst (fst t)) t1).
      { unfold sum_sz. rewrite map_map. auto. } lia.
  - intros x y Hx Hy. apply in_map_iff in Hx as (tx & <- & Hx). apply in_map_iff in Hy as (ty & <- & Hy).
    apply (Permutation_in _ (Permutation_sym Pu)) in Hy.
    specialize (M3 (entry_of tx) (entry_of ty) (List.in_map _ _ _ Hx) (List.in_map _ _ _ Hy)).
    cbn [leb Ord_prod] in M3. unfold lex_leb in M3. apply andb_true_iff in M3 as [M3 _]. cbn [fst entry_of leb Ord_prod] in M3.
    unfold lex_leb in M3. apply andb_true_iff in M3 as [M3 _]. cbn [fst leb Ord_prod] in M3. unfold lex_leb in M3.
    apply andb_true_iff in M3 as [M3 _]. cbn [fst] in M3. auto.
Qed.

(** ** flush *)
Lemma bs_drain_ok i sl rs : slots_rep i sl rs -> bs_drain de sl = Ok (concat (map (fun r => skipn (snd r) (fst r)) rs)).
Proof.
  revert i rs; induction sl as [|o sl IH]; intros i [|r rs] H; cbn [slots_rep] in H; try tauto; auto.
  destruct H as [H1 H2]. cbn [bs_drain map concat]. destruct o as [v|].
  - pose proof (slot_aligned H1) as Ha. destruct H1 as (_ & H1 & _). rewrite (iv_into_list_ok Ha H1). cbn [bind].
    rewrite (IH _ _ H2). auto.
  - cbn in H1. subst r. cbn [fst snd skipn app]. eapply IH; eauto.
Qed.
Lemma bs_flush_ok s rs : bs_ok s rs ->
  exists s', bs_flush de s = Ok (s', concat (map (fun r => skipn (snd r) (fst r)) rs)) /\ bs_ok s' (map (fun _ => ([], 0)) rs) /\ st_cap s' = st_cap s.
Proof.
  intros (H & Hl & Hs). unfold bs_flush. rewrite (bs_drain_ok _ _ _ H). cbn [bind]. eexists. split; [reflexivity|]. cbn [st_cap]. split; auto.
  assert (G : forall sl i rs, slots_rep i sl rs -> slots_rep i (map (fun _ => None) sl) (map (fun _ => ([], 0)) rs)).
  { clear. induction sl as [|o sl IH]; intros i [|r rs] H; cbn in *; try tauto. split; auto. apply IH, H. }
  split; [cbn [st_slots]; apply G; auto|]. split; [rewrite map_length; auto|].
  unfold bs_size. cbn [st_slots st_cap]. assert (Z : forall sl : slots, list_sum (map (@slot_size VecStream) (map (fun _ => None) sl)) = 0).
  { clear. induction sl; auto. } rewrite Z. lia.
Qed.

(** ** take_multiple *)
Lemma bs_tm_loop_ok : forall (l : list T) ks, sorted_by (fun x => x) ks ->
  exists removed ks' (out : list T), bs_tm_loop bs ks l = (ks', out) /\ sorted_by (fun x => x) ks' /\ Permutation ks (removed ++ ks') /\ removed = keys out /\
    incl out l /\ (forall k, In k ks -> In k (keys l) -> In k (keys out)).
Proof.
  induction l as [|[k v] l IH]; intros ks Hs; cbn [bs_tm_loop].
  - exists [], ks, []. cbn. repeat split; auto. intros ? [].
  - destruct (bs ks k) as [i|] eqn:E.
    + apply bs_sound in E. pose proof (remove_nth_perm _ _ E) as P. pose proof (remove_nth_sorted i Hs) as Hs'.
      destruct (remove_nth i ks) as [|k0 ks0] eqn:Ek.
      * exists [k], [], [(k, v)]. split; auto. split; [constructor|]. split; [rewrite <- P; auto|]. split; auto. split.
        { intros z [<-|[]]. left; auto. }
        { intros z Hz _. apply (Permutation_in _ (Permutation_sym P)) in Hz. destruct Hz as [<-|[]]. left; auto. }
      * rewrite <- Ek in *. destruct (IH _ Hs') as (rm & ks' & out & E1 & S1 & P1 & R1 & I1 & F1). rewrite E1.
        exists (k :: rm), ks', ((k, v) :: out). split; auto. split; auto. split; [rewrite <- P, P1; auto|]. split; [cbn; rewrite R1; auto|]. split.
        { intros z [<-|Hz]; [left; auto|right; apply I1; auto]. }
        { intros z Hz Hin. apply (Permutation_in _ (Permutation_sym P)) in Hz. cbn in Hin |- *. destruct Hz as [<-|Hz]; auto.
          destruct Hin as [<-|Hin]; auto. }
    + destruct (IH _ Hs) as (rm & ks' & out & E1 & S1 & P1 & R1 & I1 & F1). rewrite E1.
      exists rm, ks', out. repeat split; auto.
      { intros z Hz. right. apply I1; auto. }
      { intros z Hz Hin. cbn in Hin. destruct Hin as [<-|Hin]; auto. exfalso. revert E. apply bs_complete; auto. }
Qed.
Lemma bs_tm_slots_ok : forall sl i rs ks, slots_rep i sl rs -> sorted_by (fun x => x) ks ->
  exists ks' out, bs_tm_slots bs de ks sl = Ok (ks', out) /\ Permutation ks (keys out ++ ks') /\
    incl out (concat (items rs)) /\ (forall k, In k ks -> In k (keys (concat (items rs))) -> In k (keys out)).
Proof.
  induction sl as [|o sl IH]; intros i [|r rs] ks H Hs; cbn [slots_rep] in H; try tauto.
  - exists ks, []. cbn. repeat split; auto. intros ? [].
  - destruct H as [H1 H2]. cbn [bs_tm_slots items map concat]. destruct o as [v|].
    + pose proof (slot_aligned H1) as Ha. destruct H1 as (_ & H1 & _). rewrite (iv_list_ok Ha H1). cbn [bind].
      destruct (bs_tm_loop_ok (fst r) Hs) as (rm & ks1 & out1 & E1 & S1 & P1 & R1 & I1 & F1). rewrite E1.
      destruct (IH _ _ ks1 H2 S1) as (ks2 & out2 & E2 & P2 & I2 & F2). rewrite E2. cbn [bind].
      exists ks2, (out1 ++ out2). split; auto. subst rm. split; [rewrite P1, P2, keys_app, app_assoc; auto|]. split.
      * apply incl_app; [apply incl_appl; auto|apply incl_appr; auto].
      * intros k Hk Hin. rewrite keys_app in *. apply in_or_app. destruct (in_dec eq_dec_ord k (keys out1)) as [Hi|Hi]; auto.
        apply in_app_or in Hin as [Hin|Hin]; [left; auto|]. right. apply F2; auto.
        apply (Permutation_in _ P1) in Hk. apply in_app_or in Hk as [Hk|Hk]; tauto.
    + cbn in H1. subst r. cbn [fst app]. eapply IH; eauto.
Qed.

(** ** get_mut *)
Lemma bs_slots_mut_ok k f : forall sl i rs, slots_rep i sl rs ->
  (forall j r v, nth_error rs j = Some r -> In (k, v) (fst r) -> fits ser (2 ^ (i + j)) (k, f v)) ->
  exists sl' rs' o, bs_slots_mut ser de k f sl = Ok (sl', o) /\ slots_rep i sl' rs' /\ sizes i rs' = sizes i rs /\
    match o with
    | Some v => exists rest, Permutation (concat (items rs)) ((k, v) :: rest) /\ Permutation (concat (items rs')) ((k, f v) :: rest)
    | None => ~ In k (keys (concat (items rs))) /\ rs' = rs
    end.
Proof.
  induction sl as [|o sl IH]; intros i [|r rs] H Hfit; cbn [slots_rep] in H; try tauto.
  - exists [], [], None. cbn. repeat split; auto.
  - destruct H as [H1 H2]. cbn [bs_slots_mut].
    assert (Hfit2 : forall j r' v, nth_error rs j = Some r' -> In (k, v) (fst r') -> fits ser (2 ^ (S i + j)) (k, f v)).
    { intros j r' v A B. replace (S i + j) with (i + S j) by lia. eapply Hfit; eauto. }
    destruct (IH (S i) rs H2 Hfit2) as (sl' & rs' & o' & E & R & Z & O).
    destruct o as [v|].
    + pose proof (slot_aligned H1) as Ha. destruct H1 as (Hc & H1 & Hf).
      pose proof (@iv_find_mut_ok _ ser de Codec (fun kv => eqb (fst kv) k) (fun kv => (fst kv, f (snd kv))) v (fst r) (snd r) Ha H1) as G.
      assert (Hpre : forall x, In x (fst r) -> eqb (fst x) k = true -> fits ser (iv_chunk v) (fst x, f (snd x))).
      { intros [k' v'] A B. cbn [fst snd] in *. apply eqb_eq in B. subst k'. rewrite Hc. specialize (Hfit 0 r v' eq_refl A). rewrite Nat.add_0_r in Hfit. auto. }
      specialize (G Hpre). destruct (find_index (fun kv : K * V => eqb (fst kv) k) (fst r)) as [j|] eqn:Ej.
      * destruct G as (v' & [k' x] & A1 & A2 & A3 & A4). rewrite A2. cbn [bind].
        apply find_index_some in Ej as (y & B1 & B2 & _). rewrite A1 in B1. injection B1 as <-. cbn [fst snd] in *. apply eqb_eq in B2. subst k'.
        exists (Some v' :: sl), ((replace_nth j (k, f x) (fst r), snd r) :: rs), (Some x). split; auto.
        assert (Hj : j < length (fst r)) by (apply nth_error_Some; congruence).
        split; [split; auto; cbn [slot_rep fst snd]; rewrite A3; split; auto; split; auto|].
        { apply replace_nth_Forall; auto. rewrite <- Hc. apply (Hpre (k, x)); [eapply nth_error_In; eauto|apply eqb_refl]. }
        split; [cbn [sizes slot_sz fst]; unfold slot_sz; cbn [fst]; rewrite replace_nth_length; auto|].
        exists (remove_nth j (fst r) ++ concat (items rs)). cbn [items map concat fst].
        rewrite <- (remove_nth_perm _ _ A1) at 1. split; auto.
        assert (P : Permutation (replace_nth j (k, f x) (fst r)) ((k, f x) :: remove_nth j (fst r))).
        { rewrite replace_nth_split by auto. clear - Hj. set (l := fst r) in *. clearbody l. revert j Hj; induction l as [|a l IHl]; intros [|j] Hj; cbn in *; try lia; auto.
          rewrite perm_swap. constructor. apply IHl. lia. }
        rewrite P. auto.
      * rewrite G. cbn [bind]. rewrite E. cbn [bind]. exists (Some v :: sl'), (r :: rs'), o'. split; auto. split; [split; auto; split; auto|].
        split; [cbn [sizes]; rewrite Z; auto|]. cbn [items map concat].
        assert (Hno : ~ In k (keys (fst r))).
        { rewrite find_index_none in Ej. unfold keys. intros Hk. apply in_map_iff in Hk as (y & <- & Hy). specialize (Ej y Hy). cbn in Ej.
          rewrite eqb_refl in Ej. discriminate. }
        destruct o' as [x|].
        -- destruct O as (rest & P1 & P2). exists (fst r ++ rest). fold (items rs). fold (items rs'). rewrite P1, P2. split; perm0.
        -- destruct O as (O1 & ->). split; auto. fold (items rs). rewrite keys_app. intros Hk. apply in_app_or in Hk as [Hk|Hk]; auto.
    + cbn in H1. subst r. rewrite E. cbn [bind]. exists (None :: sl'), (([], 0) :: rs'), o'. split; auto. split; [split; auto; cbn; auto|].
      split; [cbn [sizes]; rewrite Z; auto|]. cbn [items map concat fst app]. destruct o' as [x|]; auto. destruct O as (O1 & ->). split; auto.
Qed.
End Proof.
