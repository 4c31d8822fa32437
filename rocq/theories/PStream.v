(** PStream.v -- property theorems: C35 (vector streams). *)
From Coq Require Import ZArith Init.Byte.
From Verif Require Import Base Stream.
Set Implicit Arguments.

(** ** Lists of bytes. *)
Lemma vec_resize_length n v : length (vec_resize n v) = n.
Proof. unfold vec_resize. rewrite app_length, firstn_length, repeat_length. lia. Qed.
Lemma nth_error_repeat {T} (x : T) n i : i < n -> nth_error (repeat x n) i = Some x.
Proof. revert i; induction n; intros [|i] H; cbn; auto; try lia. apply IHn; lia. Qed.
Lemma nth_error_firstn {T} n (l : list T) i : i < n -> nth_error (firstn n l) i = nth_error l i.
Proof. revert l i; induction n; intros [|x l] [|i] H; cbn; auto; try lia. apply IHn; lia. Qed.
Lemma nth_error_skipn {T} n (l : list T) i : nth_error (skipn n l) i = nth_error l (n + i).
Proof. revert l; induction n; intros [|x l]; cbn; auto. destruct i; auto. Qed.
Lemma vec_resize_nth n v i : i < n ->
  nth_error (vec_resize n v) i = if i <? length v then nth_error v i else Some x00.
Proof.
  intros H. unfold vec_resize. destruct (i <? length v) eqn:E.
  - apply Nat.ltb_lt in E. rewrite nth_error_app1 by (rewrite firstn_length; lia). apply nth_error_firstn; auto.
  - apply Nat.ltb_ge in E. rewrite nth_error_app2 by (rewrite firstn_length; lia). apply nth_error_repeat.
    rewrite firstn_length. lia.
Qed.
Lemma vec_resize_grow n v : length v <= n -> vec_resize n v = v ++ repeat x00 (n - length v).
Proof. intros H. unfold vec_resize. rewrite firstn_all2; auto. Qed.
Lemma vec_resize_shrink n v : n <= length v -> vec_resize n v = firstn n v.
Proof. intros H. unfold vec_resize. replace (n - length v) with 0 by lia. apply app_nil_r. Qed.
Lemma overwrite_length v p buf : p + length buf <= length v -> length (overwrite v p buf) = length v.
Proof. intros H. unfold overwrite. rewrite !app_length, firstn_length, skipn_length. lia. Qed.
Lemma vs_write_eq v p buf : p <= length v ->
  exists v', vs_write v p buf = Ok (v', p + length buf, Some (length buf)) /\
    length v' = Nat.max (length v) (p + length buf) /\
    v' = firstn p v ++ buf ++ skipn (p + length buf) v.
Proof.
  intros H. unfold vs_write, sub_chk. replace (p <=? length v) with true by (symmetry; apply Nat.leb_le; auto).
  cbn [bind]. eexists. split; [reflexivity|]. destruct (length v - p <? length buf) eqn:E.
  - apply Nat.ltb_lt in E. rewrite overwrite_length by (rewrite vec_resize_length; lia). rewrite vec_resize_length.
    split; [lia|]. unfold overwrite. rewrite vec_resize_grow by lia. f_equal.
    + rewrite firstn_app. replace (p - length v) with 0 by lia. apply app_nil_r.
    + f_equal. rewrite !skipn_all2; auto; rewrite ?app_length, ?repeat_length; lia.
  - apply Nat.ltb_ge in E. rewrite overwrite_length by lia. split; [lia|]. reflexivity.
Qed.

(** ** C35 *)
(** Bytes written at a position inside the stream are read back after seeking there, through any handle
    ([q] is the position of the handle that reads). *)
Theorem C35_write_then_read : forall v pos buf, pos <= length v ->
  exists v' pos', vs_write v pos buf = Ok (v', pos', Some (length buf)) /\ pos' = pos + length buf /\
    forall q, exists q', vs_seek v' q (SeekStart pos) = (v', pos, Some pos) /\
      vs_read v' pos (length buf) = (v', q', Some buf).
Proof.
  intros v pos buf H. destruct (@vs_write_eq v pos buf H) as (v' & E & L & D). exists v', (pos + length buf).
  split; auto. split; auto. intros q. unfold vs_seek. cbn [vs_target].
  replace (Z.of_nat pos <? 0)%Z with false by (symmetry; apply Z.ltb_ge; lia).
  replace (Z.of_nat (length v') <? Z.of_nat pos)%Z with false by (symmetry; apply Z.ltb_ge; lia).
  rewrite Nat2Z.id. unfold vs_read. destruct (length v' <=? pos) eqn:F.
  - apply Nat.leb_le in F. assert (buf = []) as -> by (destruct buf; auto; cbn in *; lia).
    exists pos. auto.
  - replace (length v' - pos <? length buf) with false by (symmetry; apply Nat.ltb_ge; lia).
    exists (pos + length buf). split; auto. do 2 f_equal. rewrite D, skipn_app, firstn_length.
    rewrite skipn_all2 by (rewrite firstn_length; lia). replace (pos - Nat.min pos (length v)) with 0 by lia.
    cbn [app skipn]. rewrite firstn_app, firstn_all, Nat.sub_diag. apply app_nil_r.
Qed.
(** A write changes the written range only, and extends the stream just as needed. *)
Theorem C35_write_changes_only_its_range : forall v pos buf, pos <= length v ->
  exists v' pos', vs_write v pos buf = Ok (v', pos', Some (length buf)) /\
    length v' = Nat.max (length v) (pos + length buf) /\
    (forall i, i < length v -> i < pos \/ pos + length buf <= i -> nth_error v' i = nth_error v i) /\
    (forall i, i < length buf -> nth_error v' (pos + i) = nth_error buf i).
Proof.
  intros v pos buf H. destruct (@vs_write_eq v pos buf H) as (v' & E & L & D). exists v', (pos + length buf).
  split; auto. split; auto. rewrite D. split.
  - intros i Hi [Hi2|Hi2].
    + rewrite nth_error_app1 by (rewrite firstn_length; lia). apply nth_error_firstn; auto.
    + rewrite nth_error_app2 by (rewrite firstn_length; lia). rewrite nth_error_app2 by (rewrite firstn_length; lia).
      rewrite nth_error_skipn, firstn_length. f_equal. lia.
  - intros i Hi. rewrite nth_error_app2 by (rewrite firstn_length; lia). rewrite firstn_length.
    rewrite nth_error_app1 by lia. f_equal. lia.
Qed.
(** A read returns the bytes from the position to the requested count or the end, advances past them and
    changes nothing. *)
Theorem C35_read_returns_range : forall v pos n,
  exists b, vs_read v pos n = (v, pos + length b, Some b) /\ length b = Nat.min n (length v - pos) /\
    forall i, i < length b -> nth_error b i = nth_error v (pos + i).
Proof.
  intros v pos n. unfold vs_read. destruct (length v <=? pos) eqn:E.
  - apply Nat.leb_le in E. exists []. cbn. replace (pos + 0) with pos by lia. split; auto. split; [lia|]. intros; lia.
  - apply Nat.leb_gt in E. set (len := if length v - pos <? n then length v - pos else n).
    assert (Hl : len = Nat.min n (length v - pos)).
    { unfold len. destruct (length v - pos <? n) eqn:F; [apply Nat.ltb_lt in F | apply Nat.ltb_ge in F]; lia. }
    exists (firstn len (skipn pos v)). assert (Hb : length (firstn len (skipn pos v)) = len).
    { rewrite firstn_length, skipn_length. lia. }
    rewrite Hb. split; auto. split; auto. intros i Hi. rewrite nth_error_firstn by auto. apply nth_error_skipn.
Qed.
(** One write and the same bytes written piece by piece, however they are cut, have the same effect; so do one read and
    successive reads.  (The serialiser makes many small writes where the model of the byte streams makes one.) *)
Lemma nth_ext_error {T} (l m : list T) : (forall i, nth_error l i = nth_error m i) -> l = m.
Proof.
  revert m. induction l as [|x l IH]; intros [|y m] H; auto; try (specialize (H 0); discriminate H).
  f_equal; [specialize (H 0); cbn in H; congruence|]. apply IH. intros i. exact (H (S i)).
Qed.
Lemma skipn_twice {T} (x y : nat) (l : list T) : skipn x (skipn y l) = skipn (x + y) l.
Proof. revert l. induction y as [|y IH]; intros [|h t]; rewrite ?Nat.add_0_r, ?skipn_nil; auto. rewrite Nat.add_succ_r. cbn [skipn]. apply IH. Qed.
Fixpoint write_pieces (v : list byte) (pos : nat) (bs : list (list byte)) : res (list byte * nat) :=
  match bs with
  | [] => Ok (v, pos)
  | b :: bs' => let* (vp, _) := vs_write v pos b in write_pieces (fst vp) (snd vp) bs'
  end.
Theorem C35_write_in_pieces : forall bs v pos, pos <= length v ->
  exists v', write_pieces v pos bs = Ok (v', pos + length (concat bs)) /\
    vs_write v pos (concat bs) = Ok (v', pos + length (concat bs), Some (length (concat bs))).
Proof.
  induction bs as [|b bs IH]; intros v pos H; cbn [write_pieces concat].
  - exists v. cbn [length]. rewrite Nat.add_0_r. split; auto. destruct (@vs_write_eq v pos [] H) as (v' & E & _ & D).
    rewrite E. cbn [length app] in *. rewrite Nat.add_0_r in *. rewrite firstn_skipn in D. subst. auto.
  - destruct (@vs_write_eq v pos b H) as (v1 & E1 & L1 & D1). rewrite E1. cbn [bind fst snd].
    destruct (IH v1 (pos + length b)) as (v2 & E2 & E3); [lia|]. exists v2. rewrite E2, app_length. split; [do 2 f_equal; lia|].
    destruct (@vs_write_eq v1 (pos + length b) (concat bs) ltac:(lia)) as (v2' & E4 & _ & D2). rewrite E3 in E4. injection E4 as <-.
    destruct (@vs_write_eq v pos (b ++ concat bs) H) as (v3 & E5 & _ & D3). rewrite E5, app_length.
    replace v3 with v2; auto. rewrite D2, D3, D1, <- !app_assoc, app_length.
    rewrite (firstn_app (pos + length b)), firstn_firstn, !firstn_length. replace (Nat.min (pos + length b) pos) with pos by lia.
    replace (pos + length b - Nat.min pos (length v)) with (length b) by lia. rewrite firstn_app, firstn_all, Nat.sub_diag. cbn [firstn]. rewrite app_nil_r, <- app_assoc. do 3 f_equal.
    rewrite skipn_app, firstn_length. rewrite (skipn_all2 (firstn pos v)) by (rewrite firstn_length; lia). cbn [app].
    rewrite skipn_app. rewrite (skipn_all2 b) by lia. cbn [app]. rewrite skipn_twice. f_equal. lia.
Qed.
Theorem C35_read_in_pieces : forall v pos n m,
  exists b c p q, vs_read v pos n = (v, p, Some b) /\ vs_read v p m = (v, q, Some c) /\ vs_read v pos (n + m) = (v, q, Some (b ++ c)).
Proof.
  intros v pos n m. destruct (C35_read_returns_range v pos n) as (b & E1 & L1 & N1).
  destruct (C35_read_returns_range v (pos + length b) m) as (c & E2 & L2 & N2).
  destruct (C35_read_returns_range v pos (n + m)) as (d & E3 & L3 & N3).
  exists b, c, (pos + length b), (pos + length b + length c). split; auto. split; auto. rewrite E3.
  assert (d = b ++ c) as ->; [|rewrite app_length; do 2 f_equal; lia].
  apply nth_ext_error. intros i. destruct (Nat.lt_ge_cases i (length d)) as [H|H].
  - rewrite N3 by auto. destruct (Nat.lt_ge_cases i (length b)) as [G|G].
    + rewrite nth_error_app1 by auto. symmetry. auto.
    + rewrite nth_error_app2 by auto. rewrite N2 by lia. f_equal. lia.
  - rewrite (proj2 (nth_error_None d i)) by auto. symmetry. apply nth_error_None. rewrite app_length. lia.
Qed.
(** A seek goes to the requested place, clamped to the stream. *)
Theorem C35_seek_clamped : forall v pos s,
  let wanted := match s with SeekStart n => Z.of_nat n | SeekEnd z => (Z.of_nat (length v) + z)%Z
                | SeekCurrent z => (Z.of_nat pos + z)%Z end in
  exists p, vs_seek v pos s = (v, p, Some p) /\ Z.of_nat p = Z.max 0 (Z.min (Z.of_nat (length v)) wanted) /\
    p <= length v.
Proof.
  intros v pos s wanted. unfold vs_seek. eexists. split; [reflexivity|].
  assert (W : vs_target (length v) pos s = wanted) by (unfold wanted; destruct s; cbn; lia). rewrite W. clearbody wanted.
  destruct (wanted <? 0)%Z eqn:E; [apply Z.ltb_lt in E; split; lia|]. apply Z.ltb_ge in E.
  destruct (Z.of_nat (length v) <? wanted)%Z eqn:F; [apply Z.ltb_lt in F | apply Z.ltb_ge in F]; split; lia.
Qed.
(** A resize truncates or extends with zeros, and brings the position back inside. *)
Theorem C35_resize_truncates_or_extends : forall v pos n,
  exists v' pos', vs_resize v pos n = (v', pos', Some tt) /\ length v' = n /\ pos' = Nat.min pos n /\
    (forall i, i < n -> nth_error v' i = if i <? length v then nth_error v i else Some x00).
Proof.
  intros v pos n. unfold vs_resize. eexists _, _. split; [reflexivity|]. rewrite vec_resize_length. split; auto. split.
  - destruct (n <? pos) eqn:E; [apply Nat.ltb_lt in E | apply Nat.ltb_ge in E]; lia.
  - apply vec_resize_nth.
Qed.

(** Clones share the contents but not the position: a call through one handle leaves the position of every
    other handle as it was, and its reply and its effect on the contents do not depend on the other handles. *)
Definition by_handle (c : stream_call) : nat :=
  match c with CallClone i | CallRead i _ | CallWrite i _ | CallSeek i _ | CallResize i _ => i end.
Lemma replace_nth_other {T} i j (x : T) l : i <> j -> nth_error (replace_nth i x l) j = nth_error l j.
Proof. revert i j; induction l; intros [|i] [|j] H; cbn; auto; try lia. Qed.
Lemma replace_nth_same {T} i (x : T) l : i < length l -> nth_error (replace_nth i x l) i = Some x.
Proof. revert i; induction l; intros [|i] H; cbn in *; auto; try lia. apply IHl; lia. Qed.
Theorem C35_clones_have_their_own_position : forall c v (ps : list nat) v' ps' r,
  call VecStream c (v, ps) = Ok (v', ps', r) ->
  forall j, j <> by_handle c -> j < length ps -> nth_error ps' j = nth_error ps j.
Proof.
  intros c v ps v' ps' r H j Hj Hl. destruct c as [i|i n|i b|i s|i n]; cbn [by_handle] in Hj; cbn -[vs_read vs_write vs_seek vs_resize] in H;
    (destruct (nth_error ps i) as [p|] eqn:Ei; [|injection H as <- <- <-; auto]).
  - injection H as <- <- <-. rewrite nth_error_app1; auto.
  - destruct (vs_read v p n) as [[w h] o]. injection H as <- <- <-. apply replace_nth_other; auto.
  - destruct (vs_write v p b) as [[[w h] o]|]; [|discriminate]. cbn in H. injection H as <- <- <-. apply replace_nth_other; auto.
  - destruct (vs_seek v p s) as [[w h] o]. injection H as <- <- <-. apply replace_nth_other; auto.
  - injection H as <- <- <-. apply replace_nth_other; auto.
Qed.
Theorem C35_clones_share_contents : forall c v (ps qs : list nat) v' ps' r,
  call VecStream c (v, ps) = Ok (v', ps', r) -> by_handle c < length ps ->
  nth_error qs (by_handle c) = nth_error ps (by_handle c) ->
  exists qs', call VecStream c (v, qs) = Ok (v', qs', r).
Proof.
  intros c v ps qs v' ps' r H Hl Hq. destruct c as [i|i n|i b|i s|i n]; cbn [by_handle] in *;
    cbn -[vs_read vs_write vs_seek vs_resize] in *; rewrite Hq;
    (destruct (nth_error ps i) as [p|] eqn:Ei; [|apply nth_error_None in Ei; lia]).
  - injection H as <- <- <-. eexists; reflexivity.
  - destruct (vs_read v p n) as [[w h] o]. injection H as <- <- <-. eexists; reflexivity.
  - destruct (vs_write v p b) as [[[w h] o]|]; [|discriminate]. cbn in *. injection H as <- <- <-. eexists; reflexivity.
  - destruct (vs_seek v p s) as [[w h] o]. injection H as <- <- <-. eexists; reflexivity.
  - injection H as <- <- <-. eexists; reflexivity.
Qed.

(** No call panics as long as the stream is not shrunk behind the back of a clone: whatever the number of
    handles, if no resize goes below the length reached so far; with a single handle, always. *)
Definition inside (x : list byte * list nat) : Prop := Forall (fun p => p <= length (fst x)) (snd x).
Fixpoint no_shrink (l : list stream_call) (x : handles VecStream) : Prop :=
  match l with
  | [] => True
  | c :: l' =>
      (match c with CallResize _ n => length (fst x) <= n \/ length (snd x) <= 1 | _ => True end) /\
      forall x' r, call VecStream c x = Ok (x', r) -> no_shrink l' x'
  end.
Lemma replace_nth_Forall {T} (P : T -> Prop) i x l : Forall P l -> P x -> Forall P (replace_nth i x l).
Proof.
  intros H Hx; revert i; induction H; intros [|i]; cbn; constructor; auto.
Qed.
Lemma inside_mono (ps : list nat) n m : n <= m -> Forall (fun p => p <= n) ps -> Forall (fun p => p <= m) ps.
Proof. intros H. apply Forall_impl. lia. Qed.
Lemma call_ok c x : inside x ->
  match c with CallResize _ n => length (fst x) <= n \/ length (snd x) <= 1 | _ => True end ->
  exists x' r, call VecStream c x = Ok (x', r) /\ inside x'.
Proof.
  destruct x as [v ps]. intros Hi Hs. unfold inside in *; cbn [fst snd] in *.
  assert (Hp : forall i p, nth_error ps i = Some p -> p <= length v).
  { intros i p E. rewrite Forall_forall in Hi. apply Hi. eapply nth_error_In; eauto. }
  destruct c as [i|i n|i b|i s|i n]; cbn -[vs_read vs_write vs_seek vs_resize];
    (destruct (nth_error ps i) as [p|] eqn:Ei; [specialize (Hp _ _ Ei)|eexists _, _; split; [reflexivity|exact Hi]]).
  - eexists _, _. split; [reflexivity|]. cbn. apply Forall_app. auto.
  - destruct (C35_read_returns_range v p n) as (b & E & L & _). rewrite E. eexists _, _. split; [reflexivity|]. cbn.
    apply replace_nth_Forall; auto. lia.
  - destruct (@vs_write_eq v p b Hp) as (v' & E & L & _). rewrite E. cbn. eexists _, _. split; [reflexivity|]. cbn.
    apply replace_nth_Forall; [|lia]. eapply inside_mono; [|exact Hi]. lia.
  - destruct (C35_seek_clamped v p s) as (q & E & _ & L). rewrite E. eexists _, _. split; [reflexivity|]. cbn.
    apply replace_nth_Forall; auto.
  - destruct (C35_resize_truncates_or_extends v p n) as (v' & q & E & L & Q & _). rewrite E. eexists _, _. split; [reflexivity|]. cbn.
    destruct Hs as [Hs|Hs].
    + apply replace_nth_Forall; [eapply inside_mono; [|exact Hi]; lia|lia].
    + destruct ps as [|a [|b ps]]; [destruct i; discriminate| |cbn in Hs; lia]. destruct i as [|i]; [|destruct i; discriminate].
      cbn. constructor; [lia|constructor].
Qed.
Theorem C35_never_panics_unless_shrunk_partial : forall l x, inside x -> no_shrink l x ->
  exists x' rs, calls VecStream l x = Ok (x', rs) /\ inside x'.
Proof.
  induction l as [|c l IH]; intros x Hi Hn; cbn [calls].
  - eauto.
  - destruct Hn as [H1 H2]. destruct (@call_ok c x Hi H1) as (x1 & r & E & H3). rewrite E. cbn [bind].
    destruct (IH x1 H3 (H2 _ _ E)) as (x2 & rs & E2 & H4). rewrite E2. cbn [bind]. eauto.
Qed.
Theorem C35_one_handle_never_panics : forall l v p, p <= length v ->
  (forall c, In c l -> match c with CallClone _ => False | _ => True end) ->
  exists v' p' rs, calls VecStream l (v, [p]) = Ok ((v', [p']), rs) /\ p' <= length v'.
Proof.
  induction l as [|c l IH]; intros v p Hp Hc; cbn [calls]; [eauto 6|].
  destruct (@call_ok c (v, [p])) as ([v1 ps1] & r & E & H3).
  { repeat constructor; auto. } { destruct c; cbn; auto. }
  assert (exists p1, ps1 = [p1]) as [p1 ->].
  { specialize (Hc c (or_introl eq_refl)). destruct c as [i|i n|i b|i s|i n]; cbn -[vs_read vs_write vs_seek vs_resize] in *; try tauto;
      (destruct i as [|i]; cbn [nth_error] in E; [|destruct i; cbn in E; injection E as <- <- <-; eauto]).
    - destruct (vs_read v p n) as [[w h] o]. injection E as <- <- <-. cbn; eauto.
    - destruct (vs_write v p b) as [[[w h] o]|]; [|discriminate]. cbn in *. injection E as <- <- <-. cbn; eauto.
    - destruct (vs_seek v p s) as [[w h] o]. injection E as <- <- <-. cbn; eauto.
    - injection E as <- <- <-. cbn; eauto. }
  rewrite E. cbn [bind]. unfold inside in H3. cbn [fst snd] in H3. apply Forall_inv in H3.
  destruct (IH v1 p1 H3) as (v' & p' & rs & E2 & H4).
  { intros c' Hc'. apply Hc. right; auto. }
  exists v', p', (r :: rs). split; auto.
  exact (f_equal (fun z => let* (x2, rs) := z in Ok (x2, r :: rs)) E2).
Qed.
(** A write panics exactly when the stream was shrunk below the position of its handle... *)
Theorem C35_write_panics_iff : forall v pos buf, vs_write v pos buf = Panic <-> length v < pos.
Proof.
  intros v pos buf. unfold vs_write, sub_chk. destruct (pos <=? length v) eqn:E; cbn [bind].
  - apply Nat.leb_le in E. split; [discriminate | lia].
  - apply Nat.leb_gt in E. split; auto.
Qed.
(** ... which a clone can do: for any bytes written, resized away through a clone, then written again. *)
Theorem C35_shrunk_by_clone_panics_refuted : forall b bs buf,
  calls VecStream [CallWrite 0 (b :: bs); CallClone 0; CallResize 1 0; CallWrite 0 buf] ([], [0]) = Panic.
Proof. intros. reflexivity. Qed.
(** A file would write there. *)
Theorem C35_file_would_write : forall b bs buf, exists x rs,
  calls FileStream [CallWrite 0 (b :: bs); CallClone 0; CallResize 1 0; CallWrite 0 buf] (([], 0), [tt]) = Ok (x, rs).
Proof. intros. eexists _, _. reflexivity. Qed.

(** The provided [is_empty] says the opposite. *)
Theorem C35_is_empty_inverted_refuted : forall v pos,
  exists p, st_is_empty VecStream v pos = (v, p, Some (negb (match v with [] => true | _ => false end))).
Proof.
  intros v pos. unfold st_is_empty, st_len. destruct (C35_seek_clamped v pos (SeekEnd 0)) as (p & E & Hp & _).
  cbn [s_seek VecStream]. rewrite E. exists p. do 2 f_equal. destruct v; cbn [length] in Hp; cbn.
  - assert (p = 0) as -> by lia. auto.
  - destruct p; [lia|auto].
Qed.
(** A file stream cannot be read back: it is opened for writing only. *)
Theorem C35_file_stream_unreadable_refuted : forall w h n, s_read FileStream w h n = (w, h, None).
Proof. reflexivity. Qed.

(** A run on which the hypotheses above hold: two clones, a hole-free overwrite, a growing resize. *)
Example c35_case : exists rs,
  calls VecStream [CallWrite 0 [x01; x02; x03]; CallClone 0; CallSeek 1 (SeekStart 1); CallWrite 1 [x07];
    CallResize 0 5; CallSeek 0 (SeekEnd (-4)); CallRead 0 9] ([], [0]) = Ok (([x01; x07; x03; x00; x00], [5; 2]), rs) /\
  nth_error rs 6 = Some (ReplyBytes [x07; x03; x00; x00]).
Proof. eexists. split; reflexivity. Qed.

Print Assumptions C35_write_then_read.
Print Assumptions C35_never_panics_unless_shrunk_partial.
