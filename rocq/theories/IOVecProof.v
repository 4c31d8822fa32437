(** IOVecProof.v -- an IOVec over a VecStream is a vector of values (invariants and lemmas). *)
From Coq Require Import ZArith NArith Init.Byte.
From Verif Require Import Base Stream PStream IOVec.
Set Implicit Arguments.

Lemma replace_nth_split {T} n (x : T) l : n < length l -> replace_nth n x l = firstn n l ++ x :: skipn (S n) l.
Proof. revert n; induction l; intros [|n] H; cbn in *; try lia; auto. f_equal. apply IHl. lia. Qed.

Lemma skipn_skipn {T} a b (l : list T) : skipn a (skipn b l) = skipn (b + a) l.
Proof. revert b; induction l; intros [|b]; cbn; auto; rewrite ?skipn_nil; auto. Qed.

(** ** Byte strings cut in chunks of one length. *)
Section Chunks.
Variable c : nat.
Definition cut (cs : list (list byte)) : Prop := Forall (fun ch => length ch = c) cs.
Lemma concat_length cs : cut cs -> length (concat cs) = length cs * c.
Proof. unfold cut. induction 1; cbn; auto. rewrite app_length. lia. Qed.
Lemma skipn_concat cs n : cut cs -> skipn (n * c) (concat cs) = concat (skipn n cs).
Proof.
  unfold cut. intros H; revert n; induction H as [|ch cs H1 H2 IH]; intros n; cbn [concat].
  - rewrite !skipn_nil. auto.
  - destruct n as [|n]; cbn [skipn Nat.mul]; auto. rewrite skipn_app, <- H1.
    rewrite skipn_all2 by lia. replace (length ch + n * length ch - length ch) with (n * length ch) by lia.
    cbn [app]. rewrite H1. apply IH.
Qed.
Lemma firstn_concat cs n : cut cs -> firstn (n * c) (concat cs) = concat (firstn n cs).
Proof.
  unfold cut. intros H; revert n; induction H as [|ch cs H1 H2 IH]; intros n; cbn [concat].
  - rewrite !firstn_nil. auto.
  - destruct n as [|n]; cbn [firstn Nat.mul concat]; auto. rewrite firstn_app, <- H1.
    rewrite firstn_all2 by lia. replace (length ch + n * length ch - length ch) with (n * length ch) by lia.
    rewrite H1. f_equal. apply IH.
Qed.
Lemma cut_nth cs n ch : cut cs -> nth_error cs n = Some ch -> firstn c (skipn (n * c) (concat cs)) = ch.
Proof.
  intros H E. rewrite skipn_concat by auto. apply nth_error_split in E as (l1 & l2 & -> & <-).
  rewrite skipn_app, skipn_all, Nat.sub_diag. cbn [app skipn concat]. unfold cut in H. apply Forall_app in H as [_ H].
  inversion H; subst. rewrite firstn_app, firstn_all, Nat.sub_diag. cbn. apply app_nil_r.
Qed.
Lemma cut_firstn cs n : cut cs -> cut (firstn n cs).
Proof. unfold cut. intros H. rewrite <- (firstn_skipn n cs) in H. apply Forall_app in H. tauto. Qed.
Lemma cut_skipn cs n : cut cs -> cut (skipn n cs).
Proof. unfold cut. intros H. rewrite <- (firstn_skipn n cs) in H. apply Forall_app in H. tauto. Qed.
Lemma cut_replace cs n ch : cut cs -> length ch = c -> cut (replace_nth n ch cs).
Proof. intros. apply replace_nth_Forall; auto. Qed.
Lemma overwrite_concat cs n ch : cut cs -> n < length cs -> length ch = c ->
  firstn (n * c) (concat cs) ++ ch ++ skipn (n * c + length ch) (concat cs) = concat (replace_nth n ch cs).
Proof.
  intros H Hn Hl. rewrite replace_nth_split by auto. rewrite concat_app. cbn [concat].
  replace (n * c + length ch) with (S n * c) by lia. rewrite skipn_concat, firstn_concat by auto. auto.
Qed.
End Chunks.

Lemma Forall2_length {A B} (R : A -> B -> Prop) l1 l2 : Forall2 R l1 l2 -> length l1 = length l2.
Proof. induction 1; cbn; auto. Qed.
Lemma Forall2_nth {A B} (R : A -> B -> Prop) l1 l2 n x : Forall2 R l1 l2 -> nth_error l2 n = Some x ->
  exists y, nth_error l1 n = Some y /\ R y x.
Proof. intros H; revert n; induction H; intros [|n] E; try discriminate; cbn in *; [inversion E; subst; eauto | eauto]. Qed.
Lemma Forall2_replace {A B} (R : A -> B -> Prop) l1 l2 n a b : Forall2 R l1 l2 -> R a b ->
  Forall2 R (replace_nth n a l1) (replace_nth n b l2).
Proof. intros H Hr; revert n; induction H; intros [|n]; cbn; constructor; auto. Qed.
Lemma Forall2_firstn {A B} (R : A -> B -> Prop) l1 l2 n : Forall2 R l1 l2 -> Forall2 R (firstn n l1) (firstn n l2).
Proof. intros H; revert n; induction H; intros [|n]; cbn; constructor; auto. Qed.
Lemma Forall2_skipn {A B} (R : A -> B -> Prop) l1 l2 n : Forall2 R l1 l2 -> Forall2 R (skipn n l1) (skipn n l2).
Proof. intros H; revert n; induction H; intros [|n]; cbn; auto. Qed.

(** ** Positions of a VecStream. *)
Lemma seek_start v q n : n <= length v -> vs_seek v q (SeekStart n) = (v, n, Some n).
Proof.
  intros H. destruct (C35_seek_clamped v q (SeekStart n)) as (p & E & Hp & _). rewrite E.
  assert (p = n) as -> by lia. auto.
Qed.
Lemma seek_start_beyond v q n : length v <= n -> vs_seek v q (SeekStart n) = (v, length v, Some (length v)).
Proof.
  intros H. destruct (C35_seek_clamped v q (SeekStart n)) as (p & E & Hp & _). rewrite E.
  assert (p = length v) as -> by lia. auto.
Qed.
Lemma seek_end v q : vs_seek v q (SeekEnd 0) = (v, length v, Some (length v)).
Proof.
  destruct (C35_seek_clamped v q (SeekEnd 0)) as (p & E & Hp & _). rewrite E.
  assert (p = length v) as -> by lia. auto.
Qed.
Lemma seek_current v q n : q + n <= length v -> vs_seek v q (SeekCurrent (Z.of_nat n)) = (v, q + n, Some (q + n)).
Proof.
  intros H. destruct (C35_seek_clamped v q (SeekCurrent (Z.of_nat n))) as (p & E & Hp & _). rewrite E.
  assert (p = q + n) as -> by lia. auto.
Qed.
Lemma seek_current0 v q : q <= length v -> vs_seek v q (SeekCurrent 0) = (v, q, Some q).
Proof. intros H. change 0%Z with (Z.of_nat 0). rewrite seek_current by lia. rewrite Nat.add_0_r. auto. Qed.
Lemma read_full v p n : p + n <= length v -> vs_read v p n = (v, p + n, Some (firstn n (skipn p v))).
Proof.
  intros H. unfold vs_read. destruct (length v <=? p) eqn:E.
  - apply Nat.leb_le in E. assert (n = 0) as -> by lia. cbn. rewrite Nat.add_0_r. auto.
  - replace (length v - p <? n) with false by (symmetry; apply Nat.ltb_ge; lia). auto.
Qed.
Lemma read_rest v p n : length v <= p + n -> p <= length v -> vs_read v p n = (v, length v, Some (skipn p v)).
Proof.
  intros H H2. unfold vs_read. destruct (length v <=? p) eqn:E.
  - apply Nat.leb_le in E. assert (p = length v) as -> by lia. rewrite skipn_all. auto.
  - apply Nat.leb_gt in E. destruct (length v - p <? n) eqn:F.
    + rewrite firstn_all2 by (rewrite skipn_length; lia). replace (p + (length v - p)) with (length v) by lia. auto.
    + apply Nat.ltb_ge in F. assert (n = length v - p) as -> by lia.
      rewrite firstn_all2 by (rewrite skipn_length; lia). replace (p + (length v - p)) with (length v) by lia. auto.
Qed.

Section IOVecProof.
Variable T : Type.
Variable ser : T -> option (list byte).
Variable de : list byte -> option T.
(** bincode round trips, and deserializing ignores what follows the value. *)
Definition codec_ok : Prop := forall x b rest, ser x = Some b -> de (b ++ rest) = Some x.
Hypothesis Codec : codec_ok.

Notation iovec := (iovec VecStream).

(** A chunk of [c] bytes from which [x] is read. *)
Definition encodes (c : nat) (ch : list byte) (x : T) : Prop := length ch = c /\ de ch = Some x.
(** [v] holds the values [xs], in that order; its own handle is at the [k]th of them. *)
Definition iv_ok (v : iovec) (xs : list T) (k : nat) : Prop :=
  1 <= iv_chunk v /\ iv_h v = k * iv_chunk v /\ k <= length xs /\ (k = 0 -> xs = []) /\
  exists cs, iv_w v = concat cs /\ Forall2 (encodes (iv_chunk v)) cs xs.
(** The buffer of an iterator is a whole number of chunks, or chunks are not smaller. *)
Definition aligned (c : nat) : Prop := bufcap <= c \/ exists q, bufcap = q * c.

Lemma encodes_cut c cs xs : Forall2 (encodes c) cs xs -> cut c cs.
Proof. unfold cut. induction 1 as [|? ? ? ? [? ?]]; constructor; auto. Qed.
Lemma iv_ok_length v xs k : iv_ok v xs k -> length (iv_w v : list byte) = length xs * iv_chunk v.
Proof.
  intros (_ & _ & _ & _ & cs & E & F). rewrite E. erewrite concat_length by (eapply encodes_cut; eauto).
  apply Forall2_length in F. rewrite F. auto.
Qed.
Lemma iv_size_ok v xs k : iv_ok v xs k -> iv_size v = Some (length xs * iv_chunk v).
Proof.
  intros H. unfold iv_size. cbn [s_seek s_clone VecStream]. rewrite seek_end. cbn [snd].
  f_equal. apply (iv_ok_length H).
Qed.
Lemma iv_new_ok c : 1 <= c -> iv_ok (iv_new VecStream (s_new VecStream) c) [] 0.
Proof. intros H. split; auto. split; auto. split; auto. split; auto. exists []. split; auto. Qed.

(** ** Iteration *)
Definition br_ok (c : nat) (b : bufreader VecStream) (xs : list T) : Prop :=
  exists cs csb, Forall2 (encodes c) cs xs /\ cut c csb /\ br_buf b = concat csb /\
    br_h b <= length (br_w b : list byte) /\
    br_buf b ++ skipn (br_h b) (br_w b : list byte) = concat cs /\ (bufcap <= c -> br_buf b = []).

Lemma iter_next_ok c b x xs : 1 <= c -> aligned c -> br_ok c b (x :: xs) ->
  exists b', iter_next de c b = Ok (b', Some x) /\ br_ok c b' xs /\ br_w b' = br_w b.
Proof.
  intros Hc Ha (cs & csb & F & Fb & Eb & Hh & E & Hbig). inversion F as [|ch x' cs' xs' [Hl Hd] F']; subst.
  assert (Hcs : cut (length ch) cs') by (eapply encodes_cut; eauto).
  set (c := length ch) in *. unfold iter_next. destruct b as [w h buf]. cbn [br_w br_h br_buf] in *. unfold br_read. cbn [br_buf br_w br_h].
  destruct csb as [|chb csb].
  - cbn in Eb. subst buf. cbn [app] in E. destruct (bufcap <=? c) eqn:Eq.
    + (* direct read *)
      apply Nat.leb_le in Eq. assert (Hlen : h + c <= length w).
      { apply (f_equal (@length byte)) in E. rewrite skipn_length in E. cbn [concat] in E. rewrite app_length in E. fold c in E. lia. }
      cbn [s_read VecStream]. rewrite read_full by lia. rewrite E. cbn [concat].
      unfold c at 2. rewrite firstn_app, firstn_all, Nat.sub_diag. cbn [firstn]. rewrite app_nil_r.
      unfold chunk_from. fold c. rewrite Nat.ltb_irrefl. rewrite Hd. eexists. split; [reflexivity|]. split; auto.
      exists cs', []. cbn [br_w br_h br_buf]. repeat split; auto; try constructor. cbn [app].
      rewrite <- skipn_skipn, E. cbn [concat]. unfold c. rewrite skipn_app, skipn_all, Nat.sub_diag. auto.
    + apply Nat.leb_gt in Eq. destruct Ha as [Ha|[q Hq]]; [lia|]. cbn [s_read VecStream].
      assert (Hq1 : 1 <= q) by (destruct q; cbn in Hq; lia).
      destruct (Nat.le_ge_cases (h + bufcap) (length w)) as [Hle|Hge].
      * rewrite read_full by lia. rewrite E. set (buf := firstn bufcap (concat (ch :: cs'))).
        assert (Hbuf : buf = concat (firstn q (ch :: cs'))).
        { unfold buf. rewrite Hq. apply firstn_concat. constructor; auto. }
        assert (Hfirst : firstn c buf = ch).
        { rewrite Hbuf. destruct q; [lia|]. cbn [firstn concat]. unfold c. rewrite firstn_app, firstn_all, Nat.sub_diag. cbn. apply app_nil_r. }
        unfold chunk_from. rewrite Hfirst. fold c. rewrite Nat.ltb_irrefl, Hd.
        eexists. split; [reflexivity|]. split; auto. exists cs', (firstn (q - 1) cs'). cbn [br_w br_h br_buf].
        assert (Hsk : skipn c buf = concat (firstn (q - 1) cs')).
        { rewrite Hbuf. destruct q; [lia|]. cbn [firstn concat]. unfold c. rewrite skipn_app, skipn_all, Nat.sub_diag.
          cbn. rewrite Nat.sub_0_r. auto. }
        repeat split; auto; [apply cut_firstn; auto| |lia].
        rewrite Hsk, <- skipn_skipn, E. rewrite Hq. rewrite skipn_concat by (constructor; auto).
        destruct q; [lia|]. cbn [skipn]. rewrite Nat.sub_succ, Nat.sub_0_r. rewrite <- concat_app, firstn_skipn. auto.
      * rewrite read_rest by lia. rewrite E. cbn [concat].
        assert (Hfirst : firstn c (ch ++ concat cs') = ch).
        { unfold c. rewrite firstn_app, firstn_all, Nat.sub_diag. cbn. apply app_nil_r. }
        unfold chunk_from. rewrite Hfirst. fold c. rewrite Nat.ltb_irrefl, Hd.
        eexists. split; [reflexivity|]. split; auto. exists cs', cs'. cbn [br_w br_h br_buf].
        assert (Hsk : skipn c (ch ++ concat cs') = concat cs').
        { unfold c. rewrite skipn_app, skipn_all, Nat.sub_diag. auto. }
        rewrite Hsk. repeat split; auto; [|lia]. rewrite skipn_all, app_nil_r. auto.
  - (* from the buffer *)
    inversion Fb as [|? ? Hb1 Hb2]; subst. cbn [concat] in *.
    assert (chb = ch) as ->.
    { rewrite <- app_assoc in E. apply (f_equal (firstn c)) in E.
      rewrite (firstn_app c chb), (firstn_app c ch) in E. rewrite Hb1 in E. unfold c in E. rewrite Nat.sub_diag in E. cbn in E.
      rewrite !app_nil_r in E. rewrite firstn_all in E. rewrite firstn_all2 in E by (fold c; lia). auto. }
    rewrite <- app_assoc in E. apply app_inv_head in E.
    destruct (ch ++ concat csb) as [|z zs] eqn:Ez.
    { destruct ch; [|discriminate]. cbn in c. subst c. cbn in Hc. lia. }
    rewrite <- Ez. assert (Hfirst : firstn c (ch ++ concat csb) = ch).
    { unfold c. rewrite firstn_app, firstn_all, Nat.sub_diag. cbn. apply app_nil_r. }
    unfold chunk_from. rewrite Hfirst. fold c. rewrite Nat.ltb_irrefl, Hd.
    eexists. split; [reflexivity|]. split; auto. exists cs', csb. cbn [br_w br_h br_buf].
    assert (Hsk : skipn c (ch ++ concat csb) = concat csb).
    { unfold c. rewrite skipn_app, skipn_all, Nat.sub_diag. auto. }
    rewrite Hsk. repeat split; auto. intros Hbg. specialize (Hbig Hbg). discriminate.
Qed.
Lemma iter_next_end c b : 1 <= c -> br_ok c b [] -> exists b', iter_next de c b = Ok (b', None).
Proof.
  intros Hc (cs & csb & F & Fb & Eb & Hh & E & _). inversion F; subst. cbn in E. apply app_eq_nil in E as [E1 E2].
  unfold iter_next, br_read. destruct b as [w h buf]. cbn [br_w br_h br_buf] in *. subst buf. rewrite E1.
  assert (h = length w) as ->.
  { apply (f_equal (@length byte)) in E2. rewrite skipn_length in E2. cbn in E2. lia. }
  cbn [s_read VecStream]. rewrite !read_rest by lia. rewrite skipn_all.
  destruct (bufcap <=? c) eqn:Eq; cbn [chunk_from firstn]; rewrite ?firstn_nil; cbn [length];
    (replace (0 <? c) with true by (symmetry; apply Nat.ltb_lt; lia)); eauto.
Qed.
Lemma iter_list_ok c : 1 <= c -> aligned c -> forall xs b fuel, br_ok c b xs -> length xs < fuel ->
  iter_list de c fuel b = Ok xs.
Proof.
  intros Hc Ha. induction xs as [|x xs IH]; intros b [|fuel] H Hf; try (cbn in Hf; lia); cbn [iter_list].
  - destruct (iter_next_end Hc H) as [b' E]. rewrite E. auto.
  - destruct (iter_next_ok Hc Ha H) as (b' & E & H' & _). rewrite E. cbn [bind]. rewrite IH; auto. cbn in Hf. lia.
Qed.
(** [find_map] over the values from index [j] on. *)
Fixpoint find_from {A} (p : nat -> T -> option A) (j : nat) (xs : list T) : option A :=
  match xs with
  | [] => None
  | x :: xs' => match p j x with Some a => Some a | None => find_from p (S j) xs' end
  end.
Lemma iter_find_ok {A} (p : nat -> T -> option A) c : 1 <= c -> aligned c -> forall xs b fuel j, br_ok c b xs -> length xs < fuel ->
  iter_find de p c fuel j b = Ok (find_from p j xs).
Proof.
  intros Hc Ha. induction xs as [|x xs IH]; intros b [|fuel] j H Hf; try (cbn in Hf; lia); cbn [iter_find find_from].
  - destruct (iter_next_end Hc H) as [b' E]. rewrite E. auto.
  - destruct (iter_next_ok Hc Ha H) as (b' & E & H' & _). rewrite E. cbn [bind]. destruct (p j x); auto.
    apply IH; auto. cbn in Hf. lia.
Qed.

Lemma iv_fuel_ok v xs k : iv_ok v xs k -> length xs < iv_fuel v.
Proof.
  intros H. unfold iv_fuel. rewrite (iv_size_ok H). destruct H as (Hc & _). nia.
Qed.
Lemma br_at v xs k n : iv_ok v xs k -> n <= length xs ->
  br_ok (iv_chunk v) (br_new VecStream (iv_w v) (n * iv_chunk v)) (skipn n xs).
Proof.
  intros H Hn. pose proof (iv_ok_length H) as L. destruct H as (Hc & Hh & Hk & _ & cs & E & F).
  exists (skipn n cs), []. cbn [br_w br_h br_buf br_new]. split; [apply Forall2_skipn; auto|]. split; [constructor|]. split; auto.
  split; [rewrite L; nia|]. split; auto. cbn [app]. rewrite E. apply skipn_concat. eapply encodes_cut; eauto.
Qed.
Lemma iv_iter_ok v xs k : iv_ok v xs k ->
  iv_iter v = Ok (br_new VecStream (iv_w v) (0 * iv_chunk v)).
Proof. intros H. unfold iv_iter. cbn [s_seek s_clone VecStream]. rewrite seek_start by lia. auto. Qed.
Lemma iv_list_ok v xs k : aligned (iv_chunk v) -> iv_ok v xs k -> iv_list de v = Ok xs.
Proof.
  intros Ha H. unfold iv_list. rewrite (iv_iter_ok H). cbn [bind]. apply iter_list_ok; auto; [apply H| |apply (iv_fuel_ok H)].
  apply (br_at H (n := 0)). lia.
Qed.
Lemma iv_find_ok {A} (p : nat -> T -> option A) v xs k : aligned (iv_chunk v) -> iv_ok v xs k ->
  iv_find de p v = Ok (find_from p 0 xs).
Proof.
  intros Ha H. unfold iv_find. rewrite (iv_iter_ok H). cbn [bind]. apply iter_find_ok; auto; [apply H| |apply (iv_fuel_ok H)].
  apply (br_at H (n := 0)). lia.
Qed.
Lemma iv_into_list_ok v xs k : aligned (iv_chunk v) -> iv_ok v xs k -> iv_into_list de v = Ok (skipn k xs).
Proof.
  intros Ha H. unfold iv_into_list. pose proof (iv_fuel_ok H) as Hfuel. destruct H as (Hc & Hh & Hk & H0 & H1).
  rewrite Hh. apply iter_list_ok; auto; [|rewrite skipn_length; lia].
  apply (@br_at v xs k); auto. repeat split; auto.
Qed.

(** ** get *)
Lemma read_nth v xs k n : iv_ok v xs k ->
  exists p h1 b, vs_seek (iv_w v) (iv_h v) (SeekStart (n * iv_chunk v)) = (iv_w v, p, Some p) /\
    vs_read (iv_w v) p (iv_chunk v) = (iv_w v, h1, Some b) /\
    match nth_error xs n with
    | Some x => p = n * iv_chunk v /\ h1 = S n * iv_chunk v /\ length b = iv_chunk v /\ de b = Some x
    | None => p = length (iv_w v : list byte) /\ b = []
    end.
Proof.
  intros H. pose proof (iv_ok_length H) as L. destruct H as (Hc & Hh & Hk & _ & cs & E & F).
  destruct (nth_error xs n) as [x|] eqn:En.
  - assert (Hn : n < length xs) by (apply nth_error_Some; congruence).
    destruct (Forall2_nth _ F En) as (ch & Ec & Hl & Hd).
    exists (n * iv_chunk v), (S n * iv_chunk v), ch. rewrite seek_start by (rewrite L; nia). split; auto.
    rewrite read_full by (rewrite L; nia).
    assert (Hr : firstn (iv_chunk v) (skipn (n * iv_chunk v) (iv_w v : list byte)) = ch).
    { rewrite E. apply cut_nth; auto. eapply encodes_cut; eauto. }
    rewrite Hr. replace (S n * iv_chunk v) with (n * iv_chunk v + iv_chunk v) by lia. auto.
  - apply nth_error_None in En. exists (length (iv_w v : list byte)), (length (iv_w v : list byte)), [].
    rewrite seek_start_beyond by (rewrite L; nia). split; auto. rewrite read_rest by lia. rewrite skipn_all. auto.
Qed.
Lemma iv_get_ok v xs k n : iv_ok v xs k -> iv_get de v n = Some (nth_error xs n).
Proof.
  intros H. destruct (read_nth n H) as (p & h1 & b & E1 & E2 & E3). unfold iv_get. cbn [s_seek s_read s_clone VecStream].
  rewrite E1, E2. unfold chunk_from. destruct (nth_error xs n) as [x|].
  - destruct E3 as (_ & _ & Hl & Hd). rewrite Hl, Nat.ltb_irrefl, Hd. auto.
  - destruct E3 as (_ & ->). cbn [length]. replace (0 <? iv_chunk v) with true; auto.
    symmetry. apply Nat.ltb_lt. apply H.
Qed.

(** ** append *)
Lemma vs_write_end v buf : vs_write v (length v) buf = Ok (v ++ buf, length v + length buf, Some (length buf)).
Proof.
  destruct (@vs_write_eq v (length v) buf) as (v' & E & _ & D); auto. rewrite E, D. rewrite firstn_all.
  rewrite skipn_all2 by lia. rewrite app_nil_r. auto.
Qed.
Lemma write_all_vec v p buf : p <= length v ->
  exists v', write_all VecStream v p buf = Ok (v', p + length buf, [], true) /\
    vs_write v p buf = Ok (v', p + length buf, Some (length buf)).
Proof.
  intros Hp. destruct (@vs_write_eq v p buf) as (v' & E & _ & D); auto. exists v'. split; auto.
  unfold write_all. destruct buf as [|z zs].
  - cbn [write_loop length]. rewrite Nat.add_0_r. do 4 f_equal. rewrite D. cbn [length app]. rewrite Nat.add_0_r. symmetry. apply firstn_skipn.
  - cbn [length]. cbn [write_loop s_write VecStream]. change (S (length zs)) with (length (z :: zs)). rewrite E. cbn [bind].
    destruct (length (z :: zs)) as [|n] eqn:El; [discriminate|]. rewrite skipn_all2 by lia. destruct (length zs); auto.
Qed.
Lemma bw_flush_ok w buf : exists h', bw_flush VecStream w (length w) buf = Ok (w ++ buf, h', [], true) /\ h' = length (w ++ buf).
Proof.
  unfold bw_flush. destruct (@write_all_vec w (length w) buf) as (v' & E & E'); auto. rewrite E.
  rewrite vs_write_end in E'. injection E' as <-. eexists. split; [reflexivity|]. rewrite app_length. auto.
Qed.
Lemma bw_write_ok w buf c : exists w' buf', bw_write VecStream w (length w) buf c = Ok (w', length w', buf', true) /\
  w' ++ buf' = (w ++ buf) ++ c.
Proof.
  unfold bw_write. destruct (length c <? bufcap - length buf).
  - exists w, (buf ++ c). split; auto. rewrite app_assoc. auto.
  - destruct (bufcap - length buf <? length c) eqn:E1.
    + destruct (bw_flush_ok w buf) as (h' & E & ->). rewrite E. cbn [bind negb]. destruct (bufcap <=? length c) eqn:E2.
      * cbn [s_write VecStream]. rewrite vs_write_end. cbn [bind]. exists ((w ++ buf) ++ c), []. rewrite app_nil_r.
        split; auto. rewrite (app_length (w ++ buf) c). auto.
      * exists (w ++ buf), c. auto.
    + cbn [bind negb]. destruct (bufcap <=? length c) eqn:E2.
      * apply Nat.leb_le in E2. apply Nat.ltb_ge in E1.
        assert (buf = [] \/ bufcap = 0) as [->|H0].
        { destruct buf; auto. cbn [length] in E1. lia. }
        -- cbn [s_write VecStream]. rewrite vs_write_end. cbn [bind]. exists (w ++ c), []. rewrite !app_nil_r. split; auto.
           rewrite app_length. auto.
        -- unfold bufcap in H0. lia.
      * exists w, (buf ++ c). split; auto. rewrite app_assoc. auto.
Qed.
(** Values whose serialized form fits a chunk of [c] bytes. *)
Definition fits (c : nat) (x : T) : Prop := exists b, ser x = Some b /\ length b <= c.
Lemma chunk_serialize_ok c x : fits c x -> exists ch, chunk_serialize ser c x = Some ch /\ encodes c ch x.
Proof.
  intros (b & E & L). unfold chunk_serialize. rewrite E. replace (c <? length b) with false by (symmetry; apply Nat.ltb_ge; auto).
  eexists. split; [reflexivity|]. split; [apply vec_resize_length|]. rewrite vec_resize_grow by auto. apply Codec; auto.
Qed.
Lemma chunk_serialize_fits c x ch : chunk_serialize ser c x = Some ch -> fits c x.
Proof.
  unfold chunk_serialize. destruct (ser x) as [b|] eqn:E; [|discriminate]. destruct (c <? length b) eqn:L; [discriminate|].
  apply Nat.ltb_ge in L. exists b; auto.
Qed.
Lemma append_loop_ok c : forall rvs w buf, Forall (fits c) rvs ->
  exists w' buf' cs, append_loop VecStream ser c rvs w (length w) buf = Ok (w', length w', buf', [], true) /\
    w' ++ buf' = (w ++ buf) ++ concat cs /\ Forall2 (encodes c) cs rvs.
Proof.
  induction rvs as [|x rvs IH]; intros w buf H; cbn [append_loop].
  - exists w, buf, []. cbn. rewrite app_nil_r. auto.
  - inversion H as [|? ? H1 H2]; subst. destruct (chunk_serialize_ok H1) as (ch & E & He). rewrite E.
    destruct (bw_write_ok w buf ch) as (w1 & buf1 & E1 & D1). rewrite E1. cbn [bind].
    destruct (IH w1 buf1 H2) as (w2 & buf2 & cs & E2 & D2 & F). exists w2, buf2, (ch :: cs). split; auto.
    split; [|constructor; auto]. cbn [concat]. rewrite D2, D1, !app_assoc. auto.
Qed.
Lemma iv_append_ok v xs k values : iv_ok v xs k -> Forall (fits (iv_chunk v)) values ->
  exists v', iv_append ser v values = Ok (v', [], true) /\ iv_chunk v' = iv_chunk v /\
    iv_ok v' (xs ++ rev values) (length (xs ++ values)).
Proof.
  intros H Hf. pose proof (iv_ok_length H) as L. destruct H as (Hc & Hh & Hk & H0 & cs & E & F).
  unfold iv_append. cbn [s_seek VecStream]. rewrite seek_end.
  destruct (@append_loop_ok (iv_chunk v) (rev values) (iv_w v) []) as (w1 & buf1 & cs1 & E1 & D1 & F1).
  { apply Forall_rev; auto. }
  rewrite E1. cbn [bind]. destruct (bw_flush_ok w1 buf1) as (h' & E2 & ->). rewrite E2. cbn [bind rev].
  eexists. split; [reflexivity|]. split; auto. rewrite app_nil_r in D1.
  assert (Fall : Forall2 (encodes (iv_chunk v)) (cs ++ cs1) (xs ++ rev values)) by (apply Forall2_app; auto).
  assert (Ew : w1 ++ buf1 = concat (cs ++ cs1)) by (rewrite D1, E, concat_app; auto).
  unfold iv_ok. cbn [iv_chunk iv_h iv_w]. split; auto. split; [|split; [|split]].
  - rewrite Ew. erewrite concat_length by (eapply encodes_cut; eauto). apply Forall2_length in Fall. rewrite Fall.
    rewrite !app_length, rev_length. auto.
  - rewrite !app_length, rev_length. auto.
  - intros Hz. rewrite app_length in Hz. destruct xs; [|cbn in Hz; lia]. destruct values; [auto|cbn in Hz; lia].
  - exists (cs ++ cs1). auto.
Qed.

(** ** swap_remove *)
Lemma removelast_firstn {A} (l : list A) : removelast l = firstn (length l - 1) l.
Proof.
  induction l as [|x l IH]; auto. cbn [removelast]. destruct l as [|y l]; auto.
  rewrite IH. cbn [length]. rewrite Nat.sub_succ, !Nat.sub_0_r. replace (S (length l) - 1) with (length l) by lia. auto.
Qed.
Lemma rev_head_last {A} (l : list A) z rl : rev l = z :: rl -> nth_error l (length l - 1) = Some z.
Proof.
  intros H. apply (f_equal (@rev A)) in H. rewrite rev_involutive in H. subst. cbn [rev]. rewrite app_length. cbn [length].
  rewrite nth_error_app2 by lia. replace (length (rev rl) + 1 - 1 - length (rev rl)) with 0 by lia. auto.
Qed.
Lemma firstn_replace_nth {A} n m (x : A) l : n < m -> firstn m (replace_nth n x l) = replace_nth n x (firstn m l).
Proof. revert n m; induction l; intros [|n] [|m] H; cbn; auto; try lia. f_equal. apply IHl. lia. Qed.
Lemma replace_nth_beyond {A} n (x : A) l : length l <= n -> replace_nth n x l = l.
Proof. revert n; induction l; intros [|n] H; cbn in *; auto; try lia. f_equal. apply IHl; lia. Qed.

Lemma swap_remove_form {A} n (xs : list A) z : nth_error xs (length xs - 1) = Some z -> n < length xs ->
  swap_remove n xs = replace_nth n z (firstn (length xs - 1) xs).
Proof.
  intros Hz Hn. unfold swap_remove. destruct (rev xs) as [|y rl] eqn:E.
  { apply (f_equal (@rev A)) in E. rewrite rev_involutive in E. subst. cbn in Hn. lia. }
  apply rev_head_last in E. rewrite Hz in E. injection E as <-. rewrite removelast_firstn, replace_nth_length.
  destruct (Nat.lt_ge_cases n (length xs - 1)) as [H|H].
  - apply firstn_replace_nth; auto.
  - assert (n = length xs - 1) as -> by lia. rewrite replace_nth_split by auto.
    rewrite firstn_app, firstn_firstn, Nat.min_id. rewrite firstn_length. replace (length xs - 1 - Nat.min (length xs - 1) (length xs)) with 0 by lia.
    cbn. rewrite app_nil_r. rewrite replace_nth_beyond; auto. rewrite firstn_length. lia.
Qed.

Lemma iv_swap_remove_ok v xs k n : iv_ok v xs k -> n < length xs ->
  exists v' k', iv_swap_remove de v n = Ok (v', Some (nth_error xs n)) /\ iv_chunk v' = iv_chunk v /\
    iv_ok v' (swap_remove n xs) k' /\ k' = Nat.min (S n) (length xs - 1).
Proof.
  intros H Hn. pose proof (iv_ok_length H) as L. destruct (read_nth n H) as (p & h1 & b & E1 & E2 & E3).
  pose proof H as (Hc & Hh & Hk & H0 & cs & E & F).
  destruct (nth_error xs n) as [x|] eqn:En; [|apply nth_error_None in En; lia].
  destruct E3 as (-> & -> & Hl & Hd).
  destruct (nth_error xs (length xs - 1)) as [z|] eqn:Ez; [|apply nth_error_None in Ez; lia].
  rewrite (swap_remove_form _ Ez Hn). pose proof (Forall2_length F) as Hcs.
  unfold iv_swap_remove. cbn [s_seek s_read s_write s_resize VecStream]. rewrite E1, E2.
  unfold chunk_from at 1. rewrite Hl, Nat.ltb_irrefl, Hd. rewrite seek_end.
  assert (Lc : length (iv_w v : list byte) - iv_chunk v = (length xs - 1) * iv_chunk v) by (rewrite L; nia).
  replace (length (iv_w v : list byte) <? iv_chunk v) with false by (symmetry; apply Nat.ltb_ge; rewrite L; nia).
  rewrite Lc.
  destruct (n * iv_chunk v <? (length xs - 1) * iv_chunk v) eqn:Elt.
  - apply Nat.ltb_lt in Elt. assert (Hn1 : n < length xs - 1) by nia.
    rewrite seek_start by (rewrite L; nia). rewrite read_full by (rewrite L; nia).
    destruct (Forall2_nth _ F Ez) as (chz & Ecz & Hlz & Hdz).
    assert (Hr : firstn (iv_chunk v) (skipn ((length xs - 1) * iv_chunk v) (iv_w v : list byte)) = chz).
    { rewrite E. apply cut_nth; auto. eapply encodes_cut; eauto. }
    rewrite Hr. unfold chunk_from. rewrite Hlz, Nat.ltb_irrefl.
    rewrite seek_start by (rewrite L; nia).
    destruct (@vs_write_eq (iv_w v) (n * iv_chunk v) chz) as (w' & Ew & Lw & Dw); [rewrite L; nia|].
    rewrite Ew. cbn [bind]. unfold vs_resize.
    eexists _, (S n). split; [reflexivity|]. cbn [iv_chunk]. split; auto. split; [|lia].
    rewrite E in Dw. rewrite overwrite_concat in Dw; [|eapply encodes_cut; eauto|lia|auto].
    unfold iv_ok. cbn [iv_chunk iv_h iv_w]. split; auto. split; [|split; [|split]].
    + replace ((length xs - 1) * iv_chunk v <? n * iv_chunk v + length chz) with false.
      * rewrite Hlz. lia.
      * symmetry. apply Nat.ltb_ge. rewrite Hlz. nia.
    + rewrite replace_nth_length, firstn_length. lia.
    + discriminate.
    + exists (replace_nth n chz (firstn (length xs - 1) cs)). split.
      * rewrite vec_resize_shrink. 2:{ rewrite Lw, L, Hlz. nia. }
        rewrite Dw. rewrite firstn_concat; [|apply cut_replace; [eapply encodes_cut; eauto|auto]].
        rewrite firstn_replace_nth; auto.
      * apply Forall2_replace; [apply Forall2_firstn; auto|]. split; auto.
  - apply Nat.ltb_ge in Elt. assert (n = length xs - 1) as -> by nia. cbn [bind]. unfold vs_resize.
    rewrite replace_nth_beyond by (rewrite firstn_length; lia).
    eexists _, (length xs - 1). split; [reflexivity|]. cbn [iv_chunk]. split; auto. split; [|lia].
    unfold iv_ok. cbn [iv_chunk iv_h iv_w]. split; auto. split; [|split; [|split]].
    + replace ((length xs - 1) * iv_chunk v <? length (iv_w v : list byte)) with true; auto.
      symmetry. apply Nat.ltb_lt. rewrite L. nia.
    + rewrite firstn_length. lia.
    + intros Hz. rewrite Hz. auto.
    + exists (firstn (length xs - 1) cs). split; [|apply Forall2_firstn; auto].
      rewrite vec_resize_shrink by (rewrite L; nia). rewrite E. apply firstn_concat. eapply encodes_cut; eauto.
Qed.
(** Beyond the end, the answer is [None], and the last value is removed all the same. *)
Lemma iv_swap_remove_beyond v xs k n : iv_ok v xs k -> length xs <= n ->
  exists v', iv_swap_remove de v n = Ok (v', Some None) /\ iv_chunk v' = iv_chunk v /\
    iv_ok v' (removelast xs) (length xs - 1).
Proof.
  intros H Hn. pose proof (iv_ok_length H) as L. destruct (read_nth n H) as (p & h1 & b & E1 & E2 & E3).
  pose proof H as (Hc & Hh & Hk & H0 & cs & E & F).
  destruct (nth_error xs n) as [x|] eqn:En; [assert (n < length xs) by (apply nth_error_Some; congruence); lia|].
  destruct E3 as (-> & ->). unfold iv_swap_remove. cbn [s_seek s_read s_write s_resize VecStream]. rewrite E1, E2.
  unfold chunk_from at 1. cbn [length]. replace (0 <? iv_chunk v) with true by (symmetry; apply Nat.ltb_lt; lia).
  rewrite seek_end. pose proof (Forall2_length F) as Hcs. destruct xs as [|x xs].
  - replace (length (iv_w v : list byte) <? iv_chunk v) with true by (symmetry; apply Nat.ltb_lt; rewrite L; cbn; lia).
    eexists. split; [reflexivity|]. split; auto. unfold iv_ok. cbn [iv_chunk iv_h iv_w removelast length]. repeat split; auto.
    exists cs. auto.
  - set (ys := x :: xs) in *. assert (Hy : 1 <= length ys) by (cbn; lia). clearbody ys.
    replace (length (iv_w v : list byte) <? iv_chunk v) with false by (symmetry; apply Nat.ltb_ge; rewrite L; nia).
    assert (Lc : length (iv_w v : list byte) - iv_chunk v = (length ys - 1) * iv_chunk v) by (rewrite L; nia).
    rewrite Lc. replace (n * iv_chunk v <? (length ys - 1) * iv_chunk v) with false by (symmetry; apply Nat.ltb_ge; nia).
    cbn [bind]. unfold vs_resize. eexists. split; [reflexivity|]. cbn [iv_chunk]. split; auto.
    unfold iv_ok. cbn [iv_chunk iv_h iv_w]. rewrite removelast_firstn. split; auto. split; [|split; [|split]].
    + replace ((length ys - 1) * iv_chunk v <? length (iv_w v : list byte)) with true; auto.
      symmetry. apply Nat.ltb_lt. rewrite L. nia.
    + rewrite firstn_length. lia.
    + intros Hz. rewrite Hz. auto.
    + exists (firstn (length ys - 1) cs). split; [|apply Forall2_firstn; auto].
      rewrite vec_resize_shrink by (rewrite L; nia). rewrite E. apply firstn_concat. eapply encodes_cut; eauto.
Qed.

(** ** Writing an item back in place *)
Lemma write_back_in_place w xs n (x y : T) c q : 1 <= c ->
  (exists cs, w = concat cs /\ Forall2 (encodes c) cs xs) -> nth_error xs n = Some x -> fits c y ->
  exists w', write_back VecStream ser w q (n * c) y = Ok w' /\
    exists cs, w' = concat cs /\ Forall2 (encodes c) cs (replace_nth n y xs).
Proof.
  intros Hc (cs & E & F) En (b & Eb & Lb). pose proof (encodes_cut F) as Hcut. pose proof (Forall2_length F) as Hlen.
  assert (Hn : n < length xs) by (apply nth_error_Some; congruence).
  assert (L : length w = length xs * c) by (rewrite E, (concat_length Hcut), Hlen; auto).
  destruct (Forall2_nth _ F En) as (ch & Ech & Hl & Hd).
  unfold write_back. cbn [s_seek s_write VecStream]. rewrite seek_start by (rewrite L; nia). rewrite Eb.
  destruct (@write_all_vec w (n * c) b) as (w' & Ea & Ew0); [rewrite L; nia|]. rewrite Ea. cbn [bind].
  destruct (@vs_write_eq w (n * c) b) as (w2 & Ew & _ & Dw); [rewrite L; nia|]. rewrite Ew in Ew0. injection Ew0 as ->.
  exists w'. split; auto. exists (replace_nth n (b ++ skipn (length b) ch) cs). split.
  - assert (Hl2 : length (b ++ skipn (length b) ch) = c) by (rewrite app_length, skipn_length; lia).
    rewrite <- (@overwrite_concat c cs n _ Hcut); [|lia|auto]. rewrite Dw, E. f_equal. rewrite <- app_assoc. f_equal. rewrite Hl2.
    rewrite <- skipn_skipn. rewrite skipn_concat by auto.
    assert (Esk : skipn n cs = ch :: skipn (S n) cs).
    { clear - Ech. revert n Ech; induction cs as [|a cs IH]; intros [|n] H; try discriminate; cbn in *; [inversion H; auto|].
      apply IH; auto. }
    rewrite Esk. cbn [concat]. rewrite skipn_app. f_equal. replace (length b - length ch) with 0 by lia. cbn [skipn].
    replace (n * c + c) with (S n * c) by lia. rewrite skipn_concat by auto. auto.
  - apply Forall2_replace; auto. split; [rewrite app_length, skipn_length; lia|]. apply Codec; auto.
Qed.

Lemma iter_mut_next_ok c im x xs n : 1 <= c -> aligned c -> br_ok c (im_br im) (x :: xs) ->
  im_pos im = n * c -> S n * c <= length (br_w (im_br im) : list byte) ->
  exists im' cur, iter_mut_next de c im = Ok (im', Some (x, n * c, cur)) /\
    br_ok c (im_br im') xs /\ im_pos im' = S n * c /\ br_w (im_br im') = br_w (im_br im).
Proof.
  intros Hc Ha Hb Hp Hw. destruct (iter_next_ok Hc Ha Hb) as (b' & E & Hb' & Ew).
  unfold iter_mut_next. unfold iter_next in E. destruct (br_read (im_br im) c) as [b2 r].
  destruct (chunk_from c r) as [[ch|]|]; try discriminate. destruct (de ch) as [o|]; try discriminate.
  injection E as -> ->. unfold struct_mut_pos. cbn [s_seek s_clone VecStream]. rewrite Hp, Ew.
  rewrite seek_current0 by lia. rewrite seek_current by lia. eexists _, _. split; [reflexivity|]. cbn [im_br im_pos br_w].
  split; [|split; [lia|auto]]. destruct b' as [w' h' buf']. cbn [br_w br_h br_buf] in *. subst w'. auto.
Qed.
Lemma iter_mut_find_ok (p : T -> bool) (f : T -> T) c xs : 1 <= c -> aligned c ->
  forall w, (exists cs, w = concat cs /\ Forall2 (encodes c) cs xs) ->
  forall suf n im fuel, xs = firstn n xs ++ suf -> length (firstn n xs) = n -> length suf < fuel ->
    br_ok c (im_br im) suf -> im_pos im = n * c -> br_w (im_br im) = w ->
    (forall x, In x suf -> p x = true -> fits c (f x)) ->
    match find_index p suf with
    | None => iter_mut_find ser de p f c fuel im = Ok None
    | Some j => exists w' x, nth_error suf j = Some x /\ iter_mut_find ser de p f c fuel im = Ok (Some (w', x)) /\
        exists cs, w' = concat cs /\ Forall2 (encodes c) cs (replace_nth (n + j) (f x) xs)
    end.
Proof.
  intros Hc Ha w Hw. induction suf as [|x suf IH]; intros n im [|fuel] Ex Hn Hf Hb Hp Hbw Hfit; try (cbn in Hf; lia).
  - cbn [find_index iter_mut_find]. destruct (iter_next_end Hc Hb) as [b' E].
    unfold iter_mut_next. unfold iter_next in E. destruct (br_read (im_br im) c) as [b2 r].
    destruct (chunk_from c r) as [[ch|]|]; try discriminate; auto. destruct (de ch); discriminate.
  - assert (Hlen : n < length xs). { rewrite Ex, app_length, Hn. cbn. lia. }
    assert (Lw : length w = length xs * c).
    { destruct Hw as (cs & -> & F). rewrite (concat_length (encodes_cut F)), (Forall2_length F). auto. }
    assert (Enx : nth_error xs n = Some x).
    { rewrite Ex, nth_error_app2 by lia. rewrite Hn, Nat.sub_diag. auto. }
    destruct (@iter_mut_next_ok c im x suf n) as (im' & cur & E & Hb' & Hp' & Hw'); auto; [rewrite Hbw, Lw; nia|].
    cbn [iter_mut_find find_index]. rewrite E. cbn [bind]. destruct (p x) eqn:Px.
    + destruct (@write_back_in_place w xs n x (f x) c cur) as (w2 & E2 & H2); auto; [apply Hfit; auto; left; auto|].
      exists w2, x. split; auto. split; [|rewrite Nat.add_0_r; auto]. rewrite Hw', Hbw, E2. auto.
    + assert (Efn : firstn (S n) xs = firstn n xs ++ [x]).
      { clear - Enx. revert n Enx; induction xs as [|a l IH]; intros [|n] H; try discriminate; cbn in *; [inversion H; auto|].
        f_equal. apply IH; auto. }
      specialize (IH (S n) im' fuel). destruct (find_index p suf) as [j|]; cbn [option_map].
      * destruct IH as (w2 & y & H1 & H2 & H3); auto.
        { rewrite Efn, <- app_assoc. auto. } { rewrite Efn, app_length, Hn. cbn. lia. } { cbn in Hf. lia. }
        { congruence. } { intros; apply Hfit; auto. right; auto. }
        exists w2, y. split; auto. split; auto. replace (n + S j) with (S n + j) by lia. auto.
      * apply IH; auto.
        { rewrite Efn, <- app_assoc. auto. } { rewrite Efn, app_length, Hn. cbn. lia. } { cbn in Hf. lia. }
        { congruence. } { intros; apply Hfit; auto. right; auto. }
Qed.
Lemma iv_find_mut_ok (p : T -> bool) (f : T -> T) v xs k : aligned (iv_chunk v) -> iv_ok v xs k ->
  (forall x, In x xs -> p x = true -> fits (iv_chunk v) (f x)) ->
  match find_index p xs with
  | None => iv_find_mut ser de p f v = Ok None
  | Some j => exists v' x, nth_error xs j = Some x /\ iv_find_mut ser de p f v = Ok (Some (v', x)) /\
      iv_chunk v' = iv_chunk v /\ iv_ok v' (replace_nth j (f x) xs) k
  end.
Proof.
  intros Ha H Hfit. pose proof (iv_fuel_ok H) as Hfuel. pose proof (br_at H (n := 0) ltac:(lia)) as Hb.
  destruct H as (Hc & Hh & Hk & H0 & Hw). unfold iv_find_mut. cbn [s_seek s_clone VecStream].
  rewrite seek_start by lia. cbn [Nat.mul skipn] in Hb.
  pose proof (@iter_mut_find_ok p f (iv_chunk v) xs Hc Ha (iv_w v) Hw xs 0 (@mkIM VecStream (br_new VecStream (iv_w v) 0) 0) (iv_fuel v)) as G.
  cbn [im_br im_pos br_new br_w] in G. destruct (find_index p xs) as [j|].
  - destruct G as (w' & x & H1 & H2 & H3); auto. rewrite H2. cbn [bind option_map fst snd]. eexists _, x. split; auto. split; [reflexivity|].
    cbn [iv_chunk]. split; auto. unfold iv_ok. cbn [iv_chunk iv_h iv_w]. split; auto. split; auto. rewrite replace_nth_length. split; auto.
    split; auto. intros Hz. rewrite H0; auto. destruct j; auto.
  - rewrite G; auto.
Qed.

(** ** get_mut writes one chunk too far *)
Lemma iv_get_mut_exact v xs k n x f b : iv_ok v xs k -> nth_error xs n = Some x -> ser (f x) = Some b ->
  exists v', iv_get_mut ser de v n f = Ok (v', Some (Some x)) /\ iv_chunk v' = iv_chunk v /\ iv_h v' = iv_h v /\
    iv_w v' = firstn (S n * iv_chunk v) (iv_w v : list byte) ++ b ++ skipn (S n * iv_chunk v + length b) (iv_w v : list byte).
Proof.
  intros H En Eb. pose proof (iv_ok_length H) as L. destruct (read_nth n H) as (p & h1 & bb & E1 & E2 & E3). rewrite En in E3.
  destruct E3 as (-> & -> & Hl & Hd). assert (Hn : n < length xs) by (apply nth_error_Some; congruence).
  unfold iv_get_mut. cbn [s_seek s_read s_clone VecStream]. rewrite E1, E2. unfold chunk_from. rewrite Hl, Nat.ltb_irrefl, Hd.
  unfold struct_mut_pos. cbn [s_seek VecStream]. destruct H as (Hc & _). rewrite seek_current0 by (rewrite L; nia).
  unfold write_back. cbn [s_seek s_write VecStream]. rewrite seek_start by (rewrite L; nia). rewrite Eb.
  destruct (@write_all_vec (iv_w v) (S n * iv_chunk v) b) as (w' & Ea & Ew0); [rewrite L; nia|]. rewrite Ea. cbn [bind].
  destruct (@vs_write_eq (iv_w v) (S n * iv_chunk v) b) as (w2 & Ew & _ & Dw); [rewrite L; nia|]. rewrite Ew in Ew0. injection Ew0 as ->.
  eexists. split; [reflexivity|]. cbn [iv_chunk iv_h iv_w]. auto.
Qed.
End IOVecProof.
