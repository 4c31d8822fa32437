(** PIOVec.v -- property theorems: C36 (chunked vectors). *)
From Coq Require Import ZArith NArith Init.Byte Strings.Byte.
From Verif Require Import Base Stream PStream IOVec IOVecProof.
Set Implicit Arguments.

Section PIOVec.
Variable T : Type.
Variable ser : T -> option (list byte).
Variable de : list byte -> option T.

(** ** Specification: a vector of values.  The values of an append come out in reverse order (the code pops them
    from the back of the vector it is given): this is documented nowhere, and stated here. *)
Inductive vec_op : Type :=
| VAppend (ys : list T)
| VGet (n : nat)
| VLen
| VIter
| VIsEmpty
| VSwapRemove (n : nat)
| VUpdateFirst (p : T -> bool) (f : T -> T).
Inductive vec_out : Type :=
| OutDone | OutItem (o : option T) | OutLen (n : nat) | OutItems (l : list T) | OutBool (b : bool) | OutError.

Definition vec_step (xs : list T) (o : vec_op) : list T * vec_out :=
  match o with
  | VAppend ys => (xs ++ rev ys, OutDone)
  | VGet n => (xs, OutItem (nth_error xs n))
  | VLen => (xs, OutLen (length xs))
  | VIter => (xs, OutItems xs)
  | VIsEmpty => (xs, OutBool (match xs with [] => true | _ => false end))
  | VSwapRemove n => (swap_remove n xs, OutItem (nth_error xs n))
  | VUpdateFirst p f =>
      match find_index p xs with
      | None => (xs, OutItem None)
      | Some j => (match nth_error xs j with Some x => replace_nth j (f x) xs | None => xs end, OutItem (nth_error xs j))
      end
  end.
Fixpoint vec_run (xs : list T) (l : list vec_op) : list T * list vec_out :=
  match l with
  | [] => (xs, [])
  | o :: l' => let (xs1, r) := vec_step xs o in let (xs2, rs) := vec_run xs1 l' in (xs2, r :: rs)
  end.

(** The same calls on an IOVec. *)
Definition iov_step (v : iovec VecStream) (o : vec_op) : res (iovec VecStream * vec_out) :=
  match o with
  | VAppend ys =>
      let* (v', left_over, ok) := iv_append ser v ys in Ok (v', if ok then OutDone else OutError)
  | VGet n => Ok (v, match iv_get de v n with Some o => OutItem o | None => OutError end)
  | VLen => let* n := iv_len v in Ok (v, match n with Some n => OutLen n | None => OutError end)
  | VIter => let* l := iv_list de v in Ok (v, OutItems l)
  | VIsEmpty => Ok (v, OutBool (iv_is_empty v))
  | VSwapRemove n => let* (v', o) := iv_swap_remove de v n in Ok (v', match o with Some o => OutItem o | None => OutError end)
  | VUpdateFirst p f =>
      let* o := iv_find_mut ser de p f v in
      Ok (match o with Some (v', x) => (v', OutItem (Some x)) | None => (v, OutItem None) end)
  end.
Fixpoint iov_run (v : iovec VecStream) (l : list vec_op) : res (iovec VecStream * list vec_out) :=
  match l with
  | [] => Ok (v, [])
  | o :: l' =>
      let* (v1, r) := iov_step v o in
      let* (v2, rs) := iov_run v1 l' in
      Ok (v2, r :: rs)
  end.

(** What the caller must respect: serialized values fit the chunks, removals are in range. *)
Definition vec_allowed_step (c : nat) (xs : list T) (o : vec_op) : Prop :=
  match o with
  | VAppend ys => Forall (fits ser c) ys
  | VSwapRemove n => n < length xs \/ xs = []
  | VUpdateFirst p f => forall x, In x xs -> p x = true -> fits ser c (f x)
  | _ => True
  end.
Fixpoint vec_allowed (c : nat) (xs : list T) (l : list vec_op) : Prop :=
  match l with
  | [] => True
  | o :: l' => vec_allowed_step c xs o /\ vec_allowed c (fst (vec_step xs o)) l'
  end.

Hypothesis Codec : codec_ok ser de.

Lemma iov_step_ok v xs k o : aligned (iv_chunk v) -> iv_ok de v xs k -> vec_allowed_step (iv_chunk v) xs o ->
  exists v' k', iov_step v o = Ok (v', snd (vec_step xs o)) /\ iv_chunk v' = iv_chunk v /\ iv_ok de v' (fst (vec_step xs o)) k'.
Proof.
  intros Ha H Hal. destruct o as [ys|n| | | |n|p f]; cbn [iov_step vec_step fst snd vec_allowed_step] in *.
  - destruct (iv_append_ok Codec H Hal) as (v' & E & Hc & H'). rewrite E. cbn [bind]. eauto 6.
  - rewrite (iv_get_ok n H). eauto 6.
  - unfold iv_len. rewrite (iv_size_ok H). pose proof H as (Hc & _).
    replace (iv_chunk v =? 0) with false by (symmetry; apply Nat.eqb_neq; lia). cbn [bind].
    rewrite Nat.div_mul by lia. eauto 6.
  - rewrite (iv_list_ok Ha H). cbn [bind]. eauto 6.
  - exists v, k. split; auto. do 2 f_equal. f_equal. unfold iv_is_empty. cbn [s_seek s_clone VecStream].
    pose proof (iv_ok_length H) as L. destruct H as (Hc & Hh & Hk & H0 & _).
    rewrite Hh. rewrite seek_current0 by (rewrite L; nia). cbn [snd]. destruct xs as [|x xs].
    + cbn in Hk. assert (k = 0) as -> by lia. auto.
    + apply Nat.eqb_neq. assert (k <> 0) by (intros E; specialize (H0 E); discriminate). nia.
  - destruct Hal as [Hn|Hx].
    + destruct (iv_swap_remove_ok H Hn) as (v' & k' & E & Hc & H' & _). rewrite E. cbn [bind]. eauto 6.
    + subst xs. destruct (iv_swap_remove_beyond (n := n) H) as (v' & E & Hc & H'); [cbn; lia|]. rewrite E. cbn [bind].
      exists v', (length (@nil T) - 1). split; [destruct n; auto|]. auto.
  - pose proof (iv_find_mut_ok Codec p f Ha H Hal) as G. destruct (find_index p xs) as [j|].
    + destruct G as (v' & x & E1 & E2 & Hc & H'). rewrite E2, E1. cbn [bind fst snd]. eauto 6.
    + rewrite G. cbn [bind]. eauto 6.
Qed.

(** C36: every history of appends, gets, lengths, iterations, removals and updates of a new IOVec over a vector
    stream, with chunks that a buffer of the iterators is a whole number of (or not larger than), answers as a
    vector of values. *)
Theorem C36_iovec_is_a_vector : forall c l, 1 <= c -> aligned c -> vec_allowed c [] l ->
  exists v, iov_run (iv_new VecStream (s_new VecStream) c) l = Ok (v, snd (vec_run [] l)) /\
    iv_list de v = Ok (fst (vec_run [] l)).
Proof.
  intros c l Hc Ha.
  assert (G : forall l v xs k, iv_chunk v = c -> iv_ok de v xs k -> vec_allowed c xs l ->
    exists v', iov_run v l = Ok (v', snd (vec_run xs l)) /\ iv_list de v' = Ok (fst (vec_run xs l))).
  { clear l. induction l as [|o l IH]; intros v xs k Ev H Hal; cbn [iov_run vec_run].
    - exists v. split; auto. eapply iv_list_ok; eauto. rewrite Ev; auto.
    - destruct Hal as [A1 A2]. destruct (@iov_step_ok v xs k o) as (v1 & k1 & E & Hc1 & H1); [rewrite Ev; auto|auto|rewrite Ev; auto|].
      rewrite E. cbn [bind]. destruct (IH v1 (fst (vec_step xs o)) k1) as (v2 & E2 & L2); auto; [congruence|].
      rewrite E2. cbn [bind]. exists v2. destruct (vec_step xs o) as [xs1 r]. cbn [fst snd] in *.
      destruct (vec_run xs1 l) as [xs2 rs]. auto. }
  intros Hal. apply (G l _ [] 0); auto. apply iv_new_ok. auto.
Qed.

(** Beyond the end, swap_remove answers None but removes the last value. *)
Theorem C36_swap_remove_beyond_end_refuted : forall v xs k n, iv_ok de v xs k -> length xs <= n ->
  exists v' k', iv_swap_remove de v n = Ok (v', Some None) /\ iv_ok de v' (removelast xs) k'.
Proof.
  intros v xs k n H Hn. destruct (iv_swap_remove_beyond H Hn) as (v' & E & _ & H'). eauto.
Qed.

(** A value written through get_mut(n) lands on the next element (or past the end): the nth is unchanged. *)
Theorem C36_get_mut_writes_next_element_refuted : forall v xs k n x f, iv_ok de v xs k -> nth_error xs n = Some x ->
  fits ser (iv_chunk v) (f x) ->
  exists v', iv_get_mut ser de v n f = Ok (v', Some (Some x)) /\
    iv_get de v' n = Some (Some x) /\
    (forall y, nth_error xs (S n) = Some y -> iv_get de v' (S n) = Some (Some (f x))).
Proof.
  intros v xs k n x f H En (b & Eb & Lb).
  destruct (@iv_get_mut_exact _ ser de v xs k n x f b H En Eb) as (v' & E & Hc & Hh & Hw). exists v'. split; auto.
  pose proof (iv_ok_length H) as L. pose proof H as (C1 & _ & _ & _ & cs & Ecs & F).
  assert (Hn : n < length xs) by (apply nth_error_Some; congruence).
  set (c := iv_chunk v) in *.
  assert (Lf : length (firstn (S n * c) (iv_w v : list byte)) = S n * c) by (rewrite firstn_length; nia).
  assert (Lw : S n * c + length b <= length (iv_w v' : list byte)).
  { rewrite Hw. rewrite (app_length (firstn (S n * c) _)), app_length, Lf. lia. }
  destruct (Forall2_nth _ F En) as (ch & Ech & Hl & Hd). split.
  - unfold iv_get. rewrite Hc. cbn [s_seek s_read s_clone VecStream]. rewrite seek_start by nia. rewrite read_full by nia.
    assert (R : firstn c (skipn (n * c) (iv_w v' : list byte)) = ch).
    { rewrite Hw, skipn_app, firstn_app, skipn_length, Lf. replace (c - (S n * c - n * c)) with 0 by nia.
      cbn [firstn]. rewrite app_nil_r. rewrite firstn_skipn_comm. replace (n * c + c) with (S n * c) by nia.
      rewrite firstn_firstn, Nat.min_id. rewrite <- (@cut_nth c cs n ch (encodes_cut F) Ech), <- Ecs.
      rewrite firstn_skipn_comm. replace (n * c + c) with (S n * c) by nia. auto. }
    rewrite R. unfold chunk_from. rewrite Hl, Nat.ltb_irrefl, Hd. auto.
  - intros y Ey. assert (Hn2 : S n < length xs) by (apply nth_error_Some; congruence).
    assert (Lw2 : length (iv_w v' : list byte) = length (iv_w v : list byte)).
    { rewrite Hw. rewrite (app_length (firstn (S n * c) _)), app_length, Lf, skipn_length. nia. }
    unfold iv_get. rewrite Hc. cbn [s_seek s_read s_clone VecStream]. rewrite seek_start by nia. rewrite read_full by nia.
    assert (R : exists rest, firstn c (skipn (S n * c) (iv_w v' : list byte)) = b ++ rest).
    { rewrite Hw. rewrite skipn_app. rewrite skipn_all2 by lia. rewrite Lf, Nat.sub_diag. cbn [app skipn].
      rewrite firstn_app, firstn_all2 by lia. eauto. }
    destruct R as [rest R]. assert (Lc : length (firstn c (skipn (S n * c) (iv_w v' : list byte))) = c).
    { rewrite firstn_length, skipn_length. nia. }
    unfold chunk_from. rewrite Lc, Nat.ltb_irrefl. rewrite R. rewrite (Codec rest Eb). auto.
Qed.

(** into_iter starts at the position of the vector's own handle: after an append, it yields nothing. *)
Theorem C36_into_iter_starts_at_cursor : forall v xs k, aligned (iv_chunk v) -> iv_ok de v xs k ->
  iv_into_list de v = Ok (skipn k xs).
Proof. intros. apply iv_into_list_ok; auto. Qed.
Theorem C36_into_iter_after_append_refuted : forall v xs k ys, aligned (iv_chunk v) -> iv_ok de v xs k ->
  Forall (fits ser (iv_chunk v)) ys ->
  exists v', iv_append ser v ys = Ok (v', [], true) /\ iv_list de v' = Ok (xs ++ rev ys) /\ iv_into_list de v' = Ok [].
Proof.
  intros v xs k ys Ha H Hf. destruct (iv_append_ok Codec H Hf) as (v' & E & Hc & H'). exists v'. split; auto.
  assert (Ha' : aligned (iv_chunk v')) by (rewrite Hc; auto).
  split; [eapply iv_list_ok; eauto|]. rewrite (iv_into_list_ok Ha' H'). f_equal. apply skipn_all2.
  rewrite !app_length, rev_length. auto.
Qed.

(** With any other chunk size, iteration stops after the chunks of the first buffer. *)
Lemma iter_in_buffer c w h : 1 <= c -> forall xs cs tail fuel, Forall2 (encodes de c) cs xs -> 1 <= length tail < c -> length xs < fuel ->
  iter_list de c fuel (@mkBR VecStream w h (concat cs ++ tail)) = Ok xs.
Proof.
  intros Hc. induction xs as [|x xs IH]; intros cs tail [|fuel] F Ht Hf; try (cbn in Hf; lia); inversion F as [|ch ? cs' ? [Hl Hd] F']; subst.
  - cbn [concat app iter_list]. unfold iter_next, br_read. cbn [br_buf]. destruct tail as [|z zs]; [cbn in Ht; lia|].
    rewrite (firstn_all2 (z :: zs)) by lia. unfold chunk_from. replace (length (z :: zs) <? c) with true by (symmetry; apply Nat.ltb_lt; lia). auto.
  - cbn [iter_list]. unfold iter_next, br_read. cbn [br_buf br_w br_h concat]. rewrite <- app_assoc.
    destruct (ch ++ concat cs' ++ tail) as [|z zs] eqn:Ez.
    { apply app_eq_nil in Ez as [E1 _]. subst. cbn in Hc. lia. }
    rewrite <- Ez. rewrite firstn_app, firstn_all, Nat.sub_diag. cbn [firstn]. rewrite app_nil_r. unfold chunk_from.
    rewrite Nat.ltb_irrefl, Hd. cbn [bind]. rewrite skipn_app, skipn_all, Nat.sub_diag. cbn [skipn app]. rewrite IH; auto. cbn in Hf. lia.
Qed.
Theorem C36_iteration_stops_early_refuted : forall v xs k, iv_chunk v < bufcap -> bufcap mod iv_chunk v <> 0 ->
  iv_ok de v xs k -> bufcap < length xs * iv_chunk v ->
  iv_list de v = Ok (firstn (bufcap / iv_chunk v) xs) /\ bufcap / iv_chunk v < length xs.
Proof.
  intros v xs k Hlt Hm H Hbig. pose proof (iv_fuel_ok H) as Hfuel. pose proof (iv_ok_length H) as L.
  unfold iv_list. rewrite (iv_iter_ok H). cbn [bind]. pose proof H as (Hc & _ & _ & _ & cs & E & F).
  set (c := iv_chunk v) in *. set (q := bufcap / c).
  assert (Hd : bufcap = c * q + bufcap mod c) by (apply Nat.div_mod; lia).
  assert (Hr : bufcap mod c < c) by (apply Nat.mod_upper_bound; lia).
  assert (Hq : q < length xs) by nia. split; auto.
  set (buf := firstn bufcap (iv_w v : list byte)).
  assert (Lbuf : length buf = bufcap) by (unfold buf; rewrite firstn_length; lia).
  assert (Ebuf : exists tail, buf = concat (firstn q cs) ++ tail /\ length tail = bufcap mod c).
  { exists (skipn (q * c) buf). split; [|rewrite skipn_length; nia].
    rewrite <- (firstn_skipn (q * c) buf) at 1. f_equal. unfold buf. rewrite firstn_firstn.
    replace (Nat.min (q * c) bufcap) with (q * c) by nia. rewrite E. apply firstn_concat. eapply encodes_cut; eauto. }
  destruct Ebuf as (tail & Ebuf & Lt).
  assert (Hstep : forall fuel, iter_list de c (S fuel) (br_new VecStream (iv_w v) (0 * c)) =
    iter_list de c (S fuel) (@mkBR VecStream (iv_w v) bufcap buf)).
  { intros fuel. cbn [iter_list]. unfold iter_next, br_read, br_new. cbn [br_buf br_w br_h].
    replace (bufcap <=? c) with false by (symmetry; apply Nat.leb_gt; auto). cbn [s_read VecStream].
    rewrite read_full by (rewrite L; lia). cbn [Nat.mul skipn]. fold buf. destruct buf as [|z zs]; [cbn in Lbuf; unfold bufcap in Lbuf; lia|]. auto. }
  destruct (iv_fuel v) as [|fuel] eqn:Ef; [lia|]. rewrite Hstep. rewrite Ebuf. apply iter_in_buffer; auto.
  - apply Forall2_firstn; auto.
  - lia.
  - rewrite firstn_length. lia.
Qed.
End PIOVec.

(** ** A concrete codec: numbers in one byte, followed by a byte 1. *)
Definition demo_ser (n : nat) : option (list byte) := match Byte.of_nat n with Some b => Some [b; x01] | None => None end.
Definition demo_de (l : list byte) : option nat := match l with b :: x01 :: _ => Some (Byte.to_nat b) | _ => None end.
Lemma demo_codec : codec_ok demo_ser demo_de.
Proof.
  intros x b rest H. unfold demo_ser in H. destruct (Byte.of_nat x) as [y|] eqn:E; [|discriminate]. injection H as <-.
  cbn. f_equal. apply Byte.to_of_nat. auto.
Qed.
Lemma aligned_pow2 i : aligned (2 ^ i).
Proof.
  unfold aligned. destruct (Nat.le_gt_cases 13 i) as [H|H].
  - left. transitivity (2 ^ 13); [|apply Nat.pow_le_mono_r; lia]. unfold bufcap. vm_compute. lia.
  - right. exists (2 ^ (13 - i)). rewrite <- Nat.pow_add_r. replace (13 - i + i) with 13 by lia. reflexivity.
Qed.
Definition demo_history : list (vec_op nat) :=
  [VAppend [1; 2; 3]; VSwapRemove _ 0; VAppend [7]; VUpdateFirst (Nat.eqb 2) (fun x => x + 40); VGet _ 1; VIter _].
Example c36_allowed : vec_allowed demo_ser 4 [] demo_history.
Proof.
  cbn. repeat split; auto; try lia; repeat constructor; try (eexists; split; [reflexivity|cbn; lia]).
  intros x [<-|[<-|[<-|[]]]] E; try discriminate. eexists; split; [reflexivity|cbn; lia].
Qed.
Example c36_case : exists v,
  iov_run demo_ser demo_de (iv_new VecStream (s_new VecStream) 4) demo_history =
  Ok (v, [OutDone _; OutItem (Some 3); OutDone _; OutItem (Some 2); OutItem (Some 42); OutItems [1; 42; 7]]).
Proof. eexists. vm_compute. reflexivity. Qed.
Example c36_swap_remove_beyond : exists v v2,
  iv_append demo_ser (iv_new VecStream (s_new VecStream) 4) [1; 2; 3] = Ok (v, [], true) /\
  iv_swap_remove demo_de v 9 = Ok (v2, Some None) /\ iv_list demo_de v2 = Ok [3; 2].
Proof. eexists _, _. split; [vm_compute; reflexivity|]. split; vm_compute; reflexivity. Qed.

Print Assumptions C36_iovec_is_a_vector.
Print Assumptions C36_get_mut_writes_next_element_refuted.
Print Assumptions C36_iteration_stops_early_refuted.
