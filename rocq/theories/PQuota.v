(** PQuota.v -- property theorems: C75 (ByteStream on storage that runs out). *)
From Coq Require Import ZArith NArith Init.Byte Strings.Byte.
From Verif Require Import Base PermSolve Block Spec BTree KMin Hasher Stream PStream IOVec IOVecProof PIOVec ByteStream ByteStreamProof PByteStream Quota.
Set Implicit Arguments.

Section PQuota.
Variable L : nat.
Notation Q := (QuotaStream L).
Context {K V : Type} {OK : Ord K} {OV : Ord V} {EK : OrdEq K}.
Variable bs : BSearch K.
Variable ser : K * V -> option (list byte).
Variable de : list byte -> option (K * V).
Notation T := (K * V)%type.

(** ** The same bytes under a quota and without *)
Definition up (v : iovec VecStream) : iovec Q := @mkIV Q (iv_w v) (iv_h v) (iv_chunk v).
Definition ups (sl : list (option (iovec VecStream))) : list (option (iovec Q)) := map (option_map up) sl.
Definition up_state (s : bstream VecStream) : bstream Q := mkBS (ups (st_slots s)) (st_cap s).
Definition upb (b : bufreader VecStream) : bufreader Q := @mkBR Q (br_w b) (br_h b) (br_buf b).

Lemma br_read_up b n : br_read (upb b) n = let (b', r) := br_read b n in (upb b', r).
Proof.
  destruct b as [w h buf]. unfold br_read, upb. cbn [br_w br_h br_buf]. destruct buf as [|z zs]; [|reflexivity].
  cbn [s_read VecStream QuotaStream]. destruct (bufcap <=? n).
  - destruct (vs_read w h n) as [[w' h'] r]. reflexivity.
  - destruct (vs_read w h bufcap) as [[w' h'] [r|]]; reflexivity.
Qed.
Lemma iter_next_up c b : iter_next de c (upb b) = let* (b', o) := iter_next de c b in Ok (upb b', o).
Proof.
  unfold iter_next. rewrite br_read_up. destruct (br_read b c) as [b' r].
  destruct (chunk_from c r) as [[ch|]|]; [|reflexivity|reflexivity]. destruct (de ch); reflexivity.
Qed.
Lemma iter_find_up {A} (p : nat -> T -> option A) c fuel : forall j b, iter_find de p c fuel j (upb b) = iter_find de p c fuel j b.
Proof.
  induction fuel as [|fuel IH]; intros j b; cbn [iter_find]; auto. rewrite iter_next_up.
  destruct (iter_next de c b) as [[b' [x|]]|]; cbn [bind]; auto. destruct (p j x); auto.
Qed.
Lemma iter_list_up c fuel : forall b, iter_list de c fuel (upb b) = iter_list de c fuel b.
Proof.
  induction fuel as [|fuel IH]; intros b; cbn [iter_list]; auto. rewrite iter_next_up.
  destruct (iter_next de c b) as [[b' [x|]]|]; cbn [bind]; auto. rewrite IH. auto.
Qed.
Lemma iv_iter_up v : iv_iter (up v) = let* b := iv_iter v in Ok (upb b).
Proof.
  unfold iv_iter. cbn [s_seek s_clone up iv_w iv_h VecStream QuotaStream].
  destruct (vs_seek (iv_w v) (iv_h v) (SeekStart 0)) as [[w h] [r|]]; reflexivity.
Qed.
Lemma iv_find_up {A} (p : nat -> T -> option A) v : iv_find de p (up v) = iv_find de p v.
Proof. unfold iv_find. rewrite iv_iter_up. destruct (iv_iter v); cbn [bind]; auto. apply iter_find_up. Qed.
Lemma iv_list_up v : iv_list de (up v) = iv_list de v.
Proof. unfold iv_list. rewrite iv_iter_up. destruct (iv_iter v); cbn [bind]; auto. apply iter_list_up. Qed.
Lemma iv_into_list_up v : iv_into_list de (up v) = iv_into_list de v.
Proof. unfold iv_into_list. apply (iter_list_up _ _ (br_new VecStream (iv_w v) (iv_h v))). Qed.
Lemma slots_find_up {A} (p : nat -> nat -> T -> option A) : forall sl i, slots_find de p i (ups sl) = slots_find de p i sl.
Proof.
  induction sl as [|[v|] sl IH]; intros i; cbn [slots_find ups map option_map]; [reflexivity| |apply IH].
  rewrite iv_find_up. destruct (iv_find de (p i) v) as [[a|]|]; cbn [bind]; auto.
Qed.
Lemma bs_size_up s : bs_size (up_state s) = bs_size s.
Proof.
  unfold bs_size. cbn [up_state st_slots]. unfold ups. rewrite map_map. f_equal. apply map_ext. intros [v|]; reflexivity.
Qed.
Lemma bs_tm_slots_up : forall sl ks, bs_tm_slots bs de ks (ups sl) = bs_tm_slots bs de ks sl.
Proof.
  induction sl as [|[v|] sl IH]; intros ks; cbn [bs_tm_slots ups map option_map]; [reflexivity| |apply IH].
  rewrite iv_list_up. destruct (iv_list de v) as [l|]; cbn [bind]; auto. destruct (bs_tm_loop bs ks l) as [ks1 out1].
  fold (ups sl). rewrite IH. auto.
Qed.
Lemma bs_collect_up : forall sl i m, bs_collect de i (ups sl) m = bs_collect de i sl m.
Proof.
  induction sl as [|[v|] sl IH]; intros i m; cbn [bs_collect ups map option_map]; [reflexivity| |apply IH].
  rewrite iv_list_up. destruct (iv_list de v) as [l|]; cbn [bind]; auto. cbn [up iv_chunk].
  destruct (km_push_all m _); cbn [bind]; auto.
Qed.
Lemma bs_drain_up : forall sl, bs_drain de (ups sl) = bs_drain de sl.
Proof.
  induction sl as [|[v|] sl IH]; cbn [bs_drain ups map option_map]; [reflexivity| |apply IH].
  rewrite iv_into_list_up. fold (ups sl). rewrite IH. auto.
Qed.

Lemma q_write_fits v p buf : p + length buf <= L -> p <= length v -> q_write L v p buf = vs_write v p buf.
Proof.
  intros H Hp. unfold q_write. destruct buf as [|z zs].
  - destruct (@vs_write_eq v p []) as (v' & E & _ & D); auto. rewrite E, D. cbn [length app]. rewrite Nat.add_0_r, firstn_skipn. auto.
  - cbn [length] in H. replace (L <=? p) with false by (symmetry; apply Nat.leb_gt; lia).
    rewrite firstn_all2 by (cbn [length]; lia). auto.
Qed.
Lemma vs_read_length v p n : p <= length v -> exists p' b, vs_read v p n = (v, p', Some b) /\ length b <= n /\ p' <= length v.
Proof.
  intros Hp. destruct (Nat.le_ge_cases (p + n) (length v)) as [H|H].
  - rewrite read_full by auto. eexists _, _. split; [reflexivity|]. rewrite firstn_length. lia.
  - rewrite read_rest by auto. eexists _, _. split; [reflexivity|]. rewrite skipn_length. lia.
Qed.
(** Removing writes within what there is. *)
Lemma iv_swap_remove_up (v : iovec VecStream) n : length (iv_w v : list byte) <= L ->
  iv_swap_remove de (up v) n = let* (v', r) := iv_swap_remove de v n in Ok (up v', r).
Proof.
  destruct v as [w h c]. intros HL. unfold iv_swap_remove, up. cbn [iv_w iv_h iv_chunk] in *.
  cbn [s_seek s_read s_write s_resize VecStream QuotaStream] in *.
  destruct (C35_seek_clamped w h (SeekStart (n * c))) as (p & E1 & Hp1 & Hp2). rewrite E1.
  assert (Hp : p <= length w) by lia.
  destruct (@vs_read_length w p c Hp) as (p' & b & E2 & Lb & Hp'). rewrite E2.
  set (item := match chunk_from c (Some b) with None => None | Some None => Some None | Some (Some buf) => match de buf with Some o => Some (Some o) | None => None end end).
  destruct item as [item'|]; [|reflexivity]. rewrite seek_end.
  destruct (length w <? c) eqn:Ec; [reflexivity|]. apply Nat.ltb_ge in Ec.
  destruct (n * c <? length w - c) eqn:En.
  - apply Nat.ltb_lt in En. rewrite !seek_start by lia.
    destruct (@vs_read_length w (length w - c) c) as (p2 & b2 & E3 & Lb2 & Hp2'); [lia|]. rewrite E3.
    unfold chunk_from. destruct (length b2 <? c) eqn:Eb; [reflexivity|]. apply Nat.ltb_ge in Eb. rewrite seek_start by lia.
    rewrite q_write_fits by lia. destruct (@vs_write_eq w (n * c) b2) as (w' & Ew & Lw & _); [lia|]. rewrite Ew. cbn [bind].
    unfold q_resize. replace (L <? length w - c) with false by (symmetry; apply Nat.ltb_ge; lia).
    unfold vs_resize. reflexivity.
  - cbn [bind]. unfold q_resize. replace (L <? length w - c) with false by (symmetry; apply Nat.ltb_ge; lia).
    unfold vs_resize. reflexivity.
Qed.

(** ** One element appended under the quota *)
Lemma write_all_quota w buf : length w <= L ->
  write_all Q w (length w) buf =
    Ok (w ++ firstn (L - length w) buf, length (w ++ firstn (L - length w) buf), skipn (L - length w) buf, length buf <=? L - length w).
Proof.
  intros HL. unfold write_all. destruct buf as [|z zs].
  - cbn [write_loop]. rewrite firstn_nil, skipn_nil, app_nil_r. reflexivity.
  - set (buf := z :: zs). set (r := L - length w).
    assert (Hb : length buf = S (length zs)) by reflexivity.
    assert (E1 : write_loop Q (length buf) w (length w) buf =
      let* (w', h', o) := q_write L w (length w) buf in
      match o with None | Some 0 => Ok (w', h', buf, false) | Some n => write_loop Q (length zs) w' h' (skipn n buf) end) by reflexivity.
    rewrite E1. clear E1. unfold q_write. fold buf. change (match buf with [] => ?a | _ => ?b end) with b.
    destruct (L <=? length w) eqn:El.
    + apply Nat.leb_le in El. assert (Hr : r = 0) by (unfold r; lia). rewrite Hr. cbn [bind firstn skipn]. rewrite app_nil_r. reflexivity.
    + apply Nat.leb_gt in El. fold r. rewrite vs_write_end. cbn [bind]. rewrite <- app_length.
      rewrite firstn_length. destruct (Nat.min r (length buf)) as [|n] eqn:Em; [unfold r in *; lia|].
      destruct (Nat.le_gt_cases (length buf) r) as [H|H].
      * rewrite Nat.min_r in Em by lia. rewrite <- Em. rewrite skipn_all, skipn_all2 by lia.
        replace (length buf <=? r) with true by (symmetry; apply Nat.leb_le; lia). destruct (length zs); reflexivity.
      * rewrite Nat.min_l in Em by lia. rewrite <- Em. replace (length buf <=? r) with false by (symmetry; apply Nat.leb_gt; lia).
        destruct (skipn r buf) as [|y ys] eqn:Es.
        { exfalso. assert (A : length (skipn r buf) = 0) by (rewrite Es; reflexivity). rewrite skipn_length in A. lia. }
        destruct (length zs) as [|m]; [reflexivity|]. cbn [write_loop s_write QuotaStream q_write].
        replace (L <=? length (w ++ firstn r buf)) with true; [reflexivity|].
        symmetry. apply Nat.leb_le. rewrite app_length, firstn_length. unfold r. lia.
Qed.
Lemma q_append w (h : nat) c x ch : chunk_serialize ser c x = Some ch -> length w <= L ->
  iv_append ser (@mkIV Q w h c) [x] =
    Ok (@mkIV Q (w ++ firstn (L - length w) ch) (length (w ++ firstn (L - length w) ch)) c, [],
        (length ch <? bufcap) || (1 <=? L - length w) || (length ch =? 0)).
Proof.
  intros Hch HL. unfold iv_append. cbn [iv_w iv_h iv_chunk s_seek QuotaStream]. rewrite seek_end.
  cbn [rev app append_loop]. rewrite Hch. unfold bw_write. cbn [length app]. rewrite Nat.sub_0_r.
  destruct (length ch <? bufcap) eqn:Ec.
  - cbn [bind]. unfold bw_flush. rewrite write_all_quota by auto. reflexivity.
  - apply Nat.ltb_ge in Ec.
    match goal with |- context [if bufcap <? length ch then ?a else ?b] =>
      replace (if bufcap <? length ch then a else b) with b by (destruct (bufcap <? length ch); reflexivity) end. cbn [bind negb]. replace (bufcap <=? length ch) with true by (symmetry; apply Nat.leb_le; auto).
    cbn [s_write QuotaStream]. unfold q_write. destruct ch as [|z zs].
    { exfalso. cbn [length] in Ec. unfold bufcap in Ec. lia. }
    set (ch := z :: zs) in *. replace (length ch =? 0) with false by reflexivity. rewrite orb_false_r. cbn [orb].
    destruct (L <=? length w) eqn:El.
    + apply Nat.leb_le in El. replace (L - length w) with 0 by lia. cbn [firstn bind]. rewrite app_nil_r. reflexivity.
    + apply Nat.leb_gt in El. rewrite vs_write_end. cbn [bind]. rewrite <- app_length.
      replace (1 <=? L - length w) with true by (symmetry; apply Nat.leb_le; lia). reflexivity.
Qed.
Lemma v_append w (h : nat) c x ch : chunk_serialize ser c x = Some ch -> 
  iv_append ser (@mkIV VecStream w h c) [x] = Ok (@mkIV VecStream (w ++ ch) (length (w ++ ch)) c, [], true).
Proof.
  intros Hch. unfold iv_append. cbn [iv_w iv_h iv_chunk s_seek VecStream]. rewrite seek_end.
  cbn [rev app append_loop]. rewrite Hch. unfold bw_write. cbn [length app]. rewrite Nat.sub_0_r.
  destruct (length ch <? bufcap) eqn:Ec.
  - cbn [bind]. destruct (IOVecProof.bw_flush_ok w ch) as (h' & E & ->). rewrite E. reflexivity.
  - apply Nat.ltb_ge in Ec.
    match goal with |- context [if bufcap <? length ch then ?a else ?b] =>
      replace (if bufcap <? length ch then a else b) with b by (destruct (bufcap <? length ch); reflexivity) end. cbn [bind negb]. replace (bufcap <=? length ch) with true by (symmetry; apply Nat.leb_le; auto).
    cbn [s_write VecStream]. rewrite vs_write_end. cbn [bind]. rewrite <- app_length. reflexivity.
Qed.
Lemma iv_append_up (v : iovec VecStream) x ch : chunk_serialize ser (iv_chunk v) x = Some ch ->
  length (iv_w v : list byte) + length ch <= L ->
  iv_append ser (up v) [x] = let* (v', r, ok) := iv_append ser v [x] in Ok (up v', r, ok).
Proof.
  destruct v as [w h c]. cbn [iv_w iv_h iv_chunk]. intros Hch HL. unfold up. cbn [iv_w iv_h iv_chunk].
  rewrite (@q_append w h c x ch Hch) by lia. rewrite (@v_append w h c x ch Hch). cbn [bind]. rewrite firstn_all2 by lia.
  replace ((length ch <? bufcap) || (1 <=? L - length w) || (length ch =? 0)) with true; [reflexivity|].
  symmetry. destruct (length ch) as [|n] eqn:E; [apply orb_true_r|]. replace (1 <=? L - length w) with true by (symmetry; apply Nat.leb_le; lia).
  rewrite orb_true_r. reflexivity.
Qed.

(** ** Enough storage: nothing changes *)
Lemma nth_ups i sl : nth_error (ups sl) i = option_map (option_map up) (nth_error sl i).
Proof. apply nth_error_map. Qed.
Lemma ups_replace i v sl : replace_nth i (Some (up v)) (ups sl) = ups (replace_nth i (Some v) sl).
Proof. unfold ups. rewrite map_replace_nth. reflexivity. Qed.
Definition short (sl : list (option (iovec VecStream))) : Prop :=
  Forall (fun o : option (iovec VecStream) => match o with Some v => length (iv_w v : list byte) <= L | None => True end) sl.
Lemma short_nth sl i (v : iovec VecStream) : short sl -> nth_error sl i = Some (Some v) -> length (iv_w v : list byte) <= L.
Proof. intros H E. unfold short in H. rewrite Forall_forall in H. apply (H (Some v)). eapply nth_error_In; eauto. Qed.
Lemma swap_remove_short (v v' : iovec VecStream) n r : length (iv_w v : list byte) <= L -> iv_swap_remove de v n = Ok (v', r) ->
  length (iv_w v' : list byte) <= L.
Proof.
  destruct v as [w h c]. intros HL. unfold iv_swap_remove. cbn [iv_w iv_h iv_chunk] in *.
  cbn [s_seek s_read s_write s_resize VecStream] in *.
  destruct (C35_seek_clamped w h (SeekStart (n * c))) as (p & E1 & Hp1 & Hp2). rewrite E1.
  assert (Hp : p <= length w) by lia.
  destruct (@vs_read_length w p c Hp) as (p' & b & E2 & Lb & Hp'). rewrite E2.
  set (item := match chunk_from c (Some b) with None => None | Some None => Some None | Some (Some buf) => match de buf with Some o => Some (Some o) | None => None end end).
  destruct item as [item'|]; [|intros [= <- <-]; auto]. rewrite seek_end.
  destruct (length w <? c) eqn:Ec; [intros [= <- <-]; auto|]. apply Nat.ltb_ge in Ec.
  assert (R : forall u, length (vec_resize (length w - c) u) <= L).
  { intros u. rewrite vec_resize_length. lia. }
  destruct (n * c <? length w - c) eqn:En.
  - apply Nat.ltb_lt in En. rewrite !seek_start by lia.
    destruct (@vs_read_length w (length w - c) c) as (p2 & b2 & E3 & Lb2 & Hp2'); [lia|]. rewrite E3.
    unfold chunk_from. destruct (length b2 <? c) eqn:Eb; [cbn [bind]; intros; discriminate|]. apply Nat.ltb_ge in Eb. rewrite seek_start by lia.
    destruct (@vs_write_eq w (n * c) b2) as (w' & Ew & Lw & _); [lia|]. rewrite Ew. cbn [bind].
    unfold vs_resize. intros [= <- <-]. cbn [iv_w]. apply R.
  - cbn [bind]. unfold vs_resize. intros [= <- <-]. cbn [iv_w]. apply R.
Qed.
Lemma bs_remove_up : forall ix sl, short sl ->
  bs_remove de (ups sl) ix = let* (sl', out) := bs_remove de sl ix in Ok (ups sl', out).
Proof.
  induction ix as [|[i j] ix IH]; intros sl H; cbn [bs_remove]; auto. rewrite nth_ups.
  destruct (nth_error sl i) as [[v|]|] eqn:E; cbn [option_map unwrap bind]; auto.
  pose proof (short_nth i H E) as Hv. rewrite iv_swap_remove_up by auto.
  destruct (iv_swap_remove de v j) as [[v' r]|] eqn:Er; cbn [bind]; auto.
  assert (Hs : short (replace_nth i (Some v') sl)) by (apply replace_nth_Forall; auto; apply (@swap_remove_short v v' j r Hv Er)).
  rewrite ups_replace. destruct r as [[kv|]|]; auto. rewrite IH by auto.
  destruct (bs_remove de (replace_nth i (Some v') sl) ix) as [[sl' out]|]; auto.
Qed.
Lemma bs_pop_up s n : short (st_slots s) -> bs_pop de (up_state s) n = let* (s', out) := bs_pop de s n in Ok (up_state s', out).
Proof.
  intros H. unfold bs_pop. cbn [up_state st_slots st_cap]. rewrite bs_collect_up. destruct (bs_collect de 0 (st_slots s) (km_new n)) as [m|]; cbn [bind]; auto.
  rewrite bs_remove_up by auto. destruct (bs_remove de (st_slots s) _) as [[sl' out]|]; cbn [bind]; auto.
Qed.
Lemma bs_take_up s k : short (st_slots s) -> bs_take de (up_state s) k = let* (s', o) := bs_take de s k in Ok (up_state s', o).
Proof.
  intros H. unfold bs_take. cbn [up_state st_slots st_cap]. rewrite slots_find_up.
  destruct (slots_find de _ 0 (st_slots s)) as [[[i j]|]|]; cbn [bind]; auto. rewrite nth_ups.
  destruct (nth_error (st_slots s) i) as [[v|]|] eqn:E; cbn [option_map unwrap bind]; auto.
  rewrite iv_swap_remove_up by (eapply short_nth; eauto). destruct (iv_swap_remove de v j) as [[v' [[kv|]|]]|]; cbn [bind]; auto.
  rewrite ups_replace. auto.
Qed.

Hypothesis Codec : codec_ok ser de.
Hypothesis Sizes : sizes_ok ser.

Lemma slot_short i (o : option (iovec VecStream)) r : slot_rep ser de i o r -> match o with Some v => length (iv_w v : list byte) = slot_sz i r | None => True end.
Proof. destruct o as [v|]; auto. intros (Hc & H & _). rewrite (iv_ok_length H), Hc. reflexivity. Qed.
Lemma nth_le_sum l : forall i a, nth_error l i = Some a -> a <= list_sum l.
Proof.
  induction l as [|b l IH]; intros [|i] a E; try discriminate; cbn [nth_error] in E; change (list_sum (b :: l)) with (b + list_sum l).
  - injection E as ->. lia.
  - specialize (IH _ _ E). lia.
Qed.
Lemma inv_short s : bs_inv ser de s -> st_cap s <= L -> short (st_slots s).
Proof.
  intros (rs & H & _ & Hc) HL. unfold bs_size in Hc. rewrite (slots_size_ok _ _ _ _ _ H) in Hc.
  apply Forall_forall. intros o Ho. apply In_nth_error in Ho as [i Ho].
  assert (Hl : length (st_slots s) = length rs) by (eapply slots_rep_length; eauto).
  destruct (nth_error rs i) as [r|] eqn:Er; [|apply nth_error_None in Er; assert (nth_error (st_slots s) i <> None) by congruence; apply nth_error_Some in H0; lia].
  destruct (slots_rep_nth _ _ _ _ _ _ H Er) as (o' & Eo & Hr). assert (o' = o) by congruence. subst o'.
  apply slot_short in Hr. destruct o as [v|]; auto. cbn [plus] in Hr. rewrite Hr.
  pose proof (nth_le_sum _ _ (sizes_nth 0 rs i Er)). cbn [plus] in *. lia.
Qed.
Lemma chunk_of x b c : ser x = Some b -> length b <= c -> chunk_serialize ser c x = Some (vec_resize c b).
Proof. intros E H. unfold chunk_serialize. rewrite E. replace (c <? length b) with false; auto. symmetry. apply Nat.ltb_ge. auto. Qed.
Lemma bs_push_loop_up cap : cap <= L -> forall vs sl rs total, slots_rep ser de 0 sl rs -> length rs = 64 ->
  total = list_sum (sizes 0 rs) -> total <= cap ->
  bs_push_loop ser (ups sl) cap total vs = let* (sl', out) := bs_push_loop ser sl cap total vs in Ok (ups sl', out).
Proof.
  intros HcL. induction vs as [|x vs IH]; intros sl rs total H Hl Ht Hcap; cbn [bs_push_loop]; auto.
  destruct (ser x) as [b|] eqn:Eb.
  2:{ rewrite (IH sl rs total) by auto. destruct (bs_push_loop ser sl cap total vs) as [[sl' out]|]; auto. }
  destruct (chunk_size_class _ (Sizes Eb)) as (iN & E & Ei & Hi & Hb). rewrite E. cbn [bind].
  rewrite pow_to_nat, Ei. set (i := class (length b)) in *.
  destruct (cap <? 2 ^ i + total) eqn:Ec.
  { rewrite (IH sl rs total) by auto. destruct (bs_push_loop ser sl cap total vs) as [[sl' out]|]; auto. }
  apply Nat.ltb_ge in Ec. destruct (nth_error rs i) as [r|] eqn:Er; [|apply nth_error_None in Er; lia].
  destruct (slot_append Codec _ _ _ _ H Er Eb Hb) as (o & v' & E1 & E2 & E3 & E4). rewrite nth_ups, E1. cbn [option_map unwrap bind].
  destruct (slots_rep_nth _ _ _ _ _ _ H Er) as (o' & Eo & Hr). assert (o' = o) by congruence. subst o'. cbn [plus] in Hr.
  set (v0 := match o with Some v => v | None => iv_new VecStream (s_new VecStream) (2 ^ i) end) in *.
  assert (Ev : match option_map up o with Some v => v | None => iv_new Q (s_new Q) (2 ^ i) end = up v0) by (unfold v0; destruct o; reflexivity).
  rewrite Ev. rewrite (@iv_append_up v0 x (vec_resize (2 ^ i) b)), E2.
  - cbn [bind]. rewrite ups_replace. apply (IH _ _ (total + 2 ^ i) E3); try lia. rewrite replace_nth_length. auto.
  - assert (Hc0 : iv_chunk v0 = 2 ^ i) by (unfold v0; destruct o as [v|]; [apply Hr|reflexivity]). rewrite Hc0. apply chunk_of; auto.
  - rewrite vec_resize_length. assert (Hw : length (iv_w v0 : list byte) <= total).
    { unfold v0. destruct o as [v|]; [|cbn; lia]. apply slot_short in Hr. rewrite Hr, Ht. apply (nth_le_sum _ i). apply (sizes_nth 0 rs i Er). }
    lia.
Qed.
Notation Bq := (ByteStreamB Q bs ser de).
Notation Bv := (ByteStreamB VecStream bs ser de).
Lemma step_up s o : bs_inv ser de s -> st_cap s <= L ->
  step Bq (up_state s) o = let* (s', out) := step Bv s o in Ok (up_state s', out).
Proof.
  intros HI HL. pose proof (inv_short HI HL) as Hs. destruct o as [vs|n|k|ks|]; cbn [step push pop take take_multiple flush ByteStreamB].
  - destruct HI as (rs & H1 & H2 & H3). unfold bs_push. rewrite bs_size_up. cbn [up_state st_slots st_cap].
    rewrite (@bs_push_loop_up (st_cap s) HL vs (st_slots s) rs) by (auto; apply (bs_size_ok (conj H1 (conj H2 H3)))).
    destruct (bs_push_loop ser (st_slots s) (st_cap s) (bs_size s) vs) as [[sl' out]|]; auto.
  - apply bs_pop_up. auto.
  - rewrite bs_take_up by auto. destruct (bs_take de s k) as [[s' o]|]; auto.
  - unfold bs_take_multiple. cbn [up_state st_slots]. rewrite bs_tm_slots_up.
    destruct (bs_tm_slots bs de (sort_keys ks) (st_slots s)) as [[ks' out]|]; auto.
  - unfold bs_flush. cbn [up_state st_slots st_cap]. rewrite bs_drain_up. destruct (bs_drain de (st_slots s)) as [out|]; cbn [bind]; auto.
    do 3 f_equal. unfold up_state. cbn [st_slots st_cap]. f_equal. unfold ups. rewrite !map_map. reflexivity.
Qed.
Lemma up_new cap : up_state (bs_new VecStream cap) = bs_new Q cap.
Proof. reflexivity. Qed.
Lemma run_up : forall h s, bs_inv ser de s -> st_cap s <= L ->
  run Bq (up_state s) h = let* (s', out) := run Bv s h in Ok (up_state s', out).
Proof.
  induction h as [|o h IH]; intros s HI HL; cbn [run]; auto. rewrite step_up by auto.
  assert (S : exists s1 r1, step Bv s o = Ok (s1, r1) /\ bs_inv ser de s1 /\ st_cap s1 = st_cap s).
  { destruct HI as (rs & H). pose proof H as (H1 & H2 & H3). destruct o as [vs|n|k|ks|]; cbn [step].
    - destruct (C37_push bs Codec Sizes vs (ex_intro _ rs H)) as ((s1 & r1 & A1 & A2 & A3 & _) & _). exists s1, r1. auto.
    - destruct (C37_pop bs n (ex_intro _ rs H)) as ((s1 & r1 & A1 & A2 & A3 & _) & _). exists s1, r1. auto.
    - destruct (C37_take bs k (ex_intro _ rs H)) as (s1 & r1 & A1 & A2 & A3 & _). rewrite A1. exists s1, (opt_list r1). auto.
    - cbn [take_multiple ByteStreamB]. unfold bs_take_multiple.
      destruct (bs_tm_slots_ok bs _ _ (st_slots s) 0 rs (ks := sort_keys ks) H1) as (ks' & out & A1 & _); [apply stable_sort_sorted|].
      rewrite A1. cbn [bind]. exists s, out. split; auto. split; auto. exists rs; auto.
    - destruct (ByteStreamProof.bs_flush_ok H) as (s1 & A1 & A2 & A3). cbn [flush ByteStreamB]. rewrite A1. eexists s1, _. split; [reflexivity|].
      split; [eexists; eauto|]. auto. }
  destruct S as (s1 & r1 & E & I1 & C1). rewrite E. cbn [bind]. rewrite IH by (auto; congruence).
  destruct (run Bv s1 h) as [[s2 r2]|]; auto.
Qed.

(** C75.  Streams that can each hold as many bytes as the capacity of the container are as good as unlimited
    ones: the same answers, for every history. *)
Theorem C75_enough_storage : forall cap h, cap <= L ->
  exists s out, run Bv (bs_new VecStream cap) h = Ok (s, out) /\
    run Bq (bs_new Q cap) h = Ok (up_state s, out) /\
    (forall k, contains Bq (up_state s) k = contains Bv s k) /\ size Bq (up_state s) = size Bv s.
Proof.
  intros cap h HL. destruct (C37_any_history bs Codec Sizes cap h) as (s & out & E & _). exists s, out.
  split; auto. split.
  - rewrite <- up_new, run_up, E; auto. eexists. apply bs_new_ok.
  - split; [|apply bs_size_up]. intros k. cbn [contains ByteStreamB]. unfold bs_contains. cbn [up_state st_slots]. rewrite slots_find_up. auto.
Qed.

(** C75.  Only push and get_mut need room: in every state whatsoever whose streams respect the quota (full, torn or
    not, whatever the positions), the other calls do exactly what they do over unlimited streams of the same bytes;
    and every state over streams with a quota is that of some streams without. *)
Theorem C75_only_writes_need_room : forall s : bstream VecStream,
  (forall i v, nth_error (st_slots s) i = Some (Some v) -> length (iv_w v : list byte) <= L) ->
  (forall o, (forall vs, o <> OpPush vs) ->
    step Bq (up_state s) o = let* (s', out) := step Bv s o in Ok (up_state s', out)) /\
  (forall k, contains Bq (up_state s) k = contains Bv s k /\ bs_get de (up_state s) k = bs_get de s k) /\
  size Bq (up_state s) = size Bv s /\ capacity Bq (up_state s) = capacity Bv s.
Proof.
  intros s H. assert (Hs : short (st_slots s)).
  { apply Forall_forall. intros [v|] Ho; auto. apply In_nth_error in Ho as [i Hi]. apply (H i v Hi). }
  split; [|split; [|split; [apply bs_size_up|reflexivity]]].
  - intros o Ho. destruct o as [vs|n|k|ks|]; cbn [step push pop take take_multiple flush ByteStreamB].
    + exfalso. apply (Ho vs). reflexivity.
    + apply bs_pop_up. auto.
    + rewrite bs_take_up by auto. destruct (bs_take de s k) as [[s' o]|]; auto.
    + unfold bs_take_multiple. cbn [up_state st_slots]. rewrite bs_tm_slots_up.
      destruct (bs_tm_slots bs de (sort_keys ks) (st_slots s)) as [[ks' out]|]; auto.
    + unfold bs_flush. cbn [up_state st_slots st_cap]. rewrite bs_drain_up. destruct (bs_drain de (st_slots s)) as [out|]; cbn [bind]; auto.
      do 3 f_equal. unfold up_state. cbn [st_slots st_cap]. f_equal. unfold ups. rewrite !map_map. reflexivity.
  - intros k. split.
    + cbn [contains ByteStreamB]. unfold bs_contains. cbn [up_state st_slots]. rewrite slots_find_up. reflexivity.
    + unfold bs_get. cbn [up_state st_slots]. rewrite slots_find_up. reflexivity.
Qed.
Theorem C75_every_state_is_one : forall t : bstream Q, exists s : bstream VecStream, up_state s = t /\
  map (fun o : option (iovec VecStream) => match o with Some v => (iv_w v : list byte) | None => [] end) (st_slots s) = map (fun o : option (iovec Q) => stream_bytes o) (st_slots t).
Proof.
  intros [sl cap]. exists (mkBS (map (option_map (fun v : iovec Q => @mkIV VecStream (iv_w v) (iv_h v) (iv_chunk v))) sl) cap). split.
  - unfold up_state, ups. cbn [st_slots st_cap]. f_equal. rewrite map_map. rewrite <- (map_id sl) at 2. apply map_ext. intros [[w h c]|]; reflexivity.
  - cbn [st_slots]. rewrite map_map. apply map_ext. intros [[w h c]|]; reflexivity.
Qed.

(** ** Streams that are full *)
(** Slot [i] holds the elements [xs], each in its chunk of 2^i bytes, then [tail], fewer bytes than a chunk and
    only if the stream is full. *)
Definition slot_holds (i : nat) (o : option (iovec Q)) (xs : list T) (tail : list byte) : Prop :=
  match o with
  | None => xs = [] /\ tail = []
  | Some v =>
      iv_chunk v = 2 ^ i /\ length (stream_bytes o) <= L /\
      (exists cs, stream_bytes o = concat cs ++ tail /\ Forall2 (encodes de (2 ^ i)) cs xs) /\
      Forall (fits ser (2 ^ i)) xs /\ length tail < 2 ^ i /\ (tail <> [] -> length (stream_bytes o) = L)
  end.
Definition slots_ok (sl : list (option (iovec Q))) : Prop :=
  length sl = 64 /\ forall i o, nth_error sl i = Some o -> exists xs tail, slot_holds i o xs tail.
Definition used (sl : list (option (iovec Q))) : nat := list_sum (map (fun o => length (stream_bytes o)) sl).
(** The states of a container whose streams may be full. *)
Definition full_ok (s : bstream Q) : Prop := slots_ok (st_slots s) /\ bs_size s <= st_cap s.

Lemma slot_size_used (o : option (iovec Q)) : slot_size o = length (stream_bytes o).
Proof. destruct o as [v|]; auto. unfold slot_size, iv_size. cbn [s_seek s_clone QuotaStream]. rewrite seek_end. reflexivity. Qed.
Lemma size_used s : bs_size s = used (st_slots s).
Proof. unfold bs_size, used. f_equal. apply map_ext. intros o. apply slot_size_used. Qed.

Lemma chunks_of_concat c cs tail : 1 <= c -> cut c cs -> length tail < c -> forall fuel, length cs <= fuel ->
  chunks_of fuel c (concat cs ++ tail) = cs.
Proof.
  intros Hc H Ht. induction H as [|ch cs Hl H IH]; intros fuel Hf.
  - destruct fuel as [|fuel]; cbn [chunks_of concat app]; auto. apply Nat.ltb_lt in Ht. rewrite Ht. auto.
  - destruct fuel as [|fuel]; [cbn in Hf; lia|]. cbn [chunks_of concat]. rewrite <- app_assoc, app_length.
    replace (length ch + length (concat cs ++ tail) <? c) with false by (symmetry; apply Nat.ltb_ge; lia).
    assert (E1 : forall r, firstn c (ch ++ r) = ch).
    { intros r. rewrite <- Hl. rewrite firstn_app, firstn_all, Nat.sub_diag. cbn [firstn]. apply app_nil_r. }
    assert (E2 : forall r, skipn c (ch ++ r) = r).
    { intros r. rewrite <- Hl. rewrite skipn_app, skipn_all, Nat.sub_diag. reflexivity. }
    rewrite E1, E2, IH; auto. cbn in Hf. lia.
Qed.
Lemma decode_ok c cs (xs : list T) : Forall2 (encodes de c) cs xs -> decode de cs = xs.
Proof. unfold decode. induction 1 as [|ch x cs xs [_ H] _ IH]; cbn [flat_map]; auto. rewrite H, IH. auto. Qed.
Lemma pow2_pos i : 1 <= 2 ^ i.
Proof. pose proof (Nat.pow_nonzero 2 i). lia. Qed.
Lemma slot_holds_is i o xs tail : slot_holds i o xs tail -> stream_holds de o = xs.
Proof.
  destruct o as [v|]; cbn [slot_holds stream_holds]; [|intros [-> _]; reflexivity]. intros (Hc & HL & (cs & E & F) & _ & Ht & _). cbn [stream_bytes] in E.
  pose proof (encodes_cut F) as Hcut. pose proof (pow2_pos i). rewrite Hc, E. rewrite chunks_of_concat; auto.
  - apply (decode_ok F).
  - rewrite app_length, (concat_length Hcut). nia.
Qed.

(** ** Reading a stream that may end in the middle of a chunk *)
Definition left_of (b : bufreader VecStream) : list byte := br_buf b ++ skipn (br_h b) (br_w b : list byte).
Definition reading (c : nat) (b : bufreader VecStream) : Prop :=
  br_h b <= length (br_w b : list byte) /\ (bufcap <= c -> br_buf b = []) /\
  ((exists q, length (br_buf b) = q * c) \/ skipn (br_h b) (br_w b : list byte) = []).
Lemma vs_read_is w h n : h <= length w ->
  exists h', vs_read w h n = (w, h', Some (firstn n (skipn h w))) /\ h' <= length w /\ skipn h' w = skipn n (skipn h w).
Proof.
  intros H. destruct (Nat.le_ge_cases (h + n) (length w)) as [Hn|Hn].
  - rewrite read_full by auto. eexists. split; [reflexivity|]. split; auto. symmetry. rewrite skipn_skipn. reflexivity.
  - rewrite read_rest by auto. eexists. split; [rewrite firstn_all2 by (rewrite skipn_length; lia); reflexivity|]. split; auto.
    rewrite skipn_all. symmetry. apply skipn_all2. rewrite skipn_length. lia.
Qed.
Lemma br_read_left c b : 1 <= c -> aligned c -> reading c b ->
  exists b', br_read b c = (b', Some (firstn c (left_of b))) /\ left_of b' = skipn c (left_of b) /\ reading c b'.
Proof.
  intros Hc Ha (Hh & Hbig & Hbuf). destruct b as [w h buf]. unfold left_of, reading. cbn [br_w br_h br_buf] in *. unfold br_read. cbn [br_w br_h br_buf].
  destruct buf as [|z zs].
  - cbn [app]. destruct (bufcap <=? c) eqn:Eq.
    + cbn [s_read VecStream]. destruct (@vs_read_is w h c Hh) as (h' & E & Hh' & Es). rewrite E. eexists. split; [reflexivity|].
      cbn [br_w br_h br_buf app]. split; auto. split; auto. split; auto. left. exists 0. auto.
    + apply Nat.leb_gt in Eq. destruct Ha as [Ha|[q Hq]]; [lia|]. cbn [s_read VecStream].
      destruct (@vs_read_is w h bufcap Hh) as (h' & E & Hh' & Es). rewrite E. eexists. split.
      { rewrite firstn_firstn, Nat.min_l by lia. reflexivity. }
      cbn [br_w br_h br_buf]. rewrite Es. set (R := skipn h w) in *. split.
      * rewrite <- (firstn_skipn bufcap R) at 3. rewrite skipn_app. destruct (Nat.le_gt_cases c (length (firstn bufcap R))) as [Hl|Hl].
        -- replace (c - length (firstn bufcap R)) with 0 by lia. reflexivity.
        -- rewrite firstn_length in Hl. rewrite (skipn_all2 (n := bufcap) R) by lia. rewrite skipn_nil. reflexivity.
      * split; auto. split; [intros; lia|]. destruct (Nat.le_gt_cases bufcap (length R)) as [Hl|Hl].
        -- left. exists (q - 1). rewrite skipn_length, firstn_length, Nat.min_l by lia. rewrite Hq. destruct q; [lia|]. cbn [Nat.mul]. rewrite Nat.sub_succ, Nat.sub_0_r. lia.
        -- right. apply skipn_all2. lia.
  - set (buf := z :: zs) in *. exists (@mkBR VecStream w h (skipn c buf)). split; [|split; [|split; [exact Hh|split]]].
    + f_equal. f_equal. destruct Hbuf as [[q Hq]|Hn].
      * destruct q as [|q]; [discriminate|]. rewrite firstn_app. replace (c - length buf) with 0 by (rewrite Hq; cbn [Nat.mul]; lia).
        cbn [firstn]. rewrite app_nil_r. reflexivity.
      * rewrite Hn, app_nil_r. reflexivity.
    + cbn [br_w br_h br_buf]. rewrite skipn_app. destruct Hbuf as [[q Hq]|Hn].
      * destruct q as [|q]; [discriminate|]. replace (c - length buf) with 0 by (rewrite Hq; cbn [Nat.mul]; lia). reflexivity.
      * rewrite Hn, skipn_nil. reflexivity.
    + cbn [br_buf]. intros H. exfalso. specialize (Hbig H). discriminate.
    + cbn [br_w br_h br_buf]. destruct Hbuf as [[q Hq]|Hn]; [left|right; auto]. exists (q - 1). rewrite skipn_length, Hq.
      destruct q as [|q]; [discriminate|]. cbn [Nat.mul]. rewrite Nat.sub_succ, Nat.sub_0_r. lia.
Qed.
Lemma iter_find_left {A} (p : nat -> T -> option A) c tail : 1 <= c -> aligned c -> length tail < c ->
  forall cs xs, Forall2 (encodes de c) cs xs -> forall b fuel j, reading c b -> left_of b = concat cs ++ tail -> length xs < fuel ->
  iter_find de p c fuel j b = Ok (find_from p j xs).
Proof.
  intros Hc Ha Ht cs xs F. induction F as [|ch x cs xs [Hl Hd] F IH]; intros b fuel j Hb Hr Hf;
    (destruct fuel as [|fuel]; [cbn in Hf; lia|]); cbn [iter_find find_from]; unfold iter_next;
    destruct (br_read_left Hc Ha Hb) as (b' & E & Hr' & Hb'); rewrite E, Hr; unfold chunk_from.
  - cbn [concat app]. rewrite firstn_all2 by lia. apply Nat.ltb_lt in Ht. rewrite Ht. reflexivity.
  - cbn [concat]. rewrite <- app_assoc. rewrite <- Hl. rewrite firstn_app, firstn_all, Nat.sub_diag. cbn [firstn]. rewrite app_nil_r, Nat.ltb_irrefl, Hd.
    cbn [bind]. rewrite Hl. destruct (p j x); auto. apply IH; auto; [|cbn in Hf; lia].
    rewrite Hr', Hr. cbn [concat]. rewrite <- app_assoc, <- Hl. rewrite skipn_app, skipn_all, Nat.sub_diag. reflexivity.
Qed.
Lemma iv_find_full {A} (p : nat -> T -> option A) i v xs tail : slot_holds i (Some v) xs tail -> iv_find de p v = Ok (find_from p 0 xs).
Proof.
  destruct v as [w h c]. cbn [slot_holds stream_bytes iv_w iv_chunk]. intros (-> & HL & (cs & E & F) & _ & Ht & _).
  change (@mkIV Q w h (2 ^ i)) with (up (@mkIV VecStream w h (2 ^ i))). rewrite iv_find_up.
  unfold iv_find, iv_iter. cbn [iv_w iv_h iv_chunk s_seek s_clone VecStream]. rewrite seek_start by lia. cbn [bind].
  apply (@iter_find_left A p (2 ^ i) tail (pow2_pos i) (aligned_pow2 i) Ht cs xs F).
  - unfold reading, br_new. cbn [br_w br_h br_buf length]. split; [lia|]. split; auto. left. exists 0. auto.
  - unfold left_of, br_new. cbn [br_w br_h br_buf app skipn]. auto.
  - unfold iv_fuel, iv_size. cbn [s_seek s_clone VecStream iv_w iv_h]. rewrite seek_end. cbn [snd].
    rewrite E, app_length, (concat_length (encodes_cut F)), (Forall2_length F). pose proof (pow2_pos i). nia.
Qed.
Lemma slots_find_full {A} (p : nat -> nat -> T -> option A) : forall sl i,
  (forall j o, nth_error sl j = Some o -> exists xs tail, slot_holds (i + j) o xs tail) ->
  slots_find de p i sl = Ok (find_items p i (map (stream_holds de) sl)).
Proof.
  induction sl as [|o sl IH]; intros i H; cbn [slots_find map find_items]; auto.
  assert (IH' : slots_find de p (S i) sl = Ok (find_items p (S i) (map (stream_holds de) sl))).
  { apply IH. intros j o' E. destruct (H (S j) o' E) as (xs & tail & H'). exists xs, tail. rewrite Nat.add_succ_comm. auto. }
  destruct (H 0 o eq_refl) as (xs & tail & H0). rewrite Nat.add_0_r in H0. rewrite (slot_holds_is _ _ _ _ H0).
  destruct o as [v|].
  - rewrite (@iv_find_full _ (p i) i v xs tail H0). cbn [bind]. destruct (find_from (p i) 0 xs); auto.
  - cbn in H0. destruct H0 as [-> ->]. cbn [find_from]. auto.
Qed.

(** C75.  take_multiple over streams that may be full (it removes nothing, C38): the elements it returns are held,
    and every requested key that is held is among them. *)
Lemma iter_list_left c tail : 1 <= c -> aligned c -> length tail < c ->
  forall cs xs, Forall2 (encodes de c) cs xs -> forall b fuel, reading c b -> left_of b = concat cs ++ tail -> length xs < fuel ->
  iter_list de c fuel b = Ok xs.
Proof.
  intros Hc Ha Ht cs xs F. induction F as [|ch x cs xs [Hl Hd] F IH]; intros b fuel Hb Hr Hf;
    (destruct fuel as [|fuel]; [cbn in Hf; lia|]); cbn [iter_list]; unfold iter_next;
    destruct (br_read_left Hc Ha Hb) as (b' & E & Hr' & Hb'); rewrite E, Hr; unfold chunk_from.
  - cbn [concat app]. rewrite firstn_all2 by lia. apply Nat.ltb_lt in Ht. rewrite Ht. reflexivity.
  - cbn [concat]. rewrite <- app_assoc. rewrite <- Hl. rewrite firstn_app, firstn_all, Nat.sub_diag. cbn [firstn]. rewrite app_nil_r, Nat.ltb_irrefl, Hd.
    cbn [bind]. rewrite Hl. rewrite (IH b' fuel); [reflexivity|exact Hb'| |cbn in Hf; lia].
    rewrite Hr', Hr. cbn [concat]. rewrite <- app_assoc, <- Hl. rewrite skipn_app, skipn_all, Nat.sub_diag. reflexivity.
Qed.
Lemma iv_list_full i v xs tail : slot_holds i (Some v) xs tail -> iv_list de v = Ok xs.
Proof.
  destruct v as [w h c]. cbn [slot_holds stream_bytes iv_w iv_chunk]. intros (-> & HL & (cs & E & F) & _ & Ht & _).
  change (@mkIV Q w h (2 ^ i)) with (up (@mkIV VecStream w h (2 ^ i))). rewrite iv_list_up.
  unfold iv_list, iv_iter. cbn [iv_w iv_h iv_chunk s_seek s_clone VecStream]. rewrite seek_start by lia. cbn [bind].
  apply (@iter_list_left (2 ^ i) tail (pow2_pos i) (aligned_pow2 i) Ht cs xs F).
  - unfold reading, br_new. cbn [br_w br_h br_buf length]. split; [lia|]. split; auto. left. exists 0. auto.
  - unfold left_of, br_new. cbn [br_w br_h br_buf app skipn]. auto.
  - unfold iv_fuel, iv_size. cbn [s_seek s_clone VecStream iv_w iv_h]. rewrite seek_end. cbn [snd].
    rewrite E, app_length, (concat_length (encodes_cut F)), (Forall2_length F). pose proof (pow2_pos i). nia.
Qed.
Lemma tm_slots_full : forall sl i ks, (forall j o, nth_error sl j = Some o -> exists xs tail, slot_holds (i + j) o xs tail) -> sorted_by (fun x => x) ks ->
  exists ks' out, bs_tm_slots bs de ks sl = Ok (ks', out) /\ Permutation ks (keys out ++ ks') /\
    incl out (concat (map (stream_holds de) sl)) /\ (forall k, In k ks -> In k (keys (concat (map (stream_holds de) sl))) -> In k (keys out)).
Proof.
  induction sl as [|o sl IH]; intros i ks H Hs.
  - exists ks, []. cbn. repeat split; auto. intros ? [].
  - assert (H' : forall j o', nth_error sl j = Some o' -> exists xs tail, slot_holds (S i + j) o' xs tail).
    { intros j o' E. destruct (H (S j) o' E) as (xs & tail & H'). exists xs, tail. rewrite Nat.add_succ_comm. auto. }
    destruct (H 0 o eq_refl) as (xs & tail & H0). rewrite Nat.add_0_r in H0. cbn [bs_tm_slots map concat]. rewrite (slot_holds_is _ _ _ _ H0). destruct o as [v|].
    + rewrite (iv_list_full H0). cbn [bind].
      destruct (bs_tm_loop_ok bs xs Hs) as (rm & ks1 & out1 & E1 & S1 & P1 & R1 & I1 & F1). rewrite E1.
      destruct (IH (S i) ks1 H' S1) as (ks2 & out2 & E2 & P2 & I2 & F2). rewrite E2. cbn [bind].
      exists ks2, (out1 ++ out2). split; auto. subst rm. split; [rewrite P1, P2, keys_app, app_assoc; auto|]. split.
      * apply incl_app; [apply incl_appl; auto|apply incl_appr; auto].
      * intros k Hk Hin. rewrite keys_app in *. apply in_or_app. destruct (in_dec eq_dec_ord k (keys out1)) as [Hi|Hi]; auto.
        apply in_app_or in Hin as [Hin|Hin]; [left; auto|]. right. apply F2; auto.
        apply (Permutation_in _ P1) in Hk. apply in_app_or in Hk as [Hk|Hk]; tauto.
    + destruct H0 as [-> ->]. cbn [app]. apply (IH (S i)); auto.
Qed.
Theorem C75_take_multiple : forall s ks, full_ok s ->
  exists ks' out, take_multiple Bq s ks = Ok (s, ks', out) /\
    incl out (holds_all de s) /\ Permutation ks (keys out ++ ks') /\
    (forall k, In k ks -> In k (keys (holds_all de s)) -> In k (keys out)).
Proof.
  intros s ks ((_ & H) & _). cbn [take_multiple ByteStreamB]. unfold bs_take_multiple.
  destruct (@tm_slots_full (st_slots s) 0 (sort_keys ks)) as (ks' & out & E & P & I & F); [intros j o; apply (H j o)|apply stable_sort_sorted|].
  rewrite E. cbn [bind]. exists ks', out. split; auto. split; auto. assert (Ps : Permutation (sort_keys ks) ks) by apply stable_sort_perm.
  split; [rewrite <- P; symmetry; auto|]. intros k Hk. apply F. apply (Permutation_in _ (Permutation_sym Ps)). auto.
Qed.

(** C75.  The lookups of a container whose streams may be full are those of what it holds. *)
Theorem C75_lookups : forall s k, full_ok s ->
  contains Bq s k = Ok (has_key k (holds_all de s)) /\
  exists o, bs_get de s k = Ok o /\
    match o with Some v => In (k, v) (holds_all de s) | None => ~ In k (keys (holds_all de s)) end.
Proof.
  intros s k ((_ & H) & _). split.
  - cbn [contains ByteStreamB]. unfold bs_contains. rewrite slots_find_full by (intros j o E; apply (H j o E)). cbn [bind]. f_equal. unfold holds_all.
    set (p := fun (_ _ : nat) (kv : T) => if eqb (fst kv) k then Some tt else None). set (xss := map (stream_holds de) (st_slots s)).
    pose proof (find_items_spec p xss 0) as F. destruct (find_items p 0 xss).
    + destruct F as (n & xs & j & x & E1 & E2 & E3). symmetry. apply has_key_in. unfold p in E3.
      destruct (eqb (fst x) k) eqn:E; [|discriminate]. apply eqb_eq in E. subst k. destruct x as [k v]. apply (in_keys _ k v).
      apply in_concat_nth. eauto.
    + symmetry. apply has_key_not_in. intros Hin. unfold keys in Hin. apply in_map_iff in Hin as ([k' v] & E & Hin). cbn in E. subst k'.
      apply in_concat_nth in Hin as (n & xs & j & E1 & E2). specialize (F n xs j _ E1 E2). unfold p in F. cbn [fst] in F.
      rewrite eqb_refl in F. discriminate.
  - unfold bs_get. rewrite slots_find_full by (intros j o E; apply (H j o E)). unfold holds_all.
    set (p := fun (_ _ : nat) (kv : T) => if eqb (fst kv) k then Some (snd kv) else None). set (xss := map (stream_holds de) (st_slots s)).
    pose proof (find_items_spec p xss 0) as F. eexists. split; [reflexivity|]. destruct (find_items p 0 xss) as [v|].
    + destruct F as (n & xs & j & [k' v'] & E1 & E2 & E3). unfold p in E3. cbn [fst snd] in E3. destruct (eqb k' k) eqn:E; [|discriminate].
      injection E3 as <-. apply eqb_eq in E. subst k'. apply in_concat_nth. eauto.
    + intros Hin. unfold keys in Hin. apply in_map_iff in Hin as ([k' v] & E & Hin). cbn in E. subst k'.
      apply in_concat_nth in Hin as (n & xs & j & E1 & E2). specialize (F n xs j _ E1 E2). unfold p in F. cbn [fst] in F.
      rewrite eqb_refl in F. discriminate.
Qed.

(** ** push *)
Lemma concat_put {A} (x : A) : forall (xss : list (list A)) i xs, nth_error xss i = Some xs ->
  Permutation (concat (replace_nth i (xs ++ [x]) xss)) (x :: concat xss).
Proof.
  induction xss as [|ys xss IH]; intros [|i] xs E; try discriminate; cbn [replace_nth concat nth_error] in *.
  - injection E as ->. rewrite <- app_assoc. cbn [app]. symmetry. apply Permutation_middle.
  - rewrite (IH i xs E). symmetry. apply Permutation_middle.
Qed.
Lemma nth_replace_same {A} (y : A) : forall l i x, nth_error l i = Some x -> nth_error (replace_nth i y l) i = Some y.
Proof. induction l as [|z l IH]; intros [|i] x E; try discriminate; cbn [replace_nth nth_error] in *; auto. apply (IH i x E). Qed.
Lemma nth_replace_other {A} (y : A) : forall l i j, i <> j -> nth_error (replace_nth i y l) j = nth_error l j.
Proof. induction l as [|z l IH]; intros [|i] [|j] H; cbn [replace_nth nth_error]; auto; try lia. Qed.
Lemma encode_one i x b : ser x = Some b -> length b <= 2 ^ i -> encodes de (2 ^ i) (vec_resize (2 ^ i) b) x.
Proof. intros H1 H2. split; [apply vec_resize_length|]. rewrite vec_resize_grow by auto. apply Codec; auto. Qed.

(** The bytes of stream [i]. *)
Definition bytes_of (sl : list (option (iovec Q))) (i : nat) : list byte :=
  match nth_error sl i with Some o => stream_bytes o | None => [] end.
Definition items_of (sl : list (option (iovec Q))) : list T := concat (map (stream_holds de) sl).

Lemma slot_put sl i x b : slots_ok sl -> i < 64 -> ser x = Some b -> length b <= 2 ^ i ->
  exists o v', nth_error sl i = Some o /\
    iv_append ser (match o with Some v => v | None => iv_new Q (s_new Q) (2 ^ i) end) [x] =
      Ok (v', [], (2 ^ i <? bufcap) || (1 <=? L - length (bytes_of sl i))) /\
    let sl' := replace_nth i (Some v') sl in
    slots_ok sl' /\ used sl' = used sl + Nat.min (L - length (bytes_of sl i)) (2 ^ i) /\
    (forall j, j <> i -> bytes_of sl' j = bytes_of sl j) /\
    length (bytes_of sl' i) = Nat.min L (length (bytes_of sl i) + 2 ^ i) /\
    (2 ^ i <= L - length (bytes_of sl i) -> Permutation (items_of sl') (x :: items_of sl)) /\
    (L - length (bytes_of sl i) < 2 ^ i -> items_of sl' = items_of sl).
Proof.
  intros (Hlen & H) Hi Eb Hb. destruct (nth_error sl i) as [o|] eqn:Eo; [|apply nth_error_None in Eo; lia].
  destruct (H i o Eo) as (xs & tail & Ho). exists o. unfold bytes_of. rewrite Eo.
  set (v0 := match o with Some v => v | None => iv_new Q (s_new Q) (2 ^ i) end).
  pose proof (pow2_pos i) as Hp.
  assert (Hv0 : slot_holds i (Some v0) xs tail /\ stream_bytes (Some v0) = stream_bytes o).
  { unfold v0. destruct o as [v|]; [auto|]. destruct Ho as [-> ->]. split; [|reflexivity].
    cbn [slot_holds stream_bytes iv_chunk iv_new iv_w s_new QuotaStream fst length]. split; auto. split; [lia|].
    split; [exists []; split; auto|]. split; auto. split; [lia|]. intros E. congruence. }
  destruct Hv0 as (Hv0 & Ew). rewrite <- Ew. clearbody v0. destruct v0 as [w h c]. cbn [slot_holds stream_bytes iv_w iv_chunk] in *.
  destruct Hv0 as (-> & HL & (cs & Ecs & F) & Hfit & Ht & Htl). set (ch := vec_resize (2 ^ i) b). set (room := L - length (w : list byte)).
  assert (Lch : length ch = 2 ^ i) by apply vec_resize_length.
  set (w' := (w : list byte) ++ firstn room ch).
  exists (@mkIV Q w' (length w') (2 ^ i)). split; auto. split.
  { rewrite (@q_append w h (2 ^ i) x ch (@chunk_of x b (2 ^ i) Eb Hb) HL). fold room. fold w'. rewrite Lch. f_equal. f_equal.
    replace (2 ^ i =? 0) with false by (symmetry; apply Nat.eqb_neq; lia). rewrite orb_false_r. reflexivity. }
  cbn zeta. set (v' := @mkIV Q w' (length w') (2 ^ i)). set (sl' := replace_nth i (Some v') sl).
  assert (Lw' : length w' = length (w : list byte) + Nat.min room (2 ^ i)) by (unfold w'; rewrite app_length, firstn_length, Lch; auto).
  assert (Hholds : exists xs' tail', slot_holds i (Some v') xs' tail' /\ (2 ^ i <= room -> xs' = xs ++ [x]) /\ (room < 2 ^ i -> xs' = xs)).
  { assert (HL' : length w' <= L) by (rewrite Lw'; unfold room; lia).
    destruct (Nat.le_gt_cases (2 ^ i) room) as [Hr|Hr].
    - assert (tail = []) as ->. { destruct tail as [|z zs]; auto. exfalso. assert (Y : z :: zs <> []) by discriminate. specialize (Htl Y). change (list byte) in w. unfold room in Hr. lia. }
      exists (xs ++ [x]), []. split; [|split; intros; [auto|lia]]. cbn [slot_holds stream_bytes iv_w iv_chunk v']. split; auto. split; auto.
      rewrite app_nil_r in Ecs. split.
      { exists (cs ++ [ch]). split.
        - unfold w'. rewrite firstn_all2 by lia. rewrite app_nil_r, concat_app. cbn [concat]. rewrite app_nil_r, <- Ecs. reflexivity.
        - apply Forall2_app; auto. constructor; [|constructor]. apply (@encode_one i x b); auto. }
      split; [apply Forall_app; split; auto; constructor; [exists b; auto|constructor]|]. split; [cbn; lia|congruence].
    - exists xs, (tail ++ firstn room ch). split; [|split; intros; [lia|auto]]. cbn [slot_holds stream_bytes iv_w iv_chunk v']. split; auto. split; auto. split.
      { exists cs. split; auto. unfold w'. rewrite app_assoc, <- Ecs. reflexivity. }
      split; auto. assert (D : tail = [] \/ room = 0).
      { destruct tail as [|z zs]; auto. right. assert (Y : z :: zs <> []) by discriminate. specialize (Htl Y). change (list byte) in w. unfold room. lia. }
      split.
      + rewrite app_length, firstn_length, Lch. destruct D as [->|D]; [cbn; lia|rewrite D; cbn; lia].
      + intros Hne. rewrite Lw'. destruct D as [->|D]; unfold room in *; lia. }
  assert (Esame : bytes_of sl' i = w') by (unfold bytes_of, sl'; rewrite (nth_replace_same _ _ _ Eo); reflexivity).
  destruct Hholds as (xs' & tail' & Hh & Hx1 & Hx2). split.
  { split; [unfold sl'; rewrite replace_nth_length; auto|]. intros j o' Ej. destruct (Nat.eq_dec i j) as [<-|N].
    - unfold sl' in Ej. rewrite (nth_replace_same _ _ _ Eo) in Ej. injection Ej as <-. eauto.
    - unfold sl' in Ej. rewrite nth_replace_other in Ej by auto. eauto. }
  split.
  { unfold used, sl'. rewrite map_replace_nth. cbn [stream_bytes iv_w v'].
    pose proof (map_nth_error (fun o => length (stream_bytes o)) _ _ Eo) as En. cbn beta in En. rewrite <- Ew in En.
    pose proof (list_sum_replace _ _ (length w') En) as G. rewrite Lw' in *. change (list byte) in w. lia. }
  split; [intros j N; unfold bytes_of, sl'; rewrite nth_replace_other by auto; reflexivity|].
  split; [fold (bytes_of sl' i); rewrite Esame, Lw'; unfold room; change (list byte) in w; lia|].
  assert (Em : map (stream_holds de) sl' = replace_nth i xs' (map (stream_holds de) sl)).
  { unfold sl'. rewrite map_replace_nth. f_equal. apply (slot_holds_is _ _ _ _ Hh). }
  assert (En : nth_error (map (stream_holds de) sl) i = Some xs).
  { rewrite (map_nth_error _ _ _ Eo). f_equal. apply (slot_holds_is _ _ _ _ Ho). }
  unfold items_of. rewrite Em. split; intros Hr.
  - rewrite Hx1 by auto. apply concat_put; auto.
  - rewrite Hx2 by auto. rewrite replace_nth_id; auto.
Qed.

Notation no_room s x := (exists b, ser x = Some b /\ length (bytes_of (st_slots s) (class (length b))) = L).

Lemma full_new cap : full_ok (bs_new Q cap).
Proof.
  split; [|cbn; lia]. split; [apply repeat_length|]. intros i o E. exists [], []. apply nth_error_In in E. apply repeat_spec in E. subst o. cbn. auto.
Qed.

(** C75.  What [push] does with one element of [c] bytes, rounded, when its stream has [room] bytes left: refused
    and handed back if the capacity does not allow it; stored if there is room for it; and otherwise neither
    stored nor handed back, although the answer is the same as for an element stored: its first [room] bytes
    stay at the end of the stream and count for size.  Only an element as large as the buffer of the writer that
    finds no room at all is not lost silently: the call panics. *)
Theorem C75_push_one : forall s x b, full_ok s -> ser x = Some b ->
  let c := 2 ^ class (length b) in
  let room := L - length (bytes_of (st_slots s) (class (length b))) in
  (st_cap s < size Bq s + c -> push Bq s [x] = Ok (s, [x])) /\
  (size Bq s + c <= st_cap s -> c <= room -> exists s', push Bq s [x] = Ok (s', []) /\ full_ok s' /\ st_cap s' = st_cap s /\
     Permutation (holds_all de s') (x :: holds_all de s) /\ size Bq s' = size Bq s + c) /\
  (size Bq s + c <= st_cap s -> room < c -> 1 <= room \/ c < bufcap -> exists s', push Bq s [x] = Ok (s', []) /\ full_ok s' /\
     st_cap s' = st_cap s /\ holds_all de s' = holds_all de s /\ size Bq s' = size Bq s + room) /\
  (size Bq s + c <= st_cap s -> room = 0 -> bufcap <= c -> push Bq s [x] = Panic).
Proof.
  intros s x b (Hs & Hc) Eb c room. cbn [push size ByteStreamB]. unfold bs_push. cbn [bs_push_loop]. rewrite Eb.
  destruct (chunk_size_class _ (Sizes Eb)) as (iN & E & Ei & Hi & Hb). rewrite E. cbn [bind]. rewrite pow_to_nat, Ei.
  rewrite Ei in Hi. fold c. set (i := class (length b)) in *.
  assert (Es : s = mkBS (st_slots s) (st_cap s)) by (destruct s; reflexivity).
  destruct (slot_put Hs Hi Eb Hb) as (o & v' & E1 & E2 & H1 & H2 & _ & _ & H3 & H4). fold c in E2. fold c in H2, H3, H4.
  change (L - length (bytes_of (st_slots s) i)) with room in E2, H2, H3, H4.
  rewrite E1. cbn [unwrap bind]. rewrite E2. cbn [bind]. split; [|split; [|split]]; intros G.
  - replace (st_cap s <? c + bs_size s) with true by (symmetry; apply Nat.ltb_lt; lia). cbn [bind]. rewrite <- Es. auto.
  - intros G2. replace (st_cap s <? c + bs_size s) with false by (symmetry; apply Nat.ltb_ge; lia).
    pose proof (pow2_pos i). fold c in H. replace (1 <=? room) with true by (symmetry; apply Nat.leb_le; lia). rewrite orb_true_r. cbn [bind].
    eexists. split; [reflexivity|]. unfold full_ok, holds_all. rewrite !size_used in *. cbn [st_slots st_cap]. rewrite Nat.min_r in H2 by lia.
    split; [split; auto; lia|]. split; [reflexivity|]. split; [exact (H3 G2)|lia].
  - intros G2 G3. replace (st_cap s <? c + bs_size s) with false by (symmetry; apply Nat.ltb_ge; lia).
    replace ((c <? bufcap) || (1 <=? room)) with true.
    2:{ symmetry. apply orb_true_iff. destruct G3; [right; apply Nat.leb_le|left; apply Nat.ltb_lt]; auto. }
    cbn [bind]. eexists. split; [reflexivity|]. unfold full_ok, holds_all. rewrite !size_used in *. cbn [st_slots st_cap]. rewrite Nat.min_l in H2 by lia.
    split; [split; auto; lia|]. split; [reflexivity|]. split; [exact (H4 G2)|lia].
  - intros G2 G3. replace (st_cap s <? c + bs_size s) with false by (symmetry; apply Nat.ltb_ge; lia).
    replace (c <? bufcap) with false by (symmetry; apply Nat.ltb_ge; auto). rewrite G2. cbn [orb Nat.leb]. reflexivity.
Qed.

Lemma push_loop_full cap : forall vs sl total, slots_ok sl -> used sl <= total -> total <= cap ->
  match bs_push_loop ser sl cap total vs with
  | Panic => exists x b, In x vs /\ ser x = Some b /\ bufcap <= 2 ^ class (length b) /\ L <= cap
  | Ok (sl', out) => exists stored lost,
      Permutation (out ++ stored ++ lost) vs /\ Permutation (items_of sl') (stored ++ items_of sl) /\
      slots_ok sl' /\ used sl' <= cap /\
      (forall x, In x lost -> exists b, ser x = Some b /\ length (bytes_of sl' (class (length b))) = L) /\
      (forall j, length (bytes_of sl j) <= length (bytes_of sl' j) <= L)
  end.
Proof.
  assert (Hle : forall sl, slots_ok sl -> forall j, length (bytes_of sl j) <= L).
  { intros sl (_ & H) j. unfold bytes_of. destruct (nth_error sl j) as [o|] eqn:E; [|cbn; lia].
    destruct (H j o E) as (xs & tail & Ho). destruct o as [v|]; [apply Ho|cbn; lia]. }
  assert (Hus : forall sl j, length (bytes_of sl j) <= used sl).
  { intros sl j. unfold bytes_of. destruct (nth_error sl j) as [o|] eqn:E; [|cbn; lia].
    apply (nth_le_sum _ j). apply (map_nth_error (fun o => length (stream_bytes o)) _ _ E). }
  induction vs as [|x vs IH]; intros sl total Hs Hu Hcap; cbn [bs_push_loop].
  - exists [], []. cbn [app]. split; auto. split; auto. split; auto. split; [lia|]. split; [intros y []|]. auto.
  - assert (Out : match (let* (sl', out) := bs_push_loop ser sl cap total vs in Ok (sl', x :: out)) with
      | Panic => exists y b, In y (x :: vs) /\ ser y = Some b /\ bufcap <= 2 ^ class (length b) /\ L <= cap
      | Ok (sl', out) => exists stored lost,
          Permutation (out ++ stored ++ lost) (x :: vs) /\ Permutation (items_of sl') (stored ++ items_of sl) /\
          slots_ok sl' /\ used sl' <= cap /\
          (forall x, In x lost -> exists b, ser x = Some b /\ length (bytes_of sl' (class (length b))) = L) /\
          (forall j, length (bytes_of sl j) <= length (bytes_of sl' j) <= L)
      end).
    { specialize (IH sl total Hs Hu Hcap). destruct (bs_push_loop ser sl cap total vs) as [[sl' out]|]; cbn [bind].
      - destruct IH as (stored & lost & P1 & H). exists stored, lost. split; [cbn [app]; rewrite P1; auto|exact H].
      - destruct IH as (y & b & H1 & H2). exists y, b. split; [right; auto|auto]. }
    destruct (ser x) as [b|] eqn:Eb; [|exact Out].
    destruct (chunk_size_class _ (Sizes Eb)) as (iN & E & Ei & Hi & Hb). rewrite E. cbn [bind]. rewrite pow_to_nat, Ei.
    rewrite Ei in Hi. destruct (cap <? 2 ^ class (length b) + total) eqn:Ec; [exact Out|]. clear Out. apply Nat.ltb_ge in Ec.
    remember (class (length b)) as i eqn:Ecl.
    destruct (slot_put Hs Hi Eb Hb) as (o & v' & E1 & E2 & H1 & H2 & Hj & Hlen & H3 & H4).
    rewrite E1. cbn [unwrap bind]. rewrite E2. cbn [bind]. clear E1 E2. set (sl1 := replace_nth i (Some v') sl) in *.
    destruct ((2 ^ i <? bufcap) || (1 <=? L - length (bytes_of sl i))) eqn:Eok.
    + specialize (IH sl1 (total + 2 ^ i) H1). destruct (bs_push_loop ser sl1 cap (total + 2 ^ i) vs) as [[sl' out]|].
      * destruct IH as (stored & lost & P1 & P2 & G1 & G2 & G3 & G4); [lia|lia|].
        assert (Mono : forall j, length (bytes_of sl j) <= length (bytes_of sl' j) <= L).
        { intros j. specialize (G4 j). destruct (Nat.eq_dec j i) as [->|N]; [rewrite Hlen in G4; specialize (Hle sl Hs i); lia|rewrite Hj in G4; auto]. }
        destruct (Nat.le_gt_cases (2 ^ i) (L - length (bytes_of sl i))) as [Hr|Hr].
        -- exists (x :: stored), lost. split; [cbn [app]; rewrite <- Permutation_middle, P1; auto|]. split; [rewrite P2, (H3 Hr); perm0|]. auto.
        -- exists stored, (x :: lost). split; [rewrite app_assoc, <- Permutation_middle, <- app_assoc, P1; auto|]. split; [rewrite P2, (H4 Hr); auto|].
           split; auto. split; auto. split; auto. intros y [<-|Hy]; auto. exists b. split; auto. rewrite <- Ecl. specialize (G4 i). rewrite Hlen in G4. lia.
      * destruct IH as (y & b' & K1 & K2); [lia|lia|]. exists y, b'. split; [right; auto|auto].
    + apply orb_false_iff in Eok as [Q1 Q2]. apply Nat.ltb_ge in Q1. apply Nat.leb_gt in Q2. exists x, b. split; [left; auto|]. split; auto.
      rewrite <- Ecl. split; auto. specialize (Hus sl i). lia.
Qed.

(** C75.  [push] of any elements: each is handed back, or held, or lost, and an element is lost only when its
    stream is full; what was held is still held; the bound on size is kept.  The call panics only with an element
    as large as the buffer of the writer. *)
Theorem C75_push : forall s vs, full_ok s ->
  match push Bq s vs with
  | Panic => L <= st_cap s /\ exists x b, In x vs /\ ser x = Some b /\ bufcap <= 2 ^ class (length b)
  | Ok (s', out) => exists stored lost,
      Permutation (out ++ stored ++ lost) vs /\ Permutation (holds_all de s') (stored ++ holds_all de s) /\
      full_ok s' /\ st_cap s' = st_cap s /\ size Bq s' <= st_cap s' /\
      forall x, In x lost -> no_room s' x
  end.
Proof.
  intros s vs (Hs & Hc). cbn [push size ByteStreamB]. unfold bs_push. rewrite size_used in *.
  pose proof (@push_loop_full (st_cap s) vs (st_slots s) (used (st_slots s)) Hs (le_n _) Hc) as H.
  destruct (bs_push_loop ser (st_slots s) (st_cap s) (used (st_slots s)) vs) as [[sl' out]|]; cbn [bind].
  - destruct H as (stored & lost & P1 & P2 & H1 & H2 & H3 & _). exists stored, lost. unfold full_ok. rewrite !size_used. cbn [st_slots st_cap].
    split; [exact P1|]. split; [exact P2|]. split; [split; [exact H1|exact H2]|]. split; [reflexivity|]. split; [exact H2|exact H3].
  - destruct H as (x & b & H1 & H2 & H3 & H4). split; eauto.
Qed.

(** C75.  Whatever is pushed into a new container over streams that may run out: nothing is held twice, and the
    elements of the calls are those handed back, those held and those lost. *)
Theorem C75_pushes_from_new : forall cap vss,
  match run Bq (bs_new Q cap) (map (fun vs => OpPush vs) vss) with
  | Panic => L <= cap /\ exists x b, In x (concat vss) /\ ser x = Some b /\ bufcap <= 2 ^ class (length b)
  | Ok (s, out) => exists lost,
      Permutation (out ++ holds_all de s ++ lost) (concat vss) /\ full_ok s /\ size Bq s <= cap /\
      (lost <> [] -> exists i, length (bytes_of (st_slots s) i) = L)
  end.
Proof.
  intros cap vss.
  assert (G : forall vss s, full_ok s ->
    match run Bq s (map (fun vs => OpPush vs) vss) with
    | Panic => L <= st_cap s /\ exists x b, In x (concat vss) /\ ser x = Some b /\ bufcap <= 2 ^ class (length b)
    | Ok (s', out) => exists stored lost, Permutation (out ++ stored ++ lost) (concat vss) /\
        Permutation (holds_all de s') (stored ++ holds_all de s) /\ full_ok s' /\ st_cap s' = st_cap s /\
        (forall j, length (bytes_of (st_slots s) j) <= length (bytes_of (st_slots s') j) <= L) /\
        (lost <> [] -> exists i, length (bytes_of (st_slots s') i) = L)
    end).
  { clear vss. induction vss as [|vs vss IH]; intros s Hs; cbn [map run concat].
    - exists [], []. split; auto. split; auto. split; auto. split; auto. split; [|congruence].
      intros j. destruct Hs as ((Hl & Hs) & _). unfold bytes_of. destruct (nth_error (st_slots s) j) as [o|] eqn:E; [|cbn; lia].
      destruct (Hs j o E) as (xs & tail & Ho). destruct o as [v|]; [split; [lia|apply Ho]|cbn; lia].
    - pose proof Hs as (Hso & Hc). cbn [step push ByteStreamB]. unfold bs_push. rewrite size_used in *.
      pose proof (@push_loop_full (st_cap s) vs (st_slots s) (used (st_slots s)) Hso (le_n _) Hc) as H.
      destruct (bs_push_loop ser (st_slots s) (st_cap s) (used (st_slots s)) vs) as [[sl' out]|]; cbn [bind].
      + destruct H as (stored & lost & P1 & P2 & H1 & H2 & H3 & H4).
        specialize (IH (mkBS sl' (st_cap s))). destruct (run Bq (mkBS sl' (st_cap s)) _) as [[s2 out2]|]; cbn [bind].
        * destruct IH as (st2 & lost2 & P3 & P4 & G1 & G2 & G3 & G4); [split; auto; rewrite size_used; auto|]. cbn [st_slots st_cap] in *.
          exists (stored ++ st2), (lost ++ lost2). split; [rewrite <- P1, <- P3; perm0|]. split.
          { rewrite P4. change (holds_all de (mkBS sl' (st_cap s))) with (items_of sl'). rewrite P2. unfold holds_all, items_of. perm0. }
          split; auto. split; auto. split; [intros j; specialize (H4 j); specialize (G3 j); lia|]. intros Hne.
          destruct lost2 as [|z zs]; [|apply G4; discriminate]. destruct lost as [|y ys]; [cbn in Hne; congruence|].
          destruct (H3 y (or_introl eq_refl)) as (b & _ & Hb). exists (class (length b)). specialize (G3 (class (length b))). lia.
        * destruct IH as (A1 & x & b & A2 & A3); [split; auto; rewrite size_used; auto|]. split; auto. exists x, b. split; auto. apply in_or_app. auto.
      + destruct H as (x & b & A1 & A2 & A3 & A4). split; auto. exists x, b. split; auto. apply in_or_app. auto. }
  specialize (G vss (bs_new Q cap) (full_new cap)). destruct (run Bq (bs_new Q cap) _) as [[s out]|]; auto.
  destruct G as (stored & lost & P1 & P2 & G1 & G2 & _ & G3). exists lost.
  assert (E0 : holds_all de (bs_new Q cap) = []) by reflexivity.
  split; [rewrite P2, E0, app_nil_r; auto|]. split; auto. split; auto. cbn [st_cap bs_new] in G2. rewrite <- G2. apply G1.
Qed.

(** ** take *)
(** The bytes left by the removal of the chunk [j] of [c] bytes: the last [c] bytes go over it, and the stream is
    made [c] bytes shorter. *)
Definition cut_out (c j : nat) (w : list byte) : list byte :=
  firstn (length w - c) (firstn (j * c) w ++ skipn (length w - c) w ++ skipn (j * c + c) w).
Lemma swap_remove_bytes i v xs tail j x : slot_holds i (Some v) xs tail -> nth_error xs j = Some x ->
  exists h', iv_swap_remove de v j = Ok (@mkIV Q (cut_out (2 ^ i) j (iv_w v)) h' (2 ^ i), Some (Some x)).
Proof.
  destruct v as [w h c]. cbn [slot_holds stream_bytes iv_w iv_chunk]. change (list byte) in w.
  intros (-> & HL & (cs & Ecs & F) & _ & Ht & _) Ej. set (c := 2 ^ i) in *. pose proof (pow2_pos i) as Hp. fold c in Hp.
  destruct (Forall2_nth _ F Ej) as (ch & Ech & Hl & Hd). pose proof (encodes_cut F) as Hcut. pose proof (Forall2_length F) as Hlen.
  assert (Hj : j < length xs) by (apply nth_error_Some; congruence).
  assert (Lw : length w = length xs * c + length tail) by (rewrite Ecs, app_length, (concat_length Hcut), Hlen; auto).
  assert (Hjc : j * c + c <= length w) by (rewrite Lw; nia).
  assert (Rj : firstn c (skipn (j * c) w) = ch).
  { assert (Lc : length (concat cs) = length xs * c) by (rewrite (concat_length Hcut), Hlen; auto).
    rewrite Ecs, skipn_app. replace (j * c - length (concat cs)) with 0 by nia. cbn [skipn].
    rewrite firstn_app. rewrite skipn_length. replace (c - (length (concat cs) - j * c)) with 0 by nia. cbn [firstn]. rewrite app_nil_r.
    apply cut_nth; auto. }
  change (@mkIV Q w h c) with (up (@mkIV VecStream w h c)). rewrite iv_swap_remove_up by exact HL.
  unfold iv_swap_remove. cbn [iv_w iv_h iv_chunk s_seek s_read s_write s_resize VecStream].
  rewrite seek_start by lia. rewrite read_full by lia. rewrite Rj. unfold chunk_from at 1. rewrite Hl, Nat.ltb_irrefl, Hd. rewrite seek_end.
  replace (length w <? c) with false by (symmetry; apply Nat.ltb_ge; lia).
  destruct (j * c <? length w - c) eqn:Elt.
  - apply Nat.ltb_lt in Elt. rewrite seek_start by lia. rewrite read_full by lia.
    rewrite (firstn_all2 (n := c)) by (rewrite skipn_length; lia). set (last := skipn (length w - c) w).
    assert (Ll : length last = c) by (unfold last; rewrite skipn_length; lia).
    unfold chunk_from. rewrite Ll, Nat.ltb_irrefl. rewrite seek_start by lia.
    destruct (@vs_write_eq w (j * c) last) as (w' & Ew & Lw' & Dw); [lia|]. rewrite Ew. cbn [bind]. unfold vs_resize.
    eexists. unfold up. cbn [iv_w iv_h iv_chunk]. do 3 f_equal. rewrite vec_resize_shrink by lia. rewrite Dw, Ll. reflexivity.
  - apply Nat.ltb_ge in Elt. cbn [bind]. unfold vs_resize. eexists. unfold up. cbn [iv_w iv_h iv_chunk bind]. do 3 f_equal.
    rewrite vec_resize_shrink by lia. unfold cut_out. fold c. assert (Ec : j * c = length w - c) by lia. rewrite Ec.
    rewrite firstn_app, firstn_firstn, Nat.min_id, firstn_length, Nat.min_l, Nat.sub_diag by lia. cbn [firstn]. rewrite app_nil_r. reflexivity.
Qed.
Lemma cut_out_length c j w : c <= length w -> j * c + c <= length w -> length (cut_out c j w) = length w - c.
Proof. intros H1 H2. unfold cut_out. rewrite firstn_length, !app_length, firstn_length, !skipn_length. lia. Qed.

(** Nothing torn: the last element goes where the one removed was. *)
Lemma swap_remove_whole i v xs j x : slot_holds i (Some v) xs [] -> nth_error xs j = Some x ->
  forall h', slot_holds i (Some (@mkIV Q (cut_out (2 ^ i) j (iv_w v)) h' (2 ^ i))) (swap_remove j xs) [].
Proof.
  intros H Ej h'. destruct (swap_remove_bytes _ H Ej) as (h2 & E2). destruct v as [w h c].
  cbn [slot_holds stream_bytes iv_w iv_chunk] in *. change (list byte) in w.
  destruct H as (-> & HL & (cs & Ecs & F) & Hf & _ & _). rewrite app_nil_r in Ecs. pose proof (pow2_pos i) as Hp.
  assert (Hj : j < length xs) by (apply nth_error_Some; congruence).
  assert (Lw : length w = length xs * 2 ^ i) by (rewrite Ecs, (concat_length (encodes_cut F)), (Forall2_length F); auto).
  assert (Hok : iv_ok de (@mkIV VecStream w (length w) (2 ^ i)) xs (length xs)).
  { split; [exact Hp|]. split; [exact Lw|]. split; [lia|]. split; [destruct xs; [auto|discriminate]|]. exists cs. auto. }
  destruct (iv_swap_remove_ok Hok Hj) as (v' & k' & G1 & G2 & G3 & _). cbn [iv_chunk] in *.
  assert (Eup : iv_swap_remove de (@mkIV Q w h (2 ^ i)) j = iv_swap_remove de (up (@mkIV VecStream w (length w) (2 ^ i))) j) by reflexivity.
  rewrite Eup, iv_swap_remove_up, G1 in E2 by exact HL. cbn [bind] in E2. injection E2 as Ew Eh Ec Ex.
  destruct G3 as (_ & _ & _ & _ & cs' & Ew' & F'). split; auto. rewrite cut_out_length by nia. split; [lia|]. split.
  { exists cs'. rewrite app_nil_r, <- Ew, <- Ew'. split; auto. rewrite <- Ec. exact F'. }
  split; [apply Forall_swap_remove; auto|]. split; [cbn; lia|congruence].
Qed.

(** C75.  [take] with streams that may be full always answers right: an element held with this key, or that
    there is none.  What it leaves: only one stream changes, as [cut_out] says, and the size is that much less.
    If the stream is a whole number of chunks long, the element returned is the only one gone. *)
Theorem C75_take : forall s k, full_ok s ->
  exists s' o, take Bq s k = Ok (s', o) /\ st_cap s' = st_cap s /\
  match o with
  | None => ~ In k (keys (holds_all de s)) /\ s' = s
  | Some (k', v) => k' = k /\ exists i j st, nth_error (st_slots s) i = Some st /\ nth_error (stream_holds de st) j = Some (k, v) /\
      (forall i', i' <> i -> nth_error (st_slots s') i' = nth_error (st_slots s) i') /\
      bytes_of (st_slots s') i = cut_out (2 ^ i) j (bytes_of (st_slots s) i) /\ size Bq s' + 2 ^ i = size Bq s /\
      (Nat.modulo (length (bytes_of (st_slots s) i)) (2 ^ i) = 0 ->
        full_ok s' /\ Permutation (holds_all de s) ((k, v) :: holds_all de s'))
  end.
Proof.
  intros s k ((Hl & H) & Hc). cbn [take size ByteStreamB]. unfold bs_take.
  rewrite slots_find_full by (intros j o E; apply (H j o E)). cbn [bind].
  set (p := fun (i j : nat) (kv : T) => if eqb (fst kv) k then Some (i, j) else None). set (xss := map (stream_holds de) (st_slots s)).
  pose proof (find_items_spec p xss 0) as F. destruct (find_items p 0 xss) as [[i j]|].
  - destruct F as (n & xs & j' & [k' v] & E1 & E2 & E3). unfold p in E3. cbn [fst plus] in E3.
    destruct (eqb k' k) eqn:E; [|discriminate]. injection E3 as <- <-. apply eqb_eq in E. subst k'.
    unfold xss in E1. rewrite nth_error_map in E1. destruct (nth_error (st_slots s) n) as [st|] eqn:En; [|discriminate].
    cbn [option_map] in E1. injection E1 as <-. destruct (H n st En) as (xs & tail & Hst). pose proof (slot_holds_is _ _ _ _ Hst) as Ex. rewrite Ex in E2.
    destruct st as [w|]; [|destruct Hst as [-> _]; destruct j'; discriminate].
    destruct (swap_remove_bytes _ Hst E2) as (h' & Er). cbn [unwrap bind]. rewrite Er. cbn [bind].
    eexists _, _. split; [reflexivity|]. cbn [st_cap]. split; auto. split; auto. exists n, j', (Some w). split; auto.
    split; [rewrite Ex; auto|]. cbn [st_slots]. split; [intros i' N; apply nth_replace_other; auto|].
    assert (Eb0 : bytes_of (st_slots s) n = iv_w w) by (unfold bytes_of; rewrite En; reflexivity).
    split; [unfold bytes_of; rewrite (nth_replace_same _ _ _ En), En; reflexivity|].
    set (w' := @mkIV Q (cut_out (2 ^ n) j' (iv_w w)) h' (2 ^ n)) in *.
    assert (Hj : j' < length xs) by (apply nth_error_Some; congruence).
    pose proof (pow2_pos n) as Hp.
    assert (Lw : length (iv_w w : list byte) = length xs * 2 ^ n + length tail).
    { cbn [slot_holds stream_bytes] in Hst. destruct Hst as (_ & _ & (cs & Ecs & F0) & _). rewrite Ecs, app_length, (concat_length (encodes_cut F0)), (Forall2_length F0). auto. }
    assert (Hsz : bs_size (mkBS (replace_nth n (Some w') (st_slots s)) (st_cap s)) + 2 ^ n = bs_size s).
    { rewrite !size_used. unfold used. cbn [st_slots]. rewrite map_replace_nth. cbn [stream_bytes iv_w w'].
      pose proof (map_nth_error (fun o => length (stream_bytes o)) _ _ En) as En2. cbn beta in En2. cbn [stream_bytes] in En2.
      pose proof (list_sum_replace _ _ (length (cut_out (2 ^ n) j' (iv_w w))) En2) as G.
      rewrite cut_out_length in * by nia. nia. }
    split; [exact Hsz|]. intros Hmod. rewrite Eb0 in Hmod.
    assert (tail = []) as ->.
    { assert (Ht : length tail < 2 ^ n) by (cbn [slot_holds] in Hst; tauto). rewrite Lw, Nat.add_comm, Nat.mod_add, Nat.mod_small in Hmod by lia.
      destruct tail; auto; discriminate. }
    pose proof (swap_remove_whole _ Hst E2 h') as Hw. fold w' in Hw. split.
    + split; [|cbn [st_cap]; lia]. cbn [st_slots]. split; [rewrite replace_nth_length; auto|]. intros m o Em.
      destruct (Nat.eq_dec n m) as [<-|N]; [rewrite (nth_replace_same _ _ _ En) in Em; injection Em as <-; eauto|].
      rewrite nth_replace_other in Em by auto. eauto.
    + unfold holds_all. cbn [st_slots]. rewrite map_replace_nth, (slot_holds_is _ _ _ _ Hw).
      apply (@concat_replace_perm _ (map (stream_holds de) (st_slots s)) n xs _ [(k, v)]).
      * rewrite (map_nth_error _ _ _ En), Ex. auto.
      * symmetry. apply swap_remove_perm. auto.
  - eexists _, _. split; [reflexivity|]. split; auto. split; auto. intros Hin. unfold keys, holds_all in Hin.
    apply in_map_iff in Hin as ([k' v] & E & Hin). cbn in E. subst k'. apply in_concat_nth in Hin as (n & xs & j & E1 & E2).
    specialize (F n xs j _ E1 E2). unfold p in F. cbn [fst] in F. rewrite eqb_refl in F. discriminate.
Qed.

(** C75.  The answer of [push] says that an element is held: false over storage that runs out, for every element
    larger than what a stream can take. *)
Theorem C75_not_handed_back_means_held_refuted : forall cap x b, ser x = Some b ->
  2 ^ class (length b) <= cap -> L < 2 ^ class (length b) -> 1 <= L \/ 2 ^ class (length b) < bufcap ->
  exists s, push Bq (bs_new Q cap) [x] = Ok (s, []) /\ size Bq s = L /\ holds_all de s = [] /\ forall k, contains Bq s k = Ok false.
Proof.
  intros cap x b Eb Hcap HL Hok. destruct (C75_push_one (full_new cap) Eb) as (_ & _ & H & _).
  assert (Eroom : L - length (bytes_of (st_slots (bs_new Q cap)) (class (length b))) = L).
  { unfold bytes_of. destruct (nth_error (st_slots (bs_new Q cap)) (class (length b))) as [o|] eqn:E; [|cbn; lia].
    apply nth_error_In in E. apply repeat_spec in E. subst o. cbn. lia. }
  rewrite Eroom in H. assert (E0 : size Bq (bs_new Q cap) = 0) by reflexivity. rewrite E0 in H.
  destruct H as (s & E1 & E2 & _ & E3 & E4); [exact Hcap|exact HL|exact Hok|].
  assert (E5 : holds_all de s = []) by (rewrite E3; reflexivity).
  exists s. split; auto. split; auto. split; auto. intros k. destruct (C75_lookups k E2) as (E & _). rewrite E, E5. reflexivity.
Qed.
(** C75.  [push] does not panic: false when there is no room left at all, for elements as large as the buffer. *)
Theorem C75_push_never_panics_refuted : L = 0 -> forall cap x b, ser x = Some b -> bufcap <= 2 ^ class (length b) ->
  2 ^ class (length b) <= cap -> push Bq (bs_new Q cap) [x] = Panic.
Proof.
  intros HL cap x b Eb Hb Hcap. destruct (C75_push_one (full_new cap) Eb) as (_ & _ & _ & H). apply H; auto. lia.
Qed.
End PQuota.

(** Streams of 9 bytes; elements of 4. *)
Definition quota_bs : Block nat nat := ByteStreamB (QuotaStream 9) linear_bs pair_ser pair_de.
Definition quota_saw (h : list (op nat nat)) : option (list (nat * nat) * nat * list (nat * nat)) :=
  match run quota_bs (bs_new (QuotaStream 9) 100) h with
  | Ok (s, out) => Some (holds_all pair_de s, bs_size s, out)
  | Panic => None
  end.
(** C75.  [take] removes the element it returns and no other, and nothing is held that was never pushed: false of
    a full stream.  The third element does not fit, and one byte of it stays; taking the first then moves the
    last four bytes over it. *)
Theorem C75_take_removes_only_its_element_refuted :
  quota_saw [OpPush [(1, 2); (2, 2); (9, 2)]] = Some ([(1, 2); (2, 2)], 9, []) /\
  quota_saw [OpPush [(1, 2); (2, 2); (9, 2)]; OpTake 1] = Some ([(1, 1)], 5, [(1, 2)]).
Proof. split; vm_compute; reflexivity. Qed.
(** The hypotheses of the theorems of C75 on non-trivial cases. *)
Example C75_full_example : exists s, push quota_bs (bs_new (QuotaStream 9) 100) [(1, 2); (2, 2)] = Ok (s, []) /\
  full_ok pair_ser pair_de s /\ contains quota_bs s 2 = Ok true.
Proof.
  pose proof (C75_push linear_bs pair_codec pair_sizes [(1, 2); (2, 2)] (full_new 9 pair_ser pair_de 100)) as H.
  destruct (push (ByteStreamB (QuotaStream 9) linear_bs pair_ser pair_de) (bs_new (QuotaStream 9) 100) [(1, 2); (2, 2)]) as [[s out]|] eqn:E.
  - destruct H as (_ & _ & _ & _ & H & _). exists s.
    assert (B : match push quota_bs (bs_new (QuotaStream 9) 100) [(1, 2); (2, 2)] with
      Ok (s, out) => Some (out, contains quota_bs s 2) | Panic => None end = Some ([], Ok true)) by (vm_compute; reflexivity).
    unfold quota_bs in *. rewrite E in B. injection B as -> B2. split; [exact E|]. split; [exact H|exact B2].
  - assert (B : match push quota_bs (bs_new (QuotaStream 9) 100) [(1, 2); (2, 2)] with
      Ok _ => true | Panic => false end = true) by (vm_compute; reflexivity).
    unfold quota_bs in B. rewrite E in B. discriminate.
Qed.
(** Whole streams: the third element has no room at all, and taking the first leaves the second. *)
Example C75_whole_example :
  match run (ByteStreamB (QuotaStream 8) linear_bs pair_ser pair_de) (bs_new (QuotaStream 8) 100) [OpPush [(1, 2); (2, 2); (9, 2)]; OpTake 1] with
  | Ok (s, out) => Some (holds_all pair_de s, bs_size s, out) | Panic => None end = Some ([(2, 2)], 4, [(1, 2)]).
Proof. vm_compute; reflexivity. Qed.
