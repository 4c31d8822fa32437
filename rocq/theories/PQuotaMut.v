(** PQuotaMut.v -- property theorems: C75, get_mut (ByteStream on storage that runs out). *)
From Coq Require Import ZArith NArith Init.Byte Strings.Byte.
From Verif Require Import Base PermSolve Block Spec BTree KMin Hasher Stream PStream IOVec IOVecProof PIOVec ByteStream ByteStreamProof PByteStream Quota PQuota.
Set Implicit Arguments.

(** The bytes [w] with [b] in place of those from position [p] on. *)
Definition put_at (p : nat) (b w : list byte) : list byte := firstn p w ++ b ++ skipn (p + length b) w.
Lemma put_at_length p b w : p <= length w -> length (put_at p b w) = Nat.max (length w) (p + length b).
Proof. intros H. unfold put_at. rewrite !app_length, firstn_length, skipn_length. lia. Qed.

Lemma replace_twice {A} (x y : A) : forall l n, replace_nth n x (replace_nth n y l) = replace_nth n x l.
Proof. induction l as [|z l IH]; intros [|n]; cbn [replace_nth]; auto. rewrite IH. reflexivity. Qed.
Lemma replace_remove_perm {A} (x : A) : forall l j, j < length l -> Permutation (replace_nth j x l) (x :: remove_nth j l).
Proof.
  induction l as [|a l IH]; intros [|j] H; cbn in *; try lia; auto. rewrite (IH j) by lia. apply perm_swap.
Qed.

Section PQuotaMut.
Variable L : nat.
Notation Q := (QuotaStream L).
Context {K V : Type} {OK : Ord K} {OV : Ord V} {EK : OrdEq K}.
Variable ser : K * V -> option (list byte).
Variable de : list byte -> option (K * V).
Notation T := (K * V)%type.

(** ** Writing a value back *)
Lemma write_all_at w p (buf : list byte) : p <= length w -> length w <= L ->
  match write_all Q w p buf with
  | Ok (w', _, _, ok) => ok = (p + length buf <=? L) /\ (ok = true -> w' = put_at p buf w)
  | Panic => False
  end.
Proof.
  intros Hp HL. unfold write_all. destruct buf as [|z zs].
  - cbn [write_loop length]. rewrite Nat.add_0_r. split; [symmetry; apply Nat.leb_le; lia|]. intros _. unfold put_at. cbn [length app].
    rewrite Nat.add_0_r, firstn_skipn. reflexivity.
  - set (buf := z :: zs). assert (Hb : length buf = S (length zs)) by reflexivity.
    assert (E1 : write_loop Q (length buf) w p buf =
      let* (w', h', o) := q_write L w p buf in
      match o with None | Some 0 => Ok (w', h', buf, false) | Some n => write_loop Q (length zs) w' h' (skipn n buf) end) by reflexivity.
    rewrite E1. clear E1. unfold q_write. fold buf. change (match buf with [] => ?a | _ => ?b end) with b.
    destruct (L <=? p) eqn:El.
    + apply Nat.leb_le in El. cbn [bind]. split; [symmetry; apply Nat.leb_gt; lia|discriminate].
    + apply Nat.leb_gt in El. destruct (@vs_write_eq w p (firstn (L - p) buf) Hp) as (w' & E & Lw & D). rewrite E. cbn [bind].
      rewrite firstn_length in *. destruct (Nat.min (L - p) (length buf)) as [|n] eqn:Em; [lia|].
      destruct (Nat.le_gt_cases (length buf) (L - p)) as [H|H].
      * rewrite Nat.min_r in Em by lia. rewrite <- Em. rewrite skipn_all.
        assert (G : write_loop Q (length zs) w' (p + length buf) [] = Ok (w', p + length buf, [], true)) by (destruct (length zs); reflexivity).
        rewrite G. split; [symmetry; apply Nat.leb_le; lia|]. intros _. rewrite D. unfold put_at. rewrite (firstn_all2 (n := L - p) buf) by lia. rewrite <- Em. reflexivity.
      * rewrite Nat.min_l in Em by lia. rewrite <- Em.
        destruct (skipn (L - p) buf) as [|y ys] eqn:Es.
        { exfalso. assert (A : length (skipn (L - p) buf) = 0) by (rewrite Es; reflexivity). rewrite skipn_length in A. lia. }
        assert (Hlt : (p + length buf <=? L) = false) by (apply Nat.leb_gt; lia).
        destruct (length zs) as [|m]; [split; [rewrite Hlt; reflexivity|discriminate]|]. cbn [write_loop s_write QuotaStream q_write].
        replace (L <=? p + (L - p)) with true by (symmetry; apply Nat.leb_le; lia). cbn [bind].
        split; [rewrite Hlt; reflexivity|discriminate].
Qed.
Lemma write_back_at w h p x : p <= length w -> length w <= L ->
  write_back Q ser w h p x =
    match ser x with
    | Some b => if p + length b <=? L then Ok (put_at p b w) else Panic
    | None => Panic
    end.
Proof.
  intros Hp HL. unfold write_back. cbn [s_seek QuotaStream]. rewrite seek_start by auto. destruct (ser x) as [b|]; [|reflexivity].
  pose proof (@write_all_at w p b Hp HL) as G. destruct (write_all Q w p b) as [[[[w' h'] r] ok]|]; [|contradiction]. cbn [bind].
  destruct G as [-> G]. destruct (p + length b <=? L); [|reflexivity]. rewrite G; auto.
Qed.

(** ** The element found *)
Lemma br_read_bytes (b : bufreader VecStream) c b' r : br_read b c = (b', r) -> br_w b' = br_w b.
Proof.
  destruct b as [w h buf]. unfold br_read. cbn [br_w br_h br_buf]. assert (R : forall n, fst (fst (vs_read w h n)) = w).
  { intros n. unfold vs_read. destruct (length w <=? h); reflexivity. }
  destruct buf as [|z zs].
  - cbn [s_read VecStream]. destruct (bufcap <=? c).
    + specialize (R c). destruct (vs_read w h c) as [[w' h'] o]. cbn [fst] in R. subst w'. intros E. injection E as <- _. reflexivity.
    + specialize (R bufcap). destruct (vs_read w h bufcap) as [[w' h'] [o|]]; cbn [fst] in R; subst w'; intros E; injection E as <- _; reflexivity.
  - intros E. injection E as <- _. reflexivity.
Qed.
Lemma iter_mut_left (p : T -> bool) (f : T -> T) c tail : 1 <= c -> aligned c -> length tail < c ->
  forall cs xs, Forall2 (encodes de c) cs xs -> forall (b : bufreader VecStream) fuel n, reading c b -> left_of b = concat cs ++ tail -> length xs < fuel ->
  n * c + length xs * c <= length (br_w b : list byte) ->
  match find_index p xs with
  | None => iter_mut_find ser de p f c fuel (@mkIM Q (upb L b) (n * c)) = Ok None
  | Some j => exists x (h : nat), nth_error xs j = Some x /\
      iter_mut_find ser de p f c fuel (@mkIM Q (upb L b) (n * c)) =
        let* w := write_back Q ser (br_w b) h ((n + j) * c) (f x) in Ok (Some (w, x))
  end.
Proof.
  intros Hc Ha Ht cs xs F. induction F as [|ch x cs xs [Hl Hd] F IH]; intros b fuel n Hb Hr Hf Hn;
    (destruct fuel as [|fuel]; [cbn in Hf; lia|]); cbn [iter_mut_find find_index]; unfold iter_mut_next; cbn [im_br im_pos]; rewrite br_read_up;
    destruct (br_read_left Hc Ha Hb) as (b' & E & Hr' & Hb'); rewrite E, Hr; unfold chunk_from.
  - cbn [concat app]. rewrite firstn_all2 by lia. apply Nat.ltb_lt in Ht. rewrite Ht. reflexivity.
  - cbn [concat]. rewrite <- app_assoc. rewrite <- Hl. rewrite firstn_app, firstn_all, Nat.sub_diag. cbn [firstn]. rewrite app_nil_r, Nat.ltb_irrefl, Hd.
    rewrite Hl. pose proof (br_read_bytes _ _ E) as Ew. destruct b' as [w' h' buf']. cbn [br_w] in Ew. subst w'. cbn [upb br_w br_h br_buf length Nat.mul] in *.
    unfold struct_mut_pos. cbn [s_seek s_clone QuotaStream]. rewrite seek_current0 by lia. rewrite seek_current by lia. cbn [bind].
    destruct (p x) eqn:Ep.
    + exists x, (n * c). split; [reflexivity|]. rewrite Nat.add_0_r. reflexivity.
    + assert (Hr2 : left_of (@mkBR VecStream (br_w b) h' buf') = concat cs ++ tail).
      { rewrite Hr', Hr. cbn [concat]. rewrite <- app_assoc, <- Hl. rewrite skipn_app, skipn_all, Nat.sub_diag. reflexivity. }
      specialize (IH (@mkBR VecStream (br_w b) h' buf') fuel (S n) Hb' Hr2).
      cbn [br_w Nat.mul] in IH. specialize (IH ltac:(cbn in Hf; lia) ltac:(lia)). cbn [im_br br_w].
      replace (n * c + c) with (c + n * c) by lia. change (@mkBR Q (br_w b) h' buf') with (upb L (@mkBR VecStream (br_w b) h' buf')).
      destruct (find_index p xs) as [j|]; cbn [option_map]; [|exact IH].
      destruct IH as (y & h & E1 & E2). exists y, h. split; [exact E1|]. replace (n + S j) with (S n + j) by lia. exact E2.
Qed.
Lemma iv_find_mut_full (p : T -> bool) (f : T -> T) i v xs tail : slot_holds ser de i (Some v) xs tail ->
  match find_index p xs with
  | None => iv_find_mut ser de p f v = Ok None
  | Some j => exists x, nth_error xs j = Some x /\ iv_find_mut ser de p f v =
      match ser (f x) with
      | Some b => if j * 2 ^ i + length b <=? L then Ok (Some (@mkIV Q (put_at (j * 2 ^ i) b (iv_w v)) (iv_h v) (2 ^ i), x)) else Panic
      | None => Panic
      end
  end.
Proof.
  destruct v as [w h c]. cbn [slot_holds stream_bytes iv_w iv_h iv_chunk]. intros (-> & HL & (cs & E & F) & _ & Ht & _).
  assert (Lw : length w = length xs * 2 ^ i + length tail) by (rewrite E, app_length, (concat_length (encodes_cut F)), (Forall2_length F); reflexivity).
  pose proof (pow2_pos i) as Hp2. pose proof (@iter_mut_left p f (2 ^ i) tail (pow2_pos i) (aligned_pow2 i) Ht cs xs F (br_new VecStream w 0)
    (iv_fuel (@mkIV VecStream w h (2 ^ i))) 0) as G.
  assert (G1 : reading (2 ^ i) (br_new VecStream w 0)).
  { unfold reading, br_new. cbn [br_w br_h br_buf length]. split; [lia|]. split; auto. left. exists 0. auto. }
  assert (G2 : left_of (br_new VecStream w 0) = concat cs ++ tail) by (unfold left_of, br_new; cbn [br_w br_h br_buf app skipn]; auto).
  assert (G3 : length xs < iv_fuel (@mkIV VecStream w h (2 ^ i))).
  { unfold iv_fuel, iv_size. cbn [s_seek s_clone VecStream iv_w iv_h]. rewrite seek_end. cbn [snd]. nia. }
  specialize (G G1 G2 G3). cbn [br_new br_w Nat.mul plus] in G. specialize (G ltac:(lia)).
  unfold iv_find_mut. cbn [s_seek s_clone QuotaStream iv_w iv_h iv_chunk]. rewrite seek_start by lia.
  change (@mkIM Q (br_new Q w 0) 0) with (@mkIM Q (upb L (br_new VecStream w 0)) 0).
  change (iv_fuel (@mkIV Q w h (2 ^ i))) with (iv_fuel (@mkIV VecStream w h (2 ^ i))).
  destruct (find_index p xs) as [j|] eqn:Ej.
  - destruct G as (x & h' & Ex & G). exists x. split; auto. rewrite G. assert (Hj : j < length xs) by (apply nth_error_Some; congruence).
    rewrite write_back_at; [|rewrite Lw; nia|exact HL]. destruct (ser (f x)) as [b|]; [|reflexivity].
    destruct (j * 2 ^ i + length b <=? L); reflexivity.
  - rewrite G. reflexivity.
Qed.

(** ** get_mut, with the bytes it leaves *)
Notation mut k f := (bs_slots_mut ser de k f).
Lemma slots_mut_full k f : forall sl i,
  (forall j o, nth_error sl j = Some o -> exists xs tail, slot_holds ser de (i + j) o xs tail) ->
  (mut k f sl = Ok (sl, None) /\ ~ In k (keys (items_of de sl))) \/
  exists n j st v, nth_error sl n = Some (Some st) /\ nth_error (stream_holds de (Some st)) j = Some (k, v) /\
    mut k f sl = match ser (k, f v) with
      | Some b => if j * 2 ^ (i + n) + length b <=? L
          then Ok (replace_nth n (Some (@mkIV Q (put_at (j * 2 ^ (i + n)) b (iv_w st)) (iv_h st) (iv_chunk st))) sl, Some v) else Panic
      | None => Panic
      end.
Proof.
  induction sl as [|o sl IH]; intros i H; cbn [bs_slots_mut].
  - left. split; auto.
  - specialize (IH (S i)). assert (H' : forall j o0, nth_error sl j = Some o0 -> exists xs tail, slot_holds ser de (S i + j) o0 xs tail).
    { intros j o' E. destruct (H (S j) o' E) as (xs & tail & H'). exists xs, tail. rewrite Nat.add_succ_comm. auto. }
    specialize (IH H'). destruct (H 0 o eq_refl) as (xs & tail & H0). rewrite Nat.add_0_r in H0. pose proof (slot_holds_is ser de i o xs tail H0) as Ex.
    assert (Later : forall r,
      (forall x, In x xs -> fst x <> k) ->
      (r = let* (r', o') := mut k f sl in Ok (o :: r', o')) ->
      (r = Ok (o :: sl, None) /\ ~ In k (keys (items_of de (o :: sl)))) \/
      exists n j st v, nth_error (o :: sl) n = Some (Some st) /\ nth_error (stream_holds de (Some st)) j = Some (k, v) /\
        r = match ser (k, f v) with
          | Some b => if j * 2 ^ (i + n) + length b <=? L
              then Ok (replace_nth n (Some (@mkIV Q (put_at (j * 2 ^ (i + n)) b (iv_w st)) (iv_h st) (iv_chunk st))) (o :: sl), Some v) else Panic
          | None => Panic
          end).
    { intros r Hno ->. destruct IH as [[-> Hn]|(n & j & st & v & E1 & E2 & ->)].
      - left. split; [reflexivity|]. unfold items_of in *. cbn [map concat]. rewrite Ex, keys_app, in_app_iff. intros [Hk|Hk]; [|contradiction].
        unfold keys in Hk. apply in_map_iff in Hk as (x & Ek & Hx). apply (Hno x Hx Ek).
      - right. exists (S n), j, st, v. split; [exact E1|]. split; [exact E2|]. rewrite Nat.add_succ_comm. destruct (ser (k, f v)) as [b|]; [|reflexivity].
        destruct (j * 2 ^ (i + S n) + length b <=? L); reflexivity. }
    destruct o as [v|].
    + pose proof (iv_find_mut_full (fun kv => eqb (fst kv) k) (fun kv => (fst kv, f (snd kv))) H0) as G.
      destruct (find_index (fun kv : T => eqb (fst kv) k) xs) as [j|] eqn:Ej.
      * destruct G as ([k' x] & E1 & G). apply find_index_some in Ej as (y & B1 & B2 & _). rewrite E1 in B1. injection B1 as <-.
        cbn [fst snd] in *. apply eqb_eq in B2. subst k'. right. exists 0, j, v, x. split; auto. split; [rewrite Ex; auto|]. rewrite G, Nat.add_0_r.
        assert (Hch : iv_chunk v = 2 ^ i) by apply H0. rewrite Hch.
        destruct (ser (k, f x)) as [b|]; [|reflexivity]. destruct (j * 2 ^ i + length b <=? L); reflexivity.
      * rewrite G. cbn [bind]. apply Later; auto. intros x Hx Ek. pose proof (proj1 (find_index_none _ _) Ej x Hx) as A. cbn beta in A.
        rewrite Ek, eqb_refl in A. discriminate.
    + apply Later; auto. cbn in H0. destruct H0 as [-> _]. intros x [].
Qed.

Hypothesis Codec : codec_ok ser de.
Lemma put_at_chunk c cs xs n x b tail : 1 <= c -> Forall2 (encodes de c) cs xs -> n < length xs -> ser x = Some b -> length b <= c ->
  exists cs', put_at (n * c) b (concat cs ++ tail) = concat cs' ++ tail /\ Forall2 (encodes de c) cs' (replace_nth n x xs).
Proof.
  intros Hc F Hn Eb Hb. destruct (nth_error xs n) as [x0|] eqn:En; [|apply nth_error_None in En; lia].
  destruct (@write_back_in_place _ ser de Codec (concat cs) xs n x0 x c 0 Hc) as (w' & E & cs' & E' & F'); [exists cs; auto|auto|exists b; auto|].
  exists cs'. split; [|exact F']. rewrite <- E'. clear E' F' cs'. pose proof (concat_length (encodes_cut F)) as Lc. rewrite (Forall2_length F) in Lc.
  assert (Hp : n * c + length b <= length (concat cs)) by (rewrite Lc; nia).
  unfold write_back in E. cbn [s_seek VecStream] in E. rewrite seek_start in E by lia. rewrite Eb in E.
  destruct (@write_all_vec (concat cs) (n * c) b) as (w2 & Ea & Ew); [lia|]. rewrite Ea in E. cbn [bind] in E. injection E as ->.
  destruct (@vs_write_eq (concat cs) (n * c) b) as (w2 & Ew2 & _ & D); [lia|]. rewrite Ew in Ew2. injection Ew2 as <-. rewrite D. unfold put_at.
  rewrite firstn_app, skipn_app. replace (n * c - length (concat cs)) with 0 by lia. replace (n * c + length b - length (concat cs)) with 0 by lia.
  cbn [firstn skipn]. rewrite app_nil_r, <- !app_assoc. reflexivity.
Qed.

(** C75.  [get_mut] (with the value written, and the guard dropped) over streams that may be full: either there is
    no element with this key and nothing changes; or one element is found, and
    - if the new value, in its place, ends within what the stream can take, its bytes are there, no other byte is
      touched, and if it fits in the chunk of the old one it takes its place among the elements held, nothing else
      changing;
    - if it ends beyond, or cannot be serialized, the drop of the guard panics. *)
Theorem C75_get_mut : forall (s : bstream Q) k f, full_ok ser de s ->
  (bs_get_mut ser de s k f = Ok (s, None) /\ ~ In k (keys (holds_all de s))) \/
  exists i j st v, nth_error (st_slots s) i = Some st /\ nth_error (stream_holds de st) j = Some (k, v) /\
    match ser (k, f v) with
    | None => bs_get_mut ser de s k f = Panic
    | Some b =>
        (L < j * 2 ^ i + length b -> bs_get_mut ser de s k f = Panic) /\
        (j * 2 ^ i + length b <= L -> exists s', bs_get_mut ser de s k f = Ok (s', Some v) /\ st_cap s' = st_cap s /\
          (forall i', i' <> i -> nth_error (st_slots s') i' = nth_error (st_slots s) i') /\
          bytes_of (st_slots s') i = put_at (j * 2 ^ i) b (bytes_of (st_slots s) i)) /\
        (length b <= 2 ^ i -> j * 2 ^ i + length b <= L /\ forall s' o, bs_get_mut ser de s k f = Ok (s', o) ->
          full_ok ser de s' /\ bs_size s' = bs_size s /\
          exists rest, Permutation (holds_all de s) ((k, v) :: rest) /\ Permutation (holds_all de s') ((k, f v) :: rest))
    end.
Proof.
  intros s k f ((Hl & H) & Hc). unfold bs_get_mut. destruct (@slots_mut_full k f (st_slots s) 0) as [[E Hn]|(n & j & st & v & E1 & E2 & E)].
  - intros j o Ej. apply (H j o Ej).
  - left. rewrite E. cbn [bind]. destruct s. split; auto.
  - right. exists n, j, (Some st), v. split; auto. split; auto. rewrite E. cbn [plus]. destruct (ser (k, f v)) as [b|] eqn:Eb; [|reflexivity].
    destruct (H n _ E1) as (xs & tail & Hst). pose proof (slot_holds_is _ _ _ _ _ _ Hst) as Ex. rewrite Ex in E2.
    assert (Hj : j < length xs) by (apply nth_error_Some; congruence). pose proof (pow2_pos n) as Hp2.
    pose proof Hst as (Hch & HL & (cs & Ecs & F) & Hfit & Ht & Hfull). cbn [stream_bytes] in *.
    assert (Lw : length (iv_w st : list byte) = length xs * 2 ^ n + length tail) by (rewrite Ecs, app_length, (concat_length (encodes_cut F)), (Forall2_length F); reflexivity).
    split; [|split].
    + intros HLb. apply Nat.leb_gt in HLb. rewrite HLb. reflexivity.
    + intros HLb. apply Nat.leb_le in HLb. rewrite HLb. cbn [bind]. eexists. split; [reflexivity|]. split; auto. cbn [st_slots]. split.
      * intros i' N. apply nth_replace_other. auto.
      * unfold bytes_of. rewrite (nth_replace_same _ _ _ E1), E1. reflexivity.
    + intros Hb. split; [nia|]. intros s' o E3. assert (HLb : j * 2 ^ n + length b <=? L = true) by (apply Nat.leb_le; nia). rewrite HLb in E3.
      cbn [bind] in E3. injection E3 as <- <-.
      destruct (@put_at_chunk (2 ^ n) cs xs j (k, f v) b tail Hp2 F Hj Eb Hb) as (cs' & Ecs' & F').
      assert (Ew : put_at (j * 2 ^ n) b (iv_w st) = concat cs' ++ tail) by (rewrite Ecs; exact Ecs').
      assert (Lw' : length (put_at (j * 2 ^ n) b (iv_w st)) = length (iv_w st : list byte)).
      { rewrite put_at_length by nia. rewrite Lw. nia. }
      set (st' := @mkIV Q (put_at (j * 2 ^ n) b (iv_w st)) (iv_h st) (iv_chunk st)).
      assert (Hst' : slot_holds ser de n (Some st') (replace_nth j (k, f v) xs) tail).
      { cbn [slot_holds stream_bytes st' iv_w iv_chunk]. split; auto. split; [rewrite Lw'; auto|]. split; [exists cs'; auto|].
        split; [apply replace_nth_Forall; auto; exists b; auto|]. split; auto. intros N. rewrite Lw'. auto. }
      assert (Hsz : bs_size (mkBS (replace_nth n (Some st') (st_slots s)) (st_cap s)) = bs_size s).
      { rewrite !size_used. unfold used. cbn [st_slots]. rewrite map_replace_nth. cbn [stream_bytes iv_w st'].
        pose proof (map_nth_error (fun o => length (stream_bytes o)) _ _ E1) as En2. cbn beta in En2. cbn [stream_bytes] in En2.
        pose proof (list_sum_replace _ _ (length (put_at (j * 2 ^ n) b (iv_w st))) En2) as G. rewrite Lw' in *. lia. }
      split; [|split; [exact Hsz|]].
      * split; [|rewrite Hsz; cbn [st_cap]; auto]. cbn [st_slots]. split; [rewrite replace_nth_length; auto|]. intros m o Em.
        destruct (Nat.eq_dec n m) as [<-|N]; [rewrite (nth_replace_same _ _ _ E1) in Em; injection Em as <-; eauto|].
        rewrite nth_replace_other in Em by auto. eauto.
      * assert (En : nth_error (map (stream_holds de) (st_slots s)) n = Some xs) by (rewrite (map_nth_error _ _ _ E1), Ex; reflexivity).
        exists (concat (replace_nth n (remove_nth j xs) (map (stream_holds de) (st_slots s)))). split.
        -- apply (@concat_replace_perm _ (map (stream_holds de) (st_slots s)) n xs (remove_nth j xs) [(k, v)] En). symmetry. apply (remove_nth_perm _ _ E2).
        -- unfold holds_all. cbn [st_slots]. rewrite map_replace_nth, (slot_holds_is _ _ _ _ _ _ Hst').
           rewrite <- (replace_twice (remove_nth j xs) (replace_nth j (k, f v) xs)).
           apply (@concat_replace_perm _ (replace_nth n (replace_nth j (k, f v) xs) (map (stream_holds de) (st_slots s))) n (replace_nth j (k, f v) xs) (remove_nth j xs) [(k, f v)]).
           ++ apply (nth_replace_same _ _ _ En).
           ++ cbn [app]. apply replace_remove_perm. auto.
Qed.

(** C75.  When the new value takes no more bytes than the next power of two of the old one (as for C37), [get_mut]
    does not panic, full streams or not, and replaces the value of one element held with this key. *)
Theorem C75_get_mut_fits : forall (s : bstream Q) k f, full_ok ser de s ->
  (forall v b, In (k, v) (holds_all de s) -> ser (k, v) = Some b -> exists b', ser (k, f v) = Some b' /\ length b' <= 2 ^ Nat.log2_up (length b)) ->
  exists s' o, bs_get_mut ser de s k f = Ok (s', o) /\ full_ok ser de s' /\ bs_size s' = bs_size s /\ st_cap s' = st_cap s /\
    match o with
    | Some v => exists rest, Permutation (holds_all de s) ((k, v) :: rest) /\ Permutation (holds_all de s') ((k, f v) :: rest)
    | None => s' = s /\ ~ In k (keys (holds_all de s))
    end.
Proof.
  intros s k f H Hf. destruct (C75_get_mut k f H) as [[E Hn]|(i & j & st & v & E1 & E2 & G)].
  - exists s, None. repeat split; auto; apply H.
  - destruct H as ((_ & H) & _). destruct (H i st E1) as (xs & tail & Hst). pose proof (slot_holds_is _ _ _ _ _ _ Hst) as Ex.
    assert (Hin : In (k, v) (stream_holds de st)) by (eapply nth_error_In; eauto).
    assert (Hfit : fits ser (2 ^ i) (k, v)).
    { rewrite Ex in Hin. destruct st as [w|]; [|destruct Hst as [-> _]; destruct Hin]. destruct Hst as (_ & _ & _ & Hst & _).
      rewrite Forall_forall in Hst. apply Hst. auto. }
    destruct Hfit as (b0 & Eb0 & Lb0). destruct (Hf v b0) as (b & Eb & Lb); auto.
    { unfold holds_all. apply in_concat. exists (stream_holds de st). split; auto. apply List.in_map. eapply nth_error_In; eauto. }
    rewrite Eb in G. destruct G as (_ & G1 & G2).
    assert (Hb : length b <= 2 ^ i).
    { etransitivity; [exact Lb|]. apply Nat.pow_le_mono_r; [lia|]. destruct (length b0) as [|m]; [cbn; lia|]. apply Nat.log2_up_le_pow2; [lia|auto]. }
    destruct (G2 Hb) as [HLb G3]. destruct (G1 HLb) as (s' & E & Ec & _). destruct (G3 s' (Some v) E) as (A1 & A2 & A3).
    exists s', (Some v). auto.
Qed.
End PQuotaMut.

(** The hypotheses of [C75_get_mut] on non-trivial cases: streams of 9 bytes, elements of 4, one byte of a third
    element at the end; a value that fits is written in place; one of 6 bytes over the first element also covers
    the start of the second; over the second it does not fit and the drop panics. *)
Definition mut_bs (f : nat -> nat) (k : nat) : option (list (nat * nat) * nat * option nat) :=
  match push quota_bs (bs_new (QuotaStream 9) 100) [(1, 2); (2, 2); (9, 2)] with
  | Ok (s, _) => match bs_get_mut pair_ser pair_de s k f with
    | Ok (s', o) => Some (holds_all pair_de s', bs_size s', o) | Panic => None end
  | Panic => None
  end.
Example C75_get_mut_cases :
  mut_bs (fun v => v - 1) 2 = Some ([(1, 2); (2, 1)], 9, Some 2) /\
  mut_bs (fun v => v + 1) 5 = Some ([(1, 2); (2, 2)], 9, None) /\
  mut_bs (fun _ => 4) 1 = Some ([(1, 0)], 9, Some 2) /\
  mut_bs (fun _ => 6) 2 = None.
Proof. repeat split; vm_compute; reflexivity. Qed.
Print Assumptions C75_get_mut_fits.
Print Assumptions C75_get_mut.
