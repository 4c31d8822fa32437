(** PFaults.v -- property theorems: C77 (Compressed on storage whose operations fail). *)
From Coq Require Import ZArith NArith Init.Byte Strings.Byte.
From Verif Require Import Base PermSolve Block Spec Cut BTree LawsProof Stream PStream IOVec IOVecProof Quota PQuota Compressed CompressedProof PCompressed
  CompFull PCompFull Faults.
Set Implicit Arguments.

Section PFaults.
Variable L : Lz.
Context {K V : Type} {OK : Ord K} {OV : Ord V} {EK : OrdEq K}.
Variable C : VCodec (K * V).
Variable srt : Sorter (K * V) V snd.
Variable bs : BSearch K.
Notation F := FaultStream.
Notation Bf := (CompressedB F L C srt bs).
Notation Bv := (CompressedB VecStream L C srt bs).
Notation T := (K * V)%type.
Notation held := (c_ct L C).

Lemma calm_faulty fs s : calm (faulty fs s) = s.
Proof. destruct s as [w h cap]. reflexivity. Qed.
Lemma read_bytes_faulty fs s : c_read_bytes L (faulty fs s) = c_read_bytes L s \/ c_read_bytes L (faulty fs s) = None.
Proof.
  destruct fs as [wf rf]. unfold c_read_bytes, faulty. cbn [c_w c_h s_seek s_read s_clone FaultStream VecStream fst snd]. unfold f_seek, f_read.
  destruct (vs_seek (c_w s) (c_h s) (SeekStart 0)) as [[w h] r] eqn:E1.
  destruct (next_fault rf) as [[| |n] fs1]; [|right; reflexivity|].
  all: destruct r as [r|]; [|left; reflexivity].
  all: destruct (vs_seek w h (SeekEnd 0)) as [[w' h'] [m|]]; destruct (next_fault fs1) as [[| |n'] fs2]; cbn [snd]; auto.
  all: destruct (vs_read w h m) as [[w2 h2] [b|]]; auto.
Qed.
Lemma read_faulty fs s : c_read L C (faulty fs s) = c_read L C s \/ c_read L C (faulty fs s) = None.
Proof. unfold c_read. destruct (read_bytes_faulty fs s) as [-> | ->]; auto. Qed.
Lemma write_loop_faulty rf : forall fuel buf w fs, length buf <= fuel -> exists n fs', n <= length buf /\
  write_loop F fuel w (length w, (fs, rf)) buf = Ok (w ++ firstn n buf, (length w + n, (fs', rf)), skipn n buf, n =? length buf).
Proof.
  induction fuel as [|fuel IH]; intros buf w fs Hl.
  - destruct buf as [|z zs]; [|cbn in Hl; lia]. exists 0, fs. split; [auto|]. cbn [write_loop firstn skipn length Nat.eqb]. rewrite app_nil_r, Nat.add_0_r. reflexivity.
  - destruct buf as [|z zs].
    { exists 0, fs. split; [auto|]. cbn [write_loop firstn skipn length Nat.eqb]. rewrite app_nil_r, Nat.add_0_r. reflexivity. }
    set (buf := z :: zs) in *. assert (Hb : length buf = S (length zs)) by reflexivity.
    assert (E1 : write_loop F (S fuel) w (length w, (fs, rf)) buf =
      let* (w', h', o) := f_write w (length w, (fs, rf)) buf in
      match o with None | Some 0 => Ok (w', h', buf, false) | Some n => write_loop F fuel w' h' (skipn n buf) end) by reflexivity.
    rewrite E1. clear E1. unfold f_write. cbn [fst snd].
    assert (G : forall n fs1, 0 < n -> n <= length buf -> exists m fs', m <= length buf /\
      write_loop F fuel (w ++ firstn n buf) (length w + n, (fs1, rf)) (skipn n buf) = Ok (w ++ firstn m buf, (length w + m, (fs', rf)), skipn m buf, m =? length buf)).
    { intros n fs1 Hn Hle. destruct (IH (skipn n buf) (w ++ firstn n buf) fs1) as (m & fs' & Hm & E); [rewrite skipn_length; lia|].
      rewrite skipn_length in *. rewrite app_length, firstn_length, Nat.min_l in E by lia. rewrite E. exists (n + m), fs'. split; [lia|].
      assert (E2 : (w ++ firstn n buf) ++ firstn m (skipn n buf) = w ++ firstn (n + m) buf).
      { rewrite <- app_assoc. f_equal. rewrite <- (firstn_skipn n (firstn (n + m) buf)). rewrite firstn_firstn, Nat.min_l by lia. f_equal.
        rewrite skipn_firstn_comm. f_equal. lia. }
      rewrite E2. assert (E3 : skipn m (skipn n buf) = skipn (n + m) buf) by (rewrite skipn_skipn; f_equal; lia). rewrite E3, Nat.add_assoc. replace (m =? length buf - n) with (n + m =? length buf); [reflexivity|].
      destruct (Nat.eqb_spec m (length buf - n)); [apply Nat.eqb_eq|apply Nat.eqb_neq]; lia. }
    assert (Z : forall fs1, exists m fs', m <= length buf /\ @Ok (list byte * fhandle (list fault) * list byte * bool) (w, (length w, (fs1, rf)), buf, false) =
      Ok (w ++ firstn m buf, (length w + m, (fs', rf)), skipn m buf, m =? length buf)).
    { intros fs1. exists 0, fs1. split; [lia|]. cbn [firstn skipn]. rewrite app_nil_r, Nat.add_0_r, Hb. reflexivity. }
    destruct (next_fault fs) as [[| |n] fs1].
    + rewrite vs_write_end. cbn [bind]. destruct (G (length buf) fs1) as (m & fs' & Hm & E); [lia|lia|]. rewrite (firstn_all buf) in E.
      exists m, fs'. split; [exact Hm|]. rewrite <- E. rewrite Hb. reflexivity.
    + cbn [bind]. apply Z.
    + rewrite vs_write_end. cbn [bind]. rewrite firstn_length. destruct (Nat.min n (length buf)) as [|k] eqn:Ek.
      * assert (n = 0) by lia. subst n. cbn [firstn]. rewrite app_nil_r, Nat.add_0_r. apply Z.
      * replace (firstn n buf) with (firstn (S k) buf); [apply G; lia|]. rewrite <- Ek. destruct (Nat.le_gt_cases n (length buf)) as [H|H].
        -- rewrite Nat.min_l by auto. reflexivity.
        -- rewrite Nat.min_r by lia. rewrite firstn_all. symmetry. apply firstn_all2. lia.
Qed.
Lemma write_faulty fs s val :
  match c_write L C (faulty fs s) val with
  | Ok (s1, true) => c_write L C s val = Ok (calm s1, true)
  | Ok (s1, false) => c_cap s1 = c_cap s /\ (calm s1 = s \/ exists b n, c_ser C val = Some b /\ length b <= c_cap s /\ (c_w s1 : list byte) = firstn n (lz L b))
  | Panic => False
  end.
Proof.
  destruct s as [w h cap], fs as [wf rf]. unfold c_write, faulty. cbn [c_w c_h c_cap s_resize s_seek FaultStream VecStream].
  destruct val as [|x val].
  - unfold f_resize. destruct (next_fault wf) as [[| |n] fs1]; [reflexivity|split; [reflexivity|left; reflexivity]|reflexivity].
  - destruct (c_ser C (x :: val)) as [b|] eqn:Eb; [|split; [reflexivity|left; reflexivity]].
    destruct (cap <? length b) eqn:Ec; [split; [reflexivity|left; reflexivity]|]. apply Nat.ltb_ge in Ec.
    unfold f_resize at 1. cbn [fst snd]. unfold vs_resize. set (h0 := if 0 <? h then 0 else h). change (vec_resize 0 (w : list byte)) with (@nil byte).
    assert (W : forall fs1, match (let '(w0, h1, r) := f_seek (@nil byte) (h0, (fs1, rf)) (SeekStart 0) in
        match r with None => Ok (@mkC F w0 h1 cap, false) | Some _ => let* (w1, h2, _, ok) := write_all F w0 h1 (lz L b) in Ok (@mkC F w1 h2 cap, ok) end) with
      | Ok (s1, true) => (let '(w0, h1, r) := vs_seek [] h0 (SeekStart 0) in
          match r with None => Ok (@mkC VecStream w0 h1 cap, false) | Some _ => let* (w1, h2, _, ok) := write_all VecStream w0 h1 (lz L b) in Ok (@mkC VecStream w1 h2 cap, ok) end)
          = Ok (calm s1, true)
      | Ok (s1, false) => c_cap s1 = cap /\ (calm s1 = @mkC VecStream w h cap \/ exists b' n, Some b = Some b' /\ length b' <= cap /\ (c_w s1 : list byte) = firstn n (lz L b'))
      | Panic => False
      end).
    { intros fs1. unfold f_seek. cbn [fst snd]. rewrite seek_start by (cbn; lia). destruct (@write_all_vec [] 0 (lz L b)) as (w' & Ea & Ew); [auto|].
      change (vs_write [] 0 (lz L b)) with (vs_write [] (length (@nil byte)) (lz L b)) in Ew. rewrite (vs_write_end [] (lz L b)) in Ew. injection Ew as <-.
      cbn [app length plus] in Ea. rewrite Ea. cbn [bind].
      assert (G : forall fs2, match (let* (w1, h2, _, ok) := write_all F [] (0, (fs2, rf)) (lz L b) in Ok (@mkC F w1 h2 cap, ok)) with
        | Ok (s1, true) => Ok (@mkC VecStream (lz L b) (length (lz L b)) cap, true) = Ok (calm s1, true)
        | Ok (s1, false) => c_cap s1 = cap /\ (calm s1 = @mkC VecStream w h cap \/ exists b' n, Some b = Some b' /\ length b' <= cap /\ (c_w s1 : list byte) = firstn n (lz L b'))
        | Panic => False
        end).
      { intros fs2. unfold write_all. destruct (@write_loop_faulty rf (length (lz L b)) (lz L b) [] fs2) as (n & fs' & Hn & E); [auto|].
        cbn [app length plus] in E. rewrite E. cbn [bind]. destruct (n =? length (lz L b)) eqn:En.
        - apply Nat.eqb_eq in En. unfold calm. cbn [c_w c_h c_cap fst]. rewrite En, firstn_all. reflexivity.
        - split; [reflexivity|]. right. exists b, n. auto. }
      destruct (next_fault fs1) as [[| |n] fs2]; [apply G| |apply G].
      split; [reflexivity|]. right. exists b, 0. auto. }
    destruct (next_fault wf) as [[| |n] fs1]; [apply W| |apply W].
    split; [reflexivity|]. left. reflexivity.
Qed.
Lemma write_or_panic_faulty fs s val s1 : c_write_or_panic L C (faulty fs s) val = Ok s1 -> c_write_or_panic L C s val = Ok (calm s1).
Proof.
  unfold c_write_or_panic. pose proof (write_faulty fs s val) as H. destruct (c_write L C (faulty fs s) val) as [[s2 [|]]|]; cbn [bind]; try discriminate.
  intros [= <-]. rewrite H. reflexivity.
Qed.
Lemma write_or_panic_fails fs s val : c_write_or_panic L C (faulty fs s) val = Panic -> exists s1, c_write L C (faulty fs s) val = Ok (s1, false).
Proof.
  unfold c_write_or_panic. pose proof (write_faulty fs s val) as H. destruct (c_write L C (faulty fs s) val) as [[s2 [|]]|]; cbn [bind]; try discriminate; [eauto|tauto].
Qed.
Local Ltac nope := solve [left; reflexivity | left; rewrite calm_faulty; reflexivity | right; split; [apply calm_faulty|reflexivity]].
Lemma step_faulty fs s o :
  match step Bf (faulty fs s) o with
  | Ok (s', out) => step Bv s o = Ok (calm s', out) \/ (calm s' = s /\ out = given o)
  | Panic => step Bv s o = Panic \/ exists s1, leaves L C srt bs (faulty fs s) o false s1
  end.
Proof.
  destruct o as [vs|n|k|ks|].
  - unfold leaves. cbn [step push written given CompressedB]. unfold c_push. destruct (read_bytes_faulty fs s) as [E|E]; rewrite E; [|nope].
    destruct (c_read_bytes L s) as [bytes|]; [|nope].
    destruct (match bytes with [] => Some [] | _ :: _ => c_de C bytes end) as [vec|]; [|nope].
    destruct (c_vsize C vs) as [total|]; [|nope]. cbn [c_cap faulty]. destruct (sub_chk (c_cap s) (length bytes)) as [room|]; [|nope]. cbn [bind].
    match goal with |- context [let (in_vec, out_vec) := ?p in _] => set (plan := p) end.
    assert (Ep : (if c_cap s <? total then match find_cut_at_size (srt vs) (c_esz0 C) (total - c_cap s) with (cut, _, _) => firstn cut (srt vs) end
        else if total <=? room then vec ++ vs
        else match find_cut_at_size (srt vec) (c_esz0 C) (total - room) with (cut, _, _) => firstn cut (srt vec) ++ vs end) = fst plan).
    { unfold plan. destruct (c_cap s <? total); [destruct (find_cut_at_size (srt vs) _ _) as [[? ?] ?]; reflexivity|].
      destruct (total <=? room); [reflexivity|]. destruct (find_cut_at_size (srt vec) _ _) as [[? ?] ?]; reflexivity. }
    destruct plan as [in_vec out_vec]. cbn [fst] in Ep. destruct (c_write_or_panic L C (faulty fs s) in_vec) as [s'|] eqn:Ew; cbn [bind].
    + rewrite (write_or_panic_faulty _ _ _ Ew). left. reflexivity.
    + right. destruct (write_or_panic_fails _ _ _ Ew) as (s1 & E1). exists s1, in_vec. split; [rewrite Ep; reflexivity|exact E1].
  - unfold leaves. cbn [step pop written given CompressedB]. unfold c_pop. destruct (read_faulty fs s) as [E|E]; rewrite E; [|nope].
    destruct (c_read L C s) as [[|x l]|]; [nope| |nope].
    destruct (find_cut_at_size _ (c_esz0 C) n) as [[cut sz] r]. destruct (sz <? n).
    + destruct s as [w h cap], fs as [wf rf]. cbn [s_resize VecStream FaultStream c_w c_h c_cap faulty]. unfold f_resize.
      destruct (next_fault wf) as [[| |m] fs1]; cbn [vs_resize]; [left; reflexivity|right; split; reflexivity|left; reflexivity].
    + destruct (c_write_or_panic L C (faulty fs s) _) as [s'|] eqn:Ew; cbn [bind].
      * rewrite (write_or_panic_faulty _ _ _ Ew). left. reflexivity.
      * right. destruct (write_or_panic_fails _ _ _ Ew) as (s1 & E1). eexists s1, _. split; [reflexivity|exact E1].
  - unfold leaves. cbn [step take written given CompressedB]. unfold c_take. destruct (read_faulty fs s) as [E|E]; rewrite E; [|nope].
    destruct (c_read L C s) as [l|]; [|nope]. destruct (find_index _ l) as [i|]; [|nope].
    destruct (vec_swap_remove i l) as [[v' ret]|]; [|nope]. cbn [bind]. destruct (c_write_or_panic L C (faulty fs s) v') as [s'|] eqn:Ew; cbn [bind].
    + rewrite (write_or_panic_faulty _ _ _ Ew). left. reflexivity.
    + right. destruct (write_or_panic_fails _ _ _ Ew) as (s1 & E1). exists s1, v'. split; [reflexivity|exact E1].
  - unfold leaves. cbn [step take_multiple written given CompressedB]. unfold c_take_multiple. destruct (read_faulty fs s) as [E|E]; rewrite E; [|nope].
    destruct (c_read L C s) as [l|]; [|nope].
    destruct (c_take_out (rev (c_matches bs (sort_keys ks) 0 l)) l) as [[v' out]|]; [|nope]. cbn [bind].
    destruct (c_drop_keys _ _) as [ks'|]; [|nope]. cbn [bind]. destruct out as [|x out]; [nope|].
    destruct (c_write_or_panic L C (faulty fs s) v') as [s'|] eqn:Ew; cbn [bind].
    + rewrite (write_or_panic_faulty _ _ _ Ew). left. reflexivity.
    + right. destruct (write_or_panic_fails _ _ _ Ew) as (s1 & E1). exists s1, v'. split; [reflexivity|exact E1].
  - cbn [step flush given CompressedB]. unfold c_flush. destruct (read_faulty fs s) as [E|E]; rewrite E; [|nope].
    destruct (c_read L C s) as [l|]; [|nope].
    destruct s as [w h cap], fs as [wf rf]. cbn [s_resize VecStream FaultStream c_w c_h c_cap faulty]. unfold f_resize.
    destruct (next_fault wf) as [[| |m] fs1]; cbn [vs_resize]; [left; reflexivity|right; split; reflexivity|left; reflexivity].
Qed.

(** C77.  Whatever fails, a call that returns either did its work, as without faults, or did nothing and handed
    back what it was given. *)
Theorem C77_all_or_nothing : forall s fs o s' out, step Bf (faulty fs s) o = Ok (s', out) ->
  step Bv s o = Ok (calm s', out) \/ (calm s' = s /\ out = given o).
Proof. intros s fs o s' out E. pose proof (step_faulty fs s o) as H. rewrite E in H. exact H. Qed.

(** C77.  So no history of calls that return loses anything, whatever fails and when. *)
Lemma step_conserves s o s' out : c_inv L C s -> step Bv s o = Ok (s', out) ->
  c_inv L C s' /\ c_cap s' = c_cap s /\ Permutation (out ++ held s') (given o ++ held s).
Proof.
  intros H E. assert (Hi : inv L C true s) by (split; [exact H|discriminate]).
  destruct o as [vs|n|k|ks|]; cbn [step given] in *.
  - destruct (C39_push (srt := srt) (bs := bs) (vs := vs) Hi) as (s1 & out1 & E1 & (I & _) & Hc & P); [intros; discriminate|].
    rewrite E in E1. injection E1 as <- <-. split; [exact I|]. split; [exact Hc|]. rewrite P. apply Permutation_app_comm.
  - destruct (C39_pop srt bs n Hi) as (s1 & out1 & E1 & (I & _) & Hc & P & _). rewrite E in E1. injection E1 as <- <-. auto.
  - destruct (C39_take srt bs k Hi) as (s1 & o1 & E1 & (I & _) & Hc & _ & Ho). rewrite E1 in E. cbn [bind] in E. injection E as <- <-.
    split; [exact I|]. split; [exact Hc|]. destruct o1 as [[k' v]|]; cbn [opt_list app]; destruct Ho as [Ho1 Ho2]; [subst k'|]; exact Ho2.
  - destruct (take_multiple Bv s ks) as [[[s1 ks1] out1]|] eqn:E1; [|discriminate]. cbn [bind] in E. injection E as <- <-.
    destruct (C40_take_multiple_contents ks H E1) as (I & P & _). split; [exact I|]. split; [|exact P].
    clear - E1. cbn [take_multiple CompressedB] in E1. unfold c_take_multiple in E1. destruct (c_read L C s) as [l|]; [|injection E1 as <- _ _; reflexivity].
    destruct (c_take_out _ l) as [[v' o']|]; [|discriminate]. cbn [bind] in E1. destruct (c_drop_keys _ _) as [k2|]; [|discriminate]. cbn [bind] in E1.
    destruct o' as [|x o']; [injection E1 as <- _ _; reflexivity|]. destruct (c_write_or_panic L C s v') as [s2|] eqn:Ew; [|discriminate]. injection E1 as <- _ _.
    apply (write_or_panic_rep 0 _ _ _ _ Ew).
  - destruct (C39_flush srt bs Hi) as (s1 & out1 & E1 & (I & _) & Hc & P & _). rewrite E in E1. injection E1 as <- <-. auto.
Qed.
Theorem C77_nothing_lost : forall cap h s out,
  fault_run L C srt bs (c_new VecStream (s_new VecStream) cap) h = Ok (s, out) ->
  Permutation (out ++ held s) (all_given (map snd h)) /\ size Bv s <= cap /\ c_cap s = cap.
Proof.
  intros cap.
  assert (G : forall h s s' out, c_inv L C s -> fault_run L C srt bs s h = Ok (s', out) ->
    c_inv L C s' /\ c_cap s' = c_cap s /\ Permutation (out ++ held s') (held s ++ all_given (map snd h))).
  { induction h as [|[fs o] h IH]; intros s s' out H E; cbn [fault_run] in E.
    - injection E as <- <-. cbn. rewrite app_nil_r. auto.
    - destruct (step Bf (faulty fs s) o) as [[s1 r1]|] eqn:E1; [|discriminate]. cbn [bind] in E.
      destruct (fault_run L C srt bs (calm s1) h) as [[s2 r2]|] eqn:E2; [|discriminate]. injection E as <- <-.
      assert (A : c_inv L C (calm s1) /\ c_cap (calm s1) = c_cap s /\ Permutation (r1 ++ held (calm s1)) (given o ++ held s)).
      { destruct (C77_all_or_nothing _ _ _ E1) as [A|[-> ->]]; [exact (step_conserves _ H A)|auto]. }
      destruct A as (A1 & A2 & A3). destruct (IH _ _ _ A1 E2) as (B1 & B2 & B3). split; [exact B1|]. split; [congruence|].
      unfold all_given in *. cbn [map flat_map snd]. rewrite <- app_assoc, B3, app_assoc, A3. perm0. }
  intros h s out E. destruct (G h _ _ _ (proj1 (new_inv L C true cap)) E) as (A1 & A2 & A3). cbn [c_cap c_new] in A2.
  split; [|split; [|exact A2]].
  - rewrite A3. change (held (c_new VecStream (s_new VecStream) cap)) with (c_ct L C (c_new VecStream (s_new VecStream) cap)).
    assert (E0 : c_ct L C (c_new VecStream (s_new VecStream) cap) = []) by (apply (c_rep_ct L C); reflexivity). rewrite E0. reflexivity.
  - rewrite <- A2. apply (C39_size_exact srt bs A1).
Qed.

(** C77.  A lookup that meets a failure says that there is nothing; it is right when it says that there is something. *)
Theorem C77_lookups : forall s fs k,
  (contains Bf (faulty fs s) k = contains Bv s k \/ contains Bf (faulty fs s) k = Ok false) /\
  (c_get L C (faulty fs s) k = c_get L C s k \/ c_get L C (faulty fs s) k = None) /\
  (size Bf (faulty fs s) = size Bv s \/ size Bf (faulty fs s) = 0).
Proof.
  intros s fs k. cbn [contains size CompressedB]. unfold c_contains, c_get, c_size. split; [|split].
  - destruct (read_faulty fs s) as [-> | ->]; auto.
  - destruct (read_faulty fs s) as [-> | ->]; auto.
  - destruct (read_bytes_faulty fs s) as [-> | ->]; auto.
Qed.
(** C77.  get_mut, the cell written and dropped: it does its work, or shows nothing and does nothing, or its drop
    panics because the write failed.  It reads through a clone and writes through another: both meet [snd fs] (of which
    a read only sees the failures). *)
Theorem C77_get_mut : forall s fs k f,
  match c_get_mut L C (faulty fs s) k f with
  | Ok (s', r) => c_get_mut L C s k f = Ok (calm s', r) \/ (calm s' = s /\ r = None)
  | Panic => c_get_mut L C s k f = Panic \/ exists l i v s1, c_read L C s = Some l /\ find_index (fun kv => eqb (fst kv) k) l = Some i /\
      nth_error l i = Some (k, v) /\ c_write L C (faulty (snd fs, []) s) (replace_nth i (k, f v) l) = Ok (s1, false)
  end.
Proof.
  intros s fs k f. unfold c_get_mut. destruct (read_faulty fs s) as [-> | ->]; [|right; split; [apply calm_faulty|reflexivity]].
  destruct (c_read L C s) as [l|] eqn:Er; [|left; rewrite calm_faulty; reflexivity].
  destruct (find_index (fun kv => eqb (fst kv) k) l) as [i|] eqn:Ei; [|left; rewrite calm_faulty; reflexivity].
  destruct (find_index_some _ _ Ei) as ([k' v] & En & Ek & _). cbn [fst] in Ek. apply eqb_eq in Ek. subst k'. rewrite En. cbn [unwrap bind fst snd].
  change (@mkC F (c_w (faulty fs s)) (s_clone F (c_h (faulty fs s))) (c_cap (faulty fs s))) with (faulty (snd fs, []) s).
  change (@mkC VecStream (c_w s) (s_clone VecStream (c_h s)) (c_cap s)) with (@mkC VecStream (c_w s) (c_h s) (c_cap s)).
  replace (@mkC VecStream (c_w s) (c_h s) (c_cap s)) with s by (destruct s; reflexivity).
  destruct (c_write_or_panic L C (faulty (snd fs, []) s) (replace_nth i (k, f v) l)) as [s'|] eqn:Ew; cbn [bind].
  - rewrite (write_or_panic_faulty _ _ _ Ew). cbn [bind]. left. reflexivity.
  - right. destruct (write_or_panic_fails _ _ _ Ew) as (s1 & E1). exists l, i, v, s1. auto.
Qed.
(** C77.  Without faults, nothing is different. *)
Theorem C77_no_fault : forall s o, match step Bf (faulty ([], []) s) o, step Bv s o with
  | Ok (s', out), Ok (s2, out2) => calm s' = s2 /\ out = out2
  | Panic, Panic => True
  | _, _ => False
  end.
Proof.
  assert (R : forall s, c_read_bytes L (faulty ([], []) s) = c_read_bytes L s).
  { intros s. unfold c_read_bytes, faulty. cbn [c_w c_h s_seek s_read s_clone FaultStream VecStream]. unfold f_seek, f_read. cbn [fst snd next_fault].
    destruct (vs_seek (c_w s) (c_h s) (SeekStart 0)) as [[w h] [r|]]; cbn [fst snd next_fault]; [|reflexivity].
    destruct (vs_seek w h (SeekEnd 0)) as [[w' h'] [m|]]; cbn [fst snd next_fault]; [|reflexivity]. destruct (vs_read w h m) as [[w2 h2] [b|]]; reflexivity. }
  assert (R' : forall s, c_read L C (faulty ([], []) s) = c_read L C s) by (intros s; unfold c_read; rewrite R; reflexivity).
  assert (W : forall s val, match c_write L C (faulty ([], []) s) val with Ok (s1, ok) => c_write L C s val = Ok (calm s1, ok) | Panic => False end).
  { intros [w h cap] val. unfold c_write, faulty. cbn [c_w c_h c_cap s_resize s_seek FaultStream VecStream]. destruct val as [|x val]; [reflexivity|].
    destruct (c_ser C (x :: val)) as [b|]; [|reflexivity]. destruct (cap <? length b); [reflexivity|]. unfold f_resize. cbn [fst snd next_fault]. unfold vs_resize.
    set (h0 := if 0 <? h then 0 else h). change (vec_resize 0 (w : list byte)) with (@nil byte). unfold f_seek. cbn [fst snd next_fault]. rewrite seek_start by (cbn; lia).
    destruct (@write_all_vec [] 0 (lz L b)) as (w' & Ea & Ew); [auto|]. rewrite Ea. cbn [bind].
    change (vs_write [] 0 (lz L b)) with (vs_write [] (length (@nil byte)) (lz L b)) in Ew. rewrite (vs_write_end [] (lz L b)) in Ew. injection Ew as <-.
    unfold write_all. destruct (lz L b) as [|z zs] eqn:Ez; [reflexivity|]. cbn [length write_loop s_write FaultStream]. unfold f_write. cbn [fst snd next_fault].
    change (vs_write [] 0 (z :: zs)) with (vs_write [] (length (@nil byte)) (z :: zs)). rewrite vs_write_end. cbn [bind]. cbn [length app plus]. rewrite (skipn_all2 (n := S (length zs)) (z :: zs)) by (cbn [length]; lia). destruct (length zs); reflexivity. }
  assert (WP : forall s val, match c_write_or_panic L C (faulty ([], []) s) val with Ok s1 => c_write_or_panic L C s val = Ok (calm s1) | Panic => c_write_or_panic L C s val = Panic end).
  { intros s val. unfold c_write_or_panic. pose proof (W s val) as H. destruct (c_write L C (faulty ([], []) s) val) as [[s1 ok]|]; [|tauto]. rewrite H. cbn [bind].
    destruct ok; reflexivity. }
  intros s o. destruct o as [vs|n|k|ks|]; cbn [step push pop take take_multiple flush CompressedB].
  - unfold c_push. rewrite R. destruct (c_read_bytes L s) as [bytes|]; [|rewrite calm_faulty; auto].
    destruct (match bytes with [] => Some [] | _ :: _ => c_de C bytes end) as [vec|]; [|rewrite calm_faulty; auto].
    destruct (c_vsize C vs) as [total|]; [|rewrite calm_faulty; auto]. cbn [c_cap faulty]. destruct (sub_chk (c_cap s) (length bytes)) as [room|]; [|exact I]. cbn [bind].
    match goal with |- context [let (in_vec, out_vec) := ?p in _] => destruct p as [in_vec out_vec] end.
    specialize (WP s in_vec). destruct (c_write_or_panic L C (faulty ([], []) s) in_vec) as [s1|]; rewrite WP; cbn [bind]; auto.
  - unfold c_pop. rewrite R'. destruct (c_read L C s) as [[|x l]|]; [rewrite calm_faulty; auto| |rewrite calm_faulty; auto].
    destruct (find_cut_at_size _ (c_esz0 C) n) as [[cut sz] r]. destruct (sz <? n); [destruct s; split; reflexivity|].
    match goal with |- context [c_write_or_panic L C s ?l] => specialize (WP s l) end.
    match goal with |- context [c_write_or_panic L C (faulty ([], []) s) ?l] => destruct (c_write_or_panic L C (faulty ([], []) s) l) as [s1|] end; rewrite WP; cbn [bind]; auto.
  - unfold c_take. rewrite R'. destruct (c_read L C s) as [l|]; [|cbn; rewrite calm_faulty; auto]. destruct (find_index _ l) as [i|]; [|cbn; rewrite calm_faulty; auto].
    destruct (vec_swap_remove i l) as [[v' ret]|]; [|exact I]. cbn [bind]. specialize (WP s v').
    destruct (c_write_or_panic L C (faulty ([], []) s) v') as [s1|]; rewrite WP; cbn [bind]; auto.
  - unfold c_take_multiple. rewrite R'. destruct (c_read L C s) as [l|]; [|cbn; rewrite calm_faulty; auto].
    destruct (c_take_out (rev (c_matches bs (sort_keys ks) 0 l)) l) as [[v' out]|]; [|exact I]. cbn [bind].
    destruct (c_drop_keys _ _) as [ks'|]; [|exact I]. cbn [bind]. destruct out as [|x out]; [cbn; rewrite calm_faulty; auto|].
    specialize (WP s v'). destruct (c_write_or_panic L C (faulty ([], []) s) v') as [s1|]; rewrite WP; cbn [bind]; auto.
  - unfold c_flush. rewrite R'. destruct (c_read L C s) as [l|]; [|rewrite calm_faulty; auto]. destruct s; split; reflexivity.
Qed.

(** ** After a call that panicked *)
(** What the container then is for its owner, when nothing fails any more: what it was; one that holds nothing and
    hands everything back; one that behaves as a new one; or one that holds what the call meant to store. *)
Definition answers (r : res (compressed VecStream * list T)) : option (list T) := match r with Ok (_, out) => Some out | Panic => None end.
Definition left_by (v : list T) (s t : compressed VecStream) : Prop :=
  t = s \/
  (forall h, run Bv t h = Ok (t, all_given h)) \/
  (forall h, answers (run Bv t h) = answers (run Bv (c_new VecStream (s_new VecStream) (c_cap t)) h)) \/
  ((forall k, contains Bv t k = Ok (has_key k v)) /\ exists t', step Bv t OpFlush = Ok (t', v)).
Lemma dead_step_any s o : c_read L C s = None -> step Bv s o = Ok (s, given o).
Proof.
  intros H. destruct o as [vs|n|k|ks|]; cbn [step given push pop take take_multiple flush CompressedB].
  - unfold c_push. unfold c_read in H. destruct (c_read_bytes L s) as [[|z b]|]; [discriminate| |reflexivity]. rewrite H. reflexivity.
  - unfold c_pop. rewrite H. reflexivity.
  - unfold c_take. rewrite H. reflexivity.
  - unfold c_take_multiple. rewrite H. reflexivity.
  - unfold c_flush. rewrite H. reflexivity.
Qed.
Lemma dead_run_any s : c_read L C s = None -> forall h, run Bv s h = Ok (s, all_given h).
Proof.
  intros H. induction h as [|o h IH]; cbn [run]; auto. rewrite dead_step_any by auto. cbn [bind]. rewrite IH. reflexivity.
Qed.
Definition alike (s t : compressed VecStream) : Prop :=
  s = t \/ (c_read_bytes L s = Some [] /\ c_read_bytes L t = Some [] /\ c_cap s = c_cap t).
Lemma write_alike (s t : compressed VecStream) val : c_cap s = c_cap t -> c_write_or_panic L C s val = c_write_or_panic L C t val.
Proof.
  destruct s as [w h cap], t as [w' h' cap']. cbn [c_cap]. intros <-. unfold c_write_or_panic, c_write. cbn [c_w c_h c_cap s_resize s_seek VecStream]. unfold vs_resize.
  assert (Eh : (if 0 <? h then 0 else h) = 0) by (destruct h; reflexivity).
  assert (Eh' : (if 0 <? h' then 0 else h') = 0) by (destruct h'; reflexivity).
  change (sH VecStream) with nat in *. rewrite Eh, Eh'. change (vec_resize 0 (w : list byte)) with (@nil byte). change (vec_resize 0 (w' : list byte)) with (@nil byte).
  destruct val as [|x val]; [reflexivity|]. destruct (c_ser C (x :: val)) as [b|]; [|reflexivity]. destruct (cap <? length b); reflexivity.
Qed.
Lemma alike_step s t o : alike s t ->
  match step Bv s o, step Bv t o with
  | Ok (s', r), Ok (t', r') => r = r' /\ alike s' t'
  | Panic, Panic => True
  | _, _ => False
  end.
Proof.
  intros [->|(Hs & Ht & Hc)].
  { destruct (step Bv t o) as [[t' r]|]; auto. split; [reflexivity|]. left. reflexivity. }
  assert (Rs : c_read L C s = Some []) by (unfold c_read; rewrite Hs; reflexivity).
  assert (Rt : c_read L C t = Some []) by (unfold c_read; rewrite Ht; reflexivity).
  assert (G : alike s t) by (right; auto).
  destruct o as [vs|n|k|ks|]; cbn [step push pop take take_multiple flush CompressedB].
  - unfold c_push. rewrite Hs, Ht, Hc. destruct (c_vsize C vs) as [total|]; [|auto]. destruct (sub_chk (c_cap t) (length [])) as [room|]; [|exact I]. cbn [bind].
    match goal with |- context [let (in_vec, out_vec) := ?p in _] => destruct p as [in_vec out_vec] end.
    rewrite (write_alike s t in_vec Hc). destruct (c_write_or_panic L C t in_vec) as [t'|]; [|exact I]. split; [reflexivity|]. left. reflexivity.
  - unfold c_pop. rewrite Rs, Rt. auto.
  - unfold c_take. rewrite Rs, Rt. cbn. auto.
  - unfold c_take_multiple. rewrite Rs, Rt. cbn. auto.
  - unfold c_flush. rewrite Rs, Rt. cbn [s_resize VecStream]. split; [reflexivity|]. right. rewrite !read_bytes_ok. cbn [c_w c_cap]. unfold vs_resize.
    change (vec_resize 0 (c_w s : list byte)) with (@nil byte). change (vec_resize 0 (c_w t : list byte)) with (@nil byte). rewrite (unlz_nil L). auto.
Qed.
Lemma alike_run : forall h s t, alike s t -> answers (run Bv s h) = answers (run Bv t h).
Proof.
  induction h as [|o h IH]; intros s t H; cbn [run]; auto. pose proof (alike_step o H) as G.
  destruct (step Bv s o) as [[s' r]|], (step Bv t o) as [[t' r']|]; try contradiction; [|reflexivity]. destruct G as [-> G]. cbn [bind].
  specialize (IH _ _ G). destruct (run Bv s' h) as [[s2 r2]|], (run Bv t' h) as [[t2 r3]|]; cbn [answers bind] in *; congruence.
Qed.

(** C77.  A call that panics would have panicked without faults (C39, C40), or its write failed: [v] is the vector
    it meant to store and [s1] the state it leaves. *)
Theorem C77_panic : cut_frames L -> cut_vectors C -> forall s fs o, step Bf (faulty fs s) o = Panic ->
  step Bv s o = Panic \/
  exists v s1, written L C srt bs (faulty fs s) o = Ok (Some v) /\ c_write L C (faulty fs s) v = Ok (s1, false) /\
    c_cap s1 = c_cap s /\ left_by v s (calm s1).
Proof.
  intros Hf Hv s fs o E. pose proof (step_faulty fs s o) as H. rewrite E in H. destruct H as [H|(s1 & v & Hw & E1)]; [auto|]. right.
  exists v, s1. split; [exact Hw|]. split; [exact E1|]. pose proof (write_faulty fs s v) as H. rewrite E1 in H. destruct H as (Hc & H). split; [exact Hc|].
  destruct H as [H|(b & n & Eb & Lb & Ew)]; [left; exact H|right].
  assert (Hr : c_read_bytes L (calm s1) = unlz L (firstn n (lz L b))).
  { rewrite read_bytes_ok. unfold calm. cbn [c_w]. rewrite Ew. reflexivity. }
  assert (Hne : exists z b', b = z :: b') by (pose proof (c_len C v Eb) as Hlen; destruct b; [cbn in Hlen; lia|eauto]). destruct Hne as (z & b' & ->).
  destruct (unlz L (firstn n (lz L (z :: b')))) as [r|] eqn:Er.
  2: { left. apply dead_run_any. unfold c_read. rewrite Hr. reflexivity. }
  destruct (Hf _ _ _ Er) as (m & ->). destruct m as [|m].
  { right. left. intros h. apply alike_run. right. split; [exact Hr|]. split; [|reflexivity]. rewrite read_bytes_ok. apply (unlz_nil L). }
  destruct (Nat.lt_ge_cases (S m) (length (z :: b'))) as [Hm|Hm].
  - left. apply dead_run_any. unfold c_read. rewrite Hr. cbn [firstn].
    change (z :: firstn m b') with (firstn (S m) (z :: b')). apply (Hv v (z :: b') (S m) Eb); [lia|exact Hm].
  - right. right. rewrite firstn_all2 in Hr by exact Hm. assert (R : c_read L C (calm s1) = Some v).
    { unfold c_read. rewrite Hr. apply (c_round C). exact Eb. }
    split; [intros k; cbn [contains CompressedB]; unfold c_contains; rewrite R; reflexivity|].
    cbn [step flush CompressedB]. unfold c_flush. rewrite R. eexists. reflexivity.
Qed.
End PFaults.

(** ** Concrete cases *)
Notation chain_v := (CompressedB VecStream mark_lz chain_codec (std_sorter snd) linear_bs).
Notation chain_f := (CompressedB FaultStream mark_lz chain_codec (std_sorter snd) linear_bs).
Definition chain_0 : compressed VecStream := c_new VecStream (s_new VecStream) 100.
Definition chain_1 : compressed VecStream := @mkC VecStream (lz mark_lz (repeat x00 7 ++ [x01; x01; x04])) 21 100.
(** Refuted: every lookup is right, whatever fails. *)
Theorem C77_lookups_always_right_refuted : run chain_v chain_0 [OpPush [(1, 2)]] = Ok (chain_1, []) /\
  contains chain_v chain_1 1 = Ok true /\ contains chain_f (faulty ([], [Fails]) chain_1) 1 = Ok false /\
  contains chain_f (faulty ([], [Works; Fails]) chain_1) 1 = Ok false.
Proof. split; [vm_compute; reflexivity|]. split; [vm_compute; reflexivity|]. split; vm_compute; reflexivity. Qed.
(** get_mut: a read that fails, a write that fails in the drop, and neither. *)
Example c77_get_mut_case :
  (let* (s', r) := c_get_mut mark_lz chain_codec (faulty ([], [Fails]) chain_1) 1 S in Ok (calm s', r)) = Ok (chain_1, None) /\
  c_get_mut mark_lz chain_codec (faulty ([], [Works; Works; Short 5; Fails]) chain_1) 1 S = Panic /\
  (let* (s', r) := c_get_mut mark_lz chain_codec (faulty ([Fails], []) chain_1) 1 S in Ok (r, c_get mark_lz chain_codec (calm s') 1)) = Ok (Some 2, Some 3).
Proof. split; [vm_compute; reflexivity|]. split; vm_compute; reflexivity. Qed.
(** Refuted: a call that panics because a write failed leaves what was held. *)
Theorem C77_panic_keeps_contents_refuted : run chain_v chain_0 [OpPush [(1, 2)]] = Ok (chain_1, []) /\
  step chain_f (faulty ([Works; Fails], []) chain_1) (OpPush [(3, 4)]) = Panic /\
  exists s1, leaves mark_lz chain_codec (std_sorter snd) linear_bs (faulty ([Works; Fails], []) chain_1) (OpPush [(3, 4)]) false s1 /\
    run chain_v (calm s1) [OpFlush] = Ok (chain_0, []).
Proof.
  split; [vm_compute; reflexivity|]. split; [vm_compute; reflexivity|]. eexists. split.
  - exists [(1, 2); (3, 4)]. split; vm_compute; reflexivity.
  - vm_compute; reflexivity.
Qed.
(** A take whose write fails in the middle loses the other elements too. *)
Example c77_take_case : exists s s1, run chain_v chain_0 [OpPush [(1, 2); (3, 4)]] = Ok (s, []) /\
  step chain_f (faulty ([Works; Works; Short 5; Fails], []) s) (OpTake 1) = Panic /\
  leaves mark_lz chain_codec (std_sorter snd) linear_bs (faulty ([Works; Works; Short 5; Fails], []) s) (OpTake 1) false s1 /\
  contains chain_v (calm s1) 3 = Ok false.
Proof.
  eexists. eexists. split; [vm_compute; reflexivity|]. split; [vm_compute; reflexivity|].
  split; [eexists; split; vm_compute; reflexivity|vm_compute; reflexivity].
Qed.
(** A history in which reads fail, a resize fails and writes are short, and no call panics. *)
Example c77_case : exists s, fault_run mark_lz chain_codec (std_sorter snd) linear_bs chain_0
  [(([], []), OpPush [(1, 2)]); (([], [Works; Fails]), OpPush [(3, 4)]); (([], [Fails]), OpTake 1);
   (([Works; Works; Short 3; Short 1], []), OpPush [(5, 6)]); (([Fails], []), OpFlush); (([], []), OpTake 5)] = Ok (s, [(3, 4); (5, 6)]) /\
  contains chain_v s 1 = Ok true.
Proof. eexists. split; vm_compute; reflexivity. Qed.
