(** CompressedProof.v -- invariant and contract of Compressed over vector streams. *)
From Coq Require Import ZArith Init.Byte.
From Verif Require Import Base PermSolve Block Spec Cut CutProof ArrayProof BTree Stream PStream IOVec IOVecProof ByteStreamProof Compressed.
Set Implicit Arguments.

Lemma Forall2_rev' {A B} (R : A -> B -> Prop) l1 l2 : Forall2 R l1 l2 -> Forall2 R (rev l1) (rev l2).
Proof. induction 1; cbn; auto. apply Forall2_app; auto. Qed.

Section Proof.
Variable L : Lz.
Context {K V : Type} {OK : Ord K} {OV : Ord V} {EK : OrdEq K}.
Variable C : VCodec (K * V).
Variable srt : Sorter (K * V) V snd.
Variable bs : BSearch K.
Notation T := (K * V)%type.
Notation comp := (compressed VecStream).
Notation read_bytes := (@c_read_bytes VecStream L).
Notation esz0 := (c_esz0 C).

(** ** Contents, read off the bytes of the stream *)
Definition c_ct (s : comp) : list T :=
  match unlz L (c_w s) with
  | Some (z :: b) => match c_de C (z :: b) with Some l => l | None => [] end
  | _ => []
  end.
(** The stream is empty, or holds the compressed serialization of a non-empty vector within the capacity. *)
Definition c_rep (s : comp) (l : list T) : Prop :=
  match l with
  | [] => (c_w s : list byte) = []
  | _ => exists b, c_ser C l = Some b /\ (c_w s : list byte) = lz L b /\ length b <= c_cap s
  end.
Definition c_inv (s : comp) : Prop := exists l, c_rep s l.
Definition vec_size (l : list T) : nat := match l with [] => 0 | _ => 8 + sum_sz esz0 l end.

Lemma ser_cons l b : c_ser C l = Some b -> exists z b', b = z :: b'.
Proof. intros H. pose proof (c_len C _ H) as E. destruct b; [cbn [length] in E; lia|eauto]. Qed.
Lemma read_bytes_ok s : read_bytes s = unlz L (c_w s).
Proof.
  unfold c_read_bytes. cbn [s_seek s_clone s_read VecStream]. rewrite seek_start by lia. rewrite seek_end. cbn [snd].
  rewrite read_full by lia. cbn [snd skipn]. rewrite firstn_all. auto.
Qed.
Lemma c_rep_bytes s l : c_rep s l -> exists b, read_bytes s = Some b /\ length b = vec_size l /\
  match b with [] => l = [] | _ => c_de C b = Some l end.
Proof.
  intros H. rewrite read_bytes_ok. destruct l as [|x l].
  - cbn in H. rewrite H, unlz_nil. exists []. auto.
  - destruct H as (b & E1 & E2 & E3). rewrite E2, unlz_lz. exists b. split; auto. split; [apply (c_len C _ E1)|].
    destruct (ser_cons _ E1) as (z & b' & ->). apply (c_round C _ E1).
Qed.
Lemma c_rep_read s l : c_rep s l -> c_read L C s = Some l.
Proof.
  intros H. destruct (c_rep_bytes _ _ H) as (b & E1 & E2 & E3). unfold c_read. rewrite E1. destruct b; auto. subst; auto.
Qed.
Lemma c_rep_ct s l : c_rep s l -> c_ct s = l.
Proof.
  intros H. destruct (c_rep_bytes _ _ H) as (b & E1 & E2 & E3). unfold c_ct. rewrite <- read_bytes_ok, E1. destruct b; auto. rewrite E3; auto.
Qed.
Lemma c_rep_size s l : c_rep s l -> c_size L s = vec_size l.
Proof. intros H. destruct (c_rep_bytes _ _ H) as (b & E1 & E2 & E3). unfold c_size. rewrite E1. auto. Qed.
Lemma c_rep_cap s l : c_rep s l -> vec_size l <= c_cap s.
Proof.
  intros H. destruct l; [cbn; lia|]. destruct H as (b & E1 & E2 & E3). rewrite (c_len C _ E1) in E3. auto.
Qed.
Lemma c_rep_some s l : c_rep s l -> Forall (fun x => c_esz C x <> None) l.
Proof. destruct l; [constructor|]. intros (b & E & _). apply c_some. eauto. Qed.

(** Writing any vector of serializable elements that fits succeeds. *)
Lemma c_write_ok s val : Forall (fun x => c_esz C x <> None) val -> vec_size val <= c_cap s ->
  exists s', c_write_or_panic L C s val = Ok s' /\ c_rep s' val /\ c_cap s' = c_cap s.
Proof.
  intros Hs Hc. unfold c_write_or_panic, c_write. destruct val as [|x val].
  - cbn [s_resize VecStream]. unfold vs_resize. cbn [bind]. eexists. split; [reflexivity|]. split; auto. reflexivity.
  - apply c_some in Hs as (b & Eb). rewrite Eb. pose proof (c_len C _ Eb) as Lb. cbn [vec_size] in Hc. change (length b = 8 + sum_sz esz0 (x :: val)) in Lb. unfold vec_size in Hc.
    replace (c_cap s <? length b) with false by (symmetry; apply Nat.ltb_ge; lia).
    cbn [s_resize VecStream]. unfold vs_resize. cbn [s_seek VecStream].
    assert (Ev : vec_resize 0 (c_w s : list byte) = []) by reflexivity.
    rewrite Ev. rewrite seek_start by lia. destruct (@write_all_vec [] 0 (lz L b)) as (w' & Ea & Ew); [auto|]. rewrite Ea. cbn [bind length app plus].
    change (vs_write [] 0 (lz L b)) with (vs_write [] (length (@nil byte)) (lz L b)) in Ew. rewrite (vs_write_end [] (lz L b)) in Ew. injection Ew as <-.
    eexists. split; [reflexivity|]. split; auto. exists b. cbn [c_w c_cap]. split; auto. split; auto. lia.
Qed.

Lemma vec_size_perm l l' : Permutation l l' -> vec_size l = vec_size l'.
Proof.
  intros P. unfold vec_size. rewrite (sum_sz_perm esz0 P). destruct l, l'; auto.
  - apply Permutation_nil in P. discriminate.
  - apply Permutation_sym, Permutation_nil in P. discriminate.
Qed.
Lemma vec_size_le a l : vec_size l <= vec_size (a ++ l).
Proof. unfold vec_size. rewrite sum_sz_app. destruct l, a; cbn [app]; lia. Qed.
Lemma vec_size_app_l a l : sum_sz esz0 a + vec_size l <= vec_size (a ++ l).
Proof. unfold vec_size. rewrite sum_sz_app. destruct l, a; cbn [app]; try (unfold sum_sz; cbn; lia). Qed.

(** ** contains, take, flush *)
Lemma c_contains_ok s l k : c_rep s l -> c_contains L C s k = Ok (has_key k l).
Proof. intros H. unfold c_contains. rewrite (c_rep_read _ _ H). auto. Qed.

Lemma c_take_ok s l k : c_rep s l ->
  exists s' l' o, c_take L C s k = Ok (s', o) /\ c_rep s' l' /\ c_cap s' = c_cap s /\ vec_size l' <= vec_size l /\
    match o with
    | Some (k', v) => k' = k /\ Permutation ((k, v) :: l') l
    | None => ~ In k (keys l) /\ l' = l /\ s' = s
    end.
Proof.
  intros H. unfold c_take. rewrite (c_rep_read _ _ H). destruct (find_index _ l) as [i|] eqn:E.
  - apply find_index_some in E as ([k' v] & E1 & E2 & _). cbn [fst] in E2. apply eqb_eq in E2. subst k'.
    unfold vec_swap_remove. rewrite E1. cbn [bind]. pose proof (swap_remove_perm _ _ E1) as P.
    assert (Hs : vec_size (swap_remove i l) <= vec_size l) by (rewrite <- (vec_size_perm P); apply (vec_size_le [(k, v)])).
    destruct (@c_write_ok s (swap_remove i l)) as (s' & W1 & W2 & W3).
    + pose proof (c_rep_some _ _ H) as F. rewrite Forall_forall in *. intros x Hx. apply F. apply (Permutation_in _ P). right; auto.
    + pose proof (c_rep_cap _ _ H). lia.
    + rewrite W1. cbn [bind]. exists s', (swap_remove i l), (Some (k, v)). auto 10.
  - exists s, l, None. split; auto. split; auto. split; auto. split; auto. split; auto. rewrite find_index_none in E. unfold keys.
    intros Hin. apply in_map_iff in Hin as (x & <- & Hx). specialize (E x Hx). cbn in E. rewrite eqb_refl in E. discriminate.
Qed.

Lemma resize0 (s : comp) : vs_resize (c_w s) (c_h s) 0 = ([], if 0 <? c_h s then 0 else c_h s, Some tt).
Proof. reflexivity. Qed.
Lemma c_flush_ok s l : c_rep s l -> exists s', c_flush L C s = Ok (s', l) /\ c_rep s' [] /\ c_cap s' = c_cap s.
Proof.
  intros H. unfold c_flush. rewrite (c_rep_read _ _ H). cbn [s_resize VecStream]. rewrite resize0. eexists. split; [reflexivity|]. split; cbn; auto.
Qed.

(** ** pop *)
Lemma c_pop_ok s l n : c_rep s l ->
  exists s' l' out, c_pop L C s n = Ok (s', out) /\ c_rep s' l' /\ c_cap s' = c_cap s /\
    Permutation (out ++ l') l /\ (vec_size l' + n <= vec_size l \/ l' = []) /\ vec_size l' <= vec_size l /\
    (forall x y, In x l' -> In y out -> leb (snd x, fst x) (snd y, fst y) = true).
Proof.
  intros H. unfold c_pop. rewrite (c_rep_read _ _ H). destruct l as [|x0 l0].
  - exists s, [], []. repeat (split; [solve [auto]|]). intros x y [].
  - set (l := x0 :: l0) in *. set (v := stable_sort _ l). assert (Pv : Permutation v l) by apply stable_sort_perm.
    assert (Sv : sorted_by (fun kv : T => (snd kv, fst kv)) v) by apply stable_sort_sorted.
    destruct (find_cut_at_size v esz0 n) as [[i c] e] eqn:E. apply find_cut_spec in E as (Ec & _ & Hn & _ & _).
    destruct (c <? n) eqn:El.
    + cbn [s_resize VecStream]. rewrite resize0. exists (@mkC VecStream [] (if 0 <? c_h s then 0 else c_h s) (c_cap s)), [], v.
      split; auto. split; [reflexivity|]. split; auto. rewrite app_nil_r. split; auto. split; auto. split; [cbn; lia|]. intros x y [].
    + apply Nat.ltb_ge in El. assert (Pf : Permutation (skipn i v ++ firstn i v) l) by (rewrite <- Pv; rewrite <- (firstn_skipn i v) at 3; perm0).
      assert (Hs : n + vec_size (firstn i v) <= vec_size l).
      { rewrite <- (vec_size_perm Pf). pose proof (vec_size_app_l (skipn i v) (firstn i v)). lia. }
      destruct (@c_write_ok s (firstn i v)) as (s' & W1 & W2 & W3).
      * pose proof (c_rep_some _ _ H) as F. rewrite Forall_forall in *. intros x Hx. apply F. apply (Permutation_in _ Pf). apply in_or_app; auto.
      * pose proof (c_rep_cap _ _ H). fold l in H0. lia.
      * rewrite W1. cbn [bind]. exists s', (firstn i v), (skipn i v). split; auto. split; auto. split; auto. split; auto. split; [left; lia|]. split; [lia|].
        intros x y Hx Hy. rewrite <- (firstn_skipn i v) in Sv. unfold sorted_by in Sv. clear - Sv Hx Hy. induction (firstn i v) as [|a r IH]; [destruct Hx|].
        inversion Sv as [|? ? S1 S2]; subst. destruct Hx as [<-|Hx]; auto. rewrite Forall_forall in S2. apply S2. apply in_or_app. auto.
Qed.

(** ** push *)
Lemma c_vsize_some l : Forall (fun x => c_esz C x <> None) l -> c_vsize C l = Some (8 + sum_sz esz0 l).
Proof.
  intros F. unfold c_vsize. replace (forallb _ l) with true; auto. symmetry. apply forallb_forall. intros x Hx.
  rewrite Forall_forall in F. specialize (F x Hx). destruct (c_esz C x); auto.
Qed.
Lemma c_vsize_none l : ~ Forall (fun x => c_esz C x <> None) l -> c_vsize C l = None.
Proof.
  intros F. unfold c_vsize. destruct (forallb _ l) eqn:E; auto. exfalso. apply F. apply Forall_forall. intros x Hx Hn.
  rewrite forallb_forall in E. specialize (E x Hx). rewrite Hn in E. discriminate.
Qed.
Lemma c_push_ok s l vs : c_rep s l -> Forall (fun x => c_esz C x <> None) vs ->
  exists s' l' out, c_push L C srt s vs = Ok (s', out) /\ c_rep s' l' /\ c_cap s' = c_cap s /\
    Permutation (out ++ l') (l ++ vs) /\
    (8 + sum_sz esz0 vs <= c_cap s -> incl vs l' /\ exists kept, Permutation (out ++ kept) l /\ Permutation l' (kept ++ vs) /\
       (forall x y, In x kept -> In y out -> leb (snd x) (snd y) = true)) /\
    (c_cap s < 8 + sum_sz esz0 vs -> exists left_out, Permutation out (l ++ left_out) /\ Permutation (left_out ++ l') vs /\
       (forall x y, In x l' -> In y left_out -> leb (snd x) (snd y) = true)) /\
    (8 + sum_sz esz0 vs + vec_size l <= c_cap s -> out = []).
Proof.
  intros H Fv. unfold c_push. destruct (c_rep_bytes _ _ H) as (b & E1 & E2 & E3). rewrite E1.
  assert (Ev : match b with [] => Some [] | _ => c_de C b end = Some l) by (destruct b; auto; subst; auto). rewrite Ev.
  rewrite (c_vsize_some Fv). pose proof (c_rep_cap _ _ H) as Hcap. pose proof (c_rep_some _ _ H) as Fl. unfold sub_chk. rewrite E2.
  replace (vec_size l <=? c_cap s) with true by (symmetry; apply Nat.leb_le; auto). cbn [bind].
  set (total := 8 + sum_sz esz0 vs) in *.
  assert (W : forall (w out : list T), Permutation (out ++ w) (l ++ vs) -> vec_size w <= c_cap s ->
    exists s', c_write_or_panic L C s w = Ok s' /\ c_rep s' w /\ c_cap s' = c_cap s).
  { intros w out P Hw. apply c_write_ok; auto. rewrite Forall_forall in *. intros x Hx.
    assert (Hin : In x (l ++ vs)) by (apply (Permutation_in _ P), in_or_app; auto). apply in_app_or in Hin as [Hin|Hin]; auto. }
  assert (Srt : forall l0 : list T, forall i x y, In x (firstn i (srt l0)) -> In y (skipn i (srt l0)) -> leb (snd x) (snd y) = true).
  { intros l0 i x y Hx Hy. pose proof (sort_sorted srt l0) as Sv. rewrite <- (firstn_skipn i (srt l0)) in Sv. unfold sorted_by in Sv.
    clear - Sv Hx Hy. induction (firstn i (srt l0)) as [|a r IH]; [destruct Hx|].
    inversion Sv as [|? ? S1 S2]; subst. destruct Hx as [<-|Hx]; auto. rewrite Forall_forall in S2. apply S2. apply in_or_app. auto. }
  destruct (c_cap s <? total) eqn:Et.
  - apply Nat.ltb_lt in Et. destruct (find_cut_at_size (srt vs) esz0 (total - c_cap s)) as [[i c] e] eqn:E.
    apply find_cut_spec in E as (Ec & _ & Hn & _ & _).
    assert (Ps : Permutation (skipn i (srt vs) ++ firstn i (srt vs)) vs).
    { rewrite <- (sort_perm srt vs) at 3. rewrite <- (firstn_skipn i (srt vs)) at 3. perm0. }
    assert (P : Permutation ((l ++ skipn i (srt vs)) ++ firstn i (srt vs)) (l ++ vs)) by (rewrite <- app_assoc, Ps; auto).
    destruct (W _ _ P) as (s' & W1 & W2 & W3).
    + destruct Hn as [Hn|Hn]; [|subst i; cbn; lia].
      pose proof (sum_sz_perm esz0 Ps) as Hs. rewrite sum_sz_app in Hs. unfold vec_size. destruct (firstn i (srt vs)); [lia|]. lia.
    + rewrite W1. cbn [bind]. exists s', (firstn i (srt vs)), (l ++ skipn i (srt vs)). split; auto. split; auto. split; auto. split; auto.
      split; [lia|]. split; [|lia]. intros _. exists (skipn i (srt vs)). split; auto. split; auto. apply Srt.
  - apply Nat.ltb_ge in Et. destruct (total <=? c_cap s - vec_size l) eqn:Er.
    + apply Nat.leb_le in Er. destruct (W (l ++ vs) []) as (s' & W1 & W2 & W3); auto.
      { unfold vec_size in *. rewrite sum_sz_app. destruct (l ++ vs); [lia|]. destruct l; [unfold sum_sz at 1; cbn [map list_sum fold_right]; lia|lia]. }
      rewrite W1. cbn [bind]. exists s', (l ++ vs), []. split; auto. split; auto. split; auto. split; auto.
      split; [|split; [lia|auto]]. intros _. split; [apply incl_appr, incl_refl|]. exists l. split; [auto|]. split; [auto|]. intros x y _ [].
    + apply Nat.leb_gt in Er. destruct (find_cut_at_size (srt l) esz0 (total - (c_cap s - vec_size l))) as [[i c] e] eqn:E.
      apply find_cut_spec in E as (Ec & _ & Hn & _ & _).
      assert (Ps : Permutation (skipn i (srt l) ++ firstn i (srt l)) l).
      { rewrite <- (sort_perm srt l) at 3. rewrite <- (firstn_skipn i (srt l)) at 3. perm0. }
      assert (P : Permutation (skipn i (srt l) ++ (firstn i (srt l) ++ vs)) (l ++ vs)) by (rewrite app_assoc, Ps; auto).
      destruct (W _ _ P) as (s' & W1 & W2 & W3).
      { pose proof (sum_sz_perm esz0 Ps) as Hs. rewrite sum_sz_app in Hs. destruct Hn as [Hn|Hn].
        - unfold vec_size at 1. rewrite sum_sz_app. destruct (firstn i (srt l) ++ vs) eqn:Ew; [lia|].
          unfold vec_size in *. destruct l as [|xa la]; [unfold sum_sz in Hs at 3; cbn [map list_sum fold_right] in Hs; lia|]. lia.
        - subst i. cbn [firstn app]. unfold vec_size. destruct vs; [lia|]. unfold total in Et. lia. }
      rewrite W1. cbn [bind]. exists s', (firstn i (srt l) ++ vs), (skipn i (srt l)). split; auto. split; auto. split; auto. split; auto.
      split; [|split; [lia|lia]]. intros _. split; [apply incl_appr, incl_refl|]. exists (firstn i (srt l)). split; auto. split; auto. apply Srt.
Qed.

(** ** take_multiple *)
Definition wanted (ks : list K) (kv : T) : bool := match bs ks (fst kv) with Some _ => true | None => false end.
Lemma swap_remove_mid {A} (a : list A) x t : exists t', swap_remove (length a) (a ++ x :: t) = a ++ t' /\ Permutation t' t.
Proof.
  assert (E : nth_error (a ++ x :: t) (length a) = Some x) by (rewrite nth_error_app2, Nat.sub_diag by lia; auto).
  assert (Hl : length a < length (a ++ x :: t)) by (apply nth_error_Some; congruence).
  set (t' := skipn (length a) (swap_remove (length a) (a ++ x :: t))). exists t'.
  assert (F : firstn (length a) (swap_remove (length a) (a ++ x :: t)) = a).
  { apply nth_ext with (d := x) (d' := x).
    - rewrite firstn_length, swap_remove_length by auto. rewrite app_length in *. cbn in *. lia.
    - intros n Hn. rewrite firstn_length, swap_remove_length in Hn by auto. assert (Hn' : n < length a) by lia.
      assert (G : nth_error (firstn (length a) (swap_remove (length a) (a ++ x :: t))) n = nth_error a n).
      { rewrite nth_error_firstn by auto. rewrite swap_remove_below by auto. apply nth_error_app1. auto. }
      destruct (nth_error a n) as [y|] eqn:Ey; [|apply nth_error_None in Ey; lia].
      rewrite (nth_error_nth _ _ x G), (nth_error_nth _ _ x Ey). auto. }
  assert (S1 : swap_remove (length a) (a ++ x :: t) = a ++ t') by (pose proof (firstn_skipn (length a) (swap_remove (length a) (a ++ x :: t))) as G; rewrite F in G; symmetry; exact G).
  split; auto. pose proof (swap_remove_perm _ _ E) as P. rewrite S1 in P. apply (Permutation_app_inv_l (x :: a)). cbn [app].
  rewrite P. perm0.
Qed.
Lemma c_matches_app ks j (v1 v2 : list T) : c_matches bs ks j (v1 ++ v2) = c_matches bs ks j v1 ++ c_matches bs ks (j + length v1) v2.
Proof.
  revert j; induction v1 as [|[k v] v1 IH]; intros j; cbn [app c_matches length]; [rewrite Nat.add_0_r; auto|].
  rewrite IH. replace (S j + length v1) with (j + S (length v1)) by lia. destruct (bs ks k); auto.
Qed.
Lemma c_take_out_ok ks : forall (v pre t : list T),
  exists v', c_take_out (rev (c_matches bs ks (length pre) v)) (pre ++ v ++ t) = Ok (v', rev (filter (wanted ks) v)) /\
    Permutation v' (pre ++ filter (fun x => negb (wanted ks x)) v ++ t).
Proof.
  induction v as [|x v IH] using rev_ind; intros pre t.
  - cbn. eauto.
  - rewrite c_matches_app, rev_app_distr, !filter_app, rev_app_distr. destruct x as [k y]. cbn [c_matches].
    assert (Ew : wanted ks (k, y) = match bs ks k with Some _ => true | None => false end) by auto.
    cbn [filter]. destruct (bs ks k) as [i|] eqn:E; rewrite Ew; cbn [negb].
    + cbn [rev app c_take_out]. rewrite <- app_length.
      replace (pre ++ (v ++ [(k, y)]) ++ t) with ((pre ++ v) ++ (k, y) :: t) by (rewrite <- !app_assoc; auto).
      unfold vec_swap_remove. rewrite (nth_error_app2 (pre ++ v)) by lia. rewrite Nat.sub_diag. cbn [nth_error bind].
      destruct (swap_remove_mid (pre ++ v) (k, y) t) as (t' & S1 & S2). rewrite S1. rewrite <- app_assoc.
      destruct (IH pre t') as (v' & E1 & P1). rewrite E1. cbn [bind]. exists v'. split; auto. rewrite P1, app_nil_r, S2. auto.
    + cbn [rev app]. rewrite <- (app_assoc v). cbn [app]. destruct (IH pre ((k, y) :: t)) as (v' & E1 & P1). rewrite E1. exists v'. split; auto.
      rewrite P1. rewrite <- app_assoc. auto.
Qed.
Lemma filter_split {A} (p : A -> bool) l : Permutation (filter p l ++ filter (fun x => negb (p x)) l) l.
Proof.
  induction l as [|x l IH]; cbn; auto. destruct (p x); cbn; [constructor; auto|]. rewrite <- Permutation_middle. constructor. auto.
Qed.
Lemma wanted_in ks kv : sorted_by (fun x => x) ks -> wanted ks kv = true <-> In (fst kv) ks.
Proof.
  intros Hs. unfold wanted. destruct (bs ks (fst kv)) as [i|] eqn:E.
  - split; auto. intros _. apply bs_sound in E. eapply nth_error_In; eauto.
  - split; [discriminate|]. intros Hin. exfalso. revert E. apply bs_complete; auto.
Qed.
(** The indices in the key vector. *)
Lemma c_matches_snd ks j (v : list T) : map snd (c_matches bs ks j v) = flat_map (fun kv => match bs ks (fst kv) with Some i => [i] | None => [] end) v.
Proof. revert j; induction v as [|[k y] v IH]; intros j; cbn; auto. destruct (bs ks k); cbn; rewrite IH; auto. Qed.

Lemma c_drop_keys_ok : forall ix (ks : list K), StronglySorted (fun a b => b < a) ix -> Forall (fun i => i < length ks) ix ->
  exists ks' removed, c_drop_keys ix ks = Ok ks' /\ Permutation ks (removed ++ ks') /\ Forall2 (fun i k => nth_error ks i = Some k) ix removed.
Proof.
  induction ix as [|i ix IH]; intros ks Hs Hf; cbn [c_drop_keys].
  - exists ks, []. split; auto.
  - inversion Hs as [|? ? S1 S2]; subst. inversion Hf as [|? ? F1 F2]; subst.
    destruct (nth_error ks i) as [k|] eqn:E; [|apply nth_error_None in E; lia]. unfold vec_swap_remove. rewrite E. cbn [bind].
    destruct (IH (swap_remove i ks)) as (ks' & rm & E1 & P1 & F3); auto.
    { rewrite Forall_forall in *. intros j Hj. rewrite swap_remove_length by auto. specialize (S2 j Hj). lia. }
    exists ks', (k :: rm). split; auto. split; [rewrite <- (swap_remove_perm _ _ E), P1; auto|]. constructor; auto.
    clear - F3 S2 F1. revert S2. induction F3; intros S2; constructor; inversion S2; subst; auto.
    rewrite <- H. symmetry. apply swap_remove_below; auto.
Qed.
Lemma rev_sorted_strict (l : list nat) : sorted_by (fun i => i) l -> NoDup l -> StronglySorted (fun a b => b < a) (rev l).
Proof.
  intros Hs Hd. induction l as [|a l IH]; cbn [rev]; [constructor|]. inversion Hs as [|? ? S1 S2]; subst. inversion Hd as [|? ? D1 D2]; subst.
  specialize (IH S1 D2). assert (F : Forall (fun b => a < b) (rev l)).
  { rewrite Forall_forall in *. intros b Hb. apply in_rev in Hb. specialize (S2 b Hb). cbn [leb Ord_nat] in S2. apply Nat.leb_le in S2.
    assert (a <> b) by congruence. lia. }
  clear - IH F. induction (rev l) as [|b m IHm]; cbn; [repeat constructor|]. inversion IH; subst. inversion F; subst. constructor; auto.
  apply Forall_app. split; auto.
Qed.

(** What the container does, duplicates or not: it takes out every pair with a requested key; only the removal of
    the keys from the caller's vector can fail. *)
Lemma c_take_multiple_cases s l ks : c_rep s l ->
  exists l', Permutation l' (filter (fun x => negb (wanted (sort_keys ks) x)) l) /\
  match c_drop_keys (rev (stable_sort (fun i => i) (map snd (rev (c_matches bs (sort_keys ks) 0 l))))) (sort_keys ks) with
  | Panic => c_take_multiple L C bs s ks = Panic
  | Ok ks' => exists s', c_take_multiple L C bs s ks = Ok (s', ks', rev (filter (wanted (sort_keys ks)) l)) /\
                c_rep s' l' /\ c_cap s' = c_cap s
  end.
Proof.
  intros H. unfold c_take_multiple. rewrite (c_rep_read _ _ H). set (sk := sort_keys ks).
  destruct (c_take_out_ok sk l [] []) as (v' & E & P). rewrite app_nil_r in E, P. cbn [app length] in E, P. rewrite E. cbn [bind].
  assert (Pl : Permutation (rev (filter (wanted sk) l) ++ v') l).
  { rewrite P. rewrite <- Permutation_rev. apply filter_split. }
  destruct (rev (filter (wanted sk) l)) as [|x out] eqn:Eo.
  - cbn in Pl. apply (f_equal (@rev T)) in Eo. rewrite rev_involutive in Eo. cbn in Eo.
    exists l. split; [rewrite <- Pl at 1; auto|]. destruct (c_drop_keys _ sk); cbn [bind]; auto. exists s. auto.
  - exists v'. split; auto. destruct (c_drop_keys _ sk) as [ks'|]; cbn [bind]; auto.
    destruct (@c_write_ok s v') as (s' & W1 & W2 & W3).
    + pose proof (c_rep_some _ _ H) as F. rewrite Forall_forall in *. intros y Hy. apply F. apply (Permutation_in _ Pl). apply in_or_app; auto.
    + pose proof (c_rep_cap _ _ H). rewrite <- (vec_size_perm Pl) in H0. pose proof (vec_size_le (x :: out) v'). lia.
    + rewrite W1. cbn [bind]. exists s'. auto.
Qed.
Lemma c_take_multiple_ok s l ks : c_rep s l -> NoDup (keys l) ->
  exists s' l' ks' out removed, c_take_multiple L C bs s ks = Ok (s', ks', out) /\ c_rep s' l' /\ c_cap s' = c_cap s /\
    Permutation (out ++ l') l /\ (forall kv, In kv out <-> In kv l /\ In (fst kv) ks) /\
    Permutation ks (removed ++ ks') /\ Permutation removed (keys out).
Proof.
  intros H Hd. destruct (@c_take_multiple_cases s l ks H) as (l' & P & G). set (sk := sort_keys ks) in *.
  assert (Hs : sorted_by (fun x => x) sk) by apply stable_sort_sorted.
  assert (Ps : Permutation sk ks) by apply stable_sort_perm.
  set (ix := map snd (rev (c_matches bs sk 0 l))) in *.
  assert (Eix : Forall2 (fun i k => nth_error sk i = Some k) ix (keys (rev (filter (wanted sk) l)))).
  { unfold ix. rewrite map_rev, c_matches_snd. unfold keys. rewrite map_rev. apply Forall2_rev'.
    clear. induction l as [|[k y] l IH]; cbn; [constructor|]. unfold wanted at 1. cbn [fst]. destruct (bs sk k) as [i|] eqn:E; cbn; auto.
    constructor; auto. apply bs_sound in E. auto. }
  assert (Nix : NoDup ix).
  { assert (Nk : NoDup (keys (rev (filter (wanted sk) l)))).
    { unfold keys. rewrite map_rev. apply NoDup_rev. clear - Hd. unfold keys in Hd. induction l as [|x l IH]; cbn in *; [constructor|].
      inversion Hd; subst. destruct (wanted sk x); cbn; auto. constructor; auto. intros Hin. apply in_map_iff in Hin as (y & E & Hy).
      apply filter_In in Hy as [Hy _]. apply H1. rewrite <- E. apply List.in_map. auto. }
    clear - Eix Nk. revert Nk. induction Eix as [|i k ix ks' E F IH]; intros Nk; constructor; inversion Nk; subst; auto.
    intros Hin. assert (G : forall j, In j ix -> exists k', nth_error sk j = Some k' /\ In k' ks').
    { clear - F. induction F as [|a b ? ? E F IH]; intros j []; [subst; exists b; split; auto; left; auto|].
      destruct (IH j H) as (k' & A & B). exists k'. split; auto. right; auto. }
    destruct (G i Hin) as (k' & A & B). rewrite E in A. injection A as <-. auto. }
  assert (Pix : Permutation (rev (stable_sort (fun i => i) ix)) ix) by (rewrite <- Permutation_rev; apply stable_sort_perm).
  destruct (@c_drop_keys_ok (rev (stable_sort (fun i => i) ix)) sk) as (ks' & removed & D1 & D2 & D3).
  { apply rev_sorted_strict; [apply stable_sort_sorted|]. eapply NoDup_perm; [symmetry; apply stable_sort_perm|auto]. }
  { apply Forall_forall. intros i Hi. apply (Permutation_in _ Pix) in Hi. apply nth_error_Some.
    clear - Eix Hi. induction Eix as [|a b ? ? E F IH]; [destruct Hi|]. destruct Hi as [<-|Hi]; auto. congruence. }
  rewrite D1 in G. destruct G as (s' & G1 & G2 & G3). exists s', l', ks', (rev (filter (wanted sk) l)), removed.
  split; auto. split; auto. split; auto. split; [rewrite P, <- Permutation_rev; apply filter_split|]. split.
  - intros kv. rewrite <- in_rev, filter_In, (wanted_in _ Hs). rewrite Ps. tauto.
  - split; [rewrite <- Ps; auto|].
    clear - D3 Eix Pix. revert D3 Eix. generalize (keys (rev (filter (wanted sk) l))) as kk. revert removed.
    assert (G : forall ix1 ix2 : list nat, Permutation ix1 ix2 -> forall r1 r2 : list K, Forall2 (fun i k => nth_error sk i = Some k) ix1 r1 ->
      Forall2 (fun i k => nth_error sk i = Some k) ix2 r2 -> Permutation r1 r2).
    { clear. intros ix1 ix2 P. intros r1 r2 F1 F2.
      assert (M : forall ix r, Forall2 (fun i k => nth_error sk i = Some k) ix r -> map Some r = map (nth_error sk) ix).
      { clear. induction 1; cbn; auto. rewrite H, IHForall2. auto. }
      assert (Q : Permutation (map Some r1) (map Some r2)) by (rewrite (M _ _ F1), (M _ _ F2); apply Permutation_map; auto).
      clear - Q. apply Permutation_map_inv in Q as (l3 & E & P). assert (r1 = l3).
      { clear - E. revert l3 E. induction r1; intros [|b l3] E; cbn in E; try discriminate; auto. injection E as -> E. f_equal. auto. }
      subst. symmetry. auto. }
    intros removed kk F1 F2. eapply G; eauto.
Qed.

(** ** get_mut *)
Lemma c_get_mut_ok s l k f : c_rep s l ->
  match find_index (fun kv => eqb (fst kv) k) l with
  | None => ~ In k (keys l) /\ c_get_mut L C s k f = Ok (s, None)
  | Some i => exists v, nth_error l i = Some (k, v) /\
      (c_esz C (k, f v) <> None -> vec_size (replace_nth i (k, f v) l) <= c_cap s ->
       exists s', c_get_mut L C s k f = Ok (s', Some v) /\ c_rep s' (replace_nth i (k, f v) l) /\ c_cap s' = c_cap s) /\
      (c_esz C (k, f v) = None \/ c_cap s < vec_size (replace_nth i (k, f v) l) -> c_get_mut L C s k f = Panic)
  end.
Proof.
  intros H. unfold c_get_mut. rewrite (c_rep_read _ _ H). destruct (find_index _ l) as [i|] eqn:E.
  - apply find_index_some in E as ([k' v] & E1 & E2 & _). cbn [fst] in E2. apply eqb_eq in E2. subst k'. exists v. split; auto.
    rewrite E1. cbn [unwrap bind fst snd]. split.
    + intros Hn Hc. destruct (@c_write_ok (@mkC VecStream (c_w s) (s_clone VecStream (c_h s)) (c_cap s)) (replace_nth i (k, f v) l)) as (s' & W1 & W2 & W3).
      * apply replace_nth_Forall; auto. eapply c_rep_some; eauto.
      * auto.
      * rewrite W1. cbn [bind]. eexists. split; [reflexivity|]. split; auto. cbn [c_cap] in W3. clear - W2 W3. unfold c_rep in *. cbn [c_w c_cap].
        destruct (replace_nth i (k, f v) l); auto. rewrite <- W3. auto.
    + intros Hbad. unfold c_write_or_panic, c_write. destruct (replace_nth i (k, f v) l) as [|z zs] eqn:Er.
      { apply (f_equal (@length T)) in Er. rewrite replace_nth_length in Er. destruct l; [destruct i|]; discriminate. }
      destruct (c_ser C (z :: zs)) as [b|] eqn:Eb; [|auto]. destruct Hbad as [Hbad|Hbad].
      * exfalso. assert (F : Forall (fun x => c_esz C x <> None) (z :: zs)) by (apply c_some; eauto). rewrite <- Er in F.
        rewrite Forall_forall in F. apply (F (k, f v)); auto. eapply nth_error_In. apply replace_nth_same. apply nth_error_Some. congruence.
      * pose proof (c_len C _ Eb) as Lb. change (length b = 8 + sum_sz esz0 (z :: zs)) in Lb. unfold vec_size in Hbad. cbn [c_cap].
        replace (c_cap s <? length b) with true by (symmetry; apply Nat.ltb_lt; lia). auto.
  - split; auto. rewrite find_index_none in E. unfold keys. intros Hin. apply in_map_iff in Hin as (x & <- & Hx). specialize (E x Hx). cbn in E.
    rewrite eqb_refl in E. discriminate.
Qed.
End Proof.
