(** PStill.v -- property theorems: over values whose order does not change, the containers of Moving.v are those of Array.v
    and BTree.v, call by call and panic by panic (C64). *)
From Verif Require Import Base Block Cut Array BTree Calls Moving PMoving.
Set Implicit Arguments.

(** The comparison of an ordinary type of values, at every moment. *)
Definition still {V} {OV : Ord V} (_ : nat) (a b : V) : comparison := if eqb a b then Eq else if leb a b then Lt else Gt.

(** What the calls answer. *)
Definition heard_of {S R} (x : res (S * R)) : res R := match x with Ok (_, r) => Ok r | Panic => Panic end.
Lemma heard_cons {S R} (x : res (S * list R)) (r : R) :
  heard_of (let* (s, rs) := x in Ok (s, r :: rs)) = match heard_of x with Ok rs => Ok (r :: rs) | Panic => Panic end.
Proof. destruct x as [[? ?]|]; auto. Qed.
(** Without the time. *)
Definition timeless {S R} (x : res ((nat * S) * R)) : res (S * R) := match x with Ok ((_, s), r) => Ok (s, r) | Panic => Panic end.

Lemma still_leb {V} {OV : Ord V} t (a b : V) : match still t a b with
  | Eq => leb a b = true /\ leb b a = true | Lt => leb a b = true /\ leb b a = false | Gt => leb a b = false /\ leb b a = true end.
Proof.
  unfold still, eqb. pose proof (leb_total a b). destruct (leb a b) eqn:E1, (leb b a) eqn:E2; cbn; auto. destruct H; congruence.
Qed.

Section StillArray.
Context {K V : Type} {OK : Ord K} {OV : Ord V} (bs : BSearch K).
Notation MA := (MArrayB (insertion_sort (K := K) (still (V := V))) bs).
Notation AA := (ArrayB (std_sorter (T := K * V) snd) bs).
Lemma still_ins t x (l : list (K * V)) : snd (msort_ins still t x l) = ins snd x l.
Proof.
  revert t. induction l as [|y l IH]; intros t; cbn [msort_ins ins]; auto. pose proof (still_leb t (snd x) (snd y)) as H.
  destruct (still t (snd x) (snd y)); destruct H as [-> _]; cbn [snd]; auto.
  specialize (IH (S (S t))). destruct (msort_ins still (S (S t)) x l). cbn [snd] in *. congruence.
Qed.
Lemma still_sort t (l : list (K * V)) : snd (ms_fun (insertion_sort still) t l) = stable_sort snd l.
Proof.
  change (ms_fun (insertion_sort still) t l) with (msort still t l).
  induction l as [|x l IH]; cbn [msort stable_sort]; auto. destruct (msort still t l) as [t1 r]. cbn [snd] in IH. rewrite still_ins. congruence.
Qed.
Lemma still_pop t (a : array K V) n : timeless (ma_pop (insertion_sort still) (t, a) n) = a_pop (std_sorter snd) a n.
Proof.
  unfold ma_pop, a_pop. destruct (a_vals a) as [|z l] eqn:E; auto. rewrite <- E. destruct (a_total a <=? n); auto.
  pose proof (still_sort t (a_vals a)) as H. destruct (ms_fun (insertion_sort still) t (a_vals a)) as [t' vals]. cbn [snd] in H. subst vals.
  change (sort_fun (std_sorter snd) (a_vals a)) with (stable_sort snd (a_vals a)).
  destruct (find_cut_at_size _ _ _) as [[cut sz] o]. destruct (sub_chk _ _); auto.
Qed.
Lemma still_push t (a : array K V) vs : timeless (ma_push (insertion_sort still) (t, a) vs) = a_push (std_sorter snd) a vs.
Proof.
  unfold ma_push, a_push. destruct (sub_chk (a_cap a) (a_total a)) as [room|]; cbn [bind]; auto.
  destruct (_ <=? room); auto. destruct (_ =? a_cap a); auto. destruct (a_cap a <? _).
  - pose proof (still_sort t vs) as H. destruct (ms_fun (insertion_sort still) t vs) as [t' els]. cbn [snd] in H. subst els.
    change (sort_fun (std_sorter snd) vs) with (stable_sort snd vs).
    destruct (find_cut_at_size _ _ _) as [[cut sz] o]. destruct (sub_chk _ _); auto.
  - rewrite <- still_pop with (t := t). destruct (ma_pop _ (t, a) _) as [[[t1 a1] out]|]; auto.
Qed.
Lemma still_array_call t (a : array K V) x :
  timeless (do_call MA (fun s k => ma_get s k (fun v => v)) (fun s k f => ma_get s k f) (t, a) x) =
  do_call AA (fun s k => a_get s k (fun v => v)) (fun s k f => a_get s k f) a x.
Proof.
  destruct x as [[vs|n|k|ks|]|k|k|k f]; cbn [do_call step push pop take take_multiple flush contains MArrayB ArrayB fst snd].
  - rewrite <- still_push with (t := t). destruct (ma_push _ (t, a) vs) as [[[? ?] ?]|]; auto.
  - rewrite <- still_pop with (t := t). destruct (ma_pop _ (t, a) n) as [[[? ?] ?]|]; auto.
  - destruct (a_take a k) as [[? ?]|]; auto.
  - destruct (a_take_multiple bs a ks) as [[[? ?] ?]|]; auto.
  - destruct (a_flush a) as [[? ?]|]; auto.
  - destruct (a_contains a k) as [?|]; auto.
  - unfold ma_get. cbn [fst snd]. destruct (a_get a k _) as [[? ?]|]; auto.
  - unfold ma_get. cbn [fst snd]. destruct (a_get a k _) as [[? ?]|]; auto.
Qed.
(** C64: every sequence of calls is answered as by Array.v. *)
Theorem C64_fixed_order_array : forall t (a : array K V) h,
  heard_of (play (do_call MA (fun s k => ma_get s k (fun v => v)) (fun s k f => ma_get s k f)) (t, a) h) =
  heard_of (play (do_call AA (fun s k => a_get s k (fun v => v)) (fun s k f => a_get s k f)) a h).
Proof.
  intros t a h. revert t a. induction h as [|x h IH]; intros t a; cbn [play]; auto.
  rewrite <- (still_array_call t a x). destruct (do_call MA _ _ (t, a) x) as [[[t' a'] r]|]; cbn [timeless bind]; auto.
  rewrite !heard_cons, IH. auto.
Qed.
End StillArray.

Section StillBTree.
Context {K V : Type} {OK : Ord K} {OV : Ord V}.
Notation srch := (scan (K := K) (still (V := V))).
Notation MB := (MBTreeB srch).
Notation BB := (BTreeB (K := K) (V := V)).
Notation sentry := ((V * K) * nat)%type.
Lemma entry_leb t (e x : V * K) : match entry_cmp still t e x with
  | Eq => leb e x = true /\ leb x e = true | Lt => leb e x = true /\ leb x e = false | Gt => leb e x = false /\ leb x e = true end.
Proof.
  unfold entry_cmp. destruct e as [v k], x as [v' k']. cbn [fst snd]. pose proof (still_leb t v v') as H.
  cbn [leb Ord_prod lex_leb fst snd]. unfold lex_leb. cbn [fst snd].
  destruct (still t v v'); destruct H as [-> ->]; cbn; auto. pose proof (still_leb t k k') as H. unfold still in H. exact H.
Qed.
Lemma filter_none {T} (p : T -> bool) l : Forall (fun x => p x = false) l -> filter p l = [].
Proof. induction 1 as [|x l H _ IH]; cbn; auto. rewrite H. auto. Qed.
Lemma filter_all {T} (p : T -> bool) l : Forall (fun x => p x = true) l -> filter p l = l.
Proof. induction 1 as [|x l H _ IH]; cbn; auto. rewrite H. congruence. Qed.
Lemma scan_shift t i e (l : list sentry) : snd (mscan still t i e l) = (fst (snd (mscan still t 0 e l)), i + snd (snd (mscan still t 0 e l))).
Proof.
  revert t i. induction l as [|x l IH]; intros t i; cbn [mscan]; [cbn; f_equal; lia|].
  destruct (entry_cmp still t e (fst x)); cbn [snd fst]; try (f_equal; lia). rewrite (IH _ (S i)), (IH _ 1). cbn [fst snd]. f_equal. lia.
Qed.
(** The scan of a sorted set. *)
Lemma scan_sorted (e : V * K) (l : list sentry) : sorted_by fst l -> forall t, match snd (mscan still t 0 e l) with (b, i) =>
  existsb (fun x => eqb (fst x) e) l = b /\ find_index (fun x => eqb (fst x) e) l = (if b then Some i else None) /\
  (b = false -> forall id, ins fst (e, id) l = firstn i l ++ (e, id) :: skipn i l) /\
  filter (fun x => negb (leb e (fst x))) l = firstn i l /\ filter (fun x => leb e (fst x)) l = skipn i l end.
Proof.
  induction 1 as [|x l HS IH HF]; intros t; cbn [mscan snd].
  - cbn. auto.
  - assert (UP : leb e (fst x) = true -> Forall (fun y => leb e (fst y) = true) (x :: l)).
    { intros E. constructor; auto. eapply Forall_impl; [|exact HF]. cbv beta. intros y Hy. eapply leb_trans; eauto. }
    assert (FF : leb e (fst x) = true -> filter (fun y => negb (leb e (fst y))) (x :: l) = [] /\ filter (fun y => leb e (fst y)) (x :: l) = x :: l).
    { intros E. split; [apply filter_none|apply filter_all]; auto. eapply Forall_impl; [|exact (UP E)]. cbv beta. intros y ->. auto. }
    pose proof (entry_leb t e (fst x)) as EL. destruct (entry_cmp still t e (fst x)); cbn [snd]; destruct EL as [E1 E2].
    + cbn [existsb find_index firstn skipn]. unfold eqb at 1 3. rewrite E1, E2. cbn [andb orb]. split; auto. split; auto. split; [discriminate|]. apply FF; auto.
    + assert (NO : Forall (fun y => eqb (fst y) e = false) (x :: l)).
      { constructor; [unfold eqb; rewrite E2; auto|]. eapply Forall_impl; [|exact HF]. cbv beta. intros y Hy. unfold eqb.
        destruct (leb (fst y) e) eqn:E3; auto. rewrite (leb_trans _ _ _ Hy E3) in E2. discriminate. }
      split. { clear - NO. induction NO as [|y m H _ IH']; cbn; auto. rewrite H. auto. }
      split. { clear - NO. induction NO as [|y m H _ IH']; cbn; auto. rewrite H, IH'. auto. }
      split; [|apply FF; auto]. intros _ id. cbn [ins fst firstn skipn app]. rewrite E1. auto.
    + rewrite scan_shift. specialize (IH (S (S t))). destruct (snd (mscan still (S (S t)) 0 e l)) as [b i]. cbn [fst snd].
      destruct IH as (I1 & I2 & I3 & I4 & I5). change (1 + i) with (S i). cbn [existsb find_index firstn skipn filter ins fst].
      unfold eqb at 1 3. rewrite E1, E2. cbn [andb orb negb]. split; auto. split; [rewrite I2; destruct b; auto|].
      split; [|split; [f_equal; auto|auto]]. intros Hb id. cbn [app]. f_equal. auto.
Qed.
Lemma scan_mscan t e (l : list sentry) : mf_fun srch t e l = mscan still t 0 e l.
Proof. reflexivity. Qed.
Lemma still_insert t (e : sentry) l : sorted_by fst l -> snd (m_set_insert srch t e l) = set_insert e l.
Proof.
  intros H. unfold m_set_insert, set_insert. rewrite scan_mscan. pose proof (scan_sorted (fst e) H t) as X.
  destruct (mscan still t 0 (fst e) l) as [t' [b i]]. cbn [snd] in X. destruct X as (X1 & _ & X3 & _). rewrite X1. destruct b; cbn [snd]; auto.
  destruct e as [e id]. rewrite (X3 eq_refl). auto.
Qed.
Lemma still_remove t p (l : list sentry) : sorted_by fst l -> snd (m_set_remove srch t p l) = set_remove p l.
Proof.
  intros H. unfold m_set_remove, set_remove. rewrite scan_mscan. pose proof (scan_sorted p H t) as X.
  destruct (mscan still t 0 p l) as [t' [b i]]. cbn [snd] in X. destruct X as (_ & X2 & _). rewrite X2. destruct b; auto.
Qed.
Lemma still_split t p (l : list sentry) : sorted_by fst l -> snd (m_set_split_off srch t p l) = set_split_off p l.
Proof.
  intros H. unfold m_set_split_off, set_split_off. rewrite scan_mscan. pose proof (scan_sorted p H t) as X.
  destruct (mscan still t 0 p l) as [t' [b i]]. cbn [snd] in *. destruct X as (_ & _ & _ & -> & ->). auto.
Qed.
(** The set stays sorted. *)
Definition tidy (b : btree K V) : Prop := sorted_by fst (b_set b).
Lemma sorted_sub {T A} {O : Ord A} (f : T -> A) l : sorted_by f l -> forall p, sorted_by f (filter p l).
Proof.
  induction 1 as [|x l HS IH HF]; intros p; cbn; [constructor|]. destruct (p x); [|apply IH]. constructor; [apply IH|].
  rewrite Forall_forall in *. intros y Hy. apply filter_In in Hy. apply HF. tauto.
Qed.
Lemma tidy_insert vs : forall t b, tidy b -> snd (m_insert srch (t, b) vs) = b_insert b vs /\ tidy (b_insert b vs).
Proof.
  induction vs as [|[k v] vs IH]; intros t b H; cbn [m_insert b_insert]; [auto|].
  pose proof (still_insert t ((v, k), b_next b) H) as E. destruct (m_set_insert srch t (v, k, b_next b) (b_set b)) as [t' set]. cbn [snd] in E. subst set.
  apply IH. unfold tidy, set_insert. cbn [b_set]. destruct (existsb _ _); auto. apply ins_sorted. auto.
Qed.
Definition same {R} (m : res ((nat * btree K V) * R)) (p : res (btree K V * R)) : Prop := timeless m = p /\ forall b r, p = Ok (b, r) -> tidy b.
Lemma same_flush t b : same (m_flush (t, b)) (b_flush b).
Proof.
  unfold same, m_flush, b_flush. cbn [fst snd]. destruct (b_drain (b_map b)) as [out|]; cbn; split; auto; intros ? ? E; [|discriminate].
  injection E as <- _. constructor.
Qed.
Lemma same_pop t b n : tidy b -> same (m_pop srch (t, b) n) (b_pop b n).
Proof.
  intros H. unfold m_pop, b_pop. destruct (b_map b) as [|z m] eqn:E. { split; auto. intros ? ? X. injection X as <- _. auto. } rewrite <- E.
  destruct (b_total b <=? n); [apply same_flush|]. destruct (find_cut_at_size _ _ _) as [[c cs] o]. destruct (Base.unwrap o) as [e|]; cbn [bind]; [|split; [auto|intros ? ? X; discriminate X]].
  destruct (sub_chk _ cs) as [total|]; cbn [bind]; [|split; [auto|intros ? ? X; discriminate X]].
  pose proof (still_split t (fst e) H) as S. destruct (m_set_split_off srch t (fst e) (b_set b)) as [t' ko]. cbn [snd] in S. subst ko.
  unfold set_split_off. cbn [fst snd]. destruct (b_pop_loop _ _ _) as [[m' out]|]; cbn [bind]; [|split; [auto|intros ? ? X; discriminate X]]. split; [auto|].
  intros ? ? X. injection X as <- _. apply sorted_sub. auto.
Qed.
Lemma same_take t b k : tidy b -> same (m_take srch (t, b) k) (b_take b k).
Proof.
  intros H. unfold m_take, b_take. destruct (map_remove k (b_map b)) as [[x m]|]; [|split; auto; intros ? ? X; injection X as <- _; auto].
  destruct (sub_chk _ _) as [total|]; cbn [bind]; [|split; [auto|intros ? ? X; discriminate X]].
  pose proof (still_remove t (fst x, k) H) as S. destruct (m_set_remove srch t (fst x, k) (b_set b)) as [t' set]. cbn [snd] in S. subst set. cbn zeta.
  destruct (as_value x _) as [v|]; cbn [bind]; [|split; [auto|intros ? ? X; discriminate X]]. split; auto. intros ? ? X. injection X as <- _.
  unfold tidy, set_remove. cbn [b_set]. destruct (find_index _ _); auto. apply remove_nth_sorted. auto.
Qed.
Lemma same_take_each ks : forall t b, tidy b -> same (take_each (m_take srch) (t, b) ks) (take_each (@b_take K V OK OV) b ks).
Proof.
  induction ks as [|k ks IH]; intros t b H; cbn [take_each]. { split; auto. intros ? ? X. injection X as <- _. auto. }
  destruct (same_take t k H) as [E1 E2]. rewrite <- E1 in *. destruct (m_take srch (t, b) k) as [[[t1 b1] o]|]; cbn [timeless bind] in *; [|split; [auto|intros ? ? X; discriminate X]].
  destruct (IH t1 b1 (E2 _ _ eq_refl)) as [I1 I2]. rewrite <- I1 in *. destruct (take_each (m_take srch) (t1, b1) ks) as [[[t2 b2] out]|]; cbn [timeless bind] in *; [|split; [auto|intros ? ? X; discriminate X]].
  split; auto. intros ? ? X. injection X as <- _. eauto.
Qed.
Lemma same_push t b vs : tidy b -> same (m_push srch (t, b) vs) (b_push b vs).
Proof.
  intros H. unfold m_push, b_push. cbn [snd]. cbn zeta. destruct (b_cap b <=? sum_sz (b_esz b) vs).
  - destruct (same_flush t b) as [E1 E2]. rewrite <- E1 in *. destruct (m_flush (t, b)) as [[[t1 b1] out]|]; cbn [timeless bind] in *; [|split; [auto|intros ? ? X; discriminate X]].
    destruct (tidy_insert vs t1 (E2 _ _ eq_refl)) as [I1 I2]. rewrite I1. destruct (b_cap b <? _).
    + set (s3 := with_total (b_insert b1 vs) (sum_sz (b_esz b) vs)). assert (T : tidy s3) by exact I2.
      destruct (same_pop (fst (m_insert srch (t1, b1) vs)) (sum_sz (b_esz b) vs - b_cap b) T) as [P1 P2]. rewrite <- P1 in *.
      destruct (m_pop srch _ _) as [[[t4 b4] out']|]; cbn [timeless bind] in *; [|split; [auto|intros ? ? X; discriminate X]]. split; auto. intros ? ? X. injection X as <- _. eauto.
    + split; auto. intros ? ? X. injection X as <- _. exact I2.
  - unfold default_take_multiple. destruct (same_take_each (keys vs) t H) as [E1 E2]. rewrite <- E1 in *.
    destruct (take_each (m_take srch) (t, b) (keys vs)) as [[[t1 b1] out]|]; cbn [timeless bind fst snd] in *; [|split; [auto|intros ? ? X; discriminate X]]. pose proof (E2 _ _ eq_refl) as H1.
    destruct (sub_chk _ _) as [room|]; cbn [bind]; [|split; [auto|intros ? ? X; discriminate X]].
    assert (F : forall t2 b2 out', tidy b2 -> same (Ok (fst (m_insert srch (t2, b2) vs), with_total (snd (m_insert srch (t2, b2) vs)) (b_total (snd (m_insert srch (t2, b2) vs)) + sum_sz (b_esz b) vs), out ++ out'))
      (Ok (with_total (b_insert b2 vs) (b_total (b_insert b2 vs) + sum_sz (b_esz b) vs), out ++ out'))).
    { intros t2 b2 out' H2. destruct (tidy_insert vs t2 H2) as [I1 I2]. rewrite I1. split; auto. intros ? ? X. injection X as <- _. exact I2. }
    destruct (room <? _); [|apply F; auto]. destruct (same_pop t1 (sum_sz (b_esz b) vs - room) H1) as [P1 P2]. rewrite <- P1 in *.
    destruct (m_pop srch (t1, b1) _) as [[[t2 b2] out']|]; cbn [timeless bind] in *; [|split; [auto|intros ? ? X; discriminate X]]. apply F. eauto.
Qed.
Lemma same_get t b k f : tidy b -> same (m_get srch (t, b) k f) (b_get b k f).
Proof.
  intros H. unfold m_get, b_get. destruct (same_take t k H) as [E1 E2]. rewrite <- E1 in *. destruct (m_take srch (t, b) k) as [[[t1 b1] o]|]; cbn [timeless bind] in *; [|split; [auto|intros ? ? X; discriminate X]].
  pose proof (E2 _ _ eq_refl) as H1. destruct o as [[k' v]|]; [|split; auto; intros ? ? X; injection X as <- _; auto].
  destruct (same_push t1 [(k', f v)] H1) as [P1 P2]. rewrite <- P1 in *. destruct (m_push srch (t1, b1) [(k', f v)]) as [[[t2 b2] out]|]; cbn [timeless bind] in *; [|split; [auto|intros ? ? X; discriminate X]].
  destruct out; cbn; split; auto; intros ? ? X; [injection X as <- _; eauto|discriminate].
Qed.
Lemma same_call t b x : tidy b ->
  same (do_call MB (fun s k => m_get srch s k (fun v => v)) (m_get srch) (t, b) x) (do_call BB (fun s k => b_get s k (fun v => v)) (@b_get K V OK OV) b x).
Proof.
  intros H. assert (L : forall R Q (g : R -> Q) m p, same m p -> same (let* (s, o) := m in Ok (s, g o)) (let* (s, o) := p in Ok (s, g o))).
  { intros R Q g m p [E1 E2]. rewrite <- E1 in *. destruct m as [[[? ?] ?]|]; cbn [timeless bind] in *; split; auto; try discriminate. intros ? ? X. injection X as <- _. eauto. }
  destruct x as [[vs|n|k|ks|]|k|k|k f]; cbn [do_call step push pop take take_multiple flush contains MBTreeB BTreeB fst snd].
  - apply L, same_push, H.
  - apply L, same_pop, H.
  - apply (L _ _ (fun o => RPairs o)). apply L, same_take, H.
  - apply (L _ _ (fun o => RPairs o)). unfold default_take_multiple. destruct (same_take_each ks t H) as [E1 E2]. rewrite <- E1 in *.
    destruct (take_each (m_take srch) (t, b) ks) as [[[? ?] ?]|]; cbn [timeless bind] in *; (split; [auto|]); intros ? ? X; try discriminate X. injection X as <- _. eauto.
  - apply L, same_flush.
  - destruct (b_contains b k); cbn; (split; [auto|]); intros ? ? X; try discriminate X. injection X as <- _. auto.
  - apply (L _ _ (fun o => RValue o)), same_get, H.
  - apply (L _ _ (fun o => RValue o)), same_get, H.
Qed.
(** C64: every sequence of calls on a new BTree is answered as by BTree.v. *)
Theorem C64_fixed_order_btree : forall t cap esz h,
  heard_of (play (do_call MB (fun s k => m_get srch s k (fun v => v)) (m_get srch)) (t, btree_new cap esz) h) =
  heard_of (play (do_call BB (fun s k => b_get s k (fun v => v)) (@b_get K V OK OV)) (btree_new cap esz) h).
Proof.
  intros t cap esz h. assert (T : tidy (btree_new cap esz)) by constructor. revert T. generalize (btree_new cap esz). intros b. revert t b.
  induction h as [|x h IH]; intros t b T; cbn [play]; auto.
  destruct (same_call t x T) as [E1 E2]. rewrite <- E1 in *. destruct (do_call MB _ _ (t, b) x) as [[[t' b'] r]|]; cbn [timeless bind] in *; auto.
  rewrite !heard_cons, (IH t' b' (E2 _ _ eq_refl)). auto.
Qed.
End StillBTree.

(** A case: a BTree of capacity 3, pushes, a pop, a take and an update. *)
Example still_case :
  heard_of (play (do_call (MBTreeB (scan (K := nat) (still (V := nat)))) (fun s k => m_get (scan still) s k (fun v => v)) (m_get (scan still))) (7, btree_new 3 (fun _ => 1))
    [COp (OpPush [(1, 30); (2, 10)]); CWrite 2 (fun v => v + 15); COp (OpPush [(3, 20); (4, 5)]); CRead 2; COp (OpPop 1); COp (OpTake 4)]) =
  Ok [RPairs []; RValue (Some 10); RPairs [(1, 30)]; RValue (Some 25); RPairs [(2, 25)]; RPairs [(4, 5)]].
Proof. vm_compute. reflexivity. Qed.
Print Assumptions C64_fixed_order_array.
Print Assumptions C64_fixed_order_btree.
