(** PNest.v -- property theorems: containers shared by threads, with nested Sequentials (C57). *)
From Verif Require Import Base Lock SeqConc Config Nest.
Set Implicit Arguments.

(** ** Paths *)
(** [q] is on the way to [p], and is not [p]. *)
Definition above (q p : path) : Prop := exists x, x <> [] /\ p = x ++ q.
Lemma above_cons i p : above p (i :: p).
Proof. exists [i]. split; [discriminate|auto]. Qed.
Lemma above_step i q p : above q p -> above q (i :: p).
Proof. intros (x & H & ->). exists (i :: x). split; [discriminate|auto]. Qed.
Lemma above_len q p : above q p -> length q < length p.
Proof. intros (x & H & ->). rewrite app_length. destruct x; [congruence|]. cbn. lia. Qed.
Lemma above_inv q i p : above q (i :: p) -> q = p \/ above q p.
Proof.
  intros (x & H & E). destruct x as [|j x]; [congruence|]. cbn in E. injection E as <- E.
  destruct x as [|k x]; [left; auto|right]. exists (k :: x). split; [discriminate|auto].
Qed.

(** The container at a path, the path given from the root. *)
Fixpoint sub (t : tree) (x : list nat) {struct x} : option tree :=
  match x with
  | [] => Some t
  | i :: x' =>
      match t with
      | TLeaf => None
      | TSeq t => if i =? 0 then sub t x' else None
      | TNode n f => if i <? n then sub (f i) x' else None
      end
  end.
Lemma sub_app x : forall t y, sub t (x ++ y) = match sub t x with Some s => sub s y | None => None end.
Proof.
  induction x as [|i x IH]; intros t y; [reflexivity|]. destruct t as [|t|n f]; cbn [app sub].
  - reflexivity.
  - destruct (i =? 0); [apply IH|reflexivity].
  - destruct (i <? n); [apply IH|reflexivity].
Qed.
Definition at_path (t : tree) (p : path) : option tree := sub t (rev p).
Lemma at_seq t p s : at_path t p = Some (TSeq s) -> at_path t (0 :: p) = Some s.
Proof. unfold at_path. cbn [rev]. rewrite sub_app. intros ->. auto. Qed.
Lemma at_node t p n f i : i < n -> at_path t p = Some (TNode n f) -> at_path t (i :: p) = Some (f i).
Proof. unfold at_path. cbn [rev]. rewrite sub_app. intros H ->. cbn [sub]. apply Nat.ltb_lt in H. rewrite H. auto. Qed.
(** Below the leaves of a guarded tree there is a Sequential. *)
Lemma guarded_above t : guarded t -> forall x, sub t x = Some TLeaf ->
  exists y z s, x = y ++ z /\ z <> [] /\ sub t y = Some (TSeq s).
Proof.
  induction t as [|t IH|n f IH]; cbn [guarded]; intros G x H.
  - contradiction.
  - destruct x as [|i x]; [discriminate|]. exists [], (i :: x), t. repeat split; auto. discriminate.
  - destruct x as [|i x]; [discriminate|]. cbn [sub] in H. destruct (i <? n) eqn:E; [|discriminate].
    assert (L : i < n) by (apply Nat.ltb_lt; auto). destruct (IH i (G i L) x H) as (y & z & s & -> & Hz & Hy).
    exists (i :: y), z, s. repeat split; auto. cbn [sub]. rewrite E. auto.
Qed.
Lemma guarded_at t p : guarded t -> at_path t p = Some TLeaf -> exists q s, above q p /\ at_path t q = Some (TSeq s).
Proof.
  intros G H. destruct (guarded_above _ G _ H) as (y & z & s & E & Hz & Hy). exists (rev y), s. unfold at_path.
  rewrite rev_involutive. split; auto. exists (rev z). split.
  - intros E2. apply Hz. rewrite <- (rev_involutive z), E2. auto.
  - rewrite <- rev_app_distr, <- E, rev_involutive. auto.
Qed.

Section Less.
Context {T : Type}.
Variable dec : forall x y : T, {x = y} + {x <> y}.
Lemma less_head x l : less dec x (x :: l) = l.
Proof. cbn. destruct (dec x x); congruence. Qed.
Lemma less_incl x l : incl (less dec x l) l.
Proof.
  induction l as [|y l IH]; intros z Hz; auto. cbn in Hz. destruct (dec x y); [right; auto|].
  destruct Hz as [->|Hz]; [left; auto|right; auto].
Qed.
End Less.

(** ** The scripts are well bracketed *)
Section Ok.
Variable t : tree.
Fixpoint ok (ls : list (path * mode)) (bs : list (path * access)) (todo : list nact) : Prop :=
  match todo with
  | [] => ls = [] /\ bs = []
  | NAcq p m :: r => (forall q m', List.In (q, m') ls -> above q p) /\ (forall q a, List.In (q, a) bs -> above q p) /\
                     ok ((p, m) :: ls) bs r
  | NRel p m :: r => List.In (p, m) ls /\ ok (less lock_dec (p, m) ls) bs r
  | NIn p a :: r => (forall q m, List.In (q, m) ls -> q = p \/ above q p) /\ (forall q a', List.In (q, a') bs -> above q p) /\
                    ok ls ((p, a) :: bs) r
  | NOut p a :: r => List.In (p, a) bs /\ ok ls (less borrow_dec (p, a) bs) r
  | NBegin p w :: r => ok ls bs r
  | NEnd p w :: r => at_path t p = Some TLeaf /\
      (forall q s, above q p -> at_path t q = Some (TSeq s) -> exists a, List.In (q, a) bs /\ (w = true -> a = Wr)) /\
      ok ls bs r
  end.

Lemma does_ok p s c l : does p s c l -> building_block c = true -> at_path t p = Some s ->
  forall ls bs r, (forall q m, List.In (q, m) ls -> above q p) -> (forall q a, List.In (q, a) bs -> above q p) ->
    (forall q s, above q p -> at_path t q = Some (TSeq s) -> exists a, List.In (q, a) bs /\ (modifies c = true -> a = Wr)) ->
    ok ls bs r -> ok ls bs (l ++ r).
Proof.
  induction 1 as [p c|p s c l H IH|p n f c|p n f c i d l ls' Hi Hbd Hm Hd IHd Hr IHr]; intros Hb Hat ls bs r HL HB HG Hok.
  - cbn [app ok]. auto.
  - assert (Hat' := at_seq _ _ Hat).
    assert (Inner : forall ls' r' (w : bool), ls' = ls \/ (exists m, ls' = (p, m) :: ls) -> (modifies c = true -> w = true) ->
              ok ls' ((p, if w then Wr else Rd) :: bs) r' -> ok ls' ((p, if w then Wr else Rd) :: bs) (l ++ r')).
    { intros ls' r' w El Hw Hr. apply IH; auto.
      - intros q m Hq. destruct El as [->|[m' ->]].
        + apply above_step; eauto.
        + destruct Hq as [E|Hq]; [injection E as -> _; apply above_cons|apply above_step; eauto].
      - intros q a [E|Hq]; [injection E as -> _; apply above_cons|apply above_step; eauto].
      - intros q s' Hq Hs. apply above_inv in Hq as [->|Hq].
        + exists (if w then Wr else Rd). split; [left; auto|]. intros Em. rewrite (Hw Em). auto.
        + destruct (HG q s' Hq Hs) as (a & Ha & Hw'). exists a. split; [right; auto|auto]. }
    pose proof (fun r' => Inner ls r' false (or_introl eq_refl)) as I1.
    pose proof (fun r' => Inner ls r' true (or_introl eq_refl) (fun _ => eq_refl)) as I2.
    pose proof (fun m r' => Inner ((p, m) :: ls) r' true (or_intror (ex_intro _ m eq_refl)) (fun _ => eq_refl)) as I3.
    cbn iota in I1, I2, I3. clear Inner IH.
    destruct c; try discriminate Hb; cbn [script weave flat_map app modifies] in *; rewrite <- ?app_assoc; cbn [app ok];
      repeat match goal with
      | |- (forall q m', List.In (q, m') ls -> above q p) /\ _ => split; [exact HL|]
      | |- (forall q a, List.In (q, a) bs -> above q p) /\ _ => split; [exact HB|]
      | |- (forall q m, List.In (q, m) ls -> q = p \/ above q p) /\ _ => split; [intros q m Hq; right; eauto|]
      | |- (forall q m', List.In (q, m') ((p, _) :: ls) -> q = p \/ above q p) /\ _ =>
          split; [intros q m' [E|Hq]; [left; congruence|right; eauto]|]
      | |- List.In _ (_ :: _) /\ _ => split; [left; reflexivity|]
      | |- ok _ _ (l ++ _) => first [apply I1; [intros X; exact X|]|apply I2|apply I3]
      | |- context [less _ _ _] => rewrite less_head
      | |- ok _ _ (_ :: _) => cbn [ok]
      end; auto.
  - auto.
  - rewrite <- app_assoc. apply IHd; auto.
    + apply at_node with (1 := Hi) (2 := Hat).
    + intros q m Hq. apply above_step; eauto.
    + intros q a Hq. apply above_step; eauto.
    + intros q s Hq Hs. apply above_inv in Hq as [->|Hq]; [congruence|].
      destruct (HG q s Hq Hs) as (a & Ha & Hw). eauto.
Qed.
Lemma call_ok c l : does [] t c l -> building_block c = true -> ok [] [] l.
Proof.
  intros H Hb. rewrite <- (app_nil_r l). apply (@does_ok [] t c l H Hb eq_refl).
  - intros q m [].
  - intros q a [].
  - intros q s (x & Hx & E). destruct x; [congruence|discriminate E].
  - cbn; auto.
Qed.
End Ok.

(** ** Threads *)
Section Threads.
Variable t : tree.
Definition fine (x : nthread) : Prop := if n_dead x then n_todo x = [] else ok t (n_locks x) (n_borrows x) (n_todo x).
(** No two threads have the same SharedPtr borrowed, one of them for writing. *)
Definition exclusive (ts : list nthread) : Prop :=
  forall i j x y p a, i <> j -> nth_error ts i = Some x -> nth_error ts j = Some y ->
    List.In (p, Wr) (n_borrows x) -> ~ List.In (p, a) (n_borrows y).
Definition good (ts : list nthread) : Prop := Forall fine ts /\ exclusive ts.

Lemma nth_swap (l1 : list nthread) x l2 x' i y : nth_error (l1 ++ x' :: l2) i = Some y ->
  (i = length l1 /\ y = x') \/ (i <> length l1 /\ nth_error (l1 ++ x :: l2) i = Some y).
Proof.
  intros H. destruct (Nat.lt_trichotomy i (length l1)) as [L|[->|L]].
  - right. split; [lia|]. rewrite nth_error_app1 in * by auto. auto.
  - left. rewrite nth_error_app2, Nat.sub_diag in H by lia. cbn in H. injection H as <-. auto.
  - right. split; [lia|]. rewrite nth_error_app2 in * by lia. destruct (i - length l1) eqn:E; [lia|]. auto.
Qed.
Lemma nth_mid (l1 : list nthread) x l2 : nth_error (l1 ++ x :: l2) (length l1) = Some x.
Proof. rewrite nth_error_app2, Nat.sub_diag by lia. auto. Qed.

(** A thread that does not borrow more keeps the others safe. *)
Lemma exclusive_less l1 x x' l2 : exclusive (l1 ++ x :: l2) -> incl (n_borrows x') (n_borrows x) -> exclusive (l1 ++ x' :: l2).
Proof.
  intros H Hi i j y z p a N Hy Hz Hp Ha.
  apply (nth_swap l1 x) in Hy. apply (nth_swap l1 x) in Hz. destruct Hy as [[-> ->]|[N1 Hy]], Hz as [[-> ->]|[N2 Hz]].
  - congruence.
  - apply (H _ _ _ _ p a N (nth_mid l1 x l2) Hz); auto.
  - apply (H _ _ _ _ p a N Hy (nth_mid l1 x l2)); auto.
  - apply (H _ _ _ _ p a N Hy Hz); auto.
Qed.
Lemma exclusive_more l1 ls bs p a r r' d l2 : exclusive (l1 ++ mkN ls bs r d :: l2) ->
  borrow_free (l1 ++ mkN ls bs r d :: l2) p a -> exclusive (l1 ++ mkN ls ((p, a) :: bs) r' d :: l2).
Proof.
  intros H [F1 F2] i j y z q b N Hy Hz Hp Ha.
  apply (nth_swap l1 (mkN ls bs r d)) in Hy. apply (nth_swap l1 (mkN ls bs r d)) in Hz.
  destruct Hy as [[-> ->]|[N1 Hy]], Hz as [[-> ->]|[N2 Hz]]; cbn [n_borrows] in *.
  - congruence.
  - destruct Hp as [E|Hp].
    + injection E as -> ->. assert (I := nth_error_In _ _ Hz). destruct b; [apply F2; auto|apply F1]; exists z; auto.
    + apply (H _ _ _ _ q b N (nth_mid l1 _ l2) Hz); auto.
  - destruct Ha as [E|Ha].
    + injection E as -> ->. assert (I := nth_error_In _ _ Hy). apply F1. exists y; auto.
    + apply (H _ _ _ _ q b N Hy (nth_mid l1 _ l2)); auto.
  - apply (H _ _ _ _ q b N Hy Hz); auto.
Qed.

Lemma nstep_good ts ts' : nstep t ts ts' -> good ts -> good ts'.
Proof.
  intros H [HF HX]. inversion H as [l1 x x' l2 H1|l1 l2 c l Hc Hd]; subst; clear H.
  - apply Forall_app in HF. destruct HF as [HF1 HF2]. inversion HF2 as [|? ? HF3 HF4]; subst.
    inversion H1 as [ls bs p m r F|ls bs p m r|ls bs p a r F|ls bs p a r F|ls bs p a r|ls bs p w r|ls bs p w r]; subst;
      unfold fine in HF3; cbn [n_dead n_locks n_borrows n_todo ok] in HF3; (split; [apply Forall_app; split; auto; constructor; auto; unfold fine; cbn [n_dead n_todo n_locks n_borrows]; tauto|]).
    + eapply exclusive_less; [exact HX|]. apply incl_refl.
    + eapply exclusive_less; [exact HX|]. apply incl_refl.
    + eapply exclusive_more; eauto.
    + eapply exclusive_less; [exact HX|]. intros b Hb. apply filter_In in Hb. apply Hb.
    + eapply exclusive_less; [exact HX|]. apply less_incl.
    + eapply exclusive_less; [exact HX|]. apply incl_refl.
    + eapply exclusive_less; [exact HX|]. apply incl_refl.
  - apply Forall_app in HF. destruct HF as [HF1 HF2]. inversion HF2 as [|? ? HF3 HF4]; subst. split.
    + apply Forall_app; split; auto. constructor; auto. unfold fine; cbn. eapply call_ok; eauto.
    + eapply exclusive_less; [exact HX|]. apply incl_refl.
Qed.
Lemma idle_good n : good (repeat n_idle n).
Proof.
  split.
  - apply Forall_forall. intros x Hx. apply repeat_spec in Hx. subst. cbn. auto.
  - intros i j x y p a _ Hx _ Hp _. apply nth_error_In in Hx. apply repeat_spec in Hx. subst. exact Hp.
Qed.
Lemma nsteps_good n ts : nsteps t (repeat n_idle n) ts -> good ts.
Proof.
  intros H. remember (repeat n_idle n) as s0 eqn:E. induction H; subst; [apply idle_good|]. eapply nstep_good; eauto.
Qed.

(** C57: no leaf below a Sequential is ever entered by a call that changes it while another call is in it, whatever
    the containers around, the calls and the interleaving. *)
Theorem C57_no_data_race : forall n ts, guarded t -> nsteps t (repeat n_idle n) ts -> ~ data_race ts.
Proof.
  intros n ts G H (i & j & x & y & p & w & w' & N & Hx & Hy & [Dx [rx Tx]] & [Dy [ry Ty]] & Hw).
  apply nsteps_good in H as [HF HX]. rewrite Forall_forall in HF.
  pose proof (HF _ (nth_error_In _ _ Hx)) as Fx. pose proof (HF _ (nth_error_In _ _ Hy)) as Fy.
  unfold fine in Fx, Fy. rewrite Dx, Tx in Fx. rewrite Dy, Ty in Fy. cbn [ok] in Fx, Fy.
  destruct Fx as (Px & Gx & _). destruct Fy as (_ & Gy & _). destruct (guarded_at _ _ G Px) as (q & s & Hq & Hs).
  destruct (Gx q s Hq Hs) as (a & Ha & Wa). destruct (Gy q s Hq Hs) as (b & Hb & Wb).
  destruct Hw as [Ew|Ew]; subst.
  - rewrite (Wa eq_refl) in Ha. apply (HX _ _ _ _ q b N Hx Hy Ha Hb).
  - rewrite (Wb eq_refl) in Hb. apply (HX _ _ _ _ q a (not_eq_sym N) Hy Hx Hb Ha).
Qed.

(** ** No deadlock *)
Lemma lock_held_dec ts p m : {lock_held ts p m} + {~ lock_held ts p m}.
Proof.
  destruct (Exists_dec (fun x => List.In (p, m) (n_locks x)) ts (fun x => in_dec lock_dec (p, m) (n_locks x))) as [E|E].
  - left. apply Exists_exists in E. exact E.
  - right. intros H. apply E. apply Exists_exists. exact H.
Qed.
Lemma borrow_held_dec ts p a : {borrow_held ts p a} + {~ borrow_held ts p a}.
Proof.
  destruct (Exists_dec (fun x => List.In (p, a) (n_borrows x)) ts (fun x => in_dec borrow_dec (p, a) (n_borrows x))) as [E|E].
  - left. apply Exists_exists in E. exact E.
  - right. intros H. apply E. apply Exists_exists. exact H.
Qed.
(** Free, or held by somebody. *)
Lemma lock_free_or ts p m : lock_free ts p m \/ exists x m', List.In x ts /\ List.In (p, m') (n_locks x).
Proof.
  destruct (lock_held_dec ts p Ex) as [(x & H1 & H2)|N1]; [eauto|].
  destruct (lock_held_dec ts p Sh) as [(x & H1 & H2)|N2]; [eauto|]. left. split; auto.
Qed.
Lemma borrow_free_or ts p a : borrow_free ts p a \/ exists x a', List.In x ts /\ List.In (p, a') (n_borrows x).
Proof.
  destruct (borrow_held_dec ts p Wr) as [(x & H1 & H2)|N1]; [eauto|].
  destruct (borrow_held_dec ts p Rd) as [(x & H1 & H2)|N2]; [eauto|]. left. split; auto.
Qed.

(** What a thread needs next: how deep it is, a borrow counting as deeper than the lock. *)
Definition wants (x : nthread) : nat :=
  match n_todo x with NAcq p _ :: _ => 2 * length p | NIn p _ :: _ => 2 * length p + 1 | _ => 0 end.
Definition most (ts : list nthread) : nat := list_max (map wants ts).
Lemma wants_most ts x : List.In x ts -> wants x <= most ts.
Proof.
  intros H. unfold most. assert (L : list_max (map wants ts) <= list_max (map wants ts)) by auto.
  apply list_max_le in L. rewrite Forall_forall in L. apply L. apply List.in_map. auto.
Qed.
(** A thread that can do its next action without panicking. *)
Definition goes (ts : list nthread) (x x' : nthread) : Prop := nstep1 ts x x' /\ n_dead x' = false.

Lemma somebody_goes ts : good ts -> Forall (fun x => n_dead x = false) ts ->
  forall k x, List.In x ts -> busy x -> most ts - wants x < k -> exists y y', List.In y ts /\ busy y /\ goes ts y y'.
Proof.
  intros [HF _] HA. rewrite Forall_forall in HF, HA. induction k as [|k IH]; intros x Hx [Hd Hb] Hk; [lia|].
  destruct x as [ls bs todo d]. cbn [n_dead n_todo] in *. subst d.
  destruct todo as [|[p m|p m|p a|p a|p w|p w] r]; [congruence| | | | | |].
  - destruct (lock_free_or ts p m) as [F|(y & m' & Hy & Hm)].
    + eexists _, _. split; [exact Hx|]. split; [split; [auto|discriminate]|]. split; [apply N_acq; auto|auto].
    + pose proof (HF y Hy) as Fy. pose proof (HA y Hy) as Dy. unfold fine in Fy. rewrite Dy in Fy.
      assert (By : busy y). { split; auto. intros E. rewrite E in Fy. cbn in Fy. destruct Fy as [E1 _]. rewrite E1 in Hm. exact Hm. }
      destruct y as [lsy bsy ty dy]. cbn [n_dead n_locks n_borrows n_todo] in *. subst dy.
      assert (W : wants (mkN lsy bsy ty false) > 2 * length p \/ exists y', goes ts (mkN lsy bsy ty false) y').
      { unfold wants; cbn [n_todo]. destruct ty as [|[q n|q n|q b|q b|q w|q w] ry]; [destruct By as [_ By]; cbn in By; congruence| | | | | |];
          cbn [ok] in Fy.
        - left. destruct Fy as (F1 & _). pose proof (above_len (F1 _ _ Hm)). lia.
        - right. eexists. split; [apply N_rel|auto].
        - left. destruct Fy as (F1 & _). destruct (F1 _ _ Hm) as [->|F]; [lia|apply above_len in F; lia].
        - right. eexists. split; [apply N_out|auto].
        - right. eexists. split; [apply N_begin|auto].
        - right. eexists. split; [apply N_end|auto]. }
      destruct W as [W|[y' W]]; [|eauto 6]. apply (IH _ Hy By). pose proof (wants_most _ _ Hy).
      unfold wants in Hk at 1; cbn [n_todo] in Hk. lia.
  - eexists _, _. split; [exact Hx|]. split; [split; [auto|discriminate]|]. split; [apply N_rel|auto].
  - destruct (borrow_free_or ts p a) as [F|(y & a' & Hy & Hm)].
    + eexists _, _. split; [exact Hx|]. split; [split; [auto|discriminate]|]. split; [apply N_in; auto|auto].
    + pose proof (HF y Hy) as Fy. pose proof (HA y Hy) as Dy. unfold fine in Fy. rewrite Dy in Fy.
      assert (By : busy y). { split; auto. intros E. rewrite E in Fy. cbn in Fy. destruct Fy as [_ E1]. rewrite E1 in Hm. exact Hm. }
      destruct y as [lsy bsy ty dy]. cbn [n_dead n_locks n_borrows n_todo] in *. subst dy.
      assert (W : wants (mkN lsy bsy ty false) > 2 * length p + 1 \/ exists y', goes ts (mkN lsy bsy ty false) y').
      { unfold wants; cbn [n_todo]. destruct ty as [|[q n|q n|q b|q b|q w|q w] ry]; [destruct By as [_ By]; cbn in By; congruence| | | | | |];
          cbn [ok] in Fy.
        - left. destruct Fy as (_ & F1 & _). pose proof (above_len (F1 _ _ Hm)). lia.
        - right. eexists. split; [apply N_rel|auto].
        - left. destruct Fy as (_ & F1 & _). pose proof (above_len (F1 _ _ Hm)). lia.
        - right. eexists. split; [apply N_out|auto].
        - right. eexists. split; [apply N_begin|auto].
        - right. eexists. split; [apply N_end|auto]. }
      destruct W as [W|[y' W]]; [|eauto 6]. apply (IH _ Hy By). pose proof (wants_most _ _ Hy).
      unfold wants in Hk at 1; cbn [n_todo] in Hk. lia.
  - eexists _, _. split; [exact Hx|]. split; [split; [auto|discriminate]|]. split; [apply N_out|auto].
  - eexists _, _. split; [exact Hx|]. split; [split; [auto|discriminate]|]. split; [apply N_begin|auto].
  - eexists _, _. split; [exact Hx|]. split; [split; [auto|discriminate]|]. split; [apply N_end|auto].
Qed.

(** What remains to be done by all threads. *)
Definition remains (ts : list nthread) : nat := list_sum (map (fun x => length (n_todo x)) ts).
Lemma goes_less ts x x' : goes ts x x' -> length (n_todo x') < length (n_todo x).
Proof. intros [H D]. inversion H; subst; cbn in *; try discriminate; lia. Qed.

(** C57: as long as no thread has panicked, all the calls in progress can be completed without any panic, whatever has
    happened so far: there is no deadlock, however Sequentials are nested. *)
Lemma todo_dec (x : nthread) : {n_todo x = []} + {n_todo x <> []}.
Proof. destruct (n_todo x); [left; reflexivity|right; discriminate]. Defined.
Theorem C57_no_deadlock : forall n ts, nsteps t (repeat n_idle n) ts -> Forall (fun x => n_dead x = false) ts ->
  exists ts', nsteps t ts ts' /\ Forall (fun x => x = n_idle) ts'.
Proof.
  intros n ts H HA. apply nsteps_good in H. remember (remains ts) as k eqn:Ek. revert ts Ek H HA.
  induction k as [k IH] using lt_wf_ind. intros ts Ek HG HA.
  destruct (Forall_Exists_dec (fun x => n_todo x = []) todo_dec ts) as [E|E].
  - exists ts. split; [apply ns_refl|]. destruct HG as [HF _]. rewrite Forall_forall in *. intros x Hx.
    pose proof (HF x Hx) as F. unfold fine in F. rewrite (HA x Hx), (E x Hx) in F. cbn in F.
    pose proof (HA x Hx) as D. pose proof (E x Hx) as T. destruct x; cbn in *. destruct F; subst. auto.
  - apply Exists_exists in E. destruct E as (x & Hx & Hb).
    assert (Bx : busy x) by (split; auto; rewrite Forall_forall in HA; auto).
    assert (Lk : most ts - wants x < S (most ts - wants x)) by lia. destruct (@somebody_goes ts HG HA _ x Hx Bx Lk) as (y & y' & Hy & By & G).
    apply in_split in Hy as (l1 & l2 & ->).
    assert (S1 : nstep t (l1 ++ y :: l2) (l1 ++ y' :: l2)) by (apply N_act; apply G).
    assert (L : remains (l1 ++ y' :: l2) < k).
    { subst k. unfold remains. rewrite !map_app, !list_sum_app. cbn [map list_sum fold_right]. pose proof (goes_less G). lia. }
    assert (HA' : Forall (fun x => n_dead x = false) (l1 ++ y' :: l2)).
    { apply Forall_app in HA. destruct HA as [A1 A2]. inversion A2; subst. apply Forall_app; split; auto. constructor; auto. apply G. }
    destruct (IH _ L _ eq_refl (nstep_good S1 HG) HA') as (ts' & R & F). exists ts'. split; auto.
    clear -S1 R. induction R as [s|s s1 s2 R IH S]; [eapply ns_step; [apply ns_refl|auto]|eapply ns_step; [apply IH; auto|auto]].
Qed.
End Threads.

(** ** Which containers are guarded *)
(** Every type that implements Concurrent. *)
Theorem C57_concurrent_types_guarded : forall s tr, impl_concurrent s = true -> shaped s tr -> guarded tr.
Proof.
  intros s tr Hc H. induction H; cbn [impl_concurrent guarded] in *; try discriminate; auto.
  - intros i Hi. assert (i = 0) by lia. subst; auto.
  - intros i Hi. assert (i = 0) by lia. subst; auto.
Qed.
(** Every type for which [DynBuildingBlock::from] sets the flag that makes into_concurrent succeed, except Stream. *)
Theorem C57_flagged_types_guarded : forall s tr, from_flag s = Some true -> s <> ShStream -> shaped s tr -> guarded tr.
Proof.
  intros s tr Hf Hn H. destruct H as [| | | | |s n f H|l r f H1 H2|l r f H1 H2|s n f H|s f H|s f H|s f H|s tr H];
    cbn [from_flag] in Hf; try discriminate; try congruence; cbn [guarded]; auto;
    (destruct (impl_concurrent s) eqn:E; [|discriminate]).
  - intros i Hi. eapply C57_concurrent_types_guarded; eauto.
  - intros i Hi. assert (i = 0) by lia. subst. eapply C57_concurrent_types_guarded; eauto.
  - intros i Hi. assert (i = 0) by lia. subst. eapply C57_concurrent_types_guarded; eauto.
Qed.
(** Every configuration whose container has the flag set. *)
Theorem C57_flagged_configs_guarded : forall c d, builder_flag (c, d) = true -> guarded (config_tree c).
Proof.
  intros c d H. destruct c as [| | | | |l|l|f b|c|c|c]; destruct d; cbn in H; try discriminate; cbn [config_tree guarded]; auto;
    intros i Hi; destruct l; cbn in *; try discriminate; lia.
Qed.

(** The tree of a configuration has the shape of the containers it describes: [Batch] and [Associative] over as many
    containers as described, [Exclusive] its front then its back. *)
Inductive config_shaped : config -> tree -> Prop :=
| cs_array : forall n, config_shaped (CArray n) TLeaf
| cs_btree : forall n, config_shaped (CBTree n) TLeaf
| cs_compressed : forall n m, config_shaped (CCompressed n m) TLeaf
| cs_stream : forall n, config_shaped (CStream n) TLeaf
| cs_socket : forall a, config_shaped (CSocket a) TLeaf
| cs_batch : forall l f, (forall i c, nth_error l i = Some c -> config_shaped c (f i)) -> config_shaped (CBatch l) (TNode (length l) f)
| cs_associative : forall l f, (forall i c, nth_error l i = Some c -> config_shaped c (f i)) -> config_shaped (CAssociative l) (TNode (length l) f)
| cs_exclusive : forall a b f, config_shaped a (f 0) -> config_shaped b (f 1) -> config_shaped (CExclusive a b) (TNode 2 f)
| cs_flush_stopper : forall c f, config_shaped c (f 0) -> config_shaped (CFlushStopper c) (TNode 1 f)
| cs_profiler : forall c f, config_shaped c (f 0) -> config_shaped (CProfiler c) (TNode 1 f)
| cs_sequential : forall c t, config_shaped c t -> config_shaped (CSequential c) (TSeq t).
Theorem C57_config_tree_shape : forall c, config_shaped c (config_tree c).
Proof.
  fix IH 1. intros c. destruct c as [n|n|n m|n|a|l|l|a b|c|c|c]; cbn [config_tree]; try constructor; try apply IH.
  all: revert l; induction l as [|c l IHl]; intros [|i] d E; cbn in E |- *; try discriminate; [injection E as <-; apply IH|apply IHl; exact E].
Qed.
(** ** The guard is needed *)
Lemma guarded_dec t : {guarded t} + {~ guarded t}.
Proof.
  induction t as [|t IH|n f IH]; cbn [guarded]; auto.
  induction n as [|n IHn]; [left; intros; lia|]. destruct IHn as [G|G].
  - destruct (IH n) as [G'|G']; [left|right].
    + intros i Hi. destruct (Nat.eq_dec i n) as [E|E]; [subst; auto|]. apply G. lia.
    + intros H. apply G', H. lia.
  - right. intros H. apply G. intros i Hi. apply H. lia.
Qed.
Lemma unguarded_leaf t : ~ guarded t -> forall p c, building_block c = true ->
  exists q, does p t c [NBegin q (modifies c); NEnd q (modifies c)].
Proof.
  induction t as [|t IH|n f IH]; cbn [guarded]; intros G p c Hc.
  - exists p. constructor.
  - tauto.
  - assert (E : exists i, i < n /\ ~ guarded (f i)).
    { clear IH. induction n as [|n IHn]; [exfalso; apply G; intros; lia|].
      destruct (guarded_dec (f n)) as [D|D]; [|exists n; split; auto].
      destruct IHn as (i & Hi & Hg); [|exists i; split; auto; lia].
      intros H. apply G. intros i Hi. destruct (Nat.eq_dec i n) as [E|E]; [subst; auto|]. apply H. lia. }
    destruct E as (i & Hi & Hg). destruct (IH i Hg (i :: p) c Hc) as [q Hq]. exists q.
    rewrite <- (app_nil_r [_; _]). apply does_node with (i := i) (d := c); auto. apply does_nothing.
Qed.
(** C57: if some leaf is not below a Sequential, two threads that call anything but capacity, size and contains may race. *)
Theorem C57_unguarded_races : forall t c, ~ guarded t -> building_block c = true -> modifies c = true ->
  exists ts, nsteps t (repeat n_idle 2) ts /\ data_race ts.
Proof.
  intros t c G Hc Hm. destruct (unguarded_leaf _ G [] c Hc) as [q Hq]. rewrite Hm in Hq.
  set (b := mkN [] [] [NBegin q true; NEnd q true] false). set (e := mkN [] [] [NEnd q true] false).
  exists [e; e]. split.
  - apply ns_step with [e; b]; [apply ns_step with [b; b]; [apply ns_step with [b; n_idle];
      [apply ns_step with [n_idle; n_idle]; [apply ns_refl|]|]|]|].
    + apply (@N_call t [] [n_idle] c _ Hc Hq).
    + apply (@N_call t [b] [] c _ Hc Hq).
    + apply (@N_act t [] b e [b]). apply N_begin.
    + apply (@N_act t [e] b e []). apply N_begin.
  - exists 0, 1, e, e, q, true, true. repeat split; auto; eexists; reflexivity.
Qed.
(** ... which the flag allows for Stream. *)
Theorem C57_stream_race_refuted : from_flag ShStream = Some true /\ shaped ShStream TLeaf /\
  exists ts, nsteps TLeaf (repeat n_idle 2) ts /\ data_race ts.
Proof. split; [reflexivity|]. split; [constructor|]. apply C57_unguarded_races with CPush; auto. Qed.

(** ** A panic blocks every thread for ever *)
Lemma can_call t : forall p c, building_block c = true -> exists l, does p t c l.
Proof.
  induction t as [|t IH|n f IH]; intros p c Hc.
  - eexists. constructor.
  - destruct (IH (0 :: p) c Hc) as [l Hl]. eexists. constructor. exact Hl.
  - exists []. constructor.
Qed.
(** Every call on a Sequential takes its lock first. *)
Lemma first_lock t c l : does [] (TSeq t) c l -> building_block c = true -> exists m r, l = NAcq [] m :: r.
Proof.
  intros H Hb. inversion H as [|p s c' l' H1| |]; subst. destruct c; try discriminate Hb; cbn; eauto.
Qed.
(** A panicked thread that holds a lock holds it for ever. *)
Lemma dead_stays t ts ts' i x : nsteps t ts ts' -> nth_error ts i = Some x -> n_dead x = true -> nth_error ts' i = Some x.
Proof.
  intros H Hx Hd. induction H as [s|s s1 s2 H IH S]; auto. specialize (IH Hx).
  inversion S as [l1 y y' l2 H1|l1 l2 c l Hc Hl]; subst; destruct (Nat.eq_dec i (length l1)) as [->|N].
  - rewrite nth_mid in IH. injection IH as ->. inversion H1; subst; discriminate.
  - destruct (Nat.lt_ge_cases i (length l1)) as [L|L].
    + rewrite nth_error_app1 in * by auto. auto.
    + rewrite nth_error_app2 in * by lia. destruct (i - length l1) eqn:E; [lia|]. auto.
  - rewrite nth_mid in IH. injection IH as <-. discriminate.
  - destruct (Nat.lt_ge_cases i (length l1)) as [L|L].
    + rewrite nth_error_app1 in * by auto. auto.
    + rewrite nth_error_app2 in * by lia. destruct (i - length l1) eqn:E; [lia|]. auto.
Qed.
(** C57, false: a push that meets another call panics while it holds the lock, which is never released; from then on no
    call on the container, by any thread, ever gets beyond its first step. *)
Theorem C57_panic_blocks_for_ever_refuted : forall t, exists ts, nsteps (TSeq t) (repeat n_idle 3) ts /\
  forall ts' x, nsteps (TSeq t) ts ts' -> List.In x ts' -> (exists m r, n_todo x = NAcq [] m :: r) ->
    ~ exists x', nstep1 ts' x x'.
Proof.
  intros t. destruct (can_call t [0] CTake eq_refl) as [lt Ht]. destruct (can_call t [0] CPush eq_refl) as [lp Hp].
  apply does_seq in Ht, Hp. cbn [script weave flat_map app] in Ht, Hp.
  match type of Ht with does _ _ _ (_ :: _ :: _ :: ?l) => set (rt := l) in * end.
  match type of Hp with does _ _ _ (_ :: _ :: ?l) => set (rp := l) in * end.
  set (a0 := mkN [] [] (NAcq [] Ex :: NRel [] Ex :: NIn [] Wr :: rt) false).
  set (a1 := mkN [([], Ex)] [] (NRel [] Ex :: NIn [] Wr :: rt) false).
  set (a2 := mkN [] [] (NIn [] Wr :: rt) false). set (a3 := mkN [] [([], Wr)] rt false).
  set (b0 := mkN [] [] (NAcq [] Ex :: NIn [] Wr :: rp) false). set (b1 := mkN [([], Ex)] [] (NIn [] Wr :: rp) false).
  set (b2 := mkN [([], Ex)] [] [] true).
  assert (NL : forall ts p m, (forall x, List.In x ts -> n_locks x = []) -> lock_free ts p m).
  { intros ts p m H. split; [|intros _]; intros (x & Hx & Hl); rewrite (H x Hx) in Hl; exact Hl. }
  assert (NB : forall ts p a, (forall x, List.In x ts -> n_borrows x = []) -> borrow_free ts p a).
  { intros ts p m H. split; [|intros _]; intros (x & Hx & Hl); rewrite (H x Hx) in Hl; exact Hl. }
  exists [a3; b2; n_idle]. split.
  - apply ns_step with [a3; b1; n_idle]; [apply ns_step with [a3; b0; n_idle]; [apply ns_step with [a3; n_idle; n_idle];
      [apply ns_step with [a2; n_idle; n_idle]; [apply ns_step with [a1; n_idle; n_idle]; [apply ns_step with [a0; n_idle; n_idle];
       [apply ns_step with [n_idle; n_idle; n_idle]; [apply ns_refl|]|]|]|]|]|]|].
    + apply (@N_call (TSeq t) [] [n_idle; n_idle] CTake _ eq_refl Ht).
    + apply (@N_act (TSeq t) [] a0 a1 [n_idle; n_idle]). apply N_acq. apply NL.
      intros x [<-|[<-|[<-|[]]]]; reflexivity.
    + replace a2 with (mkN (less lock_dec ([], Ex) [([], Ex)]) [] (NIn [] Wr :: rt) false) by reflexivity.
      apply (@N_act (TSeq t) [] a1 _ [n_idle; n_idle]). apply N_rel.
    + apply (@N_act (TSeq t) [] a2 a3 [n_idle; n_idle]). apply N_in. apply NB.
      intros x [<-|[<-|[<-|[]]]]; reflexivity.
    + apply (@N_call (TSeq t) [a3] [n_idle] CPush _ eq_refl Hp).
    + apply (@N_act (TSeq t) [a3] b0 b1 [n_idle]). apply N_acq. apply NL.
      intros x [<-|[<-|[<-|[]]]]; reflexivity.
    + apply (@N_act (TSeq t) [a3] b1 b2 [n_idle]). apply (@N_panic [a3; b1; n_idle] [([], Ex)] []).
      intros [F _]. apply F. exists a3. split; [left; auto|left; auto].
  - intros ts' x H Hx (m & r & T) (x' & S).
    pose proof (dead_stays 1 H (x := b2) eq_refl eq_refl) as D. apply nth_error_In in D.
    destruct x as [ls bs todo d]; cbn in T; subst todo. inversion S as [? ? ? ? ? F| | | | | |]; subst.
    destruct F as [F _]. apply F. exists b2. split; [auto|left; auto].
Qed.
(** The premise is that of every call. *)
Theorem C57_every_call_takes_the_lock : forall t c l, does [] (TSeq t) c l -> building_block c = true ->
  exists m r, l = NAcq [] m :: r.
Proof. apply first_lock. Qed.

(** Example: an Exclusive of a Sequential and a Batch of two Sequentials, inside a Sequential; three threads. *)
Definition nest_ex : tree := TNode 1 (fun _ => TSeq (TNode 2 (fun i => if i =? 0 then TSeq TLeaf else TNode 2 (fun _ => TSeq TLeaf)))).
Example C57_example : guarded nest_ex /\ exists ts, nsteps nest_ex (repeat n_idle 3) ts /\
  Forall (fun x => n_dead x = false) ts /\ exists x, List.In x ts /\ inside x [0; 1; 1; 0; 0] true.
Proof.
  split; [cbn; intros; auto|].
  assert (D : does [] nest_ex CPush
    ([NAcq [0] Ex; NIn [0] Wr; NAcq [1; 1; 0; 0] Ex; NIn [1; 1; 0; 0] Wr; NBegin [0; 1; 1; 0; 0] true; NEnd [0; 1; 1; 0; 0] true;
     NRel [1; 1; 0; 0] Ex; NOut [1; 1; 0; 0] Wr; NRel [0] Ex; NOut [0] Wr] ++ [])).
  { apply does_node with (i := 0) (d := CPush); auto; [|apply does_nothing].
    refine (@does_seq [0] _ CPush [NAcq [1; 1; 0; 0] Ex; NIn [1; 1; 0; 0] Wr; NBegin [0; 1; 1; 0; 0] true; NEnd [0; 1; 1; 0; 0] true;
      NRel [1; 1; 0; 0] Ex; NOut [1; 1; 0; 0] Wr] _).
    rewrite <- (app_nil_r [_; _; _; _; _; _]). apply does_node with (i := 1) (d := CPush); auto; [|apply does_nothing].
    rewrite <- (app_nil_r [_; _; _; _; _; _]). apply does_node with (i := 1) (d := CPush); auto; [|apply does_nothing].
    refine (@does_seq [1; 1; 0; 0] _ CPush [NBegin [0; 1; 1; 0; 0] true; NEnd [0; 1; 1; 0; 0] true] _). apply does_leaf. }
  cbn [app] in D.
  assert (Go : forall x x' l, nsteps nest_ex (repeat n_idle 3) (x :: l) -> nstep1 (x :: l) x x' -> nsteps nest_ex (repeat n_idle 3) (x' :: l)).
  { intros x x' l H1 H2. eapply ns_step; [exact H1|]. apply (@N_act nest_ex [] x x' l). exact H2. }
  pose proof (ns_step (ns_refl nest_ex (repeat n_idle 3)) (@N_call nest_ex [] [n_idle; n_idle] CPush _ eq_refl D)) as S0.
  cbn [app] in S0.
  assert (Fr : forall x p m l, (forall q n, List.In (q, n) (n_locks x) -> q <> p) -> l = [n_idle; n_idle] -> lock_free (x :: l) p m).
  { intros x p m l H ->. split; [|intros _]; intros (y & [<-|[<-|[<-|[]]]] & Hl); try destruct Hl; eapply H; eauto. }
  assert (Fb : forall x p m l, (forall q n, List.In (q, n) (n_borrows x) -> q <> p) -> l = [n_idle; n_idle] -> borrow_free (x :: l) p m).
  { intros x p m l H ->. split; [|intros _]; intros (y & [<-|[<-|[<-|[]]]] & Hl); try destruct Hl; eapply H; eauto. }
  eexists. split.
  - eapply Go; [eapply Go; [eapply Go; [eapply Go; [eapply Go; [exact S0|]|]|]|]|].
    + apply N_acq. apply Fr; [|reflexivity]. intros q n [].
    + apply N_in. apply Fb; [|reflexivity]. intros q n [].
    + apply N_acq. apply Fr; [|reflexivity]. intros q n [E|[]]. injection E as <- <-. discriminate.
    + apply N_in. apply Fb; [|reflexivity]. intros q n [E|[]]. injection E as <- <-. discriminate.
    + apply N_begin.
  - split; [repeat constructor|]. eexists. split; [left; reflexivity|]. split; [reflexivity|]. eexists. reflexivity.
Qed.
