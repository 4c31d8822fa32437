(** PStack.v -- C54, C66 down to the atomic operations of the lock. *)
From Coq Require Import NArith.
From Verif Require Import Base PermSolve Block Spec LawsProof Sim Lock PLock SeqConc PSeqConc Linear PLinear Array PArray BTree PBTree Arch ArchProof PArch Crash PCrash Stack.
Set Implicit Arguments.

Section Proof.
Context {K V : Type}.
Variable B : Block K V.
Notation thread := (thread B).
Notation psys := (psys B).
Notation asys := (asys B).
Notation client := (Linear.thread B * pc)%type.

(** ** The system of Crash.v that a state stands for: the holders of the lock are the threads between the exchange that
    acquired it and the one that releases it. *)
Definition held_by (m : mode) (ts : list client) : nat := length (filter (holdsb m) (map snd ts)).
Definition proj (s : asys) : psys :=
  mkPs (mkL (held_by Sh (a_threads s)) (held_by Ex (a_threads s)) (a_rd s) (a_wr s) (a_st s) (map fst (a_threads s)) (a_now s) (a_effects s) (a_returns s))
       (N.leb POISONED (a_word s)) (a_gone s) (a_dropped s).
Definition tick (s : psys) : psys :=
  match s with mkPs (mkL sh ex rd wr st ts now es rs) po g ds => mkPs (mkL sh ex rd wr st ts (S now) es rs) po g ds end.
Definition lock_of (s : asys) : Lock.lsys := mkSys (a_word s) (map snd (a_threads s)).

(** Where a thread is in the lock, from where it is in its call. *)
Definition script_of (t : thread) : list action := match t with Linear.Idle => [] | Busy _ p _ _ _ _ => p end.
Definition shape (p : list action) (c : pc) : Prop :=
  match p with
  | Acq m :: _ => c = Lock.Idle \/ c = Load m true \/ exists x, c = Cas m true x
  | Rel _ :: _ => True
  | _ => c = Lock.Idle \/ exists m, c = Hold m
  end.
Definition fits (x : client) : Prop :=
  (forall m, holdsb m (snd x) = hasO m (script_of (fst x))) /\ shape (script_of (fst x)) (snd x).

Record ainv (st : St B) (n : nat) (s : asys) : Prop := {
  ai_p : pinv st n (proj s);
  ai_lock : Lock.lsteps (fun _ => True) (Lock.linit n) (lock_of s);
  ai_fits : Forall fits (a_threads s)
}.

Lemma tick_inv st n s : pinv st n s -> pinv st n (tick s).
Proof.
  destruct s as [[sh ex rd wr s0 ts now es rs] po g ds]. intros [H1 H2 H3 H4 H5 H6 H7]. cbn [tick p_sys p_poison p_gone p_dropped l_threads l_effects l_st] in *.
  constructor; cbn [tick p_sys p_poison p_gone p_dropped l_threads l_effects l_st] in *; auto.
  destruct H1 as (A1 & A2 & A3 & A4 & A5 & A6 & A7 & A8). unfold linv in *. cbn [l_threads l_effects l_st l_now l_returns] in *.
  repeat match goal with |- _ /\ _ => split end; auto.
  - eapply Forall_impl; [|exact A2]. intros; apply thread_ok_later; auto.
  - eapply Forall_impl; [|exact A5]. cbn. lia.
Qed.

Lemma held_mid m (l1 : list client) t c l2 : held_by m (l1 ++ (t, c) :: l2) = PLock.nb (holdsb m c) + held_by m (l1 ++ l2).
Proof. unfold held_by. rewrite map_app. cbn [map snd]. rewrite count_split, <- map_app. reflexivity. Qed.
Lemma held_same m (l1 : list client) t t' c l2 : held_by m (l1 ++ (t, c) :: l2) = held_by m (l1 ++ (t', c) :: l2).
Proof. rewrite !held_mid. reflexivity. Qed.
Lemma lock_same w (l1 : list client) t t' c l2 : mkSys w (map snd (l1 ++ (t, c) :: l2)) = mkSys w (map snd (l1 ++ (t', c) :: l2)).
Proof. rewrite !map_app. reflexivity. Qed.

Lemma no_new_poison spur w p w' p' : astep spur w p w' p' -> pc_ok p -> (w < POISONED)%N -> (w' < POISONED)%N.
Proof.
  intros H Hp Hw. destruct H; auto; subst; cbn [pc_ok cas_expect cas_new] in *; try destruct m; cbn [cas_new cas_expect]; rewrite ?P_val, ?E_val in *; lia.
Qed.

Lemma fits_mid (l1 : list client) x y l2 : Forall fits (l1 ++ x :: l2) -> fits y -> Forall fits (l1 ++ y :: l2).
Proof. intros H F. apply Forall_app in H as [H1 H2]. inversion H2; subst. apply Forall_app; auto. Qed.
Lemma fits_here (l1 : list client) x l2 : Forall fits (l1 ++ x :: l2) -> fits x.
Proof. intros H. apply Forall_app in H as [_ H]. inversion H; auto. Qed.

(** A call acquires the lock first, and once. *)
Lemma acq_first c x m p : suffix_of c (x :: Acq m :: p) -> False.
Proof.
  intros H. apply suffix_in in H.
  destruct c as [| | | | | | | |[]|[]]; unfold suffixes in H; cbn in H;
    repeat match goal with H : _ \/ _ |- _ => destruct H as [H|H] end; try discriminate H; try contradiction.
Qed.
(** Past an action that does not concern the lock. *)
Definition no_lock (x : action) : Prop := match x with Acq _ | Rel _ => False | _ => True end.
Lemma fits_pop a x p d t v r d' v' r' c : suffix_of (method a) (x :: p) -> no_lock x ->
  fits (Busy a (x :: p) d t v r, c) -> fits (Busy a p d' t v' r', c).
Proof.
  intros HS HN [F1 F2]. unfold fits in *. cbn [fst snd script_of] in *.
  assert (E : forall m, hasO m (x :: p) = hasO m p) by (intros m; destruct x; try contradiction; reflexivity).
  split; [intros m; rewrite <- E; auto|].
  assert (S0 : c = Lock.Idle \/ exists m, c = Hold m) by (destruct x; try contradiction; exact F2).
  destruct p as [|y p]; [exact S0|]. destruct y; try exact S0; [|exact I]. destruct (acq_first HS).
Qed.
Lemma fits_dead a p d t v r d' v' r' c : fits (Busy a p d t v r, c) -> fits (Busy a p d' t v' r', c).
Proof. auto. Qed.

Lemma borrow_act x sh ex rd wr rd' wr' : borrow x -> act x 0 0 rd wr = Some (0, 0, rd', wr') -> act x sh ex rd wr = Some (sh, ex, rd', wr').
Proof.
  intros HB HA. destruct x as [| |[]|[]| | | | |]; try contradiction; cbn in *.
  - destruct (wr =? 0); [|discriminate]. injection HA as <- <-. auto.
  - destruct (_ && _); [|discriminate]. injection HA as <- <-. auto.
  - injection HA as <- <-. auto.
  - injection HA as <- <-. auto.
Qed.
Lemma borrow_none x sh ex rd wr : is_in x = true -> act x 0 0 rd wr = None -> act x sh ex rd wr = None.
Proof.
  intros HB HA. destruct x as [| |[]|[]| | | | |]; try discriminate; cbn in *.
  - destruct (wr =? 0); [discriminate|auto].
  - destruct (_ && _); [discriminate|auto].
Qed.

Lemma pinv_linv st n s : pinv st n (proj s) -> linv st (p_sys (proj s)). Proof. intros H; apply H. Qed.

(** The thread in the middle. *)
Lemma here st n w rd wr s0 l1 t c l2 now es rs g ds : (N.of_nat n < EXCLUSIVE)%N ->
  ainv st n (mkA w rd wr s0 (l1 ++ (t, c) :: l2) now es rs g ds) ->
  thread_ok now s0 t /\ fits (t, c) /\
  pc_ok c /\ word_ok w (PLock.nb (holdsb Sh c) + held_by Sh (l1 ++ l2)) (PLock.nb (holdsb Ex c) + held_by Ex (l1 ++ l2)) /\
  wf (what (client_of t)) (todo (client_of t)) = true /\ (N.of_nat (held_by Sh (l1 ++ l2)) + N.of_nat (held_by Ex (l1 ++ l2)) + 1 < EXCLUSIVE)%N.
Proof.
  intros Hn [H1 H2 H3]. cbn [a_threads] in H3. pose proof (pi_lin H1) as L. pose proof (pi_length H1) as HL. cbn [proj p_sys l_threads a_threads] in *.
  destruct (lsteps_ok H2 (linit_ok n Hn)) as (S1 & S2 & S3). unfold lock_of, holders in *. cbn [word clients a_word a_threads] in *.
  split; [|split; [|split; [|split; [|split]]]].
  - destruct L as (_ & HT & _). cbn [l_threads l_now l_st a_now a_st] in HT. rewrite map_app in HT. apply Forall_app in HT as [_ HT]. inversion HT; auto.
  - eapply fits_here; eauto.
  - rewrite map_app in S3. apply Forall_app in S3 as [_ S3]. inversion S3; auto.
  - rewrite <- !held_mid with (t := t). exact S2.
  - destruct L as ((_ & _ & _ & _ & _ & _ & _ & _ & HF) & _). unfold qof in HF. cbn [cl l_threads] in HF. rewrite map_app, map_app in HF. apply Forall_app in HF as [_ HF]. inversion HF; auto.
  - pose proof (holders_sum (map snd (l1 ++ l2))) as X. unfold held_by. rewrite map_length in *. rewrite app_length in *. cbn [length] in *. lia.
Qed.

Arguments here {st n w rd wr s0 l1 t c l2 now es rs g ds} _ _.

(** The poison bit only changes when a clone is dropped by a panicking thread. *)
Lemma poison_kept st n w rd wr s0 l1 t t' c l2 now es rs g ds spur w' c' : (N.of_nat n < EXCLUSIVE)%N ->
  ainv st n (mkA w rd wr s0 (l1 ++ (t, c) :: l2) now es rs g ds) -> astep spur w c w' c' ->
  N.leb POISONED w' = N.leb POISONED w /\
  Lock.lsteps (fun _ => True) (Lock.linit n) (mkSys w' (map snd (l1 ++ (t', c') :: l2))).
Proof.
  intros Hn HI HA. destruct (here Hn HI) as (_ & _ & PK & _). destruct HI as [_ H2 _]. unfold lock_of in H2. cbn [a_word a_threads] in H2.
  rewrite map_app in H2. cbn [map snd] in H2.
  assert (L : Lock.lstep (kind spur) (mkSys w (map snd l1 ++ c :: map snd l2)) (mkSys w' (map snd l1 ++ c' :: map snd l2))).
  { apply L_client. auto. }
  assert (R : Lock.lsteps (fun _ => True) (Lock.linit n) (mkSys w' (map snd l1 ++ c' :: map snd l2))) by (econstructor; eauto).
  split; [|rewrite map_app; exact R].
  destruct (N.leb_spec POISONED w) as [P|P].
  - apply N.leb_le. apply (poisoned_iff Hn R). eapply (@C28_poisoned_stays_poisoned n _ _ Hn H2).
    + apply (poisoned_iff Hn H2). exact P.
    + econstructor; [constructor|exact I|exact L].
  - apply N.leb_gt. eapply no_new_poison; eauto.
Qed.

Arguments poison_kept {st n w rd wr s0 l1 t t' c l2 now es rs g ds spur w' c'} _ _ _.

(** Every step is a step of Crash.v, or none that shows there. *)
Lemma sim st n e s s' : (N.of_nat n < EXCLUSIVE)%N -> ainv st n s -> sstep e s s' ->
  (pstep Plain (proj s) (proj s') \/ pstep Elsewhere (proj s) (proj s') \/ proj s' = tick (proj s)) /\
  Lock.lsteps (fun _ => True) (Lock.linit n) (lock_of s') /\ Forall fits (a_threads s').
Proof.
  intros Hn HI HS. inversion HS; subst; clear HS; unfold lock_of, proj; cbn [a_word a_rd a_wr a_st a_threads a_now a_effects a_returns a_gone a_dropped tick].
  - (* call *) destruct (here Hn HI) as (T & F & _). split; [left|split].
    + rewrite (held_same Sh l1 (Busy a (script (method a)) false now None None) Linear.Idle), (held_same Ex l1 (Busy a (script (method a)) false now None None) Linear.Idle).
      rewrite !map_app. cbn [map fst]. apply P_run; [apply Linear.L_call|cbn; auto].
    + rewrite (lock_same w l1 _ Linear.Idle). exact (ai_lock HI).
    + eapply fits_mid; [exact (ai_fits HI)|]. split; cbn [fst snd script_of].
      * intros m. rewrite (proj1 (script_free (method a) m Rd)). destruct m; reflexivity.
      * destruct a; cbn; auto.
  - (* enter *) destruct (here Hn HI) as (T & F & _).
    destruct (poison_kept (t' := Busy a (Acq m :: p) false t v r) Hn HI (A_call w m true)) as [P1 P2].
    split; [right; right|split; [exact P2|]].
    + rewrite !held_mid. cbn [holdsb]. rewrite !map_app. destruct m; reflexivity.
    + eapply fits_mid; [exact (ai_fits HI)|]. destruct F as [F1 F2]. split; cbn [fst snd script_of] in *; [|cbn; auto].
      intros m'. rewrite <- F1. destruct m'; reflexivity.
  - (* trying *) destruct (here Hn HI) as (T & F & PK & _).
    destruct (poison_kept (t' := Busy a (Acq m :: p) false t v r) Hn HI H) as [P1 P2].
    assert (Z : forall m, holdsb m c = false) by (intros []; destruct c as [|? []|? [] ?| | |]; try contradiction; reflexivity).
    assert (Z' : forall m, holdsb m c' = false) by (intros []; destruct c' as [|? []|? [] ?| | |]; try contradiction; reflexivity).
    split; [right; right|split; [exact P2|]].
    + rewrite !held_mid, !Z, !Z', !map_app, P1. reflexivity.
    + eapply fits_mid; [exact (ai_fits HI)|]. destruct F as [F1 F2]. split; cbn [fst snd script_of] in *.
      * intros m'. rewrite <- F1, Z, Z'. reflexivity.
      * cbn [shape] in *. destruct F2 as [->|[->|[x ->]]]; [contradiction| |].
        -- inversion H; subst; try (cbn in *; contradiction); cbn [would_block]; eauto.
        -- inversion H; subst; try (cbn in *; contradiction); cbn [would_block]; eauto.
  - (* got *) destruct (here Hn HI) as (T & F & PK & W & WF & Hb).
    destruct (poison_kept (t' := Busy a p false t v r) Hn HI H) as [P1 P2].
    assert (Z : forall m, holdsb m c = false) by (intros []; destruct c as [|? []|? [] ?| | |]; try contradiction; reflexivity).
    rewrite !Z in W. cbn [PLock.nb Nat.add] in W.
    cbn [client_of what todo wf] in WF. apply andb_true_iff in WF as [WF1 WF2]. apply andb_true_iff in WF2 as [WF2 WF3]. apply negb_true_iff in WF3.
    assert (G : held_by Ex (l1 ++ l2) = 0 /\ (m = Ex -> held_by Sh (l1 ++ l2) = 0) /\ (w < POISONED)%N).
    { destruct c as [|? []|? [] ?| | |]; try contradiction; inversion H; subst; cbn [pc_ok] in PK.
      destruct m; cbn [cas_expect] in *; unfold word_ok in W; rewrite P_val, E_val in *; (split; [lia|split; [|lia]]); [discriminate|lia]. }
    destruct G as (G1 & G2 & G3). split; [left|split; [exact P2|]].
    + rewrite P1. rewrite !held_mid, !Z. cbn [PLock.nb Nat.add]. rewrite !map_app. cbn [map fst].
      apply P_run.
      * apply Linear.L_act with (x := Acq m); [exact I|]. cbn [act]. destruct m; rewrite G1; cbn [Nat.eqb andb holdsb PLock.nb]; [reflexivity|]. rewrite (G2 eq_refl). reflexivity.
      * intros X. apply N.leb_le in X. lia.
    + eapply fits_mid; [exact (ai_fits HI)|]. destruct T as (_ & T2 & _). split; cbn [fst snd script_of] in *.
      * intros m'. destruct m, m'; cbn [holdsb]; auto.
      * destruct p as [|y p]; [cbn; eauto|]. destruct y; cbn; eauto. destruct (acq_first T2).
  - (* push refused *) destruct (here Hn HI) as (T & F & PK & W & WF & Hb).
    destruct (poison_kept (t' := Linear.Idle) Hn HI H) as [P1 P2].
    assert (Z : forall m, holdsb m c = false) by (intros []; destruct c as [|? []|? [] ?| | |]; try contradiction; reflexivity).
    assert (G : (POISONED <= w)%N).
    { destruct c as [|? []|? [] ?| | |]; try contradiction; inversion H; subst; try (match goal with X : would_block _ true = _ |- _ => discriminate X end).
      destruct (N.le_gt_cases POISONED w') as [X|X]; auto. exfalso. apply not_poisoned in X; [contradiction|].
      change (2 ^ 64)%N with (2 * POISONED)%N. rewrite P_val in *. lia. }
    split; [left|split; [exact P2|]].
    + rewrite P1. rewrite !held_mid, !Z. cbn [PLock.nb Nat.add holdsb]. rewrite !map_app. cbn [map fst].
      replace (N.leb POISONED w) with true by (symmetry; apply N.leb_le; auto). rewrite <- (map_length fst l1). apply P_push_refused.
    + eapply fits_mid; [exact (ai_fits HI)|]. split; [intros []; reflexivity|left; reflexivity].
  - (* refused *) destruct (here Hn HI) as (T & F & PK & W & WF & Hb).
    destruct (poison_kept (t' := Busy a (Acq m :: p) true t v r) Hn HI H0) as [P1 P2].
    assert (Z : forall m, holdsb m c = false) by (intros []; destruct c as [|? []|? [] ?| | |]; try contradiction; reflexivity).
    assert (G : (POISONED <= w)%N).
    { destruct c as [|? []|? [] ?| | |]; try contradiction; inversion H0; subst; try (match goal with X : would_block _ true = _ |- _ => discriminate X end).
      destruct (N.le_gt_cases POISONED w') as [X|X]; auto. exfalso. apply not_poisoned in X; [contradiction|].
      change (2 ^ 64)%N with (2 * POISONED)%N. rewrite P_val in *. lia. }
    split; [left|split; [exact P2|]].
    + rewrite P1. rewrite !held_mid, !Z. cbn [PLock.nb Nat.add holdsb]. rewrite !map_app. cbn [map fst].
      replace (N.leb POISONED w) with true by (symmetry; apply N.leb_le; auto). apply P_refused. auto.
    + eapply fits_mid; [exact (ai_fits HI)|]. destruct F as [F1 F2]. split; cbn [fst snd script_of] in *; [|left; auto].
      intros m'. rewrite <- F1, Z. destruct m'; reflexivity.
  - (* leave *) destruct (here Hn HI) as (T & F & PK & W & WF & Hb).
    destruct (poison_kept (t' := Busy a (Rel m :: p) false t v r) Hn HI (A_unlock w m)) as [P1 P2].
    split; [right; right|split; [exact P2|]].
    + rewrite !held_mid, !map_app. destruct m; reflexivity.
    + eapply fits_mid; [exact (ai_fits HI)|]. destruct F as [F1 F2]. split; cbn [fst snd script_of] in *; [|exact I].
      intros m'. rewrite <- F1. destruct m, m'; reflexivity.
  - (* leaving *) destruct (here Hn HI) as (T & F & PK & W & WF & Hb).
    destruct (poison_kept (t' := Busy a (Rel m :: p) false t v r) Hn HI H) as [P1 P2].
    assert (Z : forall m, holdsb m c' = holdsb m c).
    { destruct c; try contradiction; inversion H; subst; try contradiction;
      repeat match goal with H : context [unlock_test ?m ?c] |- _ => destruct (unlock_test_cases m c) as [[U _]|[U _]]; rewrite U in *; clear U end; try contradiction;
      intros m1; destruct m0, m1; reflexivity. }
    split; [right; right|split; [exact P2|]].
    + rewrite !held_mid, !Z, P1, !map_app. reflexivity.
    + eapply fits_mid; [exact (ai_fits HI)|]. destruct F as [F1 F2]. split; cbn [fst snd script_of] in *; [|exact I].
      intros m'. rewrite Z, <- F1. reflexivity.
  - (* left *) destruct (here Hn HI) as (T & F & PK & W & WF & Hb).
    destruct (poison_kept (t' := Busy a p false t v r) Hn HI H) as [P1 P2].
    cbn [client_of what todo wf] in WF. apply andb_true_iff in WF as [WF1 WF2]. apply negb_true_iff in WF2.
    destruct F as [F1 F2]. cbn [fst snd script_of] in *.
    assert (Y : forall m', holdsb m' c = mode_eqb m' m).
    { assert (Y1 : holdsb m c = true) by (rewrite F1; cbn [hasO]; destruct m; reflexivity).
      intros m'. destruct c; try contradiction; destruct m0, m, m'; cbn in *; congruence. }
    split; [left|split; [exact P2|]].
    + rewrite P1. rewrite !held_mid, !Y, !map_app. cbn [map fst]. rewrite !Y in W.
      apply P_run.
      * apply Linear.L_act with (x := Rel m); [exact I|]. cbn [act]. destruct m; cbn [mode_eqb PLock.nb holdsb Nat.add] in *.
        -- rewrite Nat.sub_succ, Nat.sub_0_r. reflexivity.
        -- replace (held_by Ex (l1 ++ l2)) with 0; [reflexivity|]. unfold word_ok in W. lia.
      * intros _. cbn [l_sh l_ex]. cbn [holdsb PLock.nb]. lia.
    + eapply fits_mid; [exact (ai_fits HI)|]. destruct T as (_ & T2 & _). split; cbn [fst snd script_of] in *.
      * intros m'. specialize (F1 m'). rewrite Y in F1. cbn [hasO] in F1. destruct m, m'; cbn [mode_eqb holdsb] in *; congruence.
      * destruct p as [|y p]; [cbn; eauto|]. destruct y; cbn; eauto.
  - (* borrow *) destruct (here Hn HI) as (T & F & _). destruct T as (_ & T2 & _). split; [left|split].
    + rewrite (held_same Sh l1 (Busy a p false t v r) (Busy a (x :: p) false t v r)), (held_same Ex l1 (Busy a p false t v r) (Busy a (x :: p) false t v r)).
      rewrite !map_app. cbn [map fst]. apply P_run; [|cbn; auto]. apply Linear.L_act; [destruct x; try contradiction; exact I|apply borrow_act; auto].
    + rewrite (lock_same w l1 _ (Busy a (x :: p) false t v r)). exact (ai_lock HI).
    + eapply fits_mid; [exact (ai_fits HI)|]. eapply fits_pop; [exact T2| |exact F]. destruct x; try contradiction; exact I.
  - (* borrow refused *) destruct (here Hn HI) as (T & F & _). split; [left|split].
    + rewrite (held_same Sh l1 (Busy a (x :: p) true t v r) (Busy a (x :: p) false t v r)), (held_same Ex l1 (Busy a (x :: p) true t v r) (Busy a (x :: p) false t v r)).
      rewrite !map_app. cbn [map fst]. apply P_run; [|cbn; auto]. apply Linear.L_panic; auto. apply borrow_none; auto.
    + rewrite (lock_same w l1 _ (Busy a (x :: p) false t v r)). exact (ai_lock HI).
    + eapply fits_mid; [exact (ai_fits HI)|]. exact F.
  - (* begin *) destruct (here Hn HI) as (T & F & _). destruct T as (_ & T2 & _). split; [left|split].
    + rewrite (held_same Sh l1 (Busy a p false t (Some st0) r) (Busy a (CallBegin :: p) false t v r)), (held_same Ex l1 (Busy a p false t (Some st0) r) (Busy a (CallBegin :: p) false t v r)).
      rewrite !map_app. cbn [map fst]. apply P_run; [|cbn; auto]. apply Linear.L_begin.
    + rewrite (lock_same w l1 _ (Busy a (CallBegin :: p) false t v r)). exact (ai_lock HI).
    + eapply fits_mid; [exact (ai_fits HI)|]. eapply fits_pop; [exact T2|exact I|exact F].
  - (* end *) destruct (here Hn HI) as (T & F & _). destruct T as (_ & T2 & _). split; [left|split].
    + rewrite (held_same Sh l1 (Busy a p false t (Some v) (Some q)) (Busy a (CallEnd :: p) false t (Some v) r)), (held_same Ex l1 (Busy a p false t (Some v) (Some q)) (Busy a (CallEnd :: p) false t (Some v) r)).
      rewrite !map_app. cbn [map fst]. apply P_run; [|cbn; auto]. rewrite <- (map_length fst l1). apply Linear.L_end. auto.
    + rewrite (lock_same w l1 _ (Busy a (CallEnd :: p) false t (Some v) r)). exact (ai_lock HI).
    + eapply fits_mid; [exact (ai_fits HI)|]. eapply fits_pop; [exact T2|exact I|exact F].
  - (* panic inside *) destruct (here Hn HI) as (T & F & _ & _ & WF & _). destruct T as (_ & T2 & _). destruct (modifies (method a)) eqn:M; cbn [a_word a_rd a_wr a_st a_threads a_now a_effects a_returns a_gone a_dropped]; (split; [left|split]).
    + rewrite (held_same Sh l1 (Busy a (CallEnd :: p) true t (Some v) r) (Busy a (CallEnd :: p) false t (Some v) r)), (held_same Ex l1 (Busy a (CallEnd :: p) true t (Some v) r) (Busy a (CallEnd :: p) false t (Some v) r)).
      rewrite !map_app. cbn [map fst].
      pose proof (@Linear.L_end_panic _ _ B (held_by Sh (l1 ++ (Busy a (CallEnd :: p) false t (Some v) r, c) :: l2)) (held_by Ex (l1 ++ (Busy a (CallEnd :: p) false t (Some v) r, c) :: l2)) rd wr st0 (map fst l1) a p t v r (map fst l2) now es rs H) as X. rewrite M in X.
      apply P_run; [exact X|cbn; auto].
    + rewrite (lock_same w l1 _ (Busy a (CallEnd :: p) false t (Some v) r)). exact (ai_lock HI).
    + eapply fits_mid; [exact (ai_fits HI)|]. exact F.
    + rewrite (held_same Sh l1 (Busy a [] true t (Some v) r) (Busy a (CallEnd :: p) false t (Some v) r)), (held_same Ex l1 (Busy a [] true t (Some v) r) (Busy a (CallEnd :: p) false t (Some v) r)).
      rewrite !map_app. cbn [map fst].
      pose proof (@Linear.L_end_panic _ _ B (held_by Sh (l1 ++ (Busy a (CallEnd :: p) false t (Some v) r, c) :: l2)) (held_by Ex (l1 ++ (Busy a (CallEnd :: p) false t (Some v) r, c) :: l2)) rd wr st0 (map fst l1) a p t v r (map fst l2) now es rs H) as X. rewrite M in X.
      apply P_run; [exact X|cbn; auto].
    + rewrite (lock_same w l1 _ (Busy a (CallEnd :: p) false t (Some v) r)). exact (ai_lock HI).
    + eapply fits_mid; [exact (ai_fits HI)|]. pose proof (@read_only_end _ _ M T2) as ->. 
      assert (F' : fits (Busy a [Out Rd] true t (Some v) r, c)) by (eapply fits_pop; [exact T2|exact I|exact F]).
      eapply (@fits_pop a (Out Rd)); [|exact I|exact F']. eapply suffix_tail. exact T2.
  - (* return *) destruct (here Hn HI) as (T & F & _). split; [left|split].
    + rewrite (held_same Sh l1 Linear.Idle (Busy a [] false t v (Some q))), (held_same Ex l1 Linear.Idle (Busy a [] false t v (Some q))).
      rewrite !map_app. cbn [map fst]. apply P_run; [|cbn; auto]. rewrite <- (map_length fst l1). apply Linear.L_return.
    + rewrite (lock_same w l1 _ (Busy a [] false t v (Some q))). exact (ai_lock HI).
    + eapply fits_mid; [exact (ai_fits HI)|]. exact F.
  - (* unwind *) split; [left|split].
    + assert (X : N.leb POISONED (N.lor w POISONED) = true).
      { pose proof (lsteps_ok (ai_lock HI) (linit_ok n Hn)) as [Hl [Hw _]]. unfold lock_of, holders in *. cbn [word clients a_word a_threads] in *.
        assert (W : (w < 2 ^ 64)%N) by (apply word_bound with (2:=Hw); pose proof (count_le Sh (map snd ts)); lia).
        rewrite lor_poison by auto. destruct (N.leb POISONED w) eqn:E; auto. apply N.leb_le. lia. }
      rewrite X. eapply P_unwind with (i := i); [|auto]. cbn [l_threads]. rewrite nth_error_map, H. reflexivity.
    + econstructor; [exact (ai_lock HI)|exact I|]. apply L_poison.
    + exact (ai_fits HI).
  - (* elsewhere *) split; [right; left|split].
    + assert (X : N.leb POISONED (N.lor w POISONED) = true).
      { pose proof (lsteps_ok (ai_lock HI) (linit_ok n Hn)) as [Hl [Hw _]]. unfold lock_of, holders in *. cbn [word clients a_word a_threads] in *.
        assert (W : (w < 2 ^ 64)%N) by (apply word_bound with (2:=Hw); pose proof (count_le Sh (map snd ts)); lia).
        rewrite lor_poison by auto. destruct (N.leb POISONED w) eqn:E; auto. apply N.leb_le. lia. }
      rewrite X. apply P_elsewhere.
    + econstructor; [exact (ai_lock HI)|exact I|]. apply L_poison.
    + exact (ai_fits HI).
Qed.

Lemma sstep_inv st n e s s' : (N.of_nat n < EXCLUSIVE)%N -> ainv st n s -> sstep e s s' -> ainv st n s'.
Proof.
  intros Hn HI HS. destruct (sim Hn HI HS) as (H1 & H2 & H3). constructor; auto.
  destruct H1 as [H1|[H1| ->]]; [eapply pstep_inv; [|exact H1|apply HI]; discriminate|eapply pstep_inv; [|exact H1|apply HI]; discriminate|apply tick_inv, HI].
Qed.
Lemma ainit_inv st n : ainv st n (ainit B st n).
Proof.
  assert (Z : map fst (repeat (@Linear.Idle K V B, Lock.Idle) n) = repeat Linear.Idle n) by (induction n; cbn; congruence).
  assert (Y : map snd (repeat (@Linear.Idle K V B, Lock.Idle) n) = repeat Lock.Idle n) by (clear; induction n; cbn; congruence).
  assert (X : forall m, held_by m (repeat (@Linear.Idle K V B, Lock.Idle) n) = 0).
  { intros m. unfold held_by. rewrite Y. clear. induction n; cbn; auto; destruct m; auto. }
  constructor.
  - unfold proj, ainit. cbn [a_word a_rd a_wr a_st a_threads a_now a_effects a_returns a_gone a_dropped]. rewrite !X, Z. exact (pinit_inv B st n).
  - unfold lock_of, ainit. cbn [a_word a_threads]. rewrite Y. constructor.
  - cbn [ainit a_threads]. apply Forall_forall. intros x Hx. apply repeat_spec in Hx. subst. split; [intros []; reflexivity|left; reflexivity].
Qed.
Lemma ssteps_inv ok st n s : (N.of_nat n < EXCLUSIVE)%N -> ssteps ok (ainit B st n) s -> ainv st n s.
Proof.
  intros Hn H. remember (ainit B st n) as s1 eqn:E. induction H as [s|s s' s'' e H IH He H']; subst; [apply ainit_inv|].
  eapply sstep_inv; eauto.
Qed.

(** ** What the threads see *)
(** C54, down to the atomic operations of the lock.  Any number of threads below 2^62, any interleaving of the loads and
    exchanges of the lock with everything else, any spurious failure of an exchange, any panic and the poison it leaves:
    the calls, ordered by the moments at which they took effect, are a sequential history of the container. *)
Theorem C54_atomic_linearizable : forall (st : St B) n s, (N.of_nat n < 2 ^ 62)%N -> ssteps (fun _ => True) (ainit B st n) s ->
  (forall h, watch B st (map e_ask (a_effects s) ++ h) = map e_saw (a_effects s) ++ watch B (a_st s) h) /\
  run B st (calls_made (a_effects s)) = Ok (a_st s, pairs_back (a_effects s)) /\
  in_order (a_effects s) /\
  Forall (fun e => e_who e < n) (a_effects s) /\ Forall (fun r => r_who r < n) (a_returns s) /\
  forall i, i < n -> exists done pending,
    filter (fun e => e_who e =? i) (a_effects s) = done ++ pending /\
    Forall2 effect_of done (filter (fun r => r_who r =? i) (a_returns s)) /\
    length pending <= 1 /\ (forall c, nth_error (a_threads s) i = Some (Linear.Idle, c) -> pending = []).
Proof.
  intros st n s Hn H. destruct (ssteps_inv Hn H) as [[H1 H2 _ _ _ _ H7] _ _].
  destruct H1 as (_ & _ & A3 & A4 & _ & A6 & A7 & A8). cbn [proj p_sys l_effects l_returns l_st l_threads] in *. rewrite H2 in A7, A8.
  split; [auto|]. split; [auto|]. split; [auto|]. split; [auto|]. split; [auto|].
  intros i Hi. destruct (nth_error (map fst (a_threads s)) i) as [t|] eqn:E; [|apply nth_error_None in E; lia].
  destruct (A6 _ _ E) as (e1 & e2 & E1 & E2 & E3). exists e1, e2. split; [auto|]. split; [auto|].
  rewrite nth_error_map in E. destruct (nth_error (a_threads s) i) as [[t' c']|]; [|discriminate E]. cbn in E. injection E as ->.
  destruct t as [|a p d t0 v [q|]]; cbn in E3.
  - subst. cbn. auto.
  - destruct E3 as (e & -> & _). split; [cbn; auto|]. intros c X. discriminate X.
  - subst. cbn. auto.
Qed.
(** Calls that are inside the wrapped container at the same moment are calls that only read it. *)
Theorem C54_atomic_calls_do_not_overlap : forall (st : St B) n s i j t u a b c d, (N.of_nat n < 2 ^ 62)%N -> ssteps (fun _ => True) (ainit B st n) s ->
  nth_error (a_threads s) i = Some (t, c) -> nth_error (a_threads s) j = Some (u, d) -> i <> j ->
  inside t a -> inside u b -> modifies (method a) = false /\ modifies (method b) = false.
Proof.
  assert (X : forall st n s i j a p t v r b p' t' v' r' c d, (N.of_nat n < 2 ^ 62)%N -> ssteps (fun _ => True) (ainit B st n) s -> i <> j ->
    nth_error (a_threads s) i = Some (Busy a (CallEnd :: p) false t v r, c) -> nth_error (a_threads s) j = Some (Busy b (CallEnd :: p') false t' v' r', d) -> modifies (method a) = true -> False).
  { intros st n s i j a p t v r b p' t' v' r' c d Hn H Hij Hi Hj M. destruct (ssteps_inv Hn H) as [[(HQ & _) _ _ _ _ _ _] _ _].
    unfold qof in HQ. cbn [proj p_sys l_sh l_ex l_rd l_wr l_threads] in HQ.
    destruct (nth_error_split _ _ Hi) as (l1 & l2 & E & L). rewrite E in HQ. rewrite !map_app in HQ. cbn [map fst client_of] in HQ.
    eapply no_two with (d := mkClient (method b) (CallEnd :: p') false); [exact HQ| |eexists; reflexivity|eexists; reflexivity|exact M].
    assert (Y : List.In (Busy b (CallEnd :: p') false t' v' r', d) (l1 ++ l2)).
    { rewrite E in Hj. destruct (nth_replace _ _ (Busy b (CallEnd :: p') false t' v' r', d) _ _ Hj) as [[-> _]|[_ _]]; [congruence|].
      assert (Z : List.In (Busy b (CallEnd :: p') false t' v' r', d) (l1 ++ l2) \/ j = length l1).
      { destruct (Nat.lt_trichotomy j (length l1)) as [X|[X|X]]; [|auto|].
        - left. rewrite nth_error_app1 in Hj by auto. apply in_or_app. left. eapply nth_error_In; eauto.
        - left. rewrite nth_error_app2 in Hj by lia. destruct (j - length l1) as [|k] eqn:D; [lia|]. cbn in Hj. apply in_or_app. right. eapply nth_error_In; eauto. }
      destruct Z; auto. congruence. }
    apply in_app_or in Y. rewrite !map_map. apply in_or_app. destruct Y as [Y|Y]; [left|right]; apply in_map_iff; eexists; (split; [|exact Y]); reflexivity. }
  intros st n s i j t u a b c d Hn H Hi Hj Hij (p & t0 & v & r & ->) (p' & t0' & v' & r' & ->). split.
  - destruct (modifies (method a)) eqn:M; auto. exfalso. eapply X with (i := i) (j := j); eauto.
  - destruct (modifies (method b)) eqn:M; auto. exfalso. eapply X with (i := j) (j := i); eauto.
Qed.

(** ** Nobody waits for ever *)
Lemma lock_moves e (s s' : asys) : sstep e s s' -> lock_of s' = lock_of s \/ Lock.lstep e (lock_of s) (lock_of s').
Proof.
  assert (X : forall spur w w' (l1 l2 : list client) t t' c c', astep spur w c w' c' ->
    Lock.lstep (kind spur) (mkSys w (map snd (l1 ++ (t, c) :: l2))) (mkSys w' (map snd (l1 ++ (t', c') :: l2)))).
  { intros. rewrite !map_app. cbn [map snd]. apply L_client. auto. }
  assert (Y : forall w w' (l1 l2 : list client) t t' c c', astep false w c w' c' ->
    Lock.lstep Normal (mkSys w (map snd (l1 ++ (t, c) :: l2))) (mkSys w' (map snd (l1 ++ (t', c') :: l2)))) by (intros; apply (X false); auto).
  intros H. inversion H; subst; unfold lock_of; cbn [a_word a_threads].
  - left. apply lock_same.
  - right. apply Y. constructor.
  - right. apply X. auto.
  - right. apply X. auto.
  - right. apply X. auto.
  - right. apply X. auto.
  - right. apply Y. constructor.
  - right. apply X. auto.
  - right. apply X. auto.
  - left. apply lock_same.
  - left. apply lock_same.
  - left. apply lock_same.
  - left. apply lock_same.
  - destruct (modifies (method a)); cbn [a_word a_threads]; left; apply lock_same.
  - left. apply lock_same.
  - right. apply L_poison.
  - right. apply L_poison.
Qed.
(** As long as no owner of a clone unwinds from a panic the lock is not poisoned and no push is refused. *)
Theorem C66_atomic_no_panic_no_loss : forall (st : St B) n s, (N.of_nat n < 2 ^ 62)%N -> ssteps (fun e => e <> Poison) (ainit B st n) s ->
  (a_word s < POISONED)%N /\ a_dropped s = [].
Proof.
  intros st n s Hn H.
  enough (P : (a_word s < POISONED)%N).
  { split; [exact P|]. destruct (ssteps_inv Hn H) as [[_ _ _ _ _ H6 _] _ _]. cbn [proj p_poison p_dropped] in H6.
    apply N.leb_gt in P. destruct (a_dropped s); auto. rewrite H6 in P by discriminate. discriminate P. }
  remember (ainit B st n) as s1 eqn:E. induction H as [s|s s' s'' e H IH He H']; subst; [reflexivity|]. specialize (IH eq_refl).
  pose proof (ssteps_inv Hn H) as HI. pose proof (lsteps_ok (ai_lock HI) (linit_ok n Hn)) as [_ [_ Hp]].
  destruct (lock_moves H') as [L|L]; [injection L as -> _; exact IH|].
  unfold lock_of in *. cbn [clients] in Hp. inversion L; subst; [|destruct He; reflexivity].
  match goal with Hc : _ = map snd (a_threads s') |- _ => rewrite <- Hc in Hp end.
  apply Forall_app in Hp as [_ Hp]. inversion Hp; subst. eapply no_new_poison; eauto.
Qed.
(** Without spurious failures: the word of a lock that is not poisoned says who holds it. *)
Definition exact_or_poisoned (n : nat) (s : asys) : Prop := (POISONED <= a_word s)%N \/ Lock.lsteps quiet (Lock.linit n) (lock_of s).
Lemma quiet_kept st n e s s' : (N.of_nat n < EXCLUSIVE)%N -> ainv st n s -> e <> Spurious -> sstep e s s' -> exact_or_poisoned n s -> exact_or_poisoned n s'.
Proof.
  intros Hn HI He HS [P|Q]; pose proof (lock_moves HS) as L; pose proof (sstep_inv Hn HI HS) as HI'.
  - left. apply (poisoned_iff Hn (ai_lock HI)) in P. apply (poisoned_iff Hn (ai_lock HI')). destruct L as [-> |L]; [exact P|].
    eapply (C28_poisoned_stays_poisoned Hn (ai_lock HI) P). econstructor; [constructor|exact I|exact L].
  - destruct L as [E|L]; [right; rewrite E; exact Q|]. destruct e; [|congruence|].
    + right. econstructor; [exact Q|reflexivity|exact L].
    + left. apply (poisoned_iff Hn (ai_lock HI')). unfold poisoned.
      assert (E : word (lock_of s') = N.lor (a_word s) POISONED) by (inversion L as [spur w w' l1 p p' l2 HA E1 E2 E3|w l E1 E2]; [destruct spur; discriminate|cbn; auto]).
      rewrite E. unfold POISONED at 2. rewrite land_pow2, N.lor_spec. intros X. apply orb_false_iff in X as [_ X]. discriminate X.
Qed.
Lemma ssteps_quiet st n s : (N.of_nat n < EXCLUSIVE)%N -> ssteps (fun e => e <> Spurious) (ainit B st n) s -> ainv st n s /\ exact_or_poisoned n s.
Proof.
  intros Hn H. remember (ainit B st n) as s1 eqn:E. induction H as [s|s s' s'' e H IH He H']; subst.
  - split; [apply ainit_inv|]. right. unfold lock_of, ainit. cbn [a_word a_threads].
    replace (map snd (repeat (@Linear.Idle K V B, Lock.Idle) n)) with (repeat Lock.Idle n) by (clear; induction n; cbn; congruence). constructor.
  - destruct (IH eq_refl) as [I1 I2]. split; [eapply sstep_inv; eauto|eapply quiet_kept; eauto].
Qed.

(** The word of the lock when nobody panicked and no exchange failed spuriously: the number of threads that hold it
    shared, or the exclusive bit; so 0 whenever no thread is in a call. *)
Theorem C54_atomic_lock_is_holders : forall (st : St B) n s, (N.of_nat n < 2 ^ 62)%N -> ssteps (fun e => e <> Spurious) (ainit B st n) s ->
  (a_word s < POISONED)%N ->
  let readers := length (filter (fun c => hasO Sh (script_of (fst c))) (a_threads s)) in
  let writers := length (filter (fun c => hasO Ex (script_of (fst c))) (a_threads s)) in
  (a_word s = N.of_nat readers /\ writers = 0) \/ (a_word s = EXCLUSIVE /\ readers = 0 /\ writers = 1).
Proof.
  intros st n s Hn H P. destruct (ssteps_quiet Hn H) as [HI [Q|Q]]; [lia|].
  pose proof (C28_state_is_holders_partial Hn Q) as X. unfold holders, lock_of in X. cbn [word clients] in X.
  assert (E : forall m, length (filter (holdsb m) (map snd (a_threads s))) = length (filter (fun c => hasO m (script_of (fst c))) (a_threads s))).
  { intros m. pose proof (ai_fits HI) as F. clear - F. induction F as [|[t c] l [F1 F2] _ IH]; cbn [map filter length snd fst] in *; auto.
    rewrite F1. destruct (hasO m (script_of t)); cbn [length]; auto. }
  rewrite !E in X. exact X.
Qed.

(** *** Driving one thread *)
Lemma finishes_trans (s s' s'' : asys) : finishes s s' -> finishes s' s'' -> finishes s s''.
Proof. intros H1 H2. revert H1. induction H2 as [s'|s' s1 s2 e H2 IH He HS HN]; intros H1; [exact H1|]. eapply fi_step; [apply IH; exact H1|exact He|exact HS|exact HN]. Qed.
Lemma finishes_one e (s s' : asys) : e <> Spurious -> sstep e s s' -> ~ calls_anew s s' -> finishes s s'.
Proof. intros. econstructor; [constructor|..]; eauto. Qed.
Lemma not_anew w rd wr s0 (l1 : list client) x y l2 now es rs g ds w' rd' wr' s0' now' es' rs' g' ds' : fst x <> Linear.Idle ->
  ~ calls_anew (mkA w rd wr s0 (l1 ++ x :: l2) now es rs g ds) (mkA w' rd' wr' s0' (l1 ++ y :: l2) now' es' rs' g' ds').
Proof.
  intros Hx (i & c & c' & H1 & H2 & H3). cbn [a_threads] in *. destruct (Nat.eq_dec i (length l1)) as [->|N].
  - rewrite nth_mid in H1. injection H1 as ->. apply Hx. reflexivity.
  - pose proof (@same_len_mid _ l1 l2 x _ i H1 N y) as X. rewrite X in H2. injection H2 as <-. apply H3. reflexivity.
Qed.
Lemma finishes_mid (s : asys) e w rd wr s0 (l1 : list client) x y l2 now es rs g ds w' rd' wr' s0' now' es' rs' g' ds' :
  finishes s (mkA w rd wr s0 (l1 ++ x :: l2) now es rs g ds) -> e <> Spurious -> fst x <> Linear.Idle ->
  sstep e (mkA w rd wr s0 (l1 ++ x :: l2) now es rs g ds) (mkA w' rd' wr' s0' (l1 ++ y :: l2) now' es' rs' g' ds') ->
  finishes s (mkA w' rd' wr' s0' (l1 ++ y :: l2) now' es' rs' g' ds').
Proof. intros. econstructor; eauto. apply not_anew; auto. Qed.
Lemma finishes_inv st n s s' : (N.of_nat n < EXCLUSIVE)%N -> finishes s s' -> ainv st n s -> exact_or_poisoned n s -> ainv st n s' /\ exact_or_poisoned n s'.
Proof.
  intros Hn H. induction H as [|s s1 s2 e H IH He HS HN]; auto. intros I1 I2. destruct (IH I1 I2) as [J1 J2].
  split; [eapply sstep_inv; eauto|eapply quiet_kept; eauto].
Qed.

(** unlock ends, from wherever it is. *)
Lemma unlocks w rd wr s0 (l1 : list client) a m p t v r c l2 now es rs g ds : holds m c ->
  exists w' now', finishes (mkA w rd wr s0 (l1 ++ (Busy a (Rel m :: p) false t v r, c) :: l2) now es rs g ds)
                           (mkA w' rd wr s0 (l1 ++ (Busy a p false t v r, Lock.Idle) :: l2) now' es rs g ds).
Proof.
  intros Hc. set (s := mkA w rd wr s0 (l1 ++ (Busy a (Rel m :: p) false t v r, c) :: l2) now es rs g ds).
  assert (D2 : forall x now1, finishes s (mkA w rd wr s0 (l1 ++ (Busy a (Rel m :: p) false t v r, Unl2 m x) :: l2) now1 es rs g ds) ->
    exists w' now', finishes s (mkA w' rd wr s0 (l1 ++ (Busy a p false t v r, Lock.Idle) :: l2) now' es rs g ds)).
  { assert (D3 : forall now1, finishes s (mkA w rd wr s0 (l1 ++ (Busy a (Rel m :: p) false t v r, Unl2 m w) :: l2) now1 es rs g ds) ->
      exists w' now', finishes s (mkA w' rd wr s0 (l1 ++ (Busy a p false t v r, Lock.Idle) :: l2) now' es rs g ds)).
    { intros now1 F. exists (w - 1)%N, (S now1). eapply finishes_mid with (e := kind false); [exact F|discriminate|discriminate|]. eapply S_left; [apply A_unl2_ok; reflexivity|exact I]. }
    intros x now1 F. destruct (N.eq_dec w x) as [<-|Nx]; [eapply D3; eauto|].
    destruct (unlock_test_cases m w) as [[U _]|[U _]].
    - exists w, (S now1). eapply finishes_mid with (e := kind false); [exact F|discriminate|discriminate|]. eapply S_left; [|exact I]. rewrite <- U. apply A_unl2_fail; auto.
    - apply (D3 (S now1)). eapply finishes_mid with (e := kind false); [exact F|discriminate|discriminate|]. eapply S_leaving; [|exact I|exact I]. rewrite <- U. apply A_unl2_fail; auto. }
  assert (D1 : forall now1, finishes s (mkA w rd wr s0 (l1 ++ (Busy a (Rel m :: p) false t v r, Unl1 m) :: l2) now1 es rs g ds) ->
    exists w' now', finishes s (mkA w' rd wr s0 (l1 ++ (Busy a p false t v r, Lock.Idle) :: l2) now' es rs g ds)).
  { intros now1 F. destruct (N.eq_dec w EXCLUSIVE) as [E|Nx].
    - exists 0%N, (S now1). eapply finishes_mid with (e := kind false); [exact F|discriminate|discriminate|]. eapply S_left; [|exact I].
      replace Lock.Idle with (unlock_test m EXCLUSIVE) by (unfold unlock_test; rewrite N.eqb_refl, orb_true_r; reflexivity). apply A_unl1_ok; auto.
    - destruct (unlock_test_cases m w) as [[U _]|[U _]].
      + exists w, (S now1). eapply finishes_mid with (e := kind false); [exact F|discriminate|discriminate|]. eapply S_left; [|exact I]. rewrite <- U. apply A_unl1_fail; auto.
      + apply (D2 w (S now1)). eapply finishes_mid with (e := kind false); [exact F|discriminate|discriminate|]. eapply S_leaving; [|exact I|exact I]. rewrite <- U. apply A_unl1_fail; auto. }
  destruct Hc as [->|[->|[x ->]]].
  - apply (D1 (S now)). eapply finishes_mid with (e := Normal); [constructor|discriminate|discriminate|]. apply S_leave.
  - apply (D1 now). constructor.
  - apply (D2 x now). constructor.
Qed.

(** lock ends when the lock is free, ... *)
Definition at_lock (m : mode) (c : pc) : Prop := c = Lock.Idle \/ c = Load m true \/ exists x, c = Cas m true x.
Lemma to_load w rd wr s0 (l1 : list client) a m p t v r c l2 now es rs g ds : at_lock m c ->
  (exists now', finishes (mkA w rd wr s0 (l1 ++ (Busy a (Acq m :: p) false t v r, c) :: l2) now es rs g ds)
                       (mkA w rd wr s0 (l1 ++ (Busy a (Acq m :: p) false t v r, Load m true) :: l2) now' es rs g ds)) \/
  (exists x, c = Cas m true x /\ w = cas_expect m x).
Proof.
  intros [->|[->|[x ->]]].
  - left. eexists. eapply finishes_mid with (e := Normal); [constructor|discriminate|discriminate|]. apply S_enter.
  - left. eexists. constructor.
  - destruct (N.eq_dec w (cas_expect m x)) as [E|E]; [right; eauto|]. left. eexists.
    eapply finishes_mid with (e := kind false); [constructor|discriminate|discriminate|]. eapply S_try; [|exact I|exact I].
    change (Load m true) with (would_block m true). apply A_cas_fail. auto.
Qed.
Lemma acquires w rd wr s0 (l1 : list client) a m p t v r c l2 now es rs g ds : at_lock m c -> (w < EXCLUSIVE)%N -> (m = Ex -> w = 0%N) ->
  exists w' now', finishes (mkA w rd wr s0 (l1 ++ (Busy a (Acq m :: p) false t v r, c) :: l2) now es rs g ds)
                           (mkA w' rd wr s0 (l1 ++ (Busy a p false t v r, Hold m) :: l2) now' es rs g ds).
Proof.
  intros Hc Hw Hm. destruct (@to_load w rd wr s0 l1 a m p t v r c l2 now es rs g ds Hc) as [[now1 F]|(x & -> & E)].
  - exists (cas_new m w), (S (S now1)).
    eapply finishes_mid with (e := kind false) (x := (Busy a (Acq m :: p) false t v r, Cas m true w)) (w := w); [|discriminate|discriminate|].
    + eapply finishes_mid with (e := kind false); [exact F|discriminate|discriminate|]. eapply S_try; [|exact I|exact I].
      assert (B2 : (w < POISONED)%N) by (rewrite P_val, E_val in *; lia). apply A_load_go.
      * apply not_poisoned; auto. change (2 ^ 64)%N with (2 * POISONED)%N. rewrite P_val in *; lia.
      * apply not_exclusive; auto.
    + eapply S_got; [|exact I]. apply A_cas_ok. destruct m; cbn; auto.
  - exists (cas_new m x), (S now). eapply finishes_mid with (e := kind false); [constructor|discriminate|discriminate|]. eapply S_got; [|exact I]. apply A_cas_ok. auto.
Qed.
(** ... or poisoned. *)
Lemma refused w rd wr s0 (l1 : list client) a m p t v r c l2 now es rs g ds : at_lock m c -> (POISONED <= w)%N -> (w < 2 ^ 64)%N -> pc_ok c ->
  exists now' ds' t', (t' = Linear.Idle \/ t' = Busy a (Acq m :: p) true t v r) /\
    finishes (mkA w rd wr s0 (l1 ++ (Busy a (Acq m :: p) false t v r, c) :: l2) now es rs g ds)
             (mkA w rd wr s0 (l1 ++ (t', Lock.Idle) :: l2) now' es rs g ds').
Proof.
  intros Hc Hw Hb PK. destruct (@to_load w rd wr s0 l1 a m p t v r c l2 now es rs g ds Hc) as [[now1 F]|(x & -> & E)].
  - assert (A : astep false w (Load m true) w Lock.Idle).
    { apply A_load_poisoned. intros X. apply not_poisoned in X; auto. rewrite P_val in *. lia. }
    assert (D : (exists vs, a = AskPush vs) \/ forall vs, a <> AskPush vs) by (destruct a; eauto; right; intros; discriminate).
    destruct D as [[vs ->]|D].
    + do 2 eexists. exists Linear.Idle. split; [auto|]. eapply finishes_mid with (e := kind false); [exact F|discriminate|discriminate|]. eapply S_push_refused; [exact A|exact I].
    + do 2 eexists. eexists. split; [right; reflexivity|]. eapply finishes_mid with (e := kind false); [exact F|discriminate|discriminate|]. eapply S_refused; [exact D|exact A|exact I].
  - exfalso. cbn [pc_ok] in PK. rewrite P_val, E_val in *. destruct m; cbn [cas_expect] in E; lia.
Qed.

(** What is left to do by the calls under way (as [work], Crash.v). *)
Definition left_to_do (s : asys) : nat := work_from (a_gone s) 0 (map fst (a_threads s)).
Lemma left_mid w rd wr s0 (l1 : list client) t c l2 now es rs g ds :
  left_to_do (mkA w rd wr s0 (l1 ++ (t, c) :: l2) now es rs g ds) =
  work_from g 0 (map fst l1) + (weigh g (length l1) t + work_from g (S (length l1)) (map fst l2)).
Proof. unfold left_to_do. cbn [a_gone a_threads]. rewrite map_app. cbn [map fst]. rewrite work_mid, map_length. reflexivity. Qed.
Lemma weigh_live g i a p t v r : weigh (B := B) g i (Busy a p false t v r) = length p + 2. Proof. reflexivity. Qed.

Definition advances (s : asys) : Prop := exists s', finishes s s' /\ left_to_do s' < left_to_do s.
(** A live thread that is not waiting for the lock can go on. *)
Lemma advances_live st n s i a p t v r c : (N.of_nat n < EXCLUSIVE)%N -> ainv st n s -> nth_error (a_threads s) i = Some (Busy a p false t v r, c) ->
  (forall m q, p <> Acq m :: q) -> advances s.
Proof.
  intros Hn HI E Hx. destruct s as [w rd wr s0 ts now es rs g ds]. cbn [a_threads] in E. destruct (nth_error_split _ _ E) as (l1 & l2 & -> & L).
  destruct (here Hn HI) as ((T1 & T2 & T3 & T4) & (F1 & F2) & PK & W & WF & Hb). cbn [fst snd script_of] in *.
  assert (one : forall e w' rd' wr' s0' t' now' es' rs' ds', e <> Spurious ->
    sstep e (mkA w rd wr s0 (l1 ++ (Busy a p false t v r, c) :: l2) now es rs g ds) (mkA w' rd' wr' s0' (l1 ++ (t', c) :: l2) now' es' rs' g ds') ->
    weigh g (length l1) t' < length p + 2 -> advances (mkA w rd wr s0 (l1 ++ (Busy a p false t v r, c) :: l2) now es rs g ds)).
  { intros e w' rd' wr' s0' t' now' es' rs' ds' He HS HW. exists (mkA w' rd' wr' s0' (l1 ++ (t', c) :: l2) now' es' rs' g ds'). split.
    - eapply finishes_one; eauto. apply not_anew. discriminate.
    - rewrite !left_mid, weigh_live. lia. }
  destruct p as [|x p].
  - assert (Hr : exists q, r = Some q).
    { pose proof (pi_answered (ai_p HI)) as F. cbn [proj p_sys l_threads a_threads] in F. rewrite Forall_forall in F.
      specialize (F (Busy a [] false t v r)). cbn in F. destruct r; eauto. exfalso. apply F; auto.
      rewrite map_app. apply in_or_app. right. left. reflexivity. }
    destruct Hr as [q ->]. eapply one with (e := Normal); [discriminate|apply S_return|]. cbn. lia.
  - destruct x as [m|m|acc|acc| | | | |].
    + destruct (Hx m p). reflexivity.
    + assert (Hh : holds m c) by (apply holdsb_iff; rewrite F1; cbn [hasO]; destruct m; reflexivity).
      destruct (@unlocks w rd wr s0 l1 a m p t v r c l2 now es rs g ds Hh) as (w' & now' & F).
      eexists. split; [exact F|]. rewrite !left_mid, !weigh_live. cbn [length]. lia.
    + destruct (act (In acc) 0 0 rd wr) as [[[[sh' ex'] rd'] wr']|] eqn:Ea.
      * assert (Hz : sh' = 0 /\ ex' = 0) by (destruct acc; cbn in Ea; destruct (_ =? 0); cbn in Ea; try discriminate; try (destruct (_ =? 0); cbn in Ea; try discriminate); inversion Ea; auto).
        destruct Hz as [-> ->]. eapply one with (e := Normal); [discriminate|apply S_borrow; [exact I|exact Ea]|]. rewrite weigh_live. cbn [length]. lia.
      * eapply one with (e := Normal); [discriminate|apply S_panic; [reflexivity|exact Ea]|].
        pose proof (@weigh_dead K V B g (length l1) a (In acc :: p) t v r) as X. cbn [length]. lia.
    + destruct acc; (eapply one with (e := Normal); [discriminate|apply S_borrow; [exact I|reflexivity]|]; rewrite weigh_live; cbn [length]; lia).
    + eapply one with (e := Normal); [discriminate|apply S_begin|]. rewrite weigh_live. cbn [length]. lia.
    + destruct (T3 _ eq_refl eq_refl) as (v' & -> & _). destruct (answer B v' a) as [[st' q]|] eqn:Ea.
      * eapply one with (e := Normal); [discriminate|eapply S_end; exact Ea|]. rewrite weigh_live. cbn [length]. lia.
      * pose proof (@S_end_panic K V B w rd wr s0 l1 l2 a p t v' r c now es rs g ds Ea) as X. destruct (modifies (method a)).
        -- eapply one with (e := Normal); [discriminate|exact X|]. pose proof (@weigh_dead K V B g (length l1) a (CallEnd :: p) t (Some v') r) as Y. cbn [length]. lia.
        -- eapply one with (e := Normal); [discriminate|exact X|]. pose proof (@weigh_dead K V B g (length l1) a [] t (Some v') r) as Y. cbn [length]. lia.
    + exfalso. apply suffix_in in T2. destruct a; unfold suffixes in T2; cbn in T2; repeat match goal with H : _ \/ _ |- _ => destruct H as [H|H] end; try discriminate; contradiction.
    + exfalso. apply suffix_in in T2. destruct a; unfold suffixes in T2; cbn in T2; repeat match goal with H : _ \/ _ |- _ => destruct H as [H|H] end; try discriminate; contradiction.
    + exfalso. apply suffix_in in T2. destruct a; unfold suffixes in T2; cbn in T2; repeat match goal with H : _ \/ _ |- _ => destruct H as [H|H] end; try discriminate; contradiction.
Qed.
(** A thread that panicked drops its clone. *)
Lemma advances_dead s i a p t v r c : nth_error (a_threads s) i = Some (Busy a p true t v r, c) -> ~ List.In i (a_gone s) -> advances s.
Proof.
  intros E Hg. destruct s as [w rd wr s0 ts now es rs g ds]. cbn [a_threads a_gone] in *.
  exists (mkA (N.lor w POISONED) rd wr s0 ts now es rs (g ++ [i]) ds). split.
  - eapply finishes_one with (e := Poison); [discriminate|eapply S_unwind; eauto|].
    intros (j & c0 & c' & H1 & H2 & H3). cbn [a_threads] in *. rewrite H1 in H2. injection H2 as <-. apply H3. reflexivity.
  - destruct (nth_error_split _ _ E) as (l1 & l2 & -> & L). rewrite !left_mid. rewrite work_gone by (intros k; rewrite map_length; lia). rewrite work_gone by (intros k; lia).
    cbn [weigh]. rewrite <- L. rewrite existsb_app. cbn [existsb]. rewrite Nat.eqb_refl, orb_true_r.
    assert (X : existsb (Nat.eqb (length l1)) g = false).
    { destruct (existsb _ g) eqn:X; auto. exfalso. apply existsb_exists in X as (y & Hy & Ey). apply Nat.eqb_eq in Ey. subst. auto. }
    rewrite X. lia.
Qed.
Lemma advances_holder st n s m : (N.of_nat n < EXCLUSIVE)%N -> ainv st n s -> (a_word s < POISONED)%N -> held_by m (a_threads s) <> 0 -> advances s.
Proof.
  intros Hn HI Hp Hh.
  assert (X : exists i t c, nth_error (a_threads s) i = Some (t, c) /\ holdsb m c = true).
  { unfold held_by in Hh. destruct (filter (holdsb m) (map snd (a_threads s))) as [|c f] eqn:E; [cbn in Hh; lia|].
    assert (X : List.In c (filter (holdsb m) (map snd (a_threads s)))) by (rewrite E; left; auto).
    apply filter_In in X as [X1 X2]. apply in_map_iff in X1 as ([t c'] & <- & X3). apply In_nth_error in X3 as [i Hi]. eauto. }
  destruct X as (i & t & c & Hi & Hc). pose proof (ai_fits HI) as F. rewrite Forall_forall in F. destruct (F _ (nth_error_In _ _ Hi)) as [F1 F2]. cbn [fst snd] in *.
  rewrite F1 in Hc. destruct t as [|a p d t v r]; [discriminate Hc|]. cbn [script_of] in *. destruct d.
  - eapply advances_dead; eauto. intros Hg.
    assert (Y : N.leb POISONED (a_word s) = true).
    { pose proof (pi_poison (ai_p HI)) as P. cbn [proj p_poison p_gone] in P. apply P. intros E. rewrite E in Hg. destruct Hg. }
    apply N.leb_le in Y. lia.
  - eapply advances_live; eauto. intros m' q ->.
    destruct (pi_lin (ai_p HI)) as (_ & HT & _). rewrite Forall_forall in HT. cbn [proj p_sys l_threads] in HT.
    pose proof (HT _ (List.in_map fst _ _ (nth_error_In _ _ Hi))) as (_ & T2 & _).
    destruct (waiting_free T2) as [_ W]. rewrite <- W in Hc. rewrite (proj1 (script_free (method a) m Rd)) in Hc. discriminate Hc.
Qed.
Lemma advances_busy st n s i t c : (N.of_nat n < EXCLUSIVE)%N -> ainv st n s -> exact_or_poisoned n s -> nth_error (a_threads s) i = Some (t, c) -> live_busy t -> advances s.
Proof.
  intros Hn HI HQ Hi Hl. destruct t as [|a p [] t v r]; try contradiction.
  assert (D : (exists m q, p = Acq m :: q) \/ forall m q, p <> Acq m :: q) by (destruct p as [|[] ?]; try (right; intros; discriminate); left; eauto).
  destruct D as [(m & q & ->)|D]; [|eapply advances_live; eauto].
  pose proof HI as HI0. destruct s as [w rd wr s0 ts now es rs g ds]. cbn [a_threads] in Hi. destruct (nth_error_split _ _ Hi) as (l1 & l2 & -> & L).
  destruct (here Hn HI) as ((T1 & T2 & T3 & T4) & (F1 & F2) & PK & W & WF & Hb). cbn [fst snd script_of] in *. cbn [shape] in F2.
  assert (Z : forall m, holdsb m c = false) by (destruct F2 as [->|[->|[x ->]]]; intros []; reflexivity).
  rewrite !Z in W. cbn [PLock.nb Nat.add] in W.
  destruct (N.lt_ge_cases w POISONED) as [P|P].
  - destruct HQ as [HQ|HQ]; [cbn [a_word] in HQ; lia|]. pose proof (quiet_exact Hn HQ) as (_ & EX & _).
    unfold exact, holders, lock_of in EX. cbn [word clients a_word a_threads] in EX.
    change (length (filter (holdsb Sh) (map snd (l1 ++ (Busy a (Acq m :: q) false t v r, c) :: l2)))) with (held_by Sh (l1 ++ (Busy a (Acq m :: q) false t v r, c) :: l2)) in EX.
    change (length (filter (holdsb Ex) (map snd (l1 ++ (Busy a (Acq m :: q) false t v r, c) :: l2)))) with (held_by Ex (l1 ++ (Busy a (Acq m :: q) false t v r, c) :: l2)) in EX.
    destruct (Nat.eq_dec (held_by Ex (l1 ++ (Busy a (Acq m :: q) false t v r, c) :: l2)) 0) as [E0|E0]; [|eapply advances_holder with (m := Ex); eauto].
    assert (Hw : w = N.of_nat (held_by Sh (l1 ++ (Busy a (Acq m :: q) false t v r, c) :: l2))) by lia.
    assert (D : (m = Ex /\ held_by Sh (l1 ++ (Busy a (Acq m :: q) false t v r, c) :: l2) <> 0) \/ (m = Ex -> w = 0%N)).
    { destruct m; [right; discriminate|]. destruct (Nat.eq_dec (held_by Sh (l1 ++ (Busy a (Acq Ex :: q) false t v r, c) :: l2)) 0); [right; lia|auto]. }
    destruct D as [[-> D]|D]; [eapply advances_holder with (m := Sh); eauto|].
    assert (Hw' : (w < EXCLUSIVE)%N) by (rewrite Hw, held_mid, Z; cbn [PLock.nb Nat.add]; lia).
    destruct (@acquires w rd wr s0 l1 a m q t v r c l2 now es rs g ds F2 Hw' D) as (w' & now' & F).
    eexists. split; [exact F|]. rewrite !left_mid, !weigh_live. cbn [length]. lia.
  - assert (Hb64 : (w < 2 ^ 64)%N) by (eapply word_bound; [|exact W]; lia).
    destruct (@refused w rd wr s0 l1 a m q t v r c l2 now es rs g ds F2 P Hb64 PK) as (now' & ds' & t' & Ht & F).
    eexists. split; [exact F|]. rewrite !left_mid, !weigh_live. cbn [length].
    destruct Ht as [->| ->]; [cbn; lia|]. pose proof (@weigh_dead K V B g (length l1) a (Acq m :: q) t v r) as X. lia.
Qed.

(** C66, down to the atomic operations, when no exchange fails spuriously: at every moment, whatever the threads that
    panicked, the threads that have a call under way can all finish it (in answering or in panicking), without a new call
    by anybody.  (With spurious failures it is false: C28_spurious_failure_refuted.) *)
Theorem C66_atomic_can_finish : forall (st : St B) n s, (N.of_nat n < 2 ^ 62)%N -> ssteps (fun e => e <> Spurious) (ainit B st n) s ->
  exists s', finishes s s' /\ Forall (fun c => fst c = Linear.Idle \/ has_panicked (fst c)) (a_threads s').
Proof.
  intros st n s Hn H. destruct (ssteps_quiet Hn H) as [HI HQ]. clear H.
  remember (left_to_do s) as k eqn:Ek. revert s Ek HI HQ. induction k as [k IH] using lt_wf_ind. intros s -> HI HQ.
  assert (D : (exists i t c, nth_error (a_threads s) i = Some (t, c) /\ live_busy t) \/ Forall (fun c => fst c = Linear.Idle \/ has_panicked (fst c)) (a_threads s)).
  { clear. induction (a_threads s) as [|[t c] l IHl]; [right; constructor|]. destruct t as [|a p [] t v r].
    - destruct IHl as [(i & t & c' & H1 & H2)|F]; [left; exists (S i); eauto|right; constructor; cbn; auto].
    - destruct IHl as [(i & t' & c' & H1 & H2)|F]; [left; exists (S i); eauto|right; constructor; cbn; auto].
    - left. exists 0. do 2 eexists. split; [reflexivity|exact I]. }
  destruct D as [(i & t & c & Hi & Hl)|F]; [|exists s; split; [constructor|auto]].
  destruct (advances_busy i Hn HI HQ Hi Hl) as (s1 & F & L). destruct (finishes_inv Hn F HI HQ) as [HI1 HQ1].
  destruct (IH _ L s1 eq_refl HI1 HQ1) as (s2 & F2 & G). exists s2. split; [eapply finishes_trans; eauto|auto].
Qed.
End Proof.

(** The architectures, shared by threads down to the atomic operations of the lock. *)
Theorem C54_atomic_nothing_lost : forall K (OK : Ord K) (EK : OrdEq K) V dup (a : arch K V) n s, (N.of_nat n < 2 ^ 62)%N ->
  ssteps (fun _ => True) (ainit (block a) (init a) n) s -> used dup a (calls_made (a_effects s)) ->
  Permutation (pairs_back (a_effects s) ++ held a (a_st s)) (pairs_given (a_effects s)) /\
  (forall k, contains (block a) (a_st s) k = Ok (has_key k (held a (a_st s)))) /\
  size (block a) (a_st s) <= capacity (block a) (a_st s) /\ capacity (block a) (a_st s) = leaves_capacity a.
Proof.
  intros K OK EK V dup a n s Hn HL HU. destruct (C54_atomic_linearizable Hn HL) as (_ & HR & _).
  destruct (used_run HU) as (s1 & o1 & U1 & U2 & U3 & U4). rewrite HR in U1. injection U1 as <- <-.
  rewrite all_given_calls in U4. pose proof (arch_laws a (proj1 HU)) as L.
  split; [auto|]. split; [intros; apply (law_contains L); auto|]. split; [apply (law_size L); auto|].
  rewrite U3; apply init_capacity.
Qed.

(** ** Executing a schedule: which thread steps, the call it makes if it is idle, whether the exchange fails spuriously. *)
Definition lockf (spur : bool) (w : N) (c : pc) : option (N * pc) :=
  match c with
  | Load m blk => if spur then None else Some (w, if N.eqb (N.land w POISONED) 0 then if N.eqb (N.land w EXCLUSIVE) 0 then Cas m blk w else would_block m blk else Lock.Idle)
  | Cas m blk x => if N.eqb w (cas_expect m x) then Some (if spur then (w, would_block m blk) else (cas_new m x, Hold m)) else if spur then None else Some (w, would_block m blk)
  | Unl1 m => if N.eqb w EXCLUSIVE then Some (if spur then (w, unlock_test m w) else (0%N, unlock_test m EXCLUSIVE)) else if spur then None else Some (w, unlock_test m w)
  | Unl2 m x => if N.eqb w x then Some (if spur then (w, unlock_test m w) else ((x - 1)%N, Lock.Idle)) else if spur then None else Some (w, unlock_test m w)
  | _ => None
  end.
Lemma lockf_ok spur w c w' c' : lockf spur w c = Some (w', c') -> astep spur w c w' c'.
Proof.
  destruct c as [|m blk|m blk x|m|m|m x]; cbn [lockf]; try discriminate.
  - destruct spur; [discriminate|]. intros H; injection H as <- <-. destruct (N.eqb_spec (N.land w POISONED) 0); [|constructor; auto].
    destruct (N.eqb_spec (N.land w EXCLUSIVE) 0); constructor; auto.
  - destruct (N.eqb_spec w (cas_expect m x)); destruct spur; try discriminate; intros H; injection H as <- <-; constructor; auto.
  - destruct (N.eqb_spec w EXCLUSIVE); destruct spur; try discriminate; intros H; injection H as <- <-; constructor; auto.
  - destruct (N.eqb_spec w x); destruct spur; try discriminate; intros H; injection H as <- <-; econstructor; eauto.
Qed.
Definition same_mode (m m' : mode) : {m = m'} + {m <> m'}. Proof. decide equality. Defined.
Section Play.
Context {K V : Type}.
Variable B : Block K V.
Definition splay1 (s : asys B) (mv : nat * ask K V * bool) : option (asys B) :=
  let '(i, a0, spur) := mv in
  match s with
  | mkA w rd wr st ts now es rs g ds =>
      let l1 := firstn i ts in
      let l2 := skipn (S i) ts in
      let next w rd wr st t c es rs := Some (mkA w rd wr st (l1 ++ (t, c) :: l2) (S now) es rs g ds) in
      match nth_error ts i with
      | Some (Linear.Idle, Lock.Idle) => next w rd wr st (Busy a0 (script (method a0)) false now None None) Lock.Idle es rs
      | Some (Busy a [] false t v (Some q), c) => next w rd wr st Linear.Idle c es (rs ++ [mkRet i a q t now])
      | Some (Busy a (Acq m :: p) false t v r, Lock.Idle) => next w rd wr st (Busy a (Acq m :: p) false t v r) (Load m true) es rs
      | Some (Busy a (Acq m :: p) false t v r, Load m' true) =>
          match lockf spur w (Load m' true) with
          | Some (w', Cas m1 true x) => next w' rd wr st (Busy a (Acq m :: p) false t v r) (Cas m1 true x) es rs
          | Some (w', Load m1 true) => next w' rd wr st (Busy a (Acq m :: p) false t v r) (Load m1 true) es rs
          | _ => None
          end
      | Some (Busy a (Acq m :: p) false t v r, Cas m' true x) =>
          match lockf spur w (Cas m' true x) with
          | Some (w', Hold m1) => if same_mode m m1 then next w' rd wr st (Busy a p false t v r) (Hold m) es rs else None
          | Some (w', Load m1 true) => next w' rd wr st (Busy a (Acq m :: p) false t v r) (Load m1 true) es rs
          | _ => None
          end
      | Some (Busy a (Rel m :: p) false t v r, Hold m') => if same_mode m m' then next w rd wr st (Busy a (Rel m :: p) false t v r) (Unl1 m) es rs else None
      | Some (Busy a (Rel m :: p) false t v r, Unl1 m') =>
          match lockf spur w (Unl1 m') with
          | Some (w', Unl2 m1 x) => next w' rd wr st (Busy a (Rel m :: p) false t v r) (Unl2 m1 x) es rs
          | Some (w', Lock.Idle) => next w' rd wr st (Busy a p false t v r) Lock.Idle es rs
          | _ => None
          end
      | Some (Busy a (Rel m :: p) false t v r, Unl2 m' x) =>
          match lockf spur w (Unl2 m' x) with
          | Some (w', Unl2 m1 x) => next w' rd wr st (Busy a (Rel m :: p) false t v r) (Unl2 m1 x) es rs
          | Some (w', Lock.Idle) => next w' rd wr st (Busy a p false t v r) Lock.Idle es rs
          | _ => None
          end
      | Some (Busy a (CallBegin :: p) false t v r, c) => next w rd wr st (Busy a p false t (Some st) r) c es rs
      | Some (Busy a (CallEnd :: p) false t (Some v) r, c) =>
          match answer B v a with
          | Ok (st', q) => next w rd wr (if modifies (method a) then st' else st) (Busy a p false t (Some v) (Some q)) c (es ++ [mkEff i a q now]) rs
          | Panic => None
          end
      | Some (Busy a (In x :: p) false t v r, c) =>
          match act (In x) 0 0 rd wr with Some (0, 0, rd', wr') => next w rd' wr' st (Busy a p false t v r) c es rs | _ => None end
      | Some (Busy a (Out x :: p) false t v r, c) =>
          match act (Out x) 0 0 rd wr with Some (0, 0, rd', wr') => next w rd' wr' st (Busy a p false t v r) c es rs | _ => None end
      | _ => None
      end
  end.
Fixpoint splay (s : asys B) (h : list (nat * ask K V * bool)) : option (asys B) :=
  match h with [] => Some s | m :: h' => match splay1 s m with Some s' => splay s' h' | None => None end end.
Lemma splay1_ok s m s' : splay1 s m = Some s' -> exists e, sstep e s s'.
Proof.
  destruct m as [[i a0] spur]. destruct s as [w rd wr st ts now es rs g ds]. unfold splay1.
  destruct (nth_error ts i) as [[th c]|] eqn:E; [|discriminate].
  assert (L : length (firstn i ts) = i).
  { apply firstn_length_le. assert (i < length ts) by (apply nth_error_Some; congruence). lia. }
  apply nth_split in E. revert E L. cbv zeta. generalize (firstn i ts) (skipn (S i) ts). intros l1 l2 -> <-.
  destruct th as [|a p d t v r].
  - destruct c; try discriminate. intros H; injection H as <-. eexists. constructor.
  - destruct d; [destruct p as [|[] p]; discriminate|]. destruct p as [|x p].
    + destruct r; try discriminate. intros H; injection H as <-. eexists. apply S_return.
    + destruct x as [m|m|m|m| | | | |]; try discriminate.
      * destruct c as [|m' []|m' [] x|m'|m'|m' x]; try discriminate.
        -- intros H; injection H as <-. eexists. apply S_enter.
        -- destruct (lockf spur w (Load m' true)) as [[w' [|m1 []|m1 [] y|m1|m1|m1 y]]|] eqn:EL; try discriminate; apply lockf_ok in EL;
             intros H; injection H as <-; eexists; eapply S_try; eauto; exact I.
        -- destruct (lockf spur w (Cas m' true x)) as [[w' [|m1 []|m1 [] y|m1|m1|m1 y]]|] eqn:EL; try discriminate; apply lockf_ok in EL.
           ++ intros H; injection H as <-; eexists; eapply S_try; eauto; exact I.
           ++ destruct (same_mode m m1) as [<-|]; [|discriminate]. intros H; injection H as <-; eexists; eapply S_got; eauto; exact I.
      * destruct c as [|m' []|m' [] x|m'|m'|m' x]; try discriminate.
        -- destruct (same_mode m m') as [<-|]; [|discriminate]. intros H; injection H as <-; eexists; apply S_leave.
        -- destruct (lockf spur w (Unl1 m')) as [[w' [|m1 []|m1 [] y|m1|m1|m1 y]]|] eqn:EL; try discriminate; apply lockf_ok in EL;
             intros H; injection H as <-; eexists; [eapply S_left|eapply S_leaving]; eauto; exact I.
        -- destruct (lockf spur w (Unl2 m' x)) as [[w' [|m1 []|m1 [] y|m1|m1|m1 y]]|] eqn:EL; try discriminate; apply lockf_ok in EL;
             intros H; injection H as <-; eexists; [eapply S_left|eapply S_leaving]; eauto; exact I.
      * destruct (act (In m) 0 0 rd wr) as [[[[[|?] [|?]] rd'] wr']|] eqn:EA; try discriminate. intros H; injection H as <-. eexists. eapply S_borrow; [exact I|exact EA].
      * destruct (act (Out m) 0 0 rd wr) as [[[[[|?] [|?]] rd'] wr']|] eqn:EA; try discriminate. intros H; injection H as <-. eexists. eapply S_borrow; [exact I|exact EA].
      * intros H; injection H as <-. eexists. apply S_begin.
      * destruct v as [v|]; [|discriminate]. destruct (answer B v a) as [[st' q]|] eqn:EA; [|discriminate]. intros H; injection H as <-. eexists. eapply S_end. exact EA.
Qed.
Lemma splay_ok h s s' : splay s h = Some s' -> ssteps (fun _ => True) s s'.
Proof.
  revert s. induction h as [|m h IH]; cbn; intros s H.
  - injection H as <-. constructor.
  - destruct (splay1 s m) as [s1|] eqn:E; [|discriminate]. apply IH in H. apply splay1_ok in E as [e E].
    clear IH. induction H as [s1|s1 s2 s3 e' H IH He' H']; [econstructor; [constructor|exact I|exact E]|].
    econstructor; eauto.
Qed.
End Play.

(** A non-trivial case: threads 0 and 2 read the word of the lock, both 0; thread 0 acquires it to push, so that the
    exchange of thread 2, which asks for the size, fails, and it finds the lock exclusive; then thread 0 unlocks, and
    thread 1, which takes a key, suffers a spurious failure before it acquires the lock. *)
Definition ex_h : list (nat * ask nat nat * bool) :=
  let p := (0, AskPush [(1, 10); (2, 20)], false) in
  let t := (1, AskTake 1, false) in
  let z := (2, AskSize, false) in
  [p; z; p; z; p; z; p; z; z; p; p; p; p; p; p; p; t; t; t; (1, AskTake 1, true); t; t; t; t; z; z; z; t; t; t; t; t; z; z; z; z; z; z; z].
Example C54_atomic_example : exists s, ssteps (fun _ => True) (ainit BTreeB (btree_new 2 (fun _ : nat * nat => 1)) 3) s /\
  map (fun e => (e_who e, e_saw e)) (a_effects s) = [(0, SawPairs []); (1, SawOne (Some (1, 10))); (2, SawNum 1)] /\
  map (fun r => (r_who r, r_start r, r_end r)) (a_returns s) = [(0, 0, 15); (1, 16, 31); (2, 1, 38)].
Proof.
  destruct (splay (ainit BTreeB (btree_new 2 (fun _ : nat * nat => 1)) 3) ex_h) as [s|] eqn:E.
  - exists s. split; [apply splay_ok with (h := ex_h); exact E|].
    assert (X : option_map (fun s => (map (fun e => (e_who e, e_saw e)) (a_effects s), map (fun r => (r_who r, r_start r, r_end r)) (a_returns s)))
       (splay (ainit BTreeB (btree_new 2 (fun _ : nat * nat => 1)) 3) ex_h) = Some ([(0, SawPairs []); (1, SawOne (Some (1, 10))); (2, SawNum 1)], [(0, 0, 15); (1, 16, 31); (2, 1, 38)])) by (vm_compute; reflexivity).
    rewrite E in X. cbn [option_map] in X. injection X as X1 X2. auto.
  - exfalso. vm_compute in E. discriminate E.
Qed.
