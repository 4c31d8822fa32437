(** PSeqConc.v -- property theorems: C29. *)
From Verif Require Import Base Wrappers Get Decorations Lock SeqConc.
Set Implicit Arguments.

(** What a client holds, from what remains to do: it holds the lock in mode [m] if the next thing it
    does about it is to release it. *)
Definition mode_eqb (a b : mode) : bool := match a, b with Sh, Sh | Ex, Ex => true | _, _ => false end.
Definition acc_eqb (a b : access) : bool := match a, b with Rd, Rd | Wr, Wr => true | _, _ => false end.
Fixpoint hasO (m : mode) (p : list action) : bool :=
  match p with
  | [] => false
  | Acq m' :: p' => if mode_eqb m m' then false else hasO m p'
  | Rel m' :: p' => if mode_eqb m m' then true else hasO m p'
  | _ :: p' => hasO m p'
  end.
Fixpoint hasI (a : access) (p : list action) : bool :=
  match p with
  | [] => false
  | In a' :: p' => if acc_eqb a a' then false else hasI a p'
  | Out a' :: p' => if acc_eqb a a' then true else hasI a p'
  | _ :: p' => hasI a p'
  end.
(** Programs whose every acquisition is followed by one release, and so on. *)
Fixpoint wf (c : call) (p : list action) : bool :=
  match p with
  | [] => true
  | a :: p' => wf c p' &&
    match a with
    | Acq m => hasO m p' && negb (hasO (match m with Sh => Ex | Ex => Sh end) p')
    | Rel m => negb (hasO m p')
    | In b => hasI b p' && negb (hasI (match b with Rd => Wr | Wr => Rd end) p')
    | Out b => negb (hasI b p')
    | CallEnd => hasI (if modifies c then Wr else Rd) p'
    | GuardUse => match c with CGet _ => hasO Sh p' | CGetMut _ => hasO Ex p' | _ => false end
    | CallBegin | BackBegin | BackEnd => true
    end
  end.
Lemma script_wf c : wf c (script c) = true.
Proof. destruct c as [| | | | | | | |[]|[]]; reflexivity. Qed.
Lemma script_free c m a : hasO m (script c) = false /\ hasI a (script c) = false.
Proof. destruct c as [| | | | | | | |[]|[]], m, a; split; reflexivity. Qed.

Definition cntO m (l : list client) : nat := length (filter (fun c => hasO m (todo c)) l).
Definition cntI a (l : list client) : nat := length (filter (fun c => hasI a (todo c)) l).
Definition nb (b : bool) : nat := if b then 1 else 0.
Lemma cnt_split (f : client -> bool) l1 c l2 :
  length (filter f (l1 ++ c :: l2)) = nb (f c) + length (filter f (l1 ++ l2)).
Proof. rewrite !filter_app, !app_length. cbn [filter]. destruct (f c); cbn [length nb]; lia. Qed.

Definition qok (s : qsys) : Prop :=
  nsh s = cntO Sh (cl s) /\ nex s = cntO Ex (cl s) /\ nrd s = cntI Rd (cl s) /\ nwr s = cntI Wr (cl s) /\
  (nex s = 0 \/ nsh s = 0) /\ nex s <= 1 /\ (nwr s = 0 \/ nrd s = 0) /\ nwr s <= 1 /\
  Forall (fun c => wf (what c) (todo c) = true) (cl s).

Lemma qstep_ok s s' : qstep s s' -> qok s -> qok s'.
Proof.
  intros HQ (H1 & H2 & H3 & H4 & H5 & H6 & H7 & H8 & HF). 
  destruct HQ as [sh ex rd wr sh' ex' rd' wr' l1 c a p l2 HA|sh ex rd wr l1 c a p l2 HA HB|sh ex rd wr l1 c c' l2];
    unfold qok, cntO, cntI in *; cbn [nsh nex nrd nwr cl] in *; rewrite !cnt_split in *; cbn [todo what] in *;
    apply Forall_app in HF; destruct HF as [HF1 HF2]; inversion HF2 as [|? ? HF3 HF4]; subst; cbn [todo what] in *.
  - cbn [wf] in HF3. apply andb_true_iff in HF3. destruct HF3 as [W1 W2].
    assert (FF : Forall (fun c => wf (what c) (todo c) = true) (l1 ++ mkClient c p false :: l2)).
    { apply Forall_app; split; auto. }
    destruct a as [[]|[]|[]|[]| | | | |]; cbn [act hasO hasI mode_eqb acc_eqb nb] in *.
    + destruct (_ =? 0) eqn:E; [|discriminate]. apply Nat.eqb_eq in E. injection HA as <- <- <- <-.
      apply andb_true_iff in W2. destruct W2 as [W2 W3]. apply negb_true_iff in W3. rewrite W2, W3 in *. cbn [nb] in *.
      repeat split; auto; try lia.
    + destruct (_ =? 0) eqn:E; [|discriminate]. destruct (_ =? 0) eqn:E' in HA; [|discriminate].
      apply Nat.eqb_eq in E, E'. injection HA as <- <- <- <-.
      apply andb_true_iff in W2. destruct W2 as [W2 W3]. apply negb_true_iff in W3. rewrite W2, W3 in *. cbn [nb] in *.
      repeat split; auto; try lia.
    + injection HA as <- <- <- <-. apply negb_true_iff in W2. rewrite W2 in *. cbn [nb] in *.
      repeat split; auto; try lia.
    + injection HA as <- <- <- <-. apply negb_true_iff in W2. rewrite W2 in *. cbn [nb] in *.
      repeat split; auto; try lia.
    + destruct (_ =? 0) eqn:E; [|discriminate]. apply Nat.eqb_eq in E. injection HA as <- <- <- <-.
      apply andb_true_iff in W2. destruct W2 as [W2 W3]. apply negb_true_iff in W3. rewrite W2, W3 in *. cbn [nb] in *.
      repeat split; auto; try lia.
    + destruct (_ =? 0) eqn:E; [|discriminate]. destruct (_ =? 0) eqn:E' in HA; [|discriminate].
      apply Nat.eqb_eq in E, E'. injection HA as <- <- <- <-.
      apply andb_true_iff in W2. destruct W2 as [W2 W3]. apply negb_true_iff in W3. rewrite W2, W3 in *. cbn [nb] in *.
      repeat split; auto; try lia.
    + injection HA as <- <- <- <-. apply negb_true_iff in W2. rewrite W2 in *. cbn [nb] in *.
      repeat split; auto; try lia.
    + injection HA as <- <- <- <-. apply negb_true_iff in W2. rewrite W2 in *. cbn [nb] in *.
      repeat split; auto; try lia.
    + injection HA as <- <- <- <-. repeat split; auto.
    + injection HA as <- <- <- <-. repeat split; auto.
    + injection HA as <- <- <- <-. repeat split; auto.
    + injection HA as <- <- <- <-. repeat split; auto.
    + injection HA as <- <- <- <-. repeat split; auto.
  - repeat split; auto. apply Forall_app; split; auto.
  - cbn [fresh todo]. destruct (script_free c' Sh Rd) as [S1 S2]. destruct (script_free c' Ex Wr) as [S3 S4].
    cbn [hasO hasI] in *. unfold fresh; cbn [todo]. rewrite S1, S2, S3, S4. repeat split; auto.
    apply Forall_app; split; auto. constructor; auto. apply script_wf.
Qed.
Lemma qinit_ok calls : qok (qinit calls).
Proof.
  assert (A : forall m a, cntO m (map fresh calls) = 0 /\ cntI a (map fresh calls) = 0).
  { intros m a. unfold cntO, cntI. induction calls as [|c l IH]; cbn [map filter length]; auto.
    destruct IH as [I1 I2]. destruct (script_free c m a) as [S1 S2]. change (todo (fresh c)) with (script c).
    rewrite S1, S2. auto. }
  unfold qok, qinit; cbn [nsh nex nrd nwr cl].
  destruct (A Sh Rd) as [-> ->]. destruct (A Ex Wr) as [-> ->]. repeat split; auto.
  apply Forall_forall. intros c Hc. apply in_map_iff in Hc. destruct Hc as (x & <- & _). apply script_wf.
Qed.
Lemma qsteps_ok s s' : qsteps s s' -> qok s -> qok s'.
Proof. induction 1; auto. intros; eapply qstep_ok; eauto. Qed.

Lemma cnt_nth f (l : list client) i c : nth_error l i = Some c -> f c = true -> 1 <= length (filter f l).
Proof.
  intros Hi Hf. destruct (nth_error_split l i Hi) as (l1 & l2 & -> & _). rewrite cnt_split, Hf. cbn; lia.
Qed.
Lemma cnt_two f (l : list client) i j c d : nth_error l i = Some c -> nth_error l j = Some d -> i <> j ->
  f c = true -> f d = true -> 2 <= length (filter f l).
Proof.
  intros Hi Hj Hn Hc Hd. destruct (nth_error_split l i Hi) as (l1 & l2 & -> & L). rewrite cnt_split, Hc.
  assert (A : exists k, nth_error (l1 ++ l2) k = Some d).
  { destruct (Nat.lt_ge_cases j (length l1)) as [J|J].
    - exists j. rewrite nth_error_app1 in * by auto. auto.
    - rewrite nth_error_app2 in Hj by auto. destruct (j - length l1) as [|e] eqn:D; [lia|].
      cbn in Hj. exists (length l1 + e). rewrite nth_error_app2 by lia.
      replace (length l1 + e - length l1) with e by lia. auto. }
  destruct A as [k Hk]. pose proof (cnt_nth f _ _ Hk Hd). cbn; lia.
Qed.

Lemma in_call_access c p : wf c (CallEnd :: p) = true -> hasI (if modifies c then Wr else Rd) (CallEnd :: p) = true.
Proof. cbn [wf hasI]. intros H. apply andb_true_iff in H. apply H. Qed.

(** C29, first clause.  Whatever the calls and the interleaving, a call that may modify the wrapped container
    never overlaps another call on it. *)
Theorem C29_calls_do_not_overlap : forall calls s i j c d,
  qsteps (qinit calls) s -> nth_error (cl s) i = Some c -> nth_error (cl s) j = Some d -> i <> j ->
  in_call c -> in_call d -> modifies (what c) = false /\ modifies (what d) = false.
Proof.
  intros calls s i j c d HR Hi Hj Hij [_ [pc Hc]] [_ [pd Hd]].
  destruct (qsteps_ok HR (qinit_ok calls)) as (_ & _ & H3 & H4 & _ & _ & H7 & H8 & HF).
  rewrite Forall_forall in HF.
  pose proof (HF _ (nth_error_In _ _ Hi)) as Wc. pose proof (HF _ (nth_error_In _ _ Hj)) as Wd.
  rewrite Hc in Wc. rewrite Hd in Wd. apply in_call_access in Wc, Wd. rewrite <- Hc in Wc. rewrite <- Hd in Wd.
  unfold cntI in *. 
  destruct (modifies (what c)), (modifies (what d)); auto; exfalso.
  - pose proof (cnt_two (fun c => hasI Wr (todo c)) _ Hi Hj Hij Wc Wd). lia.
  - pose proof (cnt_nth (fun c => hasI Wr (todo c)) _ _ Hi Wc). pose proof (cnt_nth (fun c => hasI Rd (todo c)) _ _ Hj Wd). lia.
  - pose proof (cnt_nth (fun c => hasI Rd (todo c)) _ _ Hi Wc). pose proof (cnt_nth (fun c => hasI Wr (todo c)) _ _ Hj Wd). lia.
Qed.

(** C29, third clause, the part that holds: while a guard of get is alive no push and no get_mut runs;
    while a guard of get_mut is alive no push, get, get_mut and no flush runs. *)
Definition guarded_against (guard : call) (c : call) : Prop :=
  match guard, c with
  | CGet _, (CPush | CGetMut _) => True
  | CGetMut _, (CPush | CGetMut _ | CGet _ | CFlush) => True
  | _, _ => False
  end.
(** What is left of a call that is running. *)
Definition suffix_of (c : call) (p : list action) : Prop := exists q, script c = q ++ p.
Definition qsuf (s : qsys) : Prop := Forall (fun c => suffix_of (what c) (todo c)) (cl s).
Lemma qstep_suf s s' : qstep s s' -> qsuf s -> qsuf s'.
Proof.
  unfold qsuf. intros HQ HF.
  destruct HQ as [sh ex rd wr sh' ex' rd' wr' l1 c a p l2 HA|sh ex rd wr l1 c a p l2 HA HB|sh ex rd wr l1 c c' l2];
   cbn [cl] in *; apply Forall_app in HF; destruct HF as [F1 F2]; inversion F2 as [|? ? F3 F4]; subst;
   apply Forall_app; split; auto; constructor; auto; cbn [what todo] in *.
  - destruct F3 as [q Hq]. exists (q ++ [a]). rewrite <- app_assoc. exact Hq.
  - exists []. reflexivity.
Qed.
Lemma qsteps_suf calls s : qsteps (qinit calls) s -> qsuf s.
Proof.
  intros H. remember (qinit calls) as s0 eqn:E. induction H as [s|s s' s'' H IH H'].
  - subst. unfold qsuf, qinit; cbn [cl]. apply Forall_forall. intros c Hc. apply in_map_iff in Hc.
    destruct Hc as (x & <- & _). exists []. reflexivity.
  - eapply qstep_suf; eauto.
Qed.
Definition suffixes (c : call) : list (list action) :=
  map (fun n => skipn n (script c)) (seq 0 (S (length (script c)))).
Lemma suffix_in c p : suffix_of c p -> List.In p (suffixes c).
Proof.
  intros [q H]. unfold suffixes. apply in_map_iff. exists (length q). split.
  - rewrite H, skipn_app, Nat.sub_diag, skipn_all. reflexivity.
  - apply in_seq. rewrite H, app_length. lia.
Qed.
(** A running call holds the lock if its method keeps it. *)
Lemma call_holds c p : suffix_of c (CallEnd :: p) ->
  match c with
  | CPush | CGetMut _ => hasO Ex (CallEnd :: p) = true
  | CGet _ | CFlush => hasO Sh (CallEnd :: p) = true
  | _ => True
  end.
Proof.
  intros H. apply suffix_in in H.
  destruct c as [| | | | | | | |[]|[]]; auto; unfold suffixes in H; cbn in H;
    repeat match goal with H : _ \/ _ |- _ => destruct H as [H|H] end; try discriminate H; try contradiction;
    injection H as <-; reflexivity.
Qed.
Lemma guard_holds c p : suffix_of c (GuardUse :: p) ->
  match c with
  | CGet _ => hasO Sh (GuardUse :: p) = true
  | CGetMut _ => hasO Ex (GuardUse :: p) = true
  | _ => False
  end.
Proof.
  intros H. apply suffix_in in H.
  destruct c as [| | | | | | | |[]|[]]; auto; unfold suffixes in H; cbn in H;
    repeat match goal with H : _ \/ _ |- _ => destruct H as [H|H] end; try discriminate H; try contradiction;
    injection H as <-; reflexivity.
Qed.

Theorem C29_guard_blocks_partial : forall calls s i j c d,
  qsteps (qinit calls) s -> nth_error (cl s) i = Some c -> nth_error (cl s) j = Some d -> i <> j ->
  has_guard c -> in_call d -> ~ guarded_against (what c) (what d).
Proof.
  intros calls s i j c d HR Hi Hj Hij [_ [pc Hc]] [_ [pd Hd]] HG.
  destruct (qsteps_ok HR (qinit_ok calls)) as (H1 & H2 & _ & _ & H5 & H6 & _).
  pose proof (qsteps_suf HR) as HF. unfold qsuf in HF. rewrite Forall_forall in HF.
  pose proof (HF _ (nth_error_In _ _ Hi)) as Sc. pose proof (HF _ (nth_error_In _ _ Hj)) as Sd.
  rewrite Hc in Sc. rewrite Hd in Sd. apply guard_holds in Sc. apply call_holds in Sd. rewrite <- Hc in Sc. rewrite <- Hd in Sd.
  unfold cntO in *.
  destruct (what c) as [| | | | | | | |b|b]; try contradiction;
  destruct (what d) as [| | | | | | | |b'|b']; cbn in HG; try contradiction;
   first [ pose proof (cnt_two (fun c => hasO Ex (todo c)) _ Hi Hj Hij Sc Sd); lia
         | pose proof (cnt_nth (fun c => hasO Sh (todo c)) _ _ Hi Sc); pose proof (cnt_nth (fun c => hasO Ex (todo c)) _ _ Hj Sd); lia
         | pose proof (cnt_nth (fun c => hasO Ex (todo c)) _ _ Hi Sc); pose proof (cnt_nth (fun c => hasO Sh (todo c)) _ _ Hj Sd); lia ].
Qed.

(** ** Executing a schedule: client numbers, in order. *)
Definition step_at (s : qsys) (i : nat) : option qsys :=
  match nth_error (cl s) i with
  | Some (mkClient c (a :: p) false) =>
      match act a (nsh s) (nex s) (nrd s) (nwr s) with
      | Some (sh, ex, rd, wr) => Some (mkQ sh ex rd wr (firstn i (cl s) ++ mkClient c p false :: skipn (S i) (cl s)))
      | None => if is_in a then Some (mkQ (nsh s) (nex s) (nrd s) (nwr s) (firstn i (cl s) ++ mkClient c (a :: p) true :: skipn (S i) (cl s)))
                else None
      end
  | _ => None
  end.
Fixpoint play (s : qsys) (l : list nat) : option qsys :=
  match l with [] => Some s | i :: l' => match step_at s i with Some s' => play s' l' | None => None end end.
Lemma nth_split {T} (l : list T) i x : nth_error l i = Some x -> l = firstn i l ++ x :: skipn (S i) l.
Proof.
  revert i; induction l as [|y l IH]; intros [|i] H; cbn in *; try discriminate.
  - injection H as ->. reflexivity.
  - f_equal. apply IH; auto.
Qed.
Lemma step_at_ok s i s' : step_at s i = Some s' -> qstep s s'.
Proof.
  unfold step_at. destruct (nth_error (cl s) i) as [[c p d]|] eqn:E; [|discriminate].
  apply nth_split in E. destruct s as [sh ex rd wr l]; cbn [cl nsh nex nrd nwr] in *.
  destruct p as [|a p]; [discriminate|]. destruct d; [discriminate|].
  destruct (act a sh ex rd wr) as [[[[sh' ex'] rd'] wr']|] eqn:EA.
  - intros H; injection H as <-. rewrite E at 1. constructor. auto.
  - destruct (is_in a) eqn:EI; [|discriminate]. intros H; injection H as <-. rewrite E at 1. constructor; auto.
Qed.
Lemma play_ok l s s' : play s l = Some s' -> qsteps s s'.
Proof.
  revert s. induction l as [|i l IH]; cbn; intros s H.
  - injection H as <-. constructor.
  - destruct (step_at s i) as [s1|] eqn:E; [|discriminate]. apply IH in H. apply step_at_ok in E.
    clear IH. induction H as [s1|s1 s2 s3 H IH H']; [econstructor; [constructor|]; auto|].
    econstructor; eauto.
Qed.

(** C29, second clause, is false: every two calls of which one modifies (or is a get) can collide, and the
    collision panics -- two pushes included. *)
Definition steps_into (c : call) : nat :=
  match c with CPush | CFlush | CGet false | CGetMut false => 5 | CGet true | CGetMut true => 2 | _ => 3 end.
Definition collide (c d : call) : option qsys :=
  play (qinit [c; d]) (repeat 0 (steps_into c) ++ repeat 1 (match d with CPush | CFlush | CGet _ | CGetMut _ => 2 | _ => 3 end)).
(** [c] inside, [d] arrives: get_mut holds the lock exclusively while inside, so only when it finds nothing is there a
    window; a get that finds something keeps out those that need the lock exclusively. *)
Definition window (c d : call) : bool :=
  (modifies c || modifies d) &&
  match c, d with
  | CGetMut true, _ => false
  | CGet true, (CTake | CPop | CPush | CGetMut _) => false
  | _, _ => true
  end.
Theorem C29_contention_panics_refuted : forall c d, window c d = true ->
  exists s x, qsteps (qinit [c; d]) s /\ nth_error (cl s) 1 = Some x /\ panicked x.
Proof.
  intros c d H. destruct (collide c d) as [s|] eqn:E.
  - exists s. exists (mkClient d (match collide c d with Some s => match nth_error (cl s) 1 with Some x => todo x | None => [] end | None => [] end) true).
    split; [eapply play_ok; exact E|].
    destruct c as [| | | | | | | |[]|[]]; destruct d as [| | | | | | | |[]|[]]; try discriminate H;
      vm_compute in E; injection E as <-; split; vm_compute; reflexivity.
  - destruct c as [| | | | | | | |[]|[]]; destruct d as [| | | | | | | |[]|[]]; try discriminate H; vm_compute in E; discriminate E.
Qed.
Theorem C29_two_pushes_panic_refuted :
  exists s x, qsteps (qinit [CPush; CPush]) s /\ nth_error (cl s) 1 = Some x /\ panicked x.
Proof. apply C29_contention_panics_refuted. reflexivity. Qed.

(** C29, third clause, is false: take, pop, take_multiple and flush can remove elements while a guard of get is
    alive, and take, pop, take_multiple while a guard of get_mut is. *)
Theorem C29_guard_does_not_block_refuted : forall g c,
  (g = CGet true /\ (c = CTake \/ c = CPop \/ c = CTakeMultiple \/ c = CFlush)) \/
  (g = CGetMut true /\ (c = CTake \/ c = CPop \/ c = CTakeMultiple)) ->
  exists s x y, qsteps (qinit [g; c]) s /\ nth_error (cl s) 0 = Some x /\ nth_error (cl s) 1 = Some y /\
    has_guard x /\ in_call y /\ what x = g /\ what y = c.
Proof.
  intros g c H.
  assert (A : exists s, play (qinit [g; c]) (match c with CFlush => [0;0;0;0;0;1;1;1] | _ => [1;1;0;0;0;0;0;1;1] end) = Some s /\
    exists x y, nth_error (cl s) 0 = Some x /\ nth_error (cl s) 1 = Some y /\
    has_guard x /\ in_call y /\ what x = g /\ what y = c).
  { destruct H as [[-> [->|[->|[->| ->]]]]|[-> [->|[->| ->]]]]; (eexists; split; [vm_compute; reflexivity|]);
    do 2 eexists; cbn [nth_error cl]; (split; [reflexivity|]); (split; [reflexivity|]);
    unfold has_guard, in_call; cbn; repeat split; eauto. }
  destruct A as (s & HP & x & y & A). exists s, x, y. split; [eapply play_ok; eauto|exact A].
Qed.

(** The first clause itself fails of the writes made by a guard when it is dropped: the guard unlocks first, and
    only then lets the wrapped container's own guard write the element back.  That write (a push into the BTree
    behind the wrapper) can overlap any call on any clone, whatever the call, and another such write. *)
Definition before_call (c : call) : nat := match c with CPush | CFlush | CGet _ | CGetMut _ => 3 | _ => 4 end.
Theorem C29_write_back_overlaps_calls_refuted : forall g c, g = CGet true \/ g = CGetMut true ->
  exists s x y, qsteps (qinit [g; c]) s /\ nth_error (cl s) 0 = Some x /\ nth_error (cl s) 1 = Some y /\
    writes_back x /\ in_call y /\ what x = g /\ what y = c.
Proof.
  intros g c H.
  assert (A : exists s, play (qinit [g; c]) (repeat 0 8 ++ repeat 1 (before_call c)) = Some s /\
    exists x y, nth_error (cl s) 0 = Some x /\ nth_error (cl s) 1 = Some y /\
    writes_back x /\ in_call y /\ what x = g /\ what y = c).
  { destruct H as [-> | ->]; destruct c as [| | | | | | | |[]|[]]; (eexists; split; [vm_compute; reflexivity|]);
    do 2 eexists; cbn [nth_error cl]; (split; [reflexivity|]); (split; [reflexivity|]);
    unfold writes_back, in_call; cbn; repeat split; eauto. }
  destruct A as (s & HP & x & y & A). exists s, x, y. split; [eapply play_ok; eauto|exact A].
Qed.
Theorem C29_write_backs_overlap_refuted : forall g h, (g = CGet true \/ g = CGetMut true) -> (h = CGet true \/ h = CGetMut true) ->
  exists s x y, qsteps (qinit [g; h]) s /\ nth_error (cl s) 0 = Some x /\ nth_error (cl s) 1 = Some y /\
    writes_back x /\ writes_back y /\ what x = g /\ what y = h.
Proof.
  intros g h H H'.
  assert (A : exists s, play (qinit [g; h]) (repeat 0 8 ++ repeat 1 8) = Some s /\
    exists x y, nth_error (cl s) 0 = Some x /\ nth_error (cl s) 1 = Some y /\
    writes_back x /\ writes_back y /\ what x = g /\ what y = h).
  { destruct H as [-> | ->]; destruct H' as [-> | ->]; (eexists; split; [vm_compute; reflexivity|]);
    do 2 eexists; cbn [nth_error cl]; (split; [reflexivity|]); (split; [reflexivity|]);
    unfold writes_back; cbn; repeat split; eauto. }
  destruct A as (s & HP & x & y & A). exists s, x, y. split; [eapply play_ok; eauto|exact A].
Qed.

(** What is safe: calls that do not overlap.  When every other client is between calls (and none panicked), a client
    about to make a call completes it, and everything it held is released. *)
Definition resting (c : client) : Prop := todo c = [] /\ dead c = false.
Lemma resting_cnt l m a : Forall resting l -> cntO m l = 0 /\ cntI a l = 0.
Proof.
  unfold cntO, cntI. induction 1 as [|c l [Hc _] HF IH]; cbn; auto. rewrite Hc. cbn. auto.
Qed.
Theorem C29_calls_one_at_a_time : forall calls s l1 c d l2,
  qsteps (qinit calls) s -> cl s = l1 ++ mkClient d [] false :: l2 -> Forall resting l1 -> Forall resting l2 ->
  exists s', qsteps s s' /\ cl s' = l1 ++ mkClient c [] false :: l2 /\
    nsh s' = 0 /\ nex s' = 0 /\ nrd s' = 0 /\ nwr s' = 0.
Proof.
  intros calls s l1 c d l2 HR HC R1 R2.
  destruct (qsteps_ok HR (qinit_ok calls)) as (H1 & H2 & H3 & H4 & _).
  assert (RA : Forall resting (cl s)).
  { rewrite HC. apply Forall_app; split; auto. constructor; auto. split; reflexivity. }
  destruct (resting_cnt Sh Rd RA) as [Z1 Z2]. destruct (resting_cnt Ex Wr RA) as [Z3 Z4].
  destruct s as [sh ex rd wr l]. cbn [nsh nex nrd nwr cl] in *. rewrite Z1, Z2, Z3, Z4 in *. subst.
  exists (mkQ 0 0 0 0 (l1 ++ mkClient c [] false :: l2)). split; [|auto].
  assert (st : forall s0 sh ex rd wr sh' ex' rd' wr' a p,
     qsteps s0 (mkQ sh ex rd wr (l1 ++ mkClient c (a :: p) false :: l2)) ->
     act a sh ex rd wr = Some (sh', ex', rd', wr') ->
     qsteps s0 (mkQ sh' ex' rd' wr' (l1 ++ mkClient c p false :: l2))).
  { intros. eapply qs_step; eauto. constructor; auto. }
  assert (S0 : qsteps (mkQ 0 0 0 0 (l1 ++ mkClient d [] false :: l2)) (mkQ 0 0 0 0 (l1 ++ fresh c :: l2))).
  { eapply qs_step; [constructor|]. constructor. }
  unfold fresh in S0. destruct c as [| | | | | | | |[]|[]]; cbn [script] in S0;
  repeat match type of S0 with qsteps _ (mkQ _ _ _ _ (_ ++ mkClient _ (_ :: _) _ :: _)) =>
    eapply st in S0; [|cbn; reflexivity] end; exact S0.
Qed.

(** A non-trivial run: three clients, a read, a push and a get, one after the other. *)
Theorem C29_example : exists s, qsteps (qinit [CContains; CPush; CGet true]) s /\
  nsh s = 1 /\ nex s = 0 /\ nrd s = 0 /\ nwr s = 0 /\ exists x, nth_error (cl s) 2 = Some x /\ has_guard x.
Proof.
  assert (A : exists s, play (qinit [CContains; CPush; CGet true]) [0;0;1;0;0;0;0;1;1;1;1;1;2;2;2;2;2] = Some s /\
     nsh s = 1 /\ nex s = 0 /\ nrd s = 0 /\ nwr s = 0 /\ exists x, nth_error (cl s) 2 = Some x /\ has_guard x).
  { eexists; split; [vm_compute; reflexivity|]. repeat split. eexists; split; [reflexivity|]. split; [reflexivity|eexists; reflexivity]. }
  destruct A as (s & HP & A). exists s. split; auto. eapply play_ok; eauto.
Qed.

(** Guards of get exclude guards of get_mut and pushes only: two of them can be alive in two threads at once, and reading
    the value of an element decorated with Lru or Lrfu writes the time of the access into the element
    (/repo/src/decorator/lru.rs:112-115, lrfu.rs: Cell::set under a shared lock; Sequential is declared Sync whatever it
    holds, sequential/concurrent.rs:4-6).  The two threads write the same memory without synchronisation. *)
Theorem C29_reading_guards_coexist : exists s x y, qsteps (qinit [CGet true; CGet true]) s /\
  nth_error (cl s) 0 = Some x /\ nth_error (cl s) 1 = Some y /\ has_guard x /\ has_guard y.
Proof.
  assert (A : exists s, play (qinit [CGet true; CGet true]) (repeat 0 5 ++ repeat 1 5) = Some s /\
    exists x y, nth_error (cl s) 0 = Some x /\ nth_error (cl s) 1 = Some y /\ has_guard x /\ has_guard y).
  { eexists; split; [vm_compute; reflexivity|]. do 2 eexists; cbn [nth_error cl]; (split; [reflexivity|]); (split; [reflexivity|]).
    unfold has_guard; cbn; split; eauto. }
  destruct A as (s & HP & x & y & A). exists s, x, y. split; [eapply play_ok; eauto|exact A].
Qed.
Theorem C29_lru_guards_race_refuted :
  (exists s x y, qsteps (qinit [CGet true; CGet true]) s /\
    nth_error (cl s) 0 = Some x /\ nth_error (cl s) 1 = Some y /\ has_guard x /\ has_guard y) /\
  forall (V : Type) (v : V) t0 clock now, clock now <> t0 ->
    touched (@Lru V clock) now (mkLru v t0) (fun v => v) <> mkLru v t0.
Proof.
  split; [apply C29_reading_guards_coexist|]. intros V v t0 clock now H E. cbn in E. injection E as E. auto.
Qed.
