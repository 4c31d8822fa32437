(** PTimes.v -- property theorems: C68. *)
From Coq Require Import NArith.
From Verif Require Import Base Block Wrappers Arch Get Profiled PProfiler Times.
Set Implicit Arguments.
Local Open Scope N_scope.

(** ** What is observed *)
Section Observed.
Context {K V : Type}.
(** One call (or one step of an iterator) as its caller sees it: the answer, the clock before and after,
    the size of the container before and after. *)
Record seen := mkSeen { what : ask K V; answer : presult K V; from : N; upto : N; size0 : nat; size1 : nat }.
Definition lasted (e : seen) : N := upto e - from e.

(** A user: calls, and time that passes between them. *)
Inductive doing := Pause (d : N) | Ask (a : ask K V).
Fixpoint trun (B : Timed K V) (s : TSt B) (es : list doing) : res (TSt B * list seen) :=
  match es with
  | [] => Ok (s, [])
  | Pause d :: es' => trun B (pass B s d) es'
  | Ask a :: es' =>
      let* (s1, r) := tcall B s a in
      let* (s2, l) := trun B s1 es' in
      Ok (s2, mkSeen a r (now B s) (now B s1) (tsize B s) (tsize B s1) :: l)
  end.

(** A container whose clock does not go back. *)
Record Forward (B : Timed K V) : Prop := {
  fw_pass : forall s d, now B (pass B s d) = now B s + d;
  fw_size : forall s d, tsize B (pass B s d) = tsize B s;
  fw_call : forall s a s' r, tcall B s a = Ok (s', r) -> now B s <= now B s'
}.

(** ** What the documentation of the counters says *)
(** The method a call counts for. *)
Definition kind (a : ask K V) : option counter :=
  match a with
  | Call (PContains _) => Some Contains
  | Call (PTake _) | Call (PTakeMultiple _) => Some Take
  | Call (PPop _) => Some Pop
  | Call (PPush _) => Some Push
  | Call PFlush => Some Flush
  | Call (PGet m _ _) => Some (if m then GetMut_ else Get_)
  | Call PReset => None
  | NextOf _ => Some FlushIter
  end.
(** How much it counts for: keys looked up, elements pushed, size popped, or one. *)
Definition worth (e : seen) : nat :=
  match what e with
  | Call (PTakeMultiple ks) => length ks
  | Call (PPop _) => size0 e - size1 e
  | Call (PPush vs) => length vs
  | _ => 1
  end.
(** Keys looked up, keys found. *)
Definition looked (a : ask K V) : nat :=
  match a with
  | Call (PContains _) | Call (PTake _) | Call (PGet _ _ _) => 1
  | Call (PTakeMultiple ks) => length ks
  | _ => 0
  end.
Definition found (e : seen) : nat :=
  match what e, answer e with
  | Call (PContains _), RBool true => 1
  | Call (PTake _), ROne (Some _) => 1
  | Call (PTakeMultiple _), RTaken _ o => length o
  | Call (PGet _ _ _), RValue (Some _) => 1
  | _, _ => 0
  end.
(** Size taken out. *)
Definition moved (e : seen) : nat :=
  match what e with
  | Call (PTake _) | Call (PTakeMultiple _) | Call (PPop _) | Call PFlush => (size0 e - size1 e) + (size1 e - size0 e)
  | _ => 0
  end.
Definition is_take_multiple (a : ask K V) : bool := match a with Call (PTakeMultiple _) => true | _ => false end.
Definition counts_for (c : counter) (a : ask K V) : bool :=
  match kind a with Some c' => counter_eqb c' c | None => false end.

(** What each of the ten counters should gain from one call: its count ... *)
Definition gain_count (c : counter) (e : seen) : nat :=
  match c with
  | Hit => found e
  | Miss => looked (what e) - found e
  | _ => if counts_for c (what e) then worth e else 0%nat
  end.
(** ... whether it gets its time: its method does; Hit does if the key was found, Miss if not, and both do
    for every take_multiple ... *)
Definition gains_time (c : counter) (e : seen) : bool :=
  match c with
  | Hit => is_take_multiple (what e) || ((looked (what e) =? 1)%nat && (found e =? 1)%nat)
  | Miss => is_take_multiple (what e) || ((looked (what e) =? 1)%nat && (found e =? 0)%nat)
  | _ => counts_for c (what e)
  end.
(** ... and its size. *)
Definition gain_size (c : counter) (e : seen) : nat :=
  match c with
  | Hit | Miss => 0%nat
  | _ => if counts_for c (what e) then moved e else 0%nat
  end.

(** A call of a Profiler: as its caller sees it, as the wrapped container sees it (nothing, for reset),
    and the time measured. *)
Record view := mkView { out : seen; inn : option seen; meas : N }.
Definition view_ok (v : view) : Prop :=
  match inn v with
  | None => what (out v) = Call PReset
  | Some i =>
      what i = what (out v) /\ answer i = answer (out v) /\ what i <> Call PReset /\
      size0 i = size0 (out v) /\ size1 i = size1 (out v) /\
      from (out v) <= from i /\ from i <= upto i /\ upto i <= upto (out v) /\
      lasted i <= meas v /\ meas v <= lasted (out v)
  end.
Definition insides (vs : list view) : list seen := flat_map (fun v => match inn v with Some i => [i] | None => [] end) vs.
(** The calls since the last reset. *)
Definition is_reset (v : view) : bool := match what (out v) with Call PReset => true | _ => false end.
Definition since (vs : list view) : list view :=
  fold_left (fun acc v => if is_reset v then [] else acc ++ [v]) vs [].
Definition sumN {T} (f : T -> N) (l : list T) : N := fold_right (fun x n => f x + n) 0 l.
Definition total_count (c : counter) (vs : list view) : N := sumN (fun v => N.of_nat (gain_count c (out v))) vs.
Definition total_time (c : counter) (vs : list view) : N := sumN (fun v => if gains_time c (out v) then meas v else 0) vs.
Definition total_size (c : counter) (vs : list view) : N := sumN (fun v => N.of_nat (gain_size c (out v))) vs.
End Observed.
Arguments seen : clear implicits.
Arguments view : clear implicits.
Arguments doing : clear implicits.

(** ** The clocks go forward *)
Section Proofs.
Context {K V : Type}.

Theorem bare_forward (C : Block K V) (gt : bool -> Getter C) : Forward (BareT gt).
Proof.
  split; cbn.
  - reflexivity.
  - reflexivity.
  - intros s a s' r H. destruct a as [p|i].
    + destruct p; cbn in H; try (injection H as <- <-; lia);
        match type of H with context [bind ?x _] => destruct x as [q|] eqn:E; [|discriminate] end; cbn in H;
        repeat (match type of H with
                | context [let (_, _) := ?q in _] => destruct q
                | context [bind ?x _] => destruct x as [?q|] eqn:?E; [|discriminate]; cbn in H
                end);
        try discriminate; try (injection H as <- <-; cbn; lia).
    + cbn in H. destruct (nth_error (b_iters s) i) as [[|x l]|]; cbn in H; try discriminate; injection H as <- <-; cbn; lia.
Qed.

Variable B : Timed K V.
Variable FB : Forward B.
Notation P := (ProfT B).

Lemma p_ask_inv s a s' r : p_ask s a = Ok (s', r) ->
  (a = Call PReset /\ s' = mkProf B tstats_zero (p_own s) (p_in s) /\ r = RUnit) \/
  (a <> Call PReset /\ exists s2 t, tcall B (pass B (p_in s) (fst (p_own s 0%nat))) a = Ok (s2, r) /\
     after (p_stats s) a r (now B s2 + snd (p_own s 0%nat) - now B (p_in s)) (tsize B (p_in s)) (tsize B s2) = Ok t /\
     s' = mkProf B t (fun n => p_own s (S n)) (pass B s2 (snd (p_own s 0%nat)))).
Proof.
  intros H. assert (D : a = Call PReset \/ a <> Call PReset).
  { destruct a as [[]|]; (left; reflexivity) || (right; discriminate). }
  destruct D as [->|N].
  - left. cbn in H. injection H as <- <-. auto.
  - right. split; auto. assert (H' : (let* (el, _, _, s3, r) := time_it s a in
      let* t := after (p_stats s) a r el (tsize B (p_in s)) (tsize B s3) in
      Ok (mkProf B t (fun n => p_own s (S n)) s3, r)) = Ok (s', r)).
    { destruct a as [[]|]; try exact H. congruence. }
    clear H. unfold time_it in H'. destruct (p_own s 0%nat) as [o1 o2] eqn:Eo. cbn [fst snd].
    destruct (tcall B (pass B (p_in s) o1) a) as [[s2 r2]|] eqn:E; [|discriminate]. cbn [bind] in H'.
    rewrite (fw_size FB), (fw_pass FB) in H'.
    match type of H' with bind ?x _ = _ => destruct x as [t|] eqn:Et; [|discriminate] end. cbn [bind] in H'.
    injection H' as <- <-. exists s2, t. auto.
Qed.

Theorem prof_forward : Forward P.
Proof.
  split; cbn.
  - intros. apply (fw_pass FB).
  - intros. apply (fw_size FB).
  - intros s a s' r H. destruct (p_ask_inv _ _ H) as [(_ & -> & _)|(_ & s2 & t & E & _ & ->)]; cbn; [lia|].
    pose proof (fw_call FB _ _ E) as Q. rewrite (fw_pass FB) in Q. rewrite (fw_pass FB). lia.
Qed.

(** ** One call *)
Lemma size_diff_sym z0 z1 : size_diff z0 z1 = ((z0 - z1) + (z1 - z0))%nat.
Proof. unfold size_diff. destruct (Nat.ltb_spec z1 z0); lia. Qed.
Lemma counter_eqb_iff a b : counter_eqb a b = true <-> a = b.
Proof. split; [destruct a, b; cbn; congruence|intros ->; destruct b; reflexivity]. Qed.

Lemma mod_more a x : (a mod W64 + x) mod W64 = (a + x) mod W64.
Proof. apply N.add_mod_idemp_l. discriminate. Qed.
Lemma mod_more_r a x : (a + x mod W64) mod W64 = (a + x) mod W64.
Proof. apply N.add_mod_idemp_r. discriminate. Qed.
Lemma W64_pos : W64 <> 0. Proof. discriminate. Qed.

Lemma after_gain t (a : ask K V) r el z0 z1 t' f u : after t a r el z0 z1 = Ok t' ->
  forall c, let e := mkSeen a r f u z0 z1 in
  forall A T Z, t c = mk3 (A mod W64) (T mod W64) (Z mod W64) ->
  t' c = mk3 ((A + N.of_nat (gain_count c e)) mod W64) ((T + (if gains_time c e then el else 0)) mod W64) ((Z + N.of_nat (gain_size c e)) mod W64).
Proof.
  intros H c e A T Z Ht. unfold e; clear e.
  destruct a as [p|i]; [destruct p as [k|k|ks|n|vs| |m k g|]|]; destruct r as [b|o|l|ks' l|o|]; cbn [after] in H; try discriminate.
  - injection H as <-. destruct b, c; cbn -[N.modulo W64 N.add]; rewrite ?Ht; unfold add3; cbn [c3 e3 z3]; rewrite ?mod_more, ?mod_more_r, ?N.add_0_r; reflexivity.
  - injection H as <-. destruct o, c; cbn -[N.modulo W64 N.add size_diff]; rewrite ?Ht; unfold add3; cbn [c3 e3 z3]; rewrite ?mod_more, ?mod_more_r, ?N.add_0_r, ?size_diff_sym; reflexivity.
  - unfold sub_chk in H. destruct (Nat.leb_spec (length l) (length ks)); [|discriminate]. cbn [bind] in H. injection H as <-.
    destruct c; cbn -[N.modulo W64 N.add size_diff N.of_nat Nat.sub]; rewrite ?Ht; unfold add3; cbn [c3 e3 z3]; rewrite ?mod_more, ?mod_more_r, ?N.add_0_r, ?size_diff_sym; reflexivity.
  - unfold sub_chk in H. destruct (Nat.leb_spec z1 z0); [|discriminate]. cbn [bind] in H. injection H as <-.
    destruct c; cbn -[N.modulo W64 N.add size_diff N.of_nat Nat.sub]; rewrite ?Ht; unfold add3; cbn [c3 e3 z3]; rewrite ?mod_more, ?mod_more_r, ?N.add_0_r, ?size_diff_sym; reflexivity.
  - injection H as <-. destruct c; cbn -[N.modulo W64 N.add size_diff N.of_nat Nat.sub]; rewrite ?Ht; unfold add3; cbn [c3 e3 z3]; rewrite ?mod_more, ?mod_more_r, ?N.add_0_r, ?size_diff_sym; reflexivity.
  - injection H as <-. destruct c; cbn -[N.modulo W64 N.add size_diff N.of_nat Nat.sub]; rewrite ?Ht; unfold add3; cbn [c3 e3 z3]; rewrite ?mod_more, ?mod_more_r, ?N.add_0_r, ?size_diff_sym; reflexivity.
  - injection H as <-. destruct m, o, c; cbn -[N.modulo W64 N.add]; rewrite ?Ht; unfold add3; cbn [c3 e3 z3]; rewrite ?mod_more, ?mod_more_r, ?N.add_0_r; reflexivity.
  - injection H as <-. destruct c; cbn -[N.modulo W64 N.add]; rewrite ?Ht; unfold add3; cbn [c3 e3 z3]; rewrite ?mod_more, ?mod_more_r, ?N.add_0_r; reflexivity.
Qed.

(** ** Runs *)
Lemma since_snoc (vs : list (view K V)) v : since (vs ++ [v]) = if is_reset v then [] else since vs ++ [v].
Proof. unfold since. rewrite fold_left_app. reflexivity. Qed.
Lemma sumN_app {T} (f : T -> N) l1 l2 : sumN f (l1 ++ l2) = sumN f l1 + sumN f l2.
Proof. induction l1 as [|x l IH]; cbn [app sumN fold_right]; [reflexivity|]. change (fold_right (fun x n => f x + n) 0) with (sumN f). rewrite IH. lia. Qed.

Definition tallied (t : tstats) (vs : list (view K V)) : Prop :=
  forall c, t c = mk3 (total_count c (since vs) mod W64) (total_time c (since vs) mod W64) (total_size c (since vs) mod W64).

Lemma one_call s a s' r vs : p_ask s a = Ok (s', r) -> tallied (p_stats s) vs ->
  exists v es, out v = mkSeen a r (now P s) (now P s') (tsize P s) (tsize P s') /\ view_ok v /\
    trun B (p_in s) es = Ok (p_in s', insides [v]) /\ tallied (p_stats s') (vs ++ [v]).
Proof.
  intros H HT. destruct (p_ask_inv _ _ H) as [(-> & -> & ->)|(N & s2 & t & E & Et & ->)].
  - exists (mkView (mkSeen (Call PReset) RUnit (now B (p_in s)) (now B (p_in s)) (tsize B (p_in s)) (tsize B (p_in s))) None 0), [].
    split; [reflexivity|]. split; [reflexivity|]. split; [reflexivity|].
    intros c. rewrite since_snoc. cbn. reflexivity.
  - destruct (p_own s 0%nat) as [o1 o2] eqn:Eo. cbn [fst snd] in *.
    set (i := mkSeen a r (now B (p_in s) + o1) (now B s2) (tsize B (p_in s)) (tsize B s2)).
    set (o := mkSeen a r (now B (p_in s)) (now B s2 + o2) (tsize B (p_in s)) (tsize B s2)).
    exists (mkView o (Some i) (now B s2 + o2 - now B (p_in s))), [Pause o1; Ask a; Pause o2].
    pose proof (fw_call FB _ _ E) as Q. rewrite (fw_pass FB) in Q.
    split; [cbn; rewrite (fw_pass FB), (fw_size FB); reflexivity|]. split; [|split].
    + unfold view_ok, lasted; cbn. repeat split; auto; try lia.
    + cbn [trun]. rewrite E. cbn [bind]. rewrite (fw_pass FB), (fw_size FB). reflexivity.
    + intros c. rewrite since_snoc. cbn [p_stats]. 
      assert (R : is_reset (mkView o (Some i) (now B s2 + o2 - now B (p_in s))) = false).
      { unfold is_reset; cbn. destruct a as [[]|]; auto. congruence. }
      rewrite R. unfold total_count, total_time, total_size. rewrite !sumN_app. cbn [sumN fold_right out meas]. rewrite !N.add_0_r.
      apply (after_gain _ _ _ _ _ _ (now B (p_in s)) (now B s2 + o2) Et c). apply HT.
Qed.
Lemma trun_app (D : Timed K V) s es1 s1 l1 es2 s2 l2 : trun D s es1 = Ok (s1, l1) -> trun D s1 es2 = Ok (s2, l2) ->
  trun D s (es1 ++ es2) = Ok (s2, l1 ++ l2).
Proof.
  revert s l1. induction es1 as [|[d|a] es IH]; intros s l1 H1 H2; cbn [trun app] in *.
  - injection H1 as <- <-. auto.
  - eauto.
  - destruct (tcall D s a) as [[s0 r]|]; [|discriminate]. cbn [bind] in *.
    destruct (trun D s0 es) as [[s3 l]|] eqn:E; [|discriminate]. cbn [bind] in H1. injection H1 as <- <-.
    rewrite (IH _ _ E H2). reflexivity.
Qed.
Lemma insides_app (vs ws : list (view K V)) : insides (vs ++ ws) = insides vs ++ insides ws.
Proof. apply flat_map_app. Qed.

Lemma runs es : forall s s' log vs, trun P s es = Ok (s', log) -> tallied (p_stats s) vs ->
  exists ws es', map out ws = log /\ Forall view_ok ws /\ trun B (p_in s) es' = Ok (p_in s', insides ws) /\
    tallied (p_stats s') (vs ++ ws).
Proof.
  induction es as [|[d|a] es IH]; intros s s' log vs H HT; cbn [trun] in H.
  - injection H as <- <-. exists [], []. rewrite app_nil_r. cbn. auto.
  - destruct (IH _ _ _ vs H HT) as (ws & es' & A1 & A2 & A3 & A4). exists ws, (Pause d :: es'). auto.
  - destruct (tcall P s a) as [[s1 r]|] eqn:E; [|discriminate]. cbn [bind] in H.
    destruct (trun P s1 es) as [[s2 l]|] eqn:E2; [|discriminate]. cbn [bind] in H. injection H as <- <-.
    destruct (one_call _ _ E HT) as (v & ev & B1 & B2 & B3 & B4).
    destruct (IH _ _ _ _ E2 B4) as (ws & es' & A1 & A2 & A3 & A4).
    exists (v :: ws), (ev ++ es'). cbn [map]. rewrite B1, A1. split; [reflexivity|]. split; [constructor; auto|]. split.
    + change (insides (v :: ws)) with (insides ([v] ++ ws)). rewrite insides_app. eapply trun_app; eauto.
    + rewrite <- app_assoc in A4. exact A4.
Qed.
End Proofs.

Section Theorems.
Context {K V : Type}.

(** C68.  The ten counters of a Profiler over any container whose clock goes forward (another Profiler,
    for instance), after any calls and pauses from a new or reset Profiler: each is the sum, modulo 2^64,
    of what it should gain from the calls made since the last reset.  The times summed are measured
    around the calls on the wrapped container: not less than what the call lasted there, not more than
    what the caller waited. *)
Theorem C68_counters : forall (B : Timed K V), Forward B -> forall s es s' log,
  trun (ProfT B) s es = Ok (s', log) -> (forall c, p_stats s c = zero3) ->
  exists vs es', map out vs = log /\ Forall view_ok vs /\
    trun B (p_in s) es' = Ok (p_in s', insides vs) /\
    forall c, read_stats s' c =
      (total_count c (since vs) mod 2 ^ 64, total_time c (since vs) mod 2 ^ 64, total_size c (since vs) mod 2 ^ 64).
Proof.
  intros B FB s es s' log H Hz. destruct (@runs K V B FB es s s' log [] H) as (vs & es' & A1 & A2 & A3 & A4).
  - intros c. rewrite Hz. reflexivity.
  - exists vs, es'. split; auto. split; auto. split; auto. intros c. unfold read_stats. rewrite (A4 c). reflexivity.
Qed.

Lemma mods a b c d x : (a mod W64 + b mod W64 + c mod W64 + d mod W64 + x) mod W64 = (a + b + c + d + x) mod W64.
Proof.
  pose proof (N.div_mod a W64 W64_pos). pose proof (N.div_mod b W64 W64_pos).
  pose proof (N.div_mod c W64 W64_pos). pose proof (N.div_mod d W64 W64_pos).
  rewrite <- (N.mod_add (a mod W64 + b mod W64 + c mod W64 + d mod W64 + x) (a / W64 + b / W64 + c / W64 + d / W64)) by apply W64_pos.
  f_equal. lia.
Qed.
Lemma mod_small_le a b : a <= b -> b < 2 ^ 64 -> a mod 2 ^ 64 = a.
Proof. intros. apply N.mod_small. lia. Qed.

Lemma sumN_le {T} (f g : T -> N) l : (forall x, List.In x l -> f x <= g x) -> sumN f l <= sumN g l.
Proof.
  induction l as [|x l IH]; intros H; cbn [sumN fold_right]; [lia|].
  pose proof (H x (or_introl eq_refl)). specialize (IH (fun y Hy => H y (or_intror Hy))). unfold sumN in IH. lia.
Qed.
Lemma sumN_map {T U} (f : U -> N) (g : T -> U) l : sumN f (map g l) = sumN (fun x => f (g x)) l.
Proof. induction l as [|x l IH]; cbn; auto. unfold sumN in IH. rewrite IH. auto. Qed.
Lemma sumN_plus {T} (f g : T -> N) l : sumN (fun x => f x + g x) l = sumN f l + sumN g l.
Proof. induction l as [|x l IH]; cbn [sumN fold_right]; [reflexivity|]. unfold sumN in IH. rewrite IH. lia. Qed.
Lemma sumN_ext {T} (f g : T -> N) l : (forall x, f x = g x) -> sumN f l = sumN g l.
Proof. intros H. induction l as [|x l IH]; cbn [sumN fold_right]; [reflexivity|]. unfold sumN in IH. rewrite IH, H. auto. Qed.
Lemma since_sub (vs : list (view K V)) f : sumN f (since vs) <= sumN f vs.
Proof.
  induction vs as [|v vs IH] using rev_ind; [apply N.le_refl|]. rewrite since_snoc, sumN_app.
  destruct (is_reset v); [unfold sumN at 1; cbn; lia|]. rewrite sumN_app. lia.
Qed.
Lemma since_in (vs : list (view K V)) v : List.In v (since vs) -> List.In v vs.
Proof.
  induction vs as [|w vs IH] using rev_ind; auto. rewrite since_snoc. intros H. apply in_or_app.
  destruct (is_reset w); [destruct H|]. apply in_app_or in H. tauto.
Qed.
Lemma since_no_reset (vs : list (view K V)) : Forall (fun v => is_reset v = false) (since vs).
Proof.
  induction vs as [|w vs IH] using rev_ind; [constructor|]. rewrite since_snoc.
  destruct (is_reset w) eqn:E; [constructor|]. apply Forall_app. auto.
Qed.
Lemma wall (B : Timed K V) (FB : Forward B) es : forall s s' log, trun B s es = Ok (s', log) ->
  now B s + sumN lasted log <= now B s' /\ Forall (fun e => from e <= upto e) log.
Proof.
  induction es as [|[d|a] es IH]; intros s s' log H; cbn [trun] in H.
  - injection H as <- <-. cbn. split; [lia|constructor].
  - specialize (IH _ _ _ H). rewrite (fw_pass FB) in IH. split; [lia|tauto].
  - destruct (tcall B s a) as [[s1 r]|] eqn:E; [|discriminate]. cbn [bind] in H.
    destruct (trun B s1 es) as [[s2 l]|] eqn:E2; [|discriminate]. cbn [bind] in H. injection H as <- <-.
    specialize (IH _ _ _ E2). pose proof (fw_call FB _ _ E). cbn [sumN fold_right]. unfold lasted at 1; cbn [from upto].
    unfold sumN in IH. split; [lia|]. constructor; [cbn; lia|tauto].
Qed.
Lemma meas_le_wall (vs : list (view K V)) : Forall view_ok vs ->
  sumN (fun v => if is_reset v then 0 else meas v) (since vs) <= sumN lasted (map out vs).
Proof.
  intros F. rewrite sumN_map. etransitivity; [apply since_sub|]. apply sumN_le. intros v Hv.
  rewrite Forall_forall in F. specialize (F v Hv). unfold view_ok in F. unfold is_reset.
  destruct (inn v) as [i|]; [|rewrite F; lia]. destruct F as (_ & _ & _ & _ & _ & _ & _ & _ & _ & F).
  destruct (what (out v)) as [[]|]; lia.
Qed.
Lemma time_le (vs : list (view K V)) c : total_time c vs <= sumN (fun v => if is_reset v then 0 else meas v) vs.
Proof.
  apply sumN_le. intros v _. unfold is_reset, gains_time. 
  destruct (what (out v)) as [p|i] eqn:E; [destruct p|]; try (destruct c; cbn; lia);
  match goal with |- (if ?b then _ else _) <= _ => destruct b; lia end.
Qed.

(** C68.  [time_stats()] does not overflow, is the time measured in all the calls since the last reset,
    and is at most the time elapsed since the Profiler was created or reset, if that is less than 2^64
    nanoseconds (584 years). *)
Theorem C68_total_is_at_most_the_elapsed_time : forall (B : Timed K V), Forward B -> forall s es s' log,
  trun (ProfT B) s es = Ok (s', log) -> (forall c, p_stats s c = zero3) ->
  now (ProfT B) s' - now (ProfT B) s < 2 ^ 64 ->
  exists x vs, time_stats s' = Ok x /\ map out vs = log /\ Forall view_ok vs /\
    x = sumN meas (since vs) /\ sumN lasted (insides (since vs)) <= x /\ x <= now (ProfT B) s' - now (ProfT B) s.
Proof.
  intros B FB s es s' log H Hz Hw. destruct (C68_counters FB _ _ H Hz) as (vs & es' & A1 & A2 & _ & A4).
  destruct (wall (prof_forward FB) _ _ H) as [W1 _]. pose proof (meas_le_wall A2) as M. rewrite A1 in M.
  set (T := fun c => total_time c (since vs)).
  assert (E : forall c, e3 (p_stats s' c) = T c).
  { intros c. specialize (A4 c). unfold read_stats in A4. injection A4 as _ A4 _. rewrite A4.
    apply N.mod_small. pose proof (time_le (since vs) c). unfold T. lia. }
  assert (S1 : T Contains + T Take + T Pop + T Push + T Flush + T FlushIter + T Get_ + T GetMut_ =
    sumN (fun v => if is_reset v then 0 else meas v) (since vs)).
  { unfold T, total_time. rewrite <- !sumN_plus. apply sumN_ext. intros v. unfold is_reset, gains_time, counts_for.
    destruct (what (out v)) as [[]|]; cbn; try lia. destruct mut; cbn; lia. }
  assert (S2 : sumN (fun v => if is_reset v then 0 else meas v) (since vs) = sumN meas (since vs)).
  { pose proof (since_no_reset vs) as NR. clear - NR. induction NR as [|v l Hv NR IH]; [reflexivity|].
    cbn [sumN fold_right]. rewrite Hv. unfold sumN in IH. rewrite IH. reflexivity. }
  assert (S3 : sumN lasted (insides (since vs)) <= sumN meas (since vs)).
  { assert (F : Forall view_ok (since vs)).
    { rewrite Forall_forall in A2 |- *. intros v Hv. apply A2, since_in, Hv. }
    clear - F. induction F as [|v l Hv F IH]; [apply N.le_refl|]. cbn [insides flat_map]. unfold view_ok in Hv.
    rewrite sumN_app. unfold insides in IH. unfold sumN in *. cbn [fold_right].
    destruct (inn v) as [i|]; cbn [fold_right]; [|lia]. destruct Hv as (_ & _ & _ & _ & _ & _ & _ & _ & Hv & _). lia. }
  assert (S : T Contains + T Take + T Pop + T Push + T Flush + T FlushIter + T Get_ + T GetMut_ <= now (ProfT B) s' - now (ProfT B) s) by lia.
  unfold time_stats. rewrite !E. unfold add64. change W64 with (2 ^ 64).
  repeat (match goal with |- context [if ?a <? ?b then _ else _] => replace (a <? b) with true by (symmetry; apply N.ltb_lt; lia) end; cbn [bind]).
  eexists _, vs. split; [reflexivity|]. split; auto. split; auto. split; lia.
Qed.

(** C68.  The times of hits and misses together are the times of the four lookup methods, plus those of
    take_multiple once more, which it gives to both (building_block.rs:134-135). *)
Theorem C68_hit_and_miss_times : forall (B : Timed K V), Forward B -> forall s es s' log,
  trun (ProfT B) s es = Ok (s', log) -> (forall c, p_stats s c = zero3) ->
  let t c := e3 (p_stats s' c) in
  exists vs, map out vs = log /\ Forall view_ok vs /\
    (t Hit + t Miss) mod 2 ^ 64 =
    (t Contains + t Take + t Get_ + t GetMut_ +
     sumN (fun v => if is_take_multiple (what (out v)) then meas v else 0) (since vs)) mod 2 ^ 64.
Proof.
  intros B FB s es s' log H Hz t. destruct (C68_counters FB _ _ H Hz) as (vs & es' & A1 & A2 & _ & A4).
  exists vs. split; auto. split; auto.
  assert (E : forall c, t c = total_time c (since vs) mod W64).
  { intros c. specialize (A4 c). unfold read_stats in A4. injection A4 as _ A4 _. exact A4. }
  rewrite !E. change (2 ^ 64) with W64. set (T := fun c => total_time c (since vs)).
  set (D := sumN _ _).
  assert (Q : T Hit + T Miss = T Contains + T Take + T Get_ + T GetMut_ + D).
  { unfold T, D, total_time. rewrite <- !sumN_plus. apply sumN_ext. intros v. unfold gains_time, counts_for, found.
    destruct (what (out v)) as [[]|]; cbn [is_take_multiple orb kind counter_eqb looked andb Nat.eqb]; try lia.
    - destruct (answer (out v)) as [[]| | | | |]; cbn; lia.
    - destruct (answer (out v)) as [|[]| | | |]; cbn; lia.
    - destruct mut; destruct (answer (out v)) as [| | | |[]|]; cbn; lia. }
  fold (T Hit) (T Miss) (T Contains) (T Take) (T Get_) (T GetMut_).
  rewrite mods, <- Q. rewrite <- N.add_mod by apply W64_pos. reflexivity.
Qed.

(** C68, refuted: "the total time spent in the method on a hit" (profiler.rs:186-187), for every container
    and every call of take_multiple that finds nothing: no hit, yet the whole duration of the call is
    reported as time spent on hits, and as time spent on misses too. *)
Theorem C68_hit_time_without_hit_refuted : forall (C : Block K V) (gt : bool -> Getter C) c ks c' ks' d,
  take_multiple C c ks = Ok (c', ks', []) -> d < 2 ^ 64 -> N.of_nat (length ks) < 2 ^ 64 ->
  exists s log, trun (ProfT (BareT gt))
      (mkProf (BareT gt) tstats_zero (fun _ => (0, 0)) (mkBare C 0 (fun _ => d) c []))
      [Ask (Call (PTakeMultiple ks))] = Ok (s, log) /\
    now (ProfT (BareT gt)) s = d /\
    fst (read_stats s Hit) = (0, d) /\ fst (read_stats s Miss) = (N.of_nat (length ks), d).
Proof.
  intros C gt c ks c' ks' d H Hd Hk. eexists _, _. split.
  - cbn [trun tcall ProfT p_ask time_it p_own p_in p_stats BareT pass b_ask bare_call b_cont b_clock b_lasts b_iters now bind].
    rewrite H. cbn [bind after length tsize b_cont]. unfold sub_chk. cbn [Nat.leb bind]. reflexivity.
  - cbn -[N.modulo W64 size_diff N.of_nat]. change W64 with (2 ^ 64). rewrite ?N.add_0_r, ?N.add_0_l, ?N.sub_0_r, ?Nat.sub_0_r.
    split; [reflexivity|]. rewrite !N.mod_mod by discriminate. rewrite (N.mod_small d) by auto. split; [reflexivity|].
    rewrite N.mod_small by auto. reflexivity.
Qed.

(** C68.  A Profiler around a Profiler: calls and sizes are counted alike, and the inner one measures at
    most what the outer one does, for each of the ten counters. *)
Theorem C68_inner_times_are_smaller : forall (B : Timed K V), Forward B -> forall (s : TSt (ProfT (ProfT B))) es s' log,
  trun (ProfT (ProfT B)) s es = Ok (s', log) ->
  (forall c, p_stats s c = zero3) -> (forall c, p_stats (p_in s) c = zero3) ->
  ~ List.In (Ask (Call PReset)) es -> now (ProfT (ProfT B)) s' - now (ProfT (ProfT B)) s < 2 ^ 64 ->
  forall c,
    c3 (p_stats (p_in s') c) = c3 (p_stats s' c) /\ z3 (p_stats (p_in s') c) = z3 (p_stats s' c) /\
    e3 (p_stats (p_in s') c) <= e3 (p_stats s' c).
Proof.
  intros B FB s es s' log H Hz1 Hz2 HN Hw c. pose proof (prof_forward FB) as FP.
  destruct (C68_counters FP _ _ H Hz1) as (vs & es1 & A1 & A2 & A3 & A4).
  destruct (C68_counters FB _ _ A3 Hz2) as (ws & es2 & B1 & B2 & _ & B4).
  destruct (wall (prof_forward FP) _ _ H) as [W1 _]. pose proof (meas_le_wall A2) as M. rewrite A1 in M.
  (* nobody resets *)
  assert (NR : Forall (fun e : seen K V => what e <> Call PReset) log).
  { clear - H HN. revert s s' log H. induction es as [|[d|a] es IH]; intros s s' log H; cbn [trun] in H.
    - injection H as <- <-. constructor.
    - eapply IH; [|exact H]. intros Q. apply HN. right; auto.
    - destruct (tcall (ProfT (ProfT B)) s a) as [[s1 r]|]; [|discriminate]. cbn [bind] in H.
      destruct (trun (ProfT (ProfT B)) s1 es) as [[s2 l]|] eqn:E2; [|discriminate]. cbn [bind] in H. injection H as <- <-.
      constructor; [cbn; intros ->; apply HN; left; auto|]. eapply IH; [|exact E2]. intros Q. apply HN. right; auto. }
  assert (All : forall us : list (view K V), Forall (fun v => what (out v) <> Call PReset) us -> since us = us).
  { induction us as [|u us IH] using rev_ind; auto. intros F. apply Forall_app in F as [F1 F2]. inversion F2; subst.
    rewrite since_snoc, IH by auto. unfold is_reset. destruct (what (out u)) as [[]|]; auto. congruence. }
  assert (NV : Forall (fun v => what (out v) <> Call PReset) vs) by (rewrite <- A1 in NR; rewrite Forall_map in NR; exact NR).
  assert (Pair : forall vs ws, Forall view_ok vs -> Forall view_ok ws -> Forall (fun v : view K V => what (out v) <> Call PReset) vs ->
    map out ws = insides vs -> Forall (fun w => what (out w) <> Call PReset) ws /\
    total_count c ws = total_count c vs /\ total_size c ws = total_size c vs /\ total_time c ws <= total_time c vs).
  { clear. induction vs as [|v vs IH]; intros ws F1 F2 F3 E.
    - destruct ws; [|discriminate]. cbn. split; [constructor|]. split; [reflexivity|]. split; [reflexivity|lia].
    - inversion F1 as [|? ? V1 V2]; subst. inversion F3 as [|? ? U1 U2]; subst. unfold view_ok in V1.
      destruct (inn v) as [i|] eqn:Ei; [|congruence]. cbn [insides flat_map] in E. rewrite Ei in E. cbn [app] in E.
      destruct ws as [|w ws]; [discriminate|]. cbn [map] in E. injection E as E1 E2.
      inversion F2 as [|? ? Q1 Q2]; subst. destruct (IH ws V2 Q2 U2 E2) as (I1 & I2 & I3 & I4).
      destruct V1 as (X1 & X2 & X3 & X4 & X5 & X6 & X7 & X8 & X9 & X10).
      assert (G : gain_count c (out w) = gain_count c (out v) /\ gain_size c (out w) = gain_size c (out v) /\ gains_time c (out w) = gains_time c (out v)).
      { unfold gain_count, gain_size, gains_time, found, worth, moved. rewrite X1, X2, X4, X5. auto. }
      destruct G as (G1 & G2 & G3).
      split; [constructor; auto; rewrite X1; auto|].
      unfold total_count, total_size, total_time in *. cbn [sumN fold_right]. unfold sumN in I2, I3, I4. rewrite G1, G2, G3, I2, I3. split; auto. split; auto.
      assert (meas w <= meas v).
      { unfold view_ok in Q1. destruct (inn w) as [j|]; [|congruence]. destruct Q1 as (_ & _ & _ & _ & _ & _ & _ & _ & _ & Q). lia. }
      destruct (gains_time c (out v)); lia. }
  destruct (Pair vs ws A2 B2 NV B1) as (P1 & P2 & P3 & P4).
  specialize (A4 c). specialize (B4 c). unfold read_stats in A4, B4. injection A4 as -> -> ->. injection B4 as -> -> ->.
  rewrite (All ws P1), (All vs NV), P2, P3. split; auto. split; auto.
  rewrite (All vs NV) in M. pose proof (time_le vs c) as TL.
  rewrite !N.mod_small; lia.
Qed.

(** C68, refuted beyond the range of the counters: two calls that last 2^63 nanoseconds each make
    [time_stats()] overflow (a panic in a debug build), for every container. *)
Theorem C68_total_overflow_refuted : forall (C : Block K V) (gt : bool -> Getter C) c k b c1 out1,
  contains C c k = Ok b -> push C c [] = Ok (c1, out1) ->
  exists s log, trun (ProfT (BareT gt))
      (mkProf (BareT gt) tstats_zero (fun _ => (0, 0)) (mkBare C 0 (fun _ => 2 ^ 63) c []))
      [Ask (Call (PContains k)); Ask (Call (PPush []))] = Ok (s, log) /\ time_stats s = Panic.
Proof.
  intros C gt c k b c1 out1 H1 H2. eexists _, _. split.
  - cbn [trun tcall ProfT p_ask time_it p_own p_in p_stats BareT pass b_ask bare_call b_cont b_clock b_lasts b_iters now bind].
    rewrite H1. cbn [bind after trun tcall ProfT p_ask time_it p_own p_in p_stats BareT pass b_ask bare_call b_cont b_clock b_lasts b_iters now].
    rewrite H2. cbn [bind after]. reflexivity.
  - destruct b; reflexivity.
Qed.
End Theorems.

(** ** Several threads *)
Definition eight (f : counter -> N) : N :=
  f Contains + f Take + f Pop + f Push + f Flush + f FlushIter + f Get_ + f GetMut_.
Definition busy_for (t : N) (o : option N) : N := match o with Some t0 => t - t0 | None => 0 end.
Definition crowd_inv (start : N) (s : crowd) : Prop :=
  start <= q_clock s /\ Forall (fun o => match o with Some t0 => start <= t0 <= q_clock s | None => True end) (q_in s) /\
  exists (T : counter -> N) (spent : list N), (forall c, e3 (q_stats s c) = T c mod W64) /\
    length spent = length (q_in s) /\ sumN (fun x => x) spent = eight T /\
    Forall (fun p => fst p + busy_for (q_clock s) (snd p) <= q_clock s - start) (combine spent (q_in s)).

Lemma after_time {K V} t (a : ask K V) r el z0 z1 t' : after t a r el z0 z1 = Ok t' -> forall T, (forall c, e3 (t c) = T c mod W64) ->
  exists T', (forall c, e3 (t' c) = T' c mod W64) /\ eight T' = eight T + el.
Proof.
  intros H T HT.
  set (e := mkSeen a r 0 0 z0 z1).
  assert (G : forall c, e3 (t' c) = (T c + (if gains_time c e then el else 0)) mod W64).
  { intros c. pose proof (@after_gain K V _ _ _ _ _ _ _ 0 0 H c) as Q. cbn zeta in Q.
    (* only the time component of the counter matters *)
    clear Q. revert H. unfold e. specialize (HT c).
    destruct a as [p|i]; [destruct p as [k|k|ks|n|vs| |m k g|]|]; destruct r as [b|o|l|ks' l|o|]; cbn [after]; try discriminate;
      unfold sub_chk; repeat match goal with |- context [if ?x then Ok _ else Panic] => destruct x; cbn [bind] end; try discriminate;
      intros H; injection H as <-;
      try destruct b; try destruct o; try destruct m; destruct c; cbn -[N.modulo W64 N.add]; rewrite ?HT; rewrite ?mod_more, ?mod_more_r, ?N.add_0_r; reflexivity. }
  exists (fun c => T c + (if gains_time c e then el else 0)). split; [exact G|]. unfold eight, e.
  destruct a as [p|i]; [destruct p as [k|k|ks|n|vs| |m k g|]|]; destruct r as [b|o|l|ks' l|o|]; cbn [after] in H; try discriminate;
    try destruct m; cbn; lia.
Qed.

Lemma combine_app {A B} (a1 a2 : list A) (b1 b2 : list B) : length a1 = length b1 ->
  combine (a1 ++ a2) (b1 ++ b2) = combine a1 b1 ++ combine a2 b2.
Proof. revert b1. induction a1 as [|x a1 IH]; intros [|y b1] H; try discriminate; auto. cbn. f_equal. apply IH. auto. Qed.
Lemma split_at {A B} (l : list A) (b1 : list B) y b2 : length l = length (b1 ++ y :: b2) ->
  exists l1 x l2, l = l1 ++ x :: l2 /\ length l1 = length b1 /\ length l2 = length b2.
Proof.
  revert l. induction b1 as [|z b1 IH]; intros [|x l] H; cbn in H; try discriminate.
  - exists [], x, l. auto.
  - destruct (IH l) as (l1 & x' & l2 & -> & H1 & H2); [lia|]. exists (x :: l1), x', l2. cbn. auto.
Qed.
Lemma crowd_step {K V} start s s' : qstep K V s s' -> crowd_inv start s -> crowd_inv start s'.
Proof.
  intros HS (I1 & I2 & T & spent & HT & HL & HE & HF). destruct HS as [t ts l d|t ts l1 l2|t ts l1 t0 l2 a r z0 z1 ts' HA]; unfold crowd_inv; cbn [q_clock q_stats q_in] in *.
  - split; [lia|]. split; [eapply Forall_impl; [|exact I2]; intros [t0|]; auto; lia|].
    exists T, spent. split; auto. split; auto. split; auto.
    rewrite Forall_forall in *. intros [x o] Hp. pose proof (HF _ Hp) as Q. cbn [fst snd] in *.
    assert (R : match o with Some t0 => start <= t0 <= t | None => True end) by (apply I2; eapply in_combine_r; eauto).
    destruct o; cbn [busy_for] in *; lia.
  - split; auto. apply Forall_app in I2 as [J1 J2]. inversion J2; subst. split.
    { apply Forall_app. split; auto. constructor; auto. lia. }
    destruct (split_at _ _ _ _ HL) as (p1 & x & p2 & -> & L1 & L2).
    exists T, (p1 ++ x :: p2). split; auto. split; [rewrite !app_length in *; cbn in *; lia|]. split; auto.
    rewrite combine_app in * by auto. cbn [combine] in *. apply Forall_app in HF as [F1 F2]. inversion F2; subst.
    apply Forall_app. split; auto. constructor; auto. cbn [fst snd busy_for] in *. lia.
  - split; auto. apply Forall_app in I2 as [J1 J2]. inversion J2; subst. split.
    { apply Forall_app. split; auto. }
    destruct (@after_time K V _ _ _ _ _ _ _ HA T HT) as (T' & G1 & G2).
    destruct (split_at _ _ _ _ HL) as (p1 & x & p2 & -> & L1 & L2).
    exists T', (p1 ++ (x + (t - t0)) :: p2). split; auto. split; [rewrite !app_length in *; cbn in *; lia|]. split.
    + rewrite !sumN_app in *. cbn [sumN fold_right] in *. lia.
    + rewrite combine_app in * by auto. cbn [combine] in *. apply Forall_app in HF as [F1 F2]. inversion F2; subst.
      apply Forall_app. split; auto. constructor; auto. cbn [fst snd busy_for] in *. lia.
Qed.

(** C68.  Threads: with [n] of them on clones of a Profiler, [time_stats()] is at most [n] times the time
    elapsed since it was created or reset. *)
Theorem C68_threads_total : forall K V n start s,
  qsteps K V (mkCrowd start tstats_zero (repeat None n)) s ->
  N.of_nat n * (q_clock s - start) < 2 ^ 64 ->
  exists x, crowd_time s = Ok x /\ x <= N.of_nat n * (q_clock s - start).
Proof.
  intros K V n start s H Hb.
  assert (I : crowd_inv start s /\ length (q_in s) = n).
  { remember (mkCrowd start tstats_zero (repeat None n)) as s0 eqn:E. induction H as [s|s s' s'' HS IH HQ]; subst.
    - split; [|apply repeat_length]. unfold crowd_inv; cbn [q_clock q_stats q_in]. split; [lia|]. split.
      { apply Forall_forall. intros o Ho. apply repeat_spec in Ho. subst. auto. }
      exists (fun _ => 0), (repeat 0 n). split; [reflexivity|]. split; [rewrite !repeat_length; auto|]. split.
      { clear. induction n; cbn; auto. }
      apply Forall_forall. intros [x o] Ho. pose proof (in_combine_l _ _ _ _ Ho) as Q1. pose proof (in_combine_r _ _ _ _ Ho) as Q2.
      apply repeat_spec in Q1. apply repeat_spec in Q2. subst. cbn. lia.
    - destruct IH as [I1 I2]; auto.
      { destruct HQ; cbn [q_clock] in *; auto.
        assert (L : t - start <= t + d - start) by lia. pose proof (N.mul_le_mono_l _ _ (N.of_nat n) L). lia. }
      split; [eapply crowd_step; eauto|]. rewrite <- I2. destruct HQ; cbn [q_in]; auto; rewrite !app_length; reflexivity. }
  destruct I as [(I1 & I2 & T & spent & HT & HL & HE & HF) Hn].
  assert (B : eight T <= N.of_nat n * (q_clock s - start)).
  { rewrite <- HE, <- Hn, <- HL. clear - HF HL. revert HL HF. generalize (q_in s). induction spent as [|x spent IH]; intros [|o l] HL HF; try discriminate HL.
    - apply N.le_0_l.
    - cbn [combine] in HF. inversion HF; subst. cbn [fst snd] in *. specialize (IH l). cbn [sumN fold_right length].
      unfold sumN in IH. specialize (IH ltac:(cbn in HL; lia) ltac:(auto)). cbn [length] in *. lia. }
  assert (E : forall c, T c <= eight T -> e3 (q_stats s c) = T c) by (intros c Hc; rewrite HT; apply N.mod_small; change W64 with (2 ^ 64); lia).
  unfold crowd_time. rewrite !E by (unfold eight; lia). unfold add64. change W64 with (2 ^ 64). unfold eight in B.
  repeat (match goal with |- context [if ?a <? ?b then _ else _] => replace (a <? b) with true by (symmetry; apply N.ltb_lt; lia) end; cbn [bind]).
  eexists. split; [reflexivity|]. lia.
Qed.

(** ... and that much is reached: with [n] threads the sum of the times is not a time elapsed. *)
Theorem C68_threads_total_refuted : forall K V (k : K) n d, N.of_nat n * d < 2 ^ 64 ->
  exists s, qsteps K V (mkCrowd 0 tstats_zero (repeat None n)) s /\ q_clock s = d /\ crowd_time s = Ok (N.of_nat n * d).
Proof.
  intros K V k n d Hb.
  assert (In : forall a b ts, qsteps K V (mkCrowd 0 ts (repeat (Some 0) a ++ repeat None b)) (mkCrowd 0 ts (repeat (Some 0) (a + b)))).
  { intros a b ts. revert a. induction b as [|b IH]; intros a.
    - rewrite app_nil_r, Nat.add_0_r. constructor.
    - assert (Q : forall s s' s'', qstep K V s s' -> qsteps K V s' s'' -> qsteps K V s s'').
      { intros s s' s'' Q1 Q2. induction Q2; [econstructor; [constructor|auto]|econstructor; eauto]. }
      eapply Q; [cbn [repeat]; apply Q_enter|]. replace (a + S b)%nat with (S a + b)%nat by lia.
      replace (repeat (Some 0) a ++ Some 0 :: repeat None b) with (repeat (Some 0) (S a) ++ repeat (@None N) b); [apply IH|].
      cbn [repeat]. rewrite repeat_cons, <- app_assoc. reflexivity. }
  assert (Out : forall b a ts, N.of_nat (a + b) * d < 2 ^ 64 -> e3 (ts Contains) = N.of_nat a * d -> (forall c, c <> Contains -> c <> Hit -> e3 (ts c) = 0) ->
    exists ts', qsteps K V (mkCrowd d ts (repeat None a ++ repeat (Some 0) b)) (mkCrowd d ts' (repeat None (a + b))) /\
      e3 (ts' Contains) = N.of_nat (a + b) * d /\ forall c, c <> Contains -> c <> Hit -> e3 (ts' c) = 0).
  { induction b as [|b IH]; intros a ts Hd H1 H2.
    - exists ts. rewrite app_nil_r, Nat.add_0_r. split; [constructor|]. auto.
    - set (ts1 := bump (bump ts Contains 1 (d - 0) 0) Hit 1 (d - 0) 0).
      destruct (IH (S a) ts1) as (ts' & R & G1 & G2).
      { replace (S a + b)%nat with (a + S b)%nat by lia. auto. }
      { unfold ts1, bump, add3. cbn [counter_eqb e3]. rewrite H1, N.sub_0_r. change W64 with (2 ^ 64).
        rewrite N.add_mod_idemp_r by discriminate. rewrite N.mod_small; nia. }
      { intros c N1 N2. unfold ts1, bump, add3. destruct c; try congruence; cbn [counter_eqb]; apply H2; congruence. }
      exists ts'. replace (a + S b)%nat with (S a + b)%nat by lia. split; [|auto].
      assert (Q : forall s s' s'', qstep K V s s' -> qsteps K V s' s'' -> qsteps K V s s'').
      { intros s s' s'' Q1 Q2. induction Q2; [econstructor; [constructor|auto]|econstructor; eauto]. }
      eapply Q; [cbn [repeat]; eapply Q_leave with (a := Call (PContains k)) (r := RBool true) (z0 := 0%nat) (z1 := 0%nat); reflexivity|].
      fold ts1. replace (repeat None a ++ None :: repeat (Some 0) b) with (repeat (@None N) (S a) ++ repeat (Some 0) b); [exact R|].
      cbn [repeat]. rewrite repeat_cons, <- app_assoc. reflexivity. }
  destruct (Out n 0%nat tstats_zero) as (ts' & R & G1 & G2); [auto|reflexivity|reflexivity|].
  exists (mkCrowd d ts' (repeat None n)). split; [|split; [reflexivity|]].
  - assert (Tr : forall s s' s'', qsteps K V s s' -> qsteps K V s' s'' -> qsteps K V s s'').
    { intros s s' s'' Q1 Q2. induction Q2 as [|x y z R1 IH R2]; [exact Q1|]. exact (qs_step (IH Q1) R2). }
    eapply Tr; [apply (In 0%nat n)|]. eapply Tr; [econstructor; [constructor|apply (Q_time K V 0 _ _ d)]|]. exact R.
  - unfold crowd_time; cbn [q_stats]. rewrite G1, !G2 by discriminate. unfold add64. change W64 with (2 ^ 64). cbn [Nat.add].
    rewrite !N.add_0_r. assert (L : (N.of_nat n * d <? 2 ^ 64) = true) by (apply N.ltb_lt; auto). rewrite L. cbn [bind].
    do 6 (rewrite ?N.add_0_r, ?L; cbn [bind]). rewrite ?N.add_0_r, ?L. reflexivity.
Qed.

(** An example that meets the hypotheses: a Profiler around a Profiler around an Array; each call takes
    100 ns in the Array, the inner Profiler adds 1 + 2 ns and the outer one 10 + 20 ns; 5 ns pass between
    the calls. *)
Definition two_profs : TSt (ProfT (ProfT (BareT prof_arr_get))) :=
  mkProf (ProfT (BareT prof_arr_get)) tstats_zero (fun _ => (10, 20))
    (mkProf (BareT prof_arr_get) tstats_zero (fun _ => (1, 2))
      (mkBare prof_arr 0 (fun _ => 100) prof_arr_new [])).
Definition two_profs_calls : list (doing nat nat) :=
  [Ask (Call (PPush [(1, 10); (2, 20); (3, 30)]%nat)); Pause 5; Ask (Call (PTakeMultiple [1; 7; 8]%nat));
   Ask (Call (PContains 2%nat)); Ask (Call (PGet true 2%nat S)); Pause 5; Ask (Call PFlush); Ask (NextOf 0); Ask (NextOf 0); Ask (NextOf 0)].
Example C68_two_profilers_example :
  match trun (ProfT (ProfT (BareT prof_arr_get))) two_profs two_profs_calls with
  | Ok (s, log) =>
      now (ProfT (ProfT (BareT prof_arr_get))) s = 1074 /\
      map answer (skipn 5 log) = [ROne (Some (3, 30)); ROne (Some (2, 21)); ROne None]%nat /\
      read_stats s Take = (3, 133, 1) /\ read_stats (p_in s) Take = (3, 103, 1) /\
      read_stats s Hit = (3, 399, 0) /\ read_stats s Miss = (2, 133, 0) /\ read_stats s FlushIter = (3, 399, 0) /\
      time_stats s = Ok 1064 /\ time_stats (p_in s) = Ok 824
  | Panic => False
  end.
Proof. vm_compute. repeat split. Qed.
