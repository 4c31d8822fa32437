(** PLrfu.v -- property theorems about Lrfu: C24. *)
From Coq Require Import QArith Qpower Lqa.
From Verif Require Import Base Wrappers Decorations.
Set Implicit Arguments.
Local Open Scope Q_scope.

(** ** Specification *)
(** A cell created at [t0] and accessed at the times [ts], in that order. *)
Definition accessed (e t0 : Q) (ts : list Q) : lrfu_stats := fold_left (fun s t => ls_touch t s) ts (ls_new e t0).
(** The statistic as documented (/repo/src/decorator/lrfu.rs:44-48 and 86-91): at each access the time since the
    last one is summed to the statistic and the total is divided by the exponent. *)
Fixpoint documented (e last stat : Q) (ts : list Q) : Q :=
  match ts with [] => stat | t :: ts' => documented e t ((stat + (t - last)) / e) ts' end.
(** The decayed sum in closed form: sum over the accesses of (time since the previous one) / e^(accesses since). *)
Fixpoint decayed (e last : Q) (ts : list Q) : Q :=
  match ts with [] => 0 | t :: ts' => (t - last) * (/ e) ^ (Z.of_nat (length ts')) + decayed e t ts' end.

(** ** C24 *)
(** At one time, the comparison is a total preorder: reflexive, antisymmetric as a comparison, transitive. *)
Theorem C24_total_order_at_one_time : forall t : Q,
  (forall a, lrfu_cmp t t a a = Eq) /\
  (forall a b, lrfu_cmp t t b a = CompOpp (lrfu_cmp t t a b)) /\
  (forall a b c, lrfu_cmp t t a b <> Gt -> lrfu_cmp t t b c <> Gt -> lrfu_cmp t t a c <> Gt) /\
  (forall a b c, lrfu_cmp t t a b = Lt -> lrfu_cmp t t b c <> Gt -> lrfu_cmp t t a c = Lt).
Proof.
  intros t. unfold lrfu_cmp. split; [|split; [|split]].
  - intros a. apply -> Qeq_alt. reflexivity.
  - intros a b. symmetry. apply Qcompare_antisym.
  - intros a b c H1 H2. apply <- Qle_alt in H1. apply <- Qle_alt in H2. apply -> Qle_alt. eapply Qle_trans; eauto.
  - intros a b c H1 H2. apply <- Qlt_alt in H1. apply <- Qle_alt in H2. apply -> Qlt_alt. eapply Qlt_le_trans; eauto.
Qed.
(** ... and the same one at every time, as long as nothing is accessed. *)
Theorem C24_order_does_not_depend_on_time : forall t t' a b, lrfu_cmp t t a b = lrfu_cmp t' t' a b.
Proof.
  intros t t' a b. unfold lrfu_cmp, ls_score.
  generalize (ls_eavg a / ls_exponent a) (ls_eavg b / ls_exponent b); intros x y.
  destruct (_ ?= _) eqn:E; symmetry.
  - apply <- Qeq_alt in E. apply -> Qeq_alt. lra.
  - apply <- Qlt_alt in E. apply -> Qlt_alt. lra.
  - apply <- Qgt_alt in E. apply -> Qgt_alt. lra.
Qed.
(** The code reads the clock twice.  The result is that of one time for scores further apart than the two
    readings... *)
Theorem C24_two_readings_partial : forall t1 t2 a b, t1 <= t2 ->
  t2 - t1 < ls_score t1 a - ls_score t1 b \/ ls_score t1 a < ls_score t1 b ->
  lrfu_cmp t1 t2 a b = lrfu_cmp t1 t1 a b.
Proof.
  intros t1 t2 a b L H. unfold lrfu_cmp, ls_score in *.
  revert H. generalize (ls_eavg a / ls_exponent a) (ls_eavg b / ls_exponent b); intros x y [H|H].
  - transitivity Gt; [|symmetry]; apply -> Qgt_alt; lra.
  - transitivity Lt; [|symmetry]; apply -> Qlt_alt; lra.
Qed.
(** ... but a clock that advances between the readings makes every cell smaller than itself, and of two cells of
    close scores each smaller than the other: not an order, at any exponent and after any accesses. *)
Theorem C24_cell_below_itself_refuted : forall t1 t2 a, t1 < t2 -> lrfu_cmp t1 t2 a a = Lt.
Proof. intros t1 t2 a L. unfold lrfu_cmp, ls_score. apply -> Qlt_alt.
  generalize (ls_eavg a / ls_exponent a). intros x. lra. Qed.
Theorem C24_each_below_the_other_refuted : forall t1 t2 t3 t4 a b,
  t1 < t2 -> t2 <= t3 -> t3 < t4 ->
  ls_score t1 b <= ls_score t1 a < ls_score t2 b ->
  lrfu_cmp t1 t2 a b = Lt /\ lrfu_cmp t3 t4 b a = Lt.
Proof. intros t1 t2 t3 t4 a b L1 L2 L3. unfold lrfu_cmp, ls_score in *.
  generalize (ls_eavg a / ls_exponent a) (ls_eavg b / ls_exponent b); intros x y [H1 H2]. split; apply -> Qlt_alt; lra. Qed.

(** The stored statistic is the decayed sum of the times between accesses, and the score is the time since the
    last access plus the documented statistic. *)
Lemma div_pos_ne e : 0 < e -> ~ e == 0. Proof. intros H E. rewrite E in H. discriminate. Qed.
Lemma last_cons (t d : Q) ts : last (t :: ts) d = last ts t.
Proof. revert t d. induction ts as [|u ts IH]; intros t d; [reflexivity|]. rewrite (IH u t). apply IH. Qed.
Lemma touches_eavg e : 0 < e -> forall ts s, ls_exponent s = e ->
  ls_eavg (fold_left (fun s t => ls_touch t s) ts s) == ls_eavg s * (/ e) ^ (Z.of_nat (length ts)) + decayed e (ls_last s) ts /\
  ls_last (fold_left (fun s t => ls_touch t s) ts s) = last ts (ls_last s) /\
  ls_exponent (fold_left (fun s t => ls_touch t s) ts s) = e.
Proof.
  intros He ts. pose proof (div_pos_ne He) as Hne.
  assert (Hi : ~ / e == 0) by (intros E; apply Hne; rewrite <- (Qinv_involutive e), E; reflexivity).
  induction ts as [|t ts IH]; intros s E; cbn [fold_left].
  - cbn [length decayed last]. split; [cbn; lra|]. auto.
  - specialize (IH (ls_touch t s) E). destruct IH as (I1 & I2 & I3). split; [|split]; auto.
    + rewrite I1. cbn [ls_touch ls_eavg ls_last decayed length]. rewrite E.
      rewrite Nat2Z.inj_succ. unfold Z.succ. rewrite Qpower_plus by auto. rewrite Qpower_1_r. unfold Qdiv. ring.
    + rewrite I2. cbn [ls_touch ls_last]. symmetry. apply last_cons.
Qed.
Theorem C24_stored_is_decayed_sum : forall e t0 ts, 0 < e -> ls_eavg (accessed e t0 ts) == decayed e t0 ts.
Proof.
  intros e t0 ts He. destruct (touches_eavg He ts (ls_new e t0) eq_refl) as (H & _). unfold accessed. rewrite H.
  cbn [ls_new ls_eavg ls_last]. ring.
Qed.
Theorem C24_score_is_documented : forall e t0 ts now, 0 < e ->
  ls_score now (accessed e t0 ts) == (now - last ts t0) + documented e t0 0 ts.
Proof.
  intros e t0 ts now He. pose proof (div_pos_ne He) as Hne.
  destruct (touches_eavg He ts (ls_new e t0) eq_refl) as (_ & H2 & H3). unfold accessed in *. unfold ls_score. rewrite H2, H3.
  cbn [ls_new ls_last]. apply Qplus_inj_l.
  assert (G : forall ts s stat, ls_exponent s = e -> ls_eavg s / e == stat ->
     ls_eavg (fold_left (fun s t => ls_touch t s) ts s) / e == documented e (ls_last s) stat ts).
  { clear - Hne. induction ts as [|t ts IH]; intros s stat E H; cbn [fold_left documented]; auto.
    change t with (ls_last (ls_touch t s)) at 2.
    apply IH; auto. cbn [ls_touch ls_eavg]. rewrite E. rewrite <- H. field. auto. }
  apply (G ts (ls_new e t0) 0); auto. cbn [ls_new ls_eavg]. field. auto.
Qed.
(** An exponent at most zero is refused. *)
Theorem C24_exponent : forall V (v : V) e now, e <= 0 <-> lrfu_cell_new v e now = Panic.
Proof.
  intros V v e now. unfold lrfu_cell_new. destruct (Qle_bool e 0) eqn:E.
  - split; auto. intros _. apply Qle_bool_iff; auto.
  - split; [|discriminate]. intros H. apply Qle_bool_iff in H. congruence.
Qed.

(** Two fresh cells with the readings of Counter (one per comparison of each side). *)
Example lrfu_case : let a := accessed 2 0 [3; 4] in let b := accessed 2 1 [2; 5] in
  ls_eavg a == 5 # 2 /\ ls_score 6 a == 13 # 4 /\ ls_score 6 b == 11 # 4 /\
  lrfu_cmp 6 7 a b = Lt /\ lrfu_cmp 8 9 b a = Lt /\ lrfu_cmp 6 6 a b = Gt.
Proof. cbn zeta. repeat split; vm_compute; reflexivity. Qed.
Print Assumptions C24_total_order_at_one_time.
Print Assumptions C24_stored_is_decayed_sum.
Print Assumptions C24_score_is_documented.
