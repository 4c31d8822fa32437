(** CutProof.v -- what find_cut_at_size computes. *)
From Verif Require Import Base Cut.
Set Implicit Arguments.

Lemma cut_loop_spec {T} (sz : T -> nat) n : forall (rl : list T) acc (done : list T) last i c e,
  acc = sum_sz sz done ->
  (done = [] -> last = None) -> (forall d ds, done = d :: ds -> last = Some d) ->
  (done <> [] -> acc < n) ->
  cut_loop sz n acc last rl = (i, c, e) ->
  let vs := rev rl ++ done in
  c = sum_sz sz (skipn i vs) /\ e = nth_error vs i /\ (n <= c \/ i = 0) /\ (i <= length rl) /\
  (vs <> [] -> i < length vs) /\
  (vs <> [] -> skipn (S i) vs = [] \/ sum_sz sz (skipn (S i) vs) < n).
Proof.
  induction rl as [|x rest IH]; intros acc done last i c e Hacc Hl0 Hl1 Hlt H vs.
  - simpl in H. inversion H; subst i c e. subst vs. simpl.
    split; [auto|]. split.
    { destruct done as [|d ds]; simpl; [auto|]. eapply Hl1; eauto. }
    split; [auto|]. split; [lia|]. split.
    { destruct done; simpl; [congruence|lia]. }
    { destruct done as [|d ds]; simpl; [congruence|]. intros _.
      destruct ds; [left; auto|]. right.
      specialize (Hlt ltac:(discriminate)). rewrite Hacc in Hlt. unfold sum_sz in *; simpl in *. lia. }
  - simpl in H. destruct (acc + sz x <? n) eqn:E.
    + apply Nat.ltb_lt in E.
      assert (Hvs : vs = rev rest ++ (x :: done)).
      { subst vs. simpl. rewrite <- app_assoc. auto. }
      rewrite Hvs. specialize (IH (acc + sz x) (x :: done) (Some x) i c e).
      simpl in IH. destruct IH as (H1 & H2 & H3 & H4 & H5 & H6).
      { unfold sum_sz in *; simpl; lia. }
      { discriminate. }
      { intros d ds Hd; inversion Hd; auto. }
      { intros _; auto. }
      { auto. }
      repeat (split; [solve [auto | simpl; lia]|]). auto.
    + apply Nat.ltb_ge in E. inversion H; subst i c e.
      assert (Hvs : vs = rev rest ++ (x :: done)).
      { subst vs. simpl. rewrite <- app_assoc. auto. }
      rewrite Hvs. replace (length rest) with (length (rev rest)) by apply rev_length.
      assert (S1 : skipn (length (rev rest)) (rev rest ++ x :: done) = x :: done).
      { rewrite skipn_app, skipn_all, Nat.sub_diag. auto. }
      assert (S2 : skipn (S (length (rev rest))) (rev rest ++ x :: done) = done).
      { rewrite skipn_app, skipn_all2, Nat.sub_succ_l, Nat.sub_diag by lia. auto. }
      rewrite S1, S2. split.
      { unfold sum_sz in *; simpl; lia. }
      split. { rewrite nth_error_app2, Nat.sub_diag by lia. auto. }
      split. { left. auto. }
      split. { rewrite rev_length; simpl; lia. }
      split. { intros _. rewrite app_length; simpl; lia. }
      { intros _. destruct done; [left; auto | right]. specialize (Hlt ltac:(discriminate)). lia. }
Qed.

(** The cut is at the shortest suffix reaching [n]; at index 0 if none does. *)
Lemma find_cut_spec {T} (sz : T -> nat) n (vs : list T) i c e :
  find_cut_at_size vs sz n = (i, c, e) ->
  c = sum_sz sz (skipn i vs) /\ e = nth_error vs i /\ (n <= c \/ i = 0) /\
  (vs <> [] -> i < length vs) /\
  (vs <> [] -> skipn (S i) vs = [] \/ sum_sz sz (skipn (S i) vs) < n).
Proof.
  unfold find_cut_at_size. intros H.
  apply (@cut_loop_spec T sz n (rev vs) 0 []) in H; auto; try congruence.
  rewrite rev_involutive, app_nil_r in H. tauto.
Qed.
