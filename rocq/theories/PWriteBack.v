(** PWriteBack.v -- C62: a cache in front of a store is transparent: its client sees what it would see without it, and
    after a flush the store is up to date.  For every tree of containers. *)
From Verif Require Import Base PermSolve Block Spec LawsProof Cut Array BTree Batch Exclusive Wrappers Associative Arch ArchProof Get GetProof PGet
  Decorations PArch PRepr WriteBack.
Set Implicit Arguments.

Section PWriteBack.
Context {K : Type} {OK : Ord K} {EK : OrdEq K} {V : Type}.
Implicit Types (d m : store K V) (l c : list (K * V)).

Lemma put_same k v d : put k v d k = v.
Proof. unfold put. assert (E : eqb k k = true) by (apply eqb_eq; auto). rewrite E. auto. Qed.
Lemma put_other k v d x : x <> k -> put k v d x = d x.
Proof. intros N. unfold put. destruct (eqb x k) eqn:E; auto. apply eqb_eq in E. congruence. Qed.
Lemma put_ext k v d m x : d x = m x -> put k v d x = put k v m x.
Proof. unfold put. destruct (eqb x k); auto. Qed.
Lemma put_all_app l c d : put_all (l ++ c) d = put_all c (put_all l d).
Proof. unfold put_all. apply fold_left_app. Qed.
Lemma put_all_cons k v l d : put_all ((k, v) :: l) d = put_all l (put k v d).
Proof. reflexivity. Qed.
Lemma put_all_ext l : forall d m x, d x = m x -> put_all l d x = put_all l m x.
Proof. induction l as [|[k v] l IH]; intros d m x E; [exact E|]. rewrite !put_all_cons. apply IH. apply put_ext. auto. Qed.
Lemma put_all_out l : forall d x, ~ In x (keys l) -> put_all l d x = d x.
Proof.
  induction l as [|[k v] l IH]; intros d x N; [reflexivity|]. rewrite put_all_cons. cbn in N. rewrite IH by tauto. apply put_other. intros E. apply N. auto.
Qed.
Lemma put_all_in l : forall d k v, NoDup (keys l) -> In (k, v) l -> put_all l d k = v.
Proof.
  induction l as [|[k' v'] l IH]; intros d k v N Hi; [destruct Hi|]. cbn in N. inversion N as [|? ? N1 N2]; subst. rewrite put_all_cons. destruct Hi as [E|Hi].
  - inversion E; subst. rewrite put_all_out by auto. apply put_same.
  - apply IH; auto.
Qed.
Lemma put_all_perm l c d x : NoDup (keys l) -> Permutation l c -> put_all l d x = put_all c d x.
Proof.
  intros N P. destruct (in_dec eq_dec_ord x (keys l)) as [Hi|Hi].
  - unfold keys in Hi. apply in_map_iff in Hi. destruct Hi as ([k v] & E & Hi). cbn in E. subst k.
    rewrite (put_all_in l d x v N Hi). symmetry. apply put_all_in.
    + apply (NoDup_perm (keys_perm P)); auto.
    + rewrite <- P. auto.
  - rewrite (put_all_out l); auto. rewrite put_all_out; auto. rewrite <- (keys_perm P). auto.
Qed.

Section Arch.
Variable a : arch K V.
Let L := arch_laws a (dup := false) (fun H => match Bool.diff_false_true H with end).
(** The invariant: what the client could see -- the cached pairs, over the store -- is the memory. *)
Definition coherent (s : St (block a)) d m : Prop := ainv false a s /\ forall x, m x = put_all (held a s) d x.
Lemma new_coherent d : coherent (init a) d d.
Proof. split; [apply ainv_new|]. intros x. rewrite init_empty. auto. Qed.
Lemma nodup_held s : ainv false a s -> NoDup (keys (held a s)).
Proof. intros H. apply (law_unique L s H). auto. Qed.
(** Pairs leave the cache for the store. *)
Lemma leave c c' out d m : NoDup (keys c) -> Permutation (out ++ c') c -> (forall x, m x = put_all c d x) -> forall x, m x = put_all c' (put_all out d) x.
Proof.
  intros N P H x. rewrite H, <- put_all_app. apply put_all_perm; auto. symmetry; auto.
Qed.
Lemma insert_ok s d m vs : coherent s d m -> NoDup (keys (held a s ++ vs)) ->
  exists s' d', insert a s d vs = Ok (s', d') /\ coherent s' d' (put_all vs m).
Proof.
  intros [Hi H] N. destruct (law_push L s vs Hi (fun _ => N)) as (s' & out & E & I1 & _ & P). unfold insert. rewrite E. cbn [bind].
  eexists _, _. split; [reflexivity|]. split; auto. apply (leave (c := held a s ++ vs)); auto.
  intros x. rewrite put_all_app. apply put_all_ext. auto.
Qed.
Lemma absent_ok s : ainv false a s -> forall ks seen, exists r, absent a s seen ks = Ok r /\
  NoDup r /\ (forall k, In k r -> ~ In k (keys (held a s)) /\ ~ In k seen).
Proof.
  intros Hi. induction ks as [|k ks IH]; intros seen; cbn [absent].
  - exists []. split; auto. split; [constructor|]. intros k [].
  - rewrite (law_contains L s k Hi). cbn [bind]. destruct (has_key k (held a s)) eqn:Eh; cbn [orb]; [apply IH|].
    destruct (existsb (eqb k) seen) eqn:Es; [apply IH|].
    destruct (IH (k :: seen)) as (r & E & N & H). rewrite E. cbn [bind]. exists (k :: r). split; auto. split.
    + constructor; auto. intros Hk. destruct (H k Hk) as [_ X]. apply X. left; auto.
    + intros x [<-|Hx].
      * split.
        -- intros Hk. apply has_key_in in Hk. congruence.
        -- intros Hk. assert (X : existsb (eqb k) seen = true) by (apply existsb_exists; exists k; split; auto; apply eqb_eq; auto). congruence.
      * destruct (H x Hx) as [H1 H2]. split; auto. intros Hk. apply H2. right; auto.
Qed.
Lemma perform_ok s d m y : coherent s d m -> permitted a y ->
  exists s' d' o, perform a s d y = Ok (s', d', o) /\ coherent s' d' (remember m y) /\
    sees m y = match o with Some v => [v] | None => [] end.
Proof.
  intros HC HP. pose proof HC as [Hi H]. pose proof (nodup_held _ Hi) as N.
  assert (FM : forall k, ~ In k (keys (held a s)) -> m k = d k) by (intros k Hk; rewrite H; apply put_all_out; auto).
  assert (FH : forall k v rest, Permutation (held a s) ((k, v) :: rest) -> m k = v).
  { intros k v rest P. rewrite H. apply put_all_in; auto. rewrite P. left; auto. }
  assert (GET : forall mu k f, get_ready a -> keeps_size mu a f ->
    exists s' d' v, (let* (s1, o) := aget mu a s k f in
      match o with
      | Some v => Ok (s1, d, Some v)
      | None => let* (s2, d2) := insert a s1 d [(k, f (d k))] in Ok (s2, d2, Some (d k))
      end) = Ok (s', d', Some v) /\ coherent s' d' (put k (f (m k)) m) /\ m k = v).
  { intros mu k f Hr Hk. destruct (@arch_get K OK EK mu false V a f s k) as (s1 & o & E & I1 & _ & _ & Ho); auto; [discriminate|].
    rewrite E. cbn [bind]. destruct o as [v|].
    - destruct Ho as (rest & P1 & P2). eexists _, _, v. split; [reflexivity|]. split; [|eapply FH; eauto].
      assert (N1 : NoDup (k :: keys rest)) by (change (NoDup (keys ((k, v) :: rest))); apply (NoDup_perm (keys_perm P1)); auto).
      split; auto. intros x. rewrite (put_all_perm d x (nodup_held _ I1) P2). rewrite put_all_cons, (FH _ _ _ P1).
      destruct (eq_dec_ord x k) as [->|Nx].
      + rewrite put_same. rewrite put_all_out; [rewrite put_same; auto|inversion N1; auto].
      + rewrite put_other by auto. rewrite H, (put_all_perm d x N P1), put_all_cons. apply put_all_ext. rewrite !put_other; auto.
    - destruct Ho as [Hk1 P]. assert (C1 : coherent s1 d m).
      { split; auto. intros x. rewrite H. apply put_all_perm; auto. symmetry; auto. }
      destruct (@insert_ok s1 d m [(k, f (d k))] C1) as (s' & d' & E2 & C2).
      { rewrite keys_app. apply (NoDup_perm (Permutation_app_comm [k] _)). constructor; [rewrite (keys_perm P); auto|apply nodup_held; auto]. }
      rewrite E2. cbn [bind]. eexists _, _, _. split; [reflexivity|]. split; [|auto]. rewrite (FM k Hk1). exact C2. }
  destruct y as [k|k f|k f|ks|n|ks|]; cbn [perform permitted remember sees] in *.
  - destruct HP as [Hr Hk]. destruct (GET false k (fun v => v) Hr Hk) as (s' & d' & v & E & C & Ev). exists s', d', (Some v). split; [exact E|].
    split; [|congruence]. destruct C as [C1 C2]. split; auto. intros x. rewrite <- C2. destruct (eq_dec_ord x k) as [->|Nx]; [rewrite put_same|rewrite put_other]; auto.
  - destruct HP as [Hr Hk]. destruct (GET true k f Hr Hk) as (s' & d' & v & E & C & Ev). exists s', d', (Some v). split; [exact E|]. split; [auto|congruence].
  - destruct (law_take L s k Hi) as (s1 & o & E & I1 & _ & _ & Ho). rewrite E. cbn [bind].
    assert (Ev : match o with Some (_, v) => v | None => d k end = m k).
    { destruct o as [[k' v]|]; [destruct Ho as [-> P]; symmetry; eapply FH; symmetry; eauto|symmetry; apply FM; apply Ho]. }
    rewrite Ev.
    assert (N1 : ~ In k (keys (held a s1))).
    { destruct o as [[k' v]|].
      - destruct Ho as [-> P]. assert (X : NoDup (k :: keys (held a s1))) by (change (NoDup (keys ((k, v) :: held a s1))); apply (NoDup_perm (keys_perm (Permutation_sym P))); auto).
        inversion X; auto.
      - destruct Ho as [X P]. rewrite (keys_perm P). auto. }
    (* without its pair, the store may show an old value of [k]; the push puts it right *)
    assert (C1 : exists m', coherent s1 d m' /\ forall x, x <> k -> m' x = m x).
    { exists (put_all (held a s1) d). split; [split; auto|]. intros x Nx. rewrite H. destruct o as [[k' v]|].
      - destruct Ho as [-> P]. transitivity (put_all ((k, v) :: held a s1) d x).
        + rewrite put_all_cons. apply put_all_ext. rewrite put_other; auto.
        + apply put_all_perm; auto. apply (NoDup_perm (keys_perm (Permutation_sym P))); auto.
      - destruct Ho as [_ P]. apply put_all_perm; auto. apply nodup_held; auto. }
    destruct C1 as (m' & C1 & Hm). destruct (@insert_ok s1 d m' [(k, f (m k))] C1) as (s' & d' & E2 & C2 & C3).
    { rewrite keys_app. apply (NoDup_perm (Permutation_app_comm [k] _)). constructor; [auto|apply nodup_held; auto]. }
    rewrite E2. cbn [bind]. eexists _, _, _. split; [reflexivity|]. split; [|auto]. split; auto.
    intros x. rewrite <- C3. rewrite put_all_cons. change (put_all [] (put k (f (m k)) m') x) with (put k (f (m k)) m' x).
    destruct (eq_dec_ord x k) as [->|Nx]; [rewrite !put_same; auto|rewrite !put_other; auto]. symmetry. auto.
  - destruct (absent_ok s Hi ks []) as (r & E & Nr & Hr). rewrite E. cbn [bind].
    assert (Kr : keys (map (fun k => (k, d k)) r) = r) by (unfold keys; rewrite map_map; apply map_id).
    destruct (@insert_ok s d m (map (fun k => (k, d k)) r) HC) as (s' & d' & E2 & C2 & C3).
    { rewrite keys_app, Kr. apply NoDup_app_inv. split; [auto|]. split; [auto|]. intros k Hk Hk2. destruct (Hr k Hk2). auto. }
    rewrite E2. cbn [bind]. eexists _, _, _. split; [reflexivity|]. split; [|auto]. split; auto. intros x. rewrite <- C3.
    destruct (in_dec eq_dec_ord x r) as [Hx|Hx].
    + assert (Ex : put_all (map (fun k => (k, d k)) r) m x = d x).
      { apply put_all_in; [rewrite Kr; auto|]. apply in_map_iff. exists x. auto. }
      rewrite Ex. apply FM. apply (Hr x Hx).
    + rewrite put_all_out; auto. rewrite Kr. auto.
  - assert (Hp : negb (has_associative a) = true) by (rewrite HP; auto).
    destruct (law_pop L Hp s n Hi) as (s' & out & E & I1 & _ & P & _). rewrite E. cbn [bind]. eexists _, _, _. split; [reflexivity|].
    split; [|auto]. split; auto. eapply leave; eauto.
  - destruct (law_take_multiple L s ks Hi) as (s' & l & out & E & I1 & _ & _ & P & _). rewrite E. cbn [bind]. eexists _, _, _. split; [reflexivity|].
    split; [|auto]. split; auto. eapply leave; eauto.
  - destruct (law_flush L s Hi) as (s' & out & E & I1 & _ & P & _). rewrite E. cbn [bind]. eexists _, _, _. split; [reflexivity|].
    split; [|auto]. split; auto. eapply leave; eauto.
Qed.
Lemma client_ok : forall h s d m, coherent s d m -> Forall (permitted a) h ->
  exists s' d' vs, client a s d h = Ok (s', d', vs) /\ coherent s' d' (memory m h) /\ vs = seen_in m h.
Proof.
  induction h as [|x h IH]; intros s d m HC HF; cbn [client memory seen_in].
  - eexists _, _, _. split; [reflexivity|]. auto.
  - inversion HF; subst. destruct (perform_ok x HC) as (s1 & d1 & o & E & C1 & Es); auto. rewrite E. cbn [bind].
    destruct (IH s1 d1 (remember m x) C1) as (s2 & d2 & l & E2 & C2 & El); auto. rewrite E2. cbn [bind].
    eexists _, _, _. split; [reflexivity|]. split; auto. rewrite Es, El. destruct o; auto.
Qed.

(** C62.  Whatever the tree of containers and the store at the beginning, the client of a cache never meets a panic,
    sees at every read the value it would see with the store alone, and loses no write: a key that is not cached has
    its value in the store. *)
Theorem C62_cache_is_transparent : forall h d, Forall (permitted a) h ->
  exists s d', client a (init a) d h = Ok (s, d', seen_in d h) /\
    NoDup (keys (held a s)) /\
    (forall k v, In (k, v) (held a s) -> v = memory d h k) /\
    (forall k, ~ In k (keys (held a s)) -> d' k = memory d h k).
Proof.
  intros h d HF. destruct (client_ok (new_coherent d) HF) as (s & d' & l & E & [Hi H] & ->). exists s, d'. split; auto.
  pose proof (nodup_held _ Hi) as N. split; auto. split.
  - intros k v Hk. rewrite H. symmetry. apply put_all_in; auto.
  - intros k Hk. rewrite H. symmetry. apply put_all_out; auto.
Qed.
(** After a flush the store has everything, unless a FlushStopper keeps pairs back. *)
Theorem C62_sync_writes_everything : forall h d, Forall (permitted a) h -> has_stopper a = false ->
  exists s d', client a (init a) d (h ++ [Sync]) = Ok (s, d', seen_in d h) /\ held a s = [] /\ forall k, d' k = memory d h k.
Proof.
  intros h d HF Hs. destruct (client_ok (new_coherent d) HF) as (s & d1 & l & E & [Hi H] & ->).
  destruct (law_flush L s Hi) as (s' & out & E1 & I1 & _ & P & Hf). rewrite Hs in Hf. specialize (Hf eq_refl).
  exists s', (put_all out d1). split; [|split; auto].
  - assert (App : forall h1 s d s1 d1 v1, client a s d h1 = Ok (s1, d1, v1) -> client a s d (h1 ++ [Sync]) =
      (let* (s2, d2, v2) := client a s1 d1 [Sync] in Ok (s2, d2, v1 ++ v2))).
    { clear. induction h1 as [|x h1 IH]; intros s d s1 d1 v1 E.
      - inversion E; subst. cbn [app]. destruct (client a s1 d1 [Sync]) as [[[? ?] ?]|]; auto.
      - cbn [app client] in *. destruct (perform a s d x) as [[[s2 d2] o]|]; [|discriminate]. cbn [bind] in *.
        destruct (client a s2 d2 h1) as [[[s3 d3] v3]|] eqn:E3; [|discriminate]. cbn [bind] in E. inversion E; subst.
        rewrite (IH _ _ _ _ _ E3). cbn [client]. destruct (perform a s1 d1 Sync) as [[[? ?] ?]|]; cbn [bind]; auto. destruct o; auto. }
    rewrite (App _ _ _ _ _ _ E). cbn [client perform]. rewrite E1. cbn [bind]. rewrite app_nil_r. auto.
  - intros k. rewrite (@leave (held a s) (held a s') out d1 (memory d h) (nodup_held _ Hi) P H k), Hf. auto.
Qed.
End Arch.
End PWriteBack.

(** *** Example: an Lru cache of an Array of two elements before a BTree of two, over a store where key k has value 100 + k. *)
Definition small_cache : arch nat nat :=
  AProfiler (ADecorator (Lru (fun n => n)) 0
    (AExclusive linear_bs (@AArray nat _ _ lru_ord (std_sorter snd) linear_bs 2 (fun _ => 1)) (ABTree lru_ord 2 (fun _ => 1)))).
Definition some_acts : list (act nat nat) :=
  [Read 1; Write 2 (fun v => v + 1000); Prefetch [3; 1; 4; 3]; Read 1; Update 5 (fun v => 2 * v); Read 2; Evict 1; Write 6 (fun _ => 7);
   WriteBackOf [6; 8]; Read 6; Read 5; Write 1 (fun v => v + 1); Read 9; Read 1; Read 2].
Lemma some_acts_permitted : Forall (permitted small_cache) some_acts.
Proof.
  assert (G : get_ready small_cache) by (cbn; repeat split; auto with arith).
  repeat constructor; auto; cbn; auto.
Qed.
Theorem C62_example : Forall (permitted small_cache) some_acts /\
  match client small_cache (init small_cache) (fun k => 100 + k) some_acts with
  | Ok (s, d, seen) => Some (seen, map d (seq 0 10), held small_cache s)
  | Panic => None
  end = Some ([101; 102; 101; 105; 1102; 106; 7; 210; 101; 109; 102; 1102],
              [100; 101; 1102; 103; 104; 105; 7; 107; 108; 109],
              [(1, 102); (2, 1102); (5, 210); (9, 109)]) /\
  seen_in (fun k => 100 + k) some_acts = [101; 102; 101; 105; 1102; 106; 7; 210; 101; 109; 102; 1102].
Proof. split; [exact some_acts_permitted|]. split; vm_compute; reflexivity. Qed.

Print Assumptions C62_cache_is_transparent.
Print Assumptions C62_sync_writes_everything.
