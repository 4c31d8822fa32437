(** PAssocConc.v -- property theorems: threads sharing an Associative (C58). *)
From Coq Require Import NArith.
From Verif Require Import Base PermSolve Block Spec LawsProof Cut Array ArrayProof BTree BTreeProof Wrappers WrappersProof
  Associative AssociativeProof Arch ArchProof PStream Sim Linear Clones AssocConc.
Set Implicit Arguments.

(** ** The programs are the methods *)
Section Alone.
Context {K V : Type}.
Variable hash : K -> N.
Variable C : Block K V.
Notation run := (run_alone C).

Lemma pick_as_set (s : list (St C)) k : pick hash (length s) k = as_set hash C s k.
Proof. unfold pick, as_set. destruct (length s); auto. Qed.
Lemma bins_distribute {T} (key : T -> K) (s : list (St C)) : forall l acc,
  bins hash key (length s) l acc = distribute hash C key s l acc.
Proof.
  induction l as [|x l IH]; intros acc; cbn [bins distribute]; auto.
  rewrite pick_as_set. destruct (as_set hash C s (key x)) as [i|]; cbn [bind]; auto.
  destruct (push_at i x acc); cbn [bind]; auto.
Qed.
Lemma run_sum_cap : forall b a acc,
  run (p_sum AskCapacity (length b) (length a) acc) (a ++ b) = Ok (a ++ b, SawNum (acc + as_capacity C b)).
Proof.
  induction b as [|c b IH]; intros a acc; cbn [p_sum length run_alone].
  - unfold as_capacity. cbn. rewrite Nat.add_0_r. auto.
  - rewrite nth_error_mid. cbn [unwrap bind answer]. rewrite replace_nth_mid.
    specialize (IH (a ++ [c]) (acc + capacity C c)). rewrite app_length, Nat.add_1_r, <- app_assoc in IH. cbn [app] in IH.
    rewrite IH, as_cap_cons, Nat.add_assoc. auto.
Qed.
Lemma run_sum_size : forall b a acc,
  run (p_sum AskSize (length b) (length a) acc) (a ++ b) = Ok (a ++ b, SawNum (acc + as_size C b)).
Proof.
  induction b as [|c b IH]; intros a acc; cbn [p_sum length run_alone].
  - unfold as_size. cbn. rewrite Nat.add_0_r. auto.
  - rewrite nth_error_mid. cbn [unwrap bind answer]. rewrite replace_nth_mid.
    specialize (IH (a ++ [c]) (acc + size C c)). rewrite app_length, Nat.add_1_r, <- app_assoc in IH. cbn [app] in IH.
    rewrite IH, as_size_cons, Nat.add_assoc. auto.
Qed.
Lemma run_flush : forall b a out,
  run (p_flush (length b) (length a) out) (a ++ b) =
  (let* (b', o) := as_flush C b in Ok (a ++ b', SawPairs (out ++ o))).
Proof.
  induction b as [|c b IH]; intros a out; cbn [p_flush length run_alone as_flush].
  - cbn [bind]. rewrite !app_nil_r. auto.
  - rewrite nth_error_mid. cbn [unwrap bind answer]. destruct (flush C c) as [[c1 o1]|]; cbn [bind]; auto.
    rewrite replace_nth_mid. specialize (IH (a ++ [c1]) (out ++ o1)).
    rewrite app_length, Nat.add_1_r, <- app_assoc in IH. cbn [app] in IH. rewrite IH.
    destruct (as_flush C b) as [[b' o]|]; cbn [bind]; auto. rewrite <- !app_assoc. auto.
Qed.
Lemma run_push : forall b vss a out, length vss = length b ->
  run (p_push vss (length a) out) (a ++ b) =
  (let* (b', o) := as_push_loop C b vss in Ok (a ++ b', SawPairs (out ++ o))).
Proof.
  induction b as [|c b IH]; intros [|vs vss] a out Hl; try discriminate; cbn [p_push run_alone as_push_loop].
  - cbn [bind]. rewrite !app_nil_r. auto.
  - injection Hl as Hl. rewrite nth_error_mid. cbn [unwrap bind answer]. destruct (push C c vs) as [[c1 o1]|]; cbn [bind]; auto.
    rewrite replace_nth_mid. specialize (IH vss (a ++ [c1]) (out ++ o1) Hl).
    rewrite app_length, Nat.add_1_r, <- app_assoc in IH. cbn [app] in IH. rewrite IH.
    destruct (as_push_loop C b vss) as [[b' o]|]; cbn [bind]; auto. rewrite <- !app_assoc. auto.
Qed.
Lemma run_tm : forall b kss a left out, length kss = length b ->
  run (p_tm kss (length a) left out) (a ++ b) =
  (let* (b', kss', o) := as_tm_loop C b kss in Ok (a ++ b', SawKeys (left ++ concat kss') (out ++ o))).
Proof.
  induction b as [|c b IH]; intros [|ks kss] a left out Hl; try discriminate; cbn [p_tm run_alone as_tm_loop].
  - cbn [bind concat]. rewrite !app_nil_r. auto.
  - injection Hl as Hl. destruct ks as [|k ks].
    + cbn [bind]. specialize (IH kss (a ++ [c]) left out Hl).
      rewrite app_length, Nat.add_1_r, <- app_assoc in IH. cbn [app] in IH. rewrite IH.
      destruct (as_tm_loop C b kss) as [[[b' kss'] o]|]; cbn [bind concat app]; auto. rewrite <- app_assoc. auto.
    + cbn [run_alone]. rewrite nth_error_mid. cbn [unwrap bind answer].
      destruct (take_multiple C c (k :: ks)) as [[[c1 ks1] o1]|]; cbn [bind]; auto.
      rewrite replace_nth_mid. specialize (IH kss (a ++ [c1]) (left ++ ks1) (out ++ o1) Hl).
      rewrite app_length, Nat.add_1_r, <- app_assoc in IH. cbn [app] in IH. rewrite IH.
      destruct (as_tm_loop C b kss) as [[[b' kss'] o]|]; cbn [bind concat]; auto. rewrite <- !app_assoc. auto.
Qed.
Lemma run_pops target : forall pb (s : list (St C)) out,
  run (p_pops (length s) target pb out) s =
  (let* (s', o) := as_pop_loop C s target pb in Ok (s', SawPairs (out ++ o))).
Proof.
  induction pb as [|[bs bi] pb IH]; intros s out; cbn [p_pops run_alone as_pop_loop].
  - cbn [bind]. rewrite app_nil_r. auto.
  - destruct (Nat.ltb_spec bi (length s)) as [L|L].
    + destruct (nth_error s bi) as [c|] eqn:E; [|apply nth_error_None in E; lia]. cbn [unwrap bind].
      destruct (sub_chk bs target) as [m|]; cbn [run_alone bind]; auto. rewrite E. cbn [unwrap bind answer].
      destruct (pop C c m) as [[c1 o1]|]; cbn [bind]; auto.
      specialize (IH (replace_nth bi c1 s) (out ++ o1)). rewrite replace_nth_length in IH. rewrite IH.
      destruct (as_pop_loop C (replace_nth bi c1 s) target pb) as [[s' o]|]; cbn [bind]; auto. rewrite <- app_assoc. auto.
    + cbn [run_alone]. apply nth_error_None in L. rewrite L. auto.
Qed.
Lemma run_pop_rest want (s : list (St C)) :
  run (p_pop_rest (length s) want (map (size C) s)) s =
  (let* (s', o) := as_pop C s want in Ok (s', SawPairs o)).
Proof.
  unfold p_pop_rest, as_pop. destruct (_ || _); auto. destruct (_ <=? _).
  - apply (run_flush s [] []).
  - destruct (as_target _ _ _) as [[target pb]|]; cbn [bind]; auto. apply (run_pops target pb s []).
Qed.
Lemma run_sizes want (s : list (St C)) : forall b a, s = a ++ b ->
  run (p_sizes (length s) want (length b) (length a) (map (size C) a)) s =
  (let* (s', o) := as_pop C s want in Ok (s', SawPairs o)).
Proof.
  induction b as [|c b IH]; intros a E; cbn [p_sizes length].
  - rewrite app_nil_r in E. subst a. apply run_pop_rest.
  - cbn [run_alone]. replace (nth_error s (length a)) with (Some c) by (rewrite E, nth_error_mid; auto). cbn [unwrap bind answer].
    replace (replace_nth (length a) c s) with s by (rewrite E, replace_nth_mid; auto).
    specialize (IH (a ++ [c])). rewrite app_length, Nat.add_1_r, map_app, <- app_assoc in IH. apply IH. auto.
Qed.
Lemma push_at_length {T} (x : T) : forall l i l', push_at i x l = Ok l' -> length l' = length l.
Proof.
  induction l as [|b l IH]; intros [|i] l' H; cbn in H; try discriminate.
  - injection H as <-. auto.
  - destruct (push_at i x l) as [r|] eqn:E; cbn in H; [|discriminate]. injection H as <-. cbn. rewrite (IH _ _ E). auto.
Qed.
Lemma bins_length {T} (key : T -> K) n : forall l acc r, bins hash key n l acc = Ok r -> length r = length acc.
Proof.
  induction l as [|x l IH]; intros acc r H; cbn [bins] in H.
  - injection H as <-. auto.
  - destruct (pick hash n (key x)) as [i|]; cbn [bind] in H; [|discriminate].
    destruct (push_at i x acc) as [acc'|] eqn:E; cbn [bind] in H; [|discriminate].
    rewrite (IH _ _ H). eapply push_at_length; eauto.
Qed.

(** C58: a method of an Associative, run without interruption, is the method of Associative.v: for any sets and any
    hash function, with the same answer, the same final state and the same panics. *)
Theorem C58_alone : forall (s : list (St C)) (q : ask K V),
  run (program hash (length s) q) s = answer (AssociativeB hash C) s q.
Proof.
  intros s q. destruct q as [| |k|k|ks|m|vs|]; cbn [program answer AssociativeB capacity size contains take take_multiple pop push flush].
  - apply (run_sum_cap s [] 0).
  - apply (run_sum_size s [] 0).
  - unfold p_one, as_contains. rewrite pick_as_set. destruct (as_set hash C s k) as [i|]; cbn [bind run_alone]; auto.
    destruct (nth_error s i) as [c|] eqn:E; cbn [unwrap bind answer]; auto.
    destruct (contains C c k); cbn [bind]; auto. apply nth_error_split in E as (s1 & s2 & -> & <-). rewrite replace_nth_mid. auto.
  - unfold p_one, as_take. rewrite pick_as_set. destruct (as_set hash C s k) as [i|]; cbn [bind run_alone]; auto.
    destruct (nth_error s i) as [c|]; cbn [unwrap bind answer]; auto.
    destruct (take C c k) as [[c' o]|]; cbn [bind]; auto.
  - unfold as_take_multiple. rewrite bins_distribute. destruct (distribute _ _ _ _ _ _) as [kss|] eqn:E; cbn [bind]; auto.
    rewrite <- bins_distribute in E. apply bins_length in E. rewrite repeat_length in E.
    refine (eq_trans (run_tm s kss [] [] [] E) _). destruct (as_tm_loop C s kss) as [[[s' kss'] o]|]; cbn [bind app]; auto.
  - exact (@run_sizes m s s [] eq_refl).
  - unfold as_push. rewrite bins_distribute. destruct (distribute _ _ _ _ _ _) as [vss|] eqn:E; cbn [bind]; auto.
    rewrite <- bins_distribute in E. apply bins_length in E. rewrite repeat_length in E.
    apply (run_push s vss [] [] E).
  - apply (run_flush s [] []).
Qed.
End Alone.

(** ** What is expected of a set *)
Section Conc.
Context {K V : Type} {OK : Ord K} {EK : OrdEq K}.
Variable hash : K -> N.
Variable C : Block K V.
Variable Inv : St C -> Prop.
Variable ct : St C -> list (K * V).
(** The vectors that may be pushed. *)
Variable okp : list (K * V) -> Prop.

(** The form of an answer. *)
Definition fits (q : ask K V) (r : saw K V) : Prop :=
  match q with
  | AskCapacity | AskSize => exists n, r = SawNum n
  | AskContains _ => exists b, r = SawBool b
  | AskTake _ => exists o, r = SawOne o
  | AskTakeMultiple _ => exists left l, r = SawKeys left l
  | AskPop _ | AskPush _ | AskFlush => exists l, r = SawPairs l
  end.
Definition fine (q : ask K V) : Prop := forall vs, q = AskPush vs -> okp vs.

(** No call panics; pairs are neither lost nor invented; the capacity never changes and bounds the size; contains
    tells whether the key is held, take and take_multiple take what is held of what is asked, and nothing else. *)
Record SetContract : Prop := {
  set_call : forall c q, Inv c -> fine q -> exists c' r, answer C c q = Ok (c', r) /\ Inv c' /\ fits q r /\
    capacity C c' = capacity C c /\ Permutation (got r ++ ct c') (ct c ++ put q);
  set_size : forall c, Inv c -> size C c <= capacity C c;
  set_contains : forall c k c' r, Inv c -> answer C c (AskContains k) = Ok (c', r) -> r = SawBool (has_key k (ct c));
  set_take : forall c k c' o, Inv c -> answer C c (AskTake k) = Ok (c', SawOne o) ->
    match o with Some (k', _) => k' = k | None => ~ In k (keys (ct c)) end;
  set_tm : forall c ks c' left l, Inv c -> answer C c (AskTakeMultiple ks) = Ok (c', SawKeys left l) ->
    incl (keys l) ks /\ (forall k, In k ks -> In k (keys (ct c)) -> In k (keys l)) /\
    exists removed, Permutation ks (removed ++ left) /\ incl removed (keys l);
  (* a part of an acceptable vector is acceptable *)
  set_part : forall vs parts x, okp vs -> Permutation (concat parts) vs -> In x parts -> okp x
}.
Hypothesis HC : SetContract.

(** What an Associative holds; every key in its set. *)
Definition holds (s : list (St C)) : list (K * V) := flat_map ct s.
Definition in_right_set (s : list (St C)) : Prop :=
  forall i c k, nth_error s i = Some c -> In k (keys (ct c)) -> N.to_nat (hash k mod N.of_nat (length s))%N = i.

Notation asys := (asys C).
Notation asteps := (asteps hash (C := C)).
Notation astep := (astep hash (C := C)).
Notation prog := (prog (K := K) (V := V)).

(** ** Programs that keep the accounts *)
Notation set_of := (set_of hash).
(** [carry]: the pairs in the hands of the method. *)
Inductive bal (crash : bool) (n : nat) : list (K * V) -> prog -> Prop :=
| B_ret : forall carry r, Permutation (got r) carry -> bal crash n carry (Ret r)
| B_crash : forall carry, crash = true -> bal crash n carry Crash
| B_on : forall carry i q f rest, i < n -> Permutation carry (put q ++ rest) -> fine q ->
    (forall k, In k (keys (put q)) -> set_of n k = i) ->
    (forall r, fits q r -> bal crash n (rest ++ got r) (f r)) -> bal crash n carry (On i q f).
Lemma bal_perm crash n p : forall carry carry', bal crash n carry p -> Permutation carry carry' -> bal crash n carry' p.
Proof.
  intros carry carry' H P. inversion H; subst.
  - constructor. rewrite H0. auto.
  - constructor; auto.
  - econstructor; eauto. rewrite <- P. auto.
Qed.
Lemma not_push_fine q : (forall vs, q <> AskPush vs) -> fine q.
Proof. intros H vs E. congruence. Qed.

Ltac on0 := apply B_on with (rest := []); [lia|auto|apply not_push_fine; discriminate|cbn [put keys map In]; tauto|].
Lemma bal_sum crash n q : (q = AskCapacity \/ q = AskSize) -> forall todo i acc, i + todo <= n -> bal crash n [] (p_sum q todo i acc).
Proof.
  intros Hq. induction todo as [|m IH]; intros i acc L; cbn [p_sum]; [constructor; auto|].
  apply B_on with (rest := []); [lia|destruct Hq; subst; auto|apply not_push_fine; destruct Hq; subst; discriminate|
    destruct Hq; subst; cbn [put keys map In]; tauto|].
  intros r Hr. assert (exists x, r = SawNum x) as [x ->] by (destruct Hq; subst; exact Hr). cbn [got app]. apply IH. lia.
Qed.
Lemma bal_flush crash n : forall todo i out, i + todo <= n -> bal crash n out (p_flush todo i out).
Proof.
  induction todo as [|m IH]; intros i out L; cbn [p_flush]; [constructor; auto|].
  apply B_on with (rest := out); [lia|auto|apply not_push_fine; discriminate|cbn [put keys map In]; tauto|].
  intros r [l ->]. cbn [got]. apply IH. lia.
Qed.
Lemma bal_tm crash n : forall kss i left out, i + length kss <= n -> bal crash n out (p_tm kss i left out).
Proof.
  induction kss as [|ks kss IH]; intros i left out L; cbn [p_tm]; [constructor; auto|]. cbn [length] in L.
  destruct ks as [|k ks]; [apply IH; lia|].
  apply B_on with (rest := out); [lia|auto|apply not_push_fine; discriminate|cbn [put keys map In]; tauto|].
  intros r (l1 & l2 & ->). cbn [got]. apply IH. lia.
Qed.
Lemma bal_pops n target : forall pb out, bal true n out (p_pops n target pb out).
Proof.
  induction pb as [|[bs bi] pb IH]; intros out; cbn [p_pops]; [constructor; auto|].
  destruct (Nat.ltb_spec bi n); [|constructor; auto]. destruct (sub_chk bs target); [|constructor; auto].
  apply B_on with (rest := out); [lia|auto|apply not_push_fine; discriminate|cbn [put keys map In]; tauto|].
  intros r [l ->]. cbn [got]. apply IH.
Qed.
Lemma bal_sizes n want : forall todo i sizes, i + todo <= n -> bal true n [] (p_sizes n want todo i sizes).
Proof.
  induction todo as [|m IH]; intros i sizes L; cbn [p_sizes].
  - unfold p_pop_rest. destruct (_ || _); [constructor; auto|]. destruct (_ <=? _); [apply bal_flush; lia|].
    destruct (as_target _ _ _) as [[target pb]|]; [apply bal_pops|constructor; auto].
  - on0. intros r [x ->]. cbn [got app]. apply IH. lia.
Qed.
Lemma bal_push crash n : forall vss i out, i + length vss <= n -> placed (set_of n) i (map keys vss) ->
  (forall x, In x vss -> okp x) -> bal crash n (concat vss ++ out) (p_push vss i out).
Proof.
  induction vss as [|vs vss IH]; intros i out L Hp Ho; cbn [p_push]; [constructor; auto|]. cbn [length] in L.
  cbn [map placed] in Hp. destruct Hp as [Hp1 Hp2].
  apply B_on with (rest := concat vss ++ out); [lia| | | |].
  - cbn [put concat]. rewrite app_assoc. auto.
  - intros x E. injection E as <-. apply Ho. left; auto.
  - cbn [put]. auto.
  - intros r [l ->]. cbn [got]. rewrite <- app_assoc. apply IH; [lia|auto|]. intros x Hx. apply Ho. right; auto.
Qed.
Lemma pick_ok n k : 1 <= n -> pick hash n k = Ok (set_of n k).
Proof. intros L. destruct n; [lia|]. auto. Qed.
Lemma bins_spec {T} (key : T -> K) n : 1 <= n -> forall l acc,
  length acc = n -> placed (set_of n) 0 (map (map key) acc) ->
  exists r, bins hash key n l acc = Ok r /\ length r = n /\
    placed (set_of n) 0 (map (map key) r) /\ Permutation (concat r) (concat acc ++ l).
Proof.
  intros Hn. induction l as [|x l IH]; intros acc Hl Hp; cbn [bins].
  - exists acc. rewrite app_nil_r. auto.
  - rewrite pick_ok by auto. cbn [bind].
    destruct (@push_at_spec T K key (set_of n) x acc 0 Hp) as (acc' & A1 & A2 & A3 & A4).
    { pose proof (set_of_lt hash (key x) Hn). lia. }
    rewrite Nat.sub_0_r in A1. rewrite A1. cbn [bind].
    destruct (IH acc') as (r & R1 & R2 & R3 & R4); [lia|auto|].
    exists r. repeat split; auto. perm2 A3 R4.
Qed.
Lemma bins_new {T} (key : T -> K) n l : 1 <= n ->
  exists r, bins hash key n l (repeat [] n) = Ok r /\ length r = n /\
    placed (set_of n) 0 (map (map key) r) /\ Permutation (concat r) l.
Proof.
  intros Hn. destruct (bins_spec key Hn l (repeat [] n)) as (r & R1 & R2 & R3 & R4).
  - apply repeat_length.
  - rewrite map_repeat. apply placed_repeat.
  - rewrite concat_repeat_nil in R4. exists r. auto.
Qed.
Definition is_pop (q : ask K V) : bool := match q with AskPop _ => true | _ => false end.
Lemma bal_program n q : 1 <= n -> fine q -> bal (is_pop q) n (put q) (program hash n q).
Proof.
  intros Hn Hf. destruct q as [| |k|k|ks|m|vs|]; cbn [program is_pop put].
  - apply bal_sum; [auto|lia].
  - apply bal_sum; [auto|lia].
  - unfold p_one. rewrite pick_ok by auto. apply B_on with (rest := []); [apply set_of_lt; auto|auto|apply not_push_fine; discriminate|cbn [put keys map In]; tauto|].
    intros r [b ->]. constructor. auto.
  - unfold p_one. rewrite pick_ok by auto. apply B_on with (rest := []); [apply set_of_lt; auto|auto|apply not_push_fine; discriminate|cbn [put keys map In]; tauto|].
    intros r [b ->]. constructor. auto.
  - destruct (bins_new (fun k => k) ks Hn) as (kss & E & El & _). rewrite E. apply bal_tm. lia.
  - apply bal_sizes. lia.
  - destruct (bins_new fst vs Hn) as (vss & E & El & Ep & P). rewrite E.
    eapply bal_perm; [|exact P]. rewrite <- (app_nil_r (concat vss)). apply bal_push; [lia|exact Ep|].
    intros x Hx. eapply (set_part HC); eauto.
  - apply bal_flush. lia.
Qed.

(** ** States *)
Definition good (n : nat) (s : list (St C)) : Prop := length s = n /\ Forall Inv s /\ in_right_set s.
Lemma good_call n s i c q c' r : good n s -> nth_error s i = Some c -> fine q ->
  (forall k, In k (keys (put q)) -> set_of n k = i) -> answer C c q = Ok (c', r) ->
  fits q r /\ good n (replace_nth i c' s) /\ Permutation (got r ++ holds (replace_nth i c' s)) (holds s ++ put q) /\
  map (capacity C) (replace_nth i c' s) = map (capacity C) s.
Proof.
  intros (Hl & HI & Hr) E Hf Hk Ha.
  assert (Hi : Inv c) by (rewrite Forall_forall in HI; apply HI; eapply nth_error_In; eauto).
  destruct (set_call HC Hi Hf) as (c1 & r1 & A1 & A2 & A3 & A4 & A5). rewrite Ha in A1. injection A1 as <- <-.
  split; [auto|]. split; [split; [|split]|split].
  - rewrite replace_nth_length. auto.
  - apply replace_nth_Forall; auto.
  - intros j d k Ed Hk'. rewrite replace_nth_length. destruct (Nat.eq_dec i j) as [<-|N].
    + rewrite replace_nth_same in Ed by (apply nth_error_Some; congruence). injection Ed as <-.
      assert (In k (keys (ct c ++ put q))) as H.
      { rewrite <- (keys_perm A5), keys_app. apply in_or_app; auto. }
      rewrite keys_app in H. apply in_app_or in H as [H|H]; [eapply Hr; eauto|]. rewrite Hl. apply Hk. auto.
    + rewrite replace_nth_other in Ed by auto. eapply Hr; eauto.
  - apply nth_error_split in E as (s1 & s2 & -> & <-). rewrite replace_nth_mid. unfold holds. rewrite !flat_map_app. cbn [flat_map].
    perm1 A5.
  - apply nth_error_split in E as (s1 & s2 & -> & <-). rewrite replace_nth_mid, !map_app. cbn [map]. rewrite A4. auto.
Qed.

(** Accounts. *)
Definition thread_ok (n : nat) (t : athread) (carry : list (K * V)) : Prop :=
  match t with
  | AIdle => carry = []
  | ABusy q _ p _ => bal (is_pop q) n carry p
  | ADead q contended => contended = false -> is_pop q = true
  end.
Definition pushed (s : asys) : list (K * V) := flat_map put (a_asked s).
Definition handed_back (s : asys) : list (K * V) := flat_map (fun x => got (ar_saw x)) (a_returns s).
Definition accounts (n : nat) (start : list (K * V)) (s : asys) : Prop :=
  good n (a_sets s) /\ exists carries, Forall2 (thread_ok n) (a_threads s) carries /\
    Permutation (start ++ pushed s) (holds (a_sets s) ++ handed_back s ++ concat carries).

Lemma nth_split_F2 {A B} (R : A -> B -> Prop) l1 l2 t x : Forall2 R l1 l2 -> nth_error l1 t = Some x ->
  exists a y b, R x y /\ l2 = a ++ y :: b /\ forall x' y', R x' y' -> Forall2 R (replace_nth t x' l1) (a ++ y' :: b).
Proof.
  intros H. revert t. induction H as [|x1 y1 l1 l2 H1 H2 IH]; intros [|t] E; try discriminate.
  - injection E as ->. exists [], y1, l2. split; [auto|]. split; [auto|]. intros x' y' H'. cbn. constructor; auto.
  - destruct (IH t E) as (a & y & b & G1 & -> & G2). exists (y1 :: a), y, b. split; [auto|]. split; [auto|].
    intros x' y' H'. cbn. constructor; auto.
Qed.
Lemma start_accounts sets n : Forall Inv sets -> in_right_set sets -> accounts (length sets) (holds sets) (astart C sets n).
Proof.
  intros H1 H2. split; [repeat split; auto|]. exists (repeat [] n). split.
  - cbn. induction n; cbn; constructor; auto. reflexivity.
  - cbn. rewrite concat_repeat_nil, !app_nil_r. auto.
Qed.
Lemma step_accounts n start s s' : 1 <= n -> accounts n start s -> astep s s' -> Forall fine (a_asked s') -> accounts n start s'.
Proof.
  intros Hn (Hg & carries & HF & P) H Hf. destruct H as [s t q E|s t q t0 i q' f done c c' r E Ec Ea|s t q t0 i q' f done E|
    s t q t0 i q' f done c E Ec Ea|s t q t0 i q' f done E Ec|s t q t0 done E|s t q t0 r done E]; cbn in Hf;
    destruct (nth_split_F2 _ HF E) as (l1 & y & l2 & Hy & -> & HR); rewrite concat_app in P; cbn [concat] in P.
  - cbn [thread_ok] in Hy. subst y. split; [exact Hg|]. exists (l1 ++ put q :: l2). cbn [a_threads a_sets]. split.
    + apply HR. cbn [thread_ok]. replace (length (a_sets s)) with n by (symmetry; apply Hg). apply bal_program; auto.
      rewrite Forall_forall in Hf. apply Hf. apply in_or_app. right. left. auto.
    + unfold pushed, handed_back in *. cbn [a_asked a_returns]. rewrite flat_map_app, concat_app. cbn [flat_map concat]. perm1 P.
  - cbn [thread_ok] in Hy. inversion Hy as [| |carry i0 q0 f0 rest L P1 F1 K1 B1]; subst.
    destruct (good_call Hg Ec F1 K1 Ea) as (G1 & G2 & G3 & _). split; [exact G2|].
    exists (l1 ++ (rest ++ got r) :: l2). cbn [a_threads a_sets]. split; [apply HR; cbn [thread_ok]; auto|].
    unfold pushed, handed_back in *. cbn [a_asked a_returns]. rewrite concat_app. cbn [concat]. perm3 P P1 G3.
  - split; [exact Hg|]. exists (l1 ++ y :: l2). cbn [a_threads a_sets]. split; [apply HR; cbn; discriminate|].
    unfold pushed, handed_back in *. cbn [a_asked a_returns]. rewrite concat_app. auto.
  - exfalso. cbn [thread_ok] in Hy. inversion Hy as [| |carry i0 q0 f0 rest L P1 F1 K1 B1]; subst.
    destruct Hg as (_ & HI & _). assert (Hi : Inv c) by (rewrite Forall_forall in HI; apply HI; eapply nth_error_In; eauto).
    destruct (set_call HC Hi F1) as (c1 & r1 & A1 & _). congruence.
  - exfalso. cbn [thread_ok] in Hy. inversion Hy as [| |carry i0 q0 f0 rest L P1 F1 K1 B1]; subst.
    apply nth_error_None in Ec. destruct Hg as (Hl & _). lia.
  - cbn [thread_ok] in Hy. inversion Hy as [|carry Hc|]; subst. split; [exact Hg|].
    exists (l1 ++ y :: l2). cbn [a_threads a_sets]. split; [apply HR; cbn; auto|].
    unfold pushed, handed_back in *. cbn [a_asked a_returns]. rewrite concat_app. auto.
  - cbn [thread_ok] in Hy. inversion Hy as [carry r0 Pr| |]; subst. split; [exact Hg|].
    exists (l1 ++ [] :: l2). cbn [a_threads a_sets]. split; [apply HR; cbn; auto|].
    unfold pushed, handed_back in *. cbn [a_asked a_returns]. rewrite flat_map_app, concat_app. cbn [flat_map concat ar_saw]. perm2 P Pr.
Qed.

Lemma fine_before s s' : astep s s' -> Forall fine (a_asked s') -> Forall fine (a_asked s).
Proof. intros H Hf. destruct H; cbn in Hf; auto. apply Forall_app in Hf. tauto. Qed.
Lemma reach_accounts sets n s : 1 <= length sets -> Forall Inv sets -> in_right_set sets ->
  asteps (astart C sets n) s -> Forall fine (a_asked s) -> accounts (length sets) (holds sets) s.
Proof.
  intros Hn HI Hr H. remember (astart C sets n) as s0 eqn:E0. induction H as [s|s s1 s2 H IH H2]; intros Hf.
  - subst s. apply start_accounts; auto.
  - eapply step_accounts; eauto. apply IH; auto. eapply fine_before; eauto.
Qed.

(** ** Moments *)
(** [follows p l p']: [p], having made the calls [l] on the sets, is now [p']. *)
Inductive follows : prog -> list (note (K := K) (V := V)) -> prog -> Prop :=
| F_here : forall p, follows p [] p
| F_on : forall i q f r m l p, follows (f r) l p -> follows (On i q f) (mkNote i q r m :: l) p.
Lemma follows_end p l i q f r m : follows p l (On i q f) -> follows p (l ++ [mkNote i q r m]) (f r).
Proof.
  intros H. remember (On i q f) as p' eqn:E. induction H as [p|i0 q0 f0 r0 m0 l p H IH]; subst.
  - cbn. apply F_on, F_here.
  - cbn. apply F_on, IH. auto.
Qed.
(** The note tells what happened between moment [n_time] and the next. *)
Definition happened (hist : list (list (St C))) (lo hi : nat) (x : note) : Prop :=
  lo <= n_time x < hi /\
  exists s c c', nth_error hist (n_time x) = Some s /\ nth_error s (n_set x) = Some c /\
    answer C c (n_ask x) = Ok (c', n_saw x) /\ nth_error hist (S (n_time x)) = Some (replace_nth (n_set x) c' s).
Lemma happened_more hist more lo hi hi' x : happened hist lo hi x -> hi <= hi' -> happened (hist ++ more) lo hi' x.
Proof.
  intros (H1 & s & c & c' & H2 & H3 & H4 & H5) L. split; [lia|]. exists s, c, c'.
  rewrite !nth_error_app1 by (apply nth_error_Some; congruence). auto.
Qed.
Definition thread_mom (n : nat) (hist : list (list (St C))) (t1 : nat) (t : athread) : Prop :=
  match t with
  | ABusy q t0 p done => t0 <= t1 /\ follows (program hash n q) done p /\ Forall (happened hist t0 t1) done
  | _ => True
  end.
Definition return_mom (n : nat) (hist : list (list (St C))) (t1 : nat) (x : areturn) : Prop :=
  ar_end x <= t1 /\ follows (program hash n (ar_ask x)) (ar_notes x) (Ret (ar_saw x)) /\
  Forall (happened hist (ar_start x) (ar_end x)) (ar_notes x).
Definition moments (n : nat) (caps : list nat) (s : asys) : Prop :=
  Forall (fun st => good n st /\ map (capacity C) st = caps) (history s) /\
  Forall (thread_mom n (history s) (now s)) (a_threads s) /\
  Forall (return_mom n (history s) (now s)) (a_returns s).

Lemma start_moments sets n : Forall Inv sets -> in_right_set sets ->
  moments (length sets) (map (capacity C) sets) (astart C sets n).
Proof.
  intros H1 H2. split; [|split]; cbn.
  - repeat constructor; auto.
  - apply Forall_forall. intros x Hx. apply repeat_spec in Hx. subst. exact I.
  - constructor.
Qed.
(** What the threads need for their next step. *)
Definition ready (n : nat) (s : asys) : Prop := good n (a_sets s) /\ exists carries, Forall2 (thread_ok n) (a_threads s) carries.
Lemma accounts_ready n start s : accounts n start s -> ready n s.
Proof. intros (H & carries & HF & _). split; eauto. Qed.
Lemma step_moments n caps s s' : ready n s -> moments n caps s -> astep s s' -> moments n caps s'.
Proof.
  intros ((Hl & _) & carries & HF) (M1 & M2 & M3) H.
  destruct H as [s t q E|s t q t0 i q' f done c c' r E Ec Ea|s t q t0 i q' f done E|
    s t q t0 i q' f done c E Ec Ea|s t q t0 i q' f done E Ec|s t q t0 done E|s t q t0 r done E];
    pose proof M2 as M2'; rewrite Forall_forall in M2'; specialize (M2' _ (nth_error_In _ _ E)); cbn [thread_mom] in M2';
    try (split; [exact M1|split; [apply replace_nth_Forall; [exact M2|exact I]|exact M3]]).
  - split; [exact M1|]. split; [apply replace_nth_Forall; [exact M2|]|exact M3].
    cbn [thread_mom]. rewrite Hl. split; [auto|]. split; [constructor|constructor].
  - destruct (nth_split_F2 _ HF E) as (l1 & y & l2 & Hy & _). cbn [thread_ok] in Hy.
    inversion Hy as [| |carry i0 q0 f0 rest L P1 F1 K1 B1]; subst.
    assert (Hn : now (mkA (replace_nth i c' (a_sets s)) (replace_nth t (ABusy q t0 (f r) (done ++ [mkNote i q' r (now s)])) (a_threads s))
        (a_past s ++ [a_sets s]) (a_asked s) (a_returns s)) = S (now s)) by (unfold now; cbn; rewrite app_length, Nat.add_1_r; auto).
    assert (Hh : history (mkA (replace_nth i c' (a_sets s)) (replace_nth t (ABusy q t0 (f r) (done ++ [mkNote i q' r (now s)])) (a_threads s))
        (a_past s ++ [a_sets s]) (a_asked s) (a_returns s)) = history s ++ [replace_nth i c' (a_sets s)]) by reflexivity.
    unfold moments. rewrite Hn, Hh. cbn [a_threads a_returns].
    assert (Hs : good (length (a_sets s)) (a_sets s) /\ map (capacity C) (a_sets s) = caps).
    { unfold history in M1. apply Forall_app in M1 as [_ M1]. inversion M1; auto. }
    destruct Hs as [Hg Hc]. destruct (good_call Hg Ec F1 K1 Ea) as (G1 & G2 & _ & G4).
    split; [apply Forall_app; split; [auto|constructor; auto]; split; [auto|congruence]|]. split.
    + apply replace_nth_Forall.
      * eapply Forall_impl; [|exact M2]. intros [|q1 t1 p1 d1|q1]; cbn [thread_mom]; auto.
        intros (A1 & A2 & A3). split; [lia|]. split; [auto|]. eapply Forall_impl; [|exact A3]. intros x Hx. eapply happened_more; eauto.
      * destruct M2' as (A1 & A2 & A3). cbn [thread_mom]. split; [lia|]. split; [apply follows_end; auto|].
        apply Forall_app. split; [eapply Forall_impl; [|exact A3]; intros x Hx; eapply happened_more; eauto|].
        constructor; [|constructor]. split; cbn [n_time n_set n_ask n_saw]; [lia|].
        exists (a_sets s), c, c'. split; [|split; [auto|split; [auto|]]].
        -- unfold history, now. rewrite <- app_assoc, nth_error_app2, Nat.sub_diag by lia. auto.
        -- unfold history, now. rewrite nth_error_app2 by (rewrite app_length; cbn; lia).
           rewrite app_length. cbn [length]. replace (S (length (a_past s)) - (length (a_past s) + 1)) with 0 by lia. auto.
    + eapply Forall_impl; [|exact M3]. intros x (A1 & A2 & A3). split; [lia|]. split; [auto|].
      eapply Forall_impl; [|exact A3]. intros y0 Hy0. eapply happened_more; eauto.
  - split; [exact M1|]. split; [apply replace_nth_Forall; [exact M2|exact I]|].
    cbn [a_returns]. apply Forall_app. split; [exact M3|]. constructor; [|constructor].
    unfold return_mom. cbn [ar_end ar_ask ar_saw ar_notes ar_start]. split; [auto|]. tauto.
Qed.
Lemma reach_moments sets n s : 1 <= length sets -> Forall Inv sets -> in_right_set sets ->
  asteps (astart C sets n) s -> Forall fine (a_asked s) -> moments (length sets) (map (capacity C) sets) s.
Proof.
  intros Hn HI Hr H. remember (astart C sets n) as s0 eqn:E0. induction H as [s|s s1 s2 H IH H2]; intros Hf.
  - subst s. apply start_moments; auto.
  - pose proof (fine_before H2 Hf) as Hf1. eapply step_moments; [|apply IH; auto|exact H2].
    subst s. eapply accounts_ready, reach_accounts; eauto.
Qed.

(** ** Programs, once finished *)
Lemma follows_ret r l p : follows (Ret r) l p -> l = [] /\ p = Ret r.
Proof. intros H. inversion H. auto. Qed.
Lemma follows_crash l r : ~ follows Crash l (Ret r).
Proof. intros H. inversion H. Qed.
Lemma follows_on i q f l r : follows (On i q f) l (Ret r) -> exists x m l', l = mkNote i q x m :: l' /\ follows (f x) l' (Ret r).
Proof. intros H. inversion H; subst. eauto. Qed.
Lemma follows_one n k q l r : 1 <= n -> follows (p_one hash n k q) l (Ret r) -> exists m, l = [mkNote (set_of n k) q r m].
Proof.
  intros Hn H. unfold p_one in H. rewrite pick_ok in H by auto. apply follows_on in H as (x & m & l' & -> & H).
  apply follows_ret in H as [-> H]. injection H as ->. eauto.
Qed.
Lemma follows_sum q : forall todo i acc l r, follows (p_sum q todo i acc) l (Ret r) ->
  exists ms, l = map (fun y => mkNote (fst (fst y)) q (SawNum (snd (fst y))) (snd y)) ms /\
    map (fun y => fst (fst y)) ms = seq i todo /\ r = SawNum (acc + list_sum (map (fun y => snd (fst y)) ms)).
Proof.
  induction todo as [|m IH]; intros i acc l r H; cbn [p_sum] in H.
  - apply follows_ret in H as [-> H]. injection H as ->. exists []. cbn. rewrite Nat.add_0_r. auto.
  - apply follows_on in H as (x & t & l' & -> & H). destruct x; try (apply follows_crash in H; contradiction).
    apply IH in H as (ms & -> & E2 & ->). exists ((i, n, t) :: ms). cbn [map fst snd seq]. rewrite E2.
    split; [auto|]. split; [auto|].
    match goal with |- context [list_sum (?x :: ?t)] => change (list_sum (x :: t)) with (x + list_sum t) end. rewrite Nat.add_assoc. auto.
Qed.
Definition tm_fact (x : note (K := K) (V := V)) : Prop :=
  match n_ask x, n_saw x with
  | AskTakeMultiple ks, SawKeys ks1 o => incl (keys o) ks /\ exists removed, Permutation ks (removed ++ ks1) /\ incl removed (keys o)
  | _, _ => True
  end.
Lemma follows_tm : forall kss i left out l r, follows (p_tm kss i left out) l (Ret r) -> Forall tm_fact l ->
  exists left' out', r = SawKeys (left ++ left') (out ++ out') /\ incl (keys out') (concat kss) /\
    (exists removed, Permutation (concat kss) (removed ++ left') /\ incl removed (keys out')) /\
    forall j ks k, nth_error kss j = Some ks -> In k ks ->
      exists ks1 o m, In (mkNote (i + j) (AskTakeMultiple ks) (SawKeys ks1 o) m) l /\ incl o out'.
Proof.
  induction kss as [|ks kss IH]; intros i left out l r H Hl; cbn [p_tm] in H.
  - apply follows_ret in H as [-> H]. injection H as ->. exists [], []. rewrite !app_nil_r. split; [auto|].
    split; [intros ? []|]. split; [exists []; cbn; split; [auto|intros ? []]|]. intros [|j] ks k E; discriminate.
  - destruct ks as [|k0 ks].
    + destruct (IH _ _ _ _ _ H Hl) as (left' & out' & E & H1 & H2 & H3). exists left', out'. split; [auto|]. split; [auto|].
      split; [auto|]. intros [|j] ks k Ek Hk; [injection Ek as <-; destruct Hk|]. cbn in Ek.
      rewrite Nat.add_succ_r. exact (H3 _ _ _ Ek Hk).
    + apply follows_on in H as (x & t & l' & -> & H). destruct x as [| | | |ks1 o|]; try (apply follows_crash in H; contradiction).
      apply Forall_cons_iff in Hl as [Hx Hl]. cbn [tm_fact n_ask n_saw] in Hx. destruct Hx as [X1 (removed1 & X2 & X3)].
      destruct (IH _ _ _ _ _ H Hl) as (left' & out' & E & H1 & (removed & H2 & H2') & H3). exists (ks1 ++ left'), (o ++ out').
      rewrite !app_assoc. split; [auto|]. cbn [concat]. rewrite keys_app. split; [|split].
      * apply incl_app; [apply incl_appl; auto|apply incl_appr; auto].
      * exists (removed1 ++ removed). split; [perm2 X2 H2|]. apply incl_app; [apply incl_appl; auto|apply incl_appr; auto].
      * intros [|j] ks' k Ek Hk.
        -- injection Ek as <-. exists ks1, o, t. rewrite Nat.add_0_r. split; [left; auto|apply incl_appl, incl_refl].
        -- cbn in Ek. destruct (H3 _ _ _ Ek Hk) as (ks2 & o2 & m & A1 & A2). exists ks2, o2, m. rewrite Nat.add_succ_r.
           split; [right; auto|apply incl_appr; auto].
Qed.

(** A key absent from its set is held nowhere. *)
Lemma in_holds n s k i c : good n s -> nth_error s i = Some c -> set_of n k = i -> In k (keys (holds s)) <-> In k (keys (ct c)).
Proof.
  intros (Hl & _ & Hr) E Hi. unfold holds. split.
  - intros H. unfold keys in H. apply in_map_iff in H as (x & <- & H). apply in_flat_map in H as (d & Hd & Hx).
    apply In_nth_error in Hd as [j Ej]. assert (j = i).
    { rewrite <- Hi. symmetry. unfold AssociativeProof.set_of. rewrite <- Hl. eapply Hr; [exact Ej|]. apply List.in_map. auto. }
    subst j. rewrite E in Ej. injection Ej as <-. apply List.in_map. auto.
  - intros H. unfold keys in *. apply in_map_iff in H as (x & <- & H). apply List.in_map. apply in_flat_map. exists c.
    split; auto. eapply nth_error_In; eauto.
Qed.
Lemma has_key_iff k (l l' : list (K * V)) : (In k (keys l) <-> In k (keys l')) -> has_key k l = has_key k l'.
Proof.
  intros H. destruct (has_key k l) eqn:E1, (has_key k l') eqn:E2; auto.
  - apply has_key_in in E1. apply H in E1. apply has_key_in in E1. congruence.
  - apply has_key_in in E2. apply H in E2. apply has_key_in in E2. congruence.
Qed.

(** Number of calls on sets. *)
Inductive within : nat -> prog -> Prop :=
| W_ret : forall d r, within d (Ret r)
| W_crash : forall d, within d Crash
| W_on : forall d i q f, (forall r, within d (f r)) -> within (S d) (On i q f).
Lemma within_more p : forall d e, within d p -> d <= e -> within e p.
Proof.
  induction p as [r| |i q f IH]; intros d e H L; [constructor|constructor|].
  inversion H; subst. destruct e as [|e]; [lia|]. constructor. intros r. eapply IH; eauto. lia.
Qed.
Lemma within_follows p l p' : follows p l p' -> forall d, within d p -> length l <= d.
Proof.
  induction 1 as [p|i q f r m l p H IH]; intros d Hd; cbn; [lia|]. inversion Hd as [| |d0 i0 q0 f0 Hf]; subst. specialize (IH _ (Hf r)). lia.
Qed.
Ltac wcase r := destruct r; try apply W_crash.
Lemma within_flush : forall todo i out, within todo (p_flush (K := K) (V := V) todo i out).
Proof. induction todo as [|m IH]; intros i out; cbn [p_flush]; constructor. intros r. wcase r. auto. Qed.
Lemma within_sum q : forall todo i acc, within todo (p_sum q todo i acc).
Proof. induction todo as [|m IH]; intros i out; cbn [p_sum]; constructor. intros r. wcase r. auto. Qed.
Lemma within_push : forall vss i out, within (length vss) (p_push vss i out).
Proof. induction vss as [|vs vss IH]; intros i out; cbn [p_push length]; constructor. intros r. wcase r. auto. Qed.
Lemma within_tm : forall kss i left out, within (length kss) (p_tm kss i left out).
Proof.
  induction kss as [|ks kss IH]; intros i left out; cbn [p_tm length]; [constructor|].
  destruct ks; [eapply within_more; [apply IH|lia]|]. constructor. intros r. wcase r. auto.
Qed.
Lemma within_pops n target : forall pb out, within (length pb) (p_pops n target pb out).
Proof.
  induction pb as [|[bs bi] pb IH]; intros out; cbn [p_pops length]; [constructor|]. destruct (bi <? n); [|constructor].
  destruct (sub_chk bs target); constructor. intros r. wcase r. auto.
Qed.
Lemma as_target_length : forall pb total n target pb', as_target pb total n = Ok (target, pb') -> length pb' <= length pb.
Proof.
  induction pb as [|[bs bi] pb IH]; intros total n target pb' H; cbn [as_target] in H.
  - destruct (sub_chk total n); discriminate.
  - destruct (sub_chk total n) as [d|]; cbn [bind] in H; [|discriminate]. destruct (_ <=? bs).
    + injection H as _ <-. auto.
    + destruct (sub_chk total bs) as [t'|]; cbn [bind] in H; [|discriminate]. destruct (n <? t'); [|discriminate].
      apply IH in H. cbn. lia.
Qed.
Lemma enumerate_length {T} (l : list T) : forall i, length (enumerate_from i l) = length l.
Proof. induction l; intros i; cbn; auto. Qed.
Lemma within_sizes n want : forall todo i sizes, length sizes + todo = n -> within (todo + n) (p_sizes n want todo i sizes).
Proof.
  induction todo as [|m IH]; intros i sizes L; cbn [p_sizes Nat.add].
  - unfold p_pop_rest. destruct (_ || _); [constructor|]. destruct (_ <=? _); [apply within_flush|].
    destruct (as_target _ _ _) as [[target pb]|] eqn:E; [|constructor].
    apply as_target_length in E. rewrite enumerate_length in E. eapply within_more; [apply within_pops|lia].
  - constructor. intros r. wcase r. apply IH. rewrite app_length. cbn. lia.
Qed.
Definition at_most (n : nat) (q : ask K V) : nat :=
  match q with AskContains _ | AskTake _ => 1 | AskPop _ => n + n | _ => n end.
Lemma within_program n q : within (at_most n q) (program hash n q).
Proof.
  destruct q as [| |k|k|ks|m|vs|]; cbn [program at_most].
  - apply within_sum.
  - apply within_sum.
  - unfold p_one. destruct (pick hash n k); constructor. constructor.
  - unfold p_one. destruct (pick hash n k); constructor. constructor.
  - destruct (bins _ _ _ _ _) as [kss|] eqn:E; [|constructor]. apply bins_length in E. rewrite repeat_length in E.
    rewrite <- E. apply within_tm.
  - apply within_sizes. auto.
  - destruct (bins _ _ _ _ _) as [kss|] eqn:E; [|constructor]. apply bins_length in E. rewrite repeat_length in E.
    rewrite <- E. apply within_push.
  - apply within_flush.
Qed.

(** ** C58 *)
(** The situation: an Associative of at least one set, the sets as a user may build them (any contents, every key in its
    set; empty sets, say), any number of threads, any interleaving, vectors the sets accept. *)
Definition shared (sets : list (St C)) (s : asys) : Prop :=
  1 <= length sets /\ Forall Inv sets /\ in_right_set sets /\ (exists threads, asteps (astart C sets threads) s) /\
  Forall fine (a_asked s).
Definition idle (t : athread (K := K) (V := V)) : Prop := t = AIdle.

(** When no method is running, every pair that was there or was pushed is either held or was handed back, once. *)
Theorem C58_nothing_lost : forall sets s, shared sets s -> Forall idle (a_threads s) ->
  Permutation (holds sets ++ pushed s) (holds (a_sets s) ++ handed_back s).
Proof.
  intros sets s (Hn & HI & Hr & [n H] & Hf) Hi. destruct (reach_accounts Hn HI Hr H Hf) as (_ & carries & HF & P).
  assert (concat carries = []) as E.
  { clear - HF Hi. induction HF as [|t y l1 l2 H1 H2 IH]; auto. apply Forall_cons_iff in Hi as [Hi1 Hi2]. unfold idle in Hi1.
    subst t. cbn in H1. subst y. cbn. auto. }
  rewrite E, app_nil_r in P. auto.
Qed.
(** At any moment, whatever the threads are doing and however many of them died, the pairs held and handed back are pairs
    that were there or pushed, each at most once. *)
Theorem C58_never_invented : forall sets s, shared sets s ->
  exists on_the_way, Permutation (holds sets ++ pushed s) (holds (a_sets s) ++ handed_back s ++ on_the_way).
Proof.
  intros sets s (Hn & HI & Hr & [n H] & Hf). destruct (reach_accounts Hn HI Hr H Hf) as (_ & carries & HF & P). eauto.
Qed.
(** Every key is always in its set. *)
Theorem C58_right_set : forall sets s, shared sets s -> forall m st, nth_error (history s) m = Some st ->
  length st = length sets /\ in_right_set st.
Proof.
  intros sets s (Hn & HI & Hr & [n H] & Hf) m st E. destruct (reach_moments Hn HI Hr H Hf) as (M & _).
  rewrite Forall_forall in M. destruct (M _ (nth_error_In _ _ E)) as [(A & _ & B) _]. auto.
Qed.
(** A method panics only when it finds a set in use by another thread, or if it is pop. *)
Theorem C58_no_panic : forall sets s, shared sets s -> forall t q contended, nth_error (a_threads s) t = Some (ADead q contended) ->
  contended = true \/ exists m, q = AskPop m.
Proof.
  intros sets s (Hn & HI & Hr & [n H] & Hf) t q contended E. destruct (reach_accounts Hn HI Hr H Hf) as (_ & carries & HF & P).
  destruct (nth_split_F2 _ HF E) as (_ & y & _ & Hy & _). cbn in Hy. destruct contended; auto. right.
  specialize (Hy eq_refl). destruct q; try discriminate. eauto.
Qed.
(** A running method other than pop can always go on: it returns, or its next call on a set is answered. *)
Theorem C58_goes_on : forall sets s, shared sets s -> forall t q t0 p done,
  nth_error (a_threads s) t = Some (ABusy q t0 p done) -> (forall m, q <> AskPop m) ->
  (exists r, p = Ret r) \/
  exists i q' f c c' r, p = On i q' f /\ nth_error (a_sets s) i = Some c /\ answer C c q' = Ok (c', r).
Proof.
  intros sets s (Hn & HI & Hr & [n H] & Hf) t q t0 p done E Hq. destruct (reach_accounts Hn HI Hr H Hf) as (Hg & carries & HF & P).
  destruct (nth_split_F2 _ HF E) as (_ & y & _ & Hy & _). cbn [thread_ok] in Hy.
  inversion Hy as [carry r Pr|carry Hc|carry i q0 f rest L P1 F1 K1 B1]; subst; eauto.
  - destruct q; try discriminate. exfalso. eapply Hq; reflexivity.
  - right. destruct Hg as (Hl & HIs & _). destruct (nth_error (a_sets s) i) as [c|] eqn:Ec; [|apply nth_error_None in Ec; lia].
    assert (Hi : Inv c) by (rewrite Forall_forall in HIs; apply HIs; eapply nth_error_In; eauto).
    destruct (set_call HC Hi F1) as (c' & r & A & _). exists i, q0, f, c, c', r. auto.
Qed.
(** A method makes at most one call on each set -- contains and take one in all, pop at most two on average. *)
Theorem C58_bounded_calls : forall sets s, shared sets s -> forall x, In x (a_returns s) ->
  length (ar_notes x) <= match ar_ask x with
                         | AskContains _ | AskTake _ => 1
                         | AskPop _ => 2 * length sets
                         | _ => length sets
                         end.
Proof.
  intros sets s (Hn & HI & Hr & [n H] & Hf) x Hx. destruct (reach_moments Hn HI Hr H Hf) as (_ & _ & M).
  rewrite Forall_forall in M. destruct (M _ Hx) as (_ & M1 & _).
  pose proof (within_follows M1 (within_program (length sets) (ar_ask x))) as L. destruct (ar_ask x); cbn [at_most] in L; lia.
Qed.

(** The answer of contains is the truth at some moment between call and return ... *)
Theorem C58_contains_at_a_moment : forall sets s, shared sets s -> forall x k, In x (a_returns s) -> ar_ask x = AskContains k ->
  exists m st, ar_start x <= m < ar_end x /\ nth_error (history s) m = Some st /\ ar_saw x = SawBool (has_key k (holds st)).
Proof.
  intros sets s (Hn & HI & Hr & [n H] & Hf) x k Hx Hk. destruct (reach_moments Hn HI Hr H Hf) as (G & _ & M).
  rewrite Forall_forall in M. destruct (M _ Hx) as (_ & M1 & M2). rewrite Hk in M1. cbn [program] in M1.
  apply follows_one in M1 as [m E]; auto. rewrite E in M2. inversion M2 as [|? ? (B1 & st & c & c' & B2 & B3 & B4 & B5) _]; subst.
  cbn [n_time n_set n_ask n_saw] in *. exists m, st. split; [auto|]. split; [auto|].
  rewrite Forall_forall in G. destruct (G _ (nth_error_In _ _ B2)) as [Hg _].
  assert (Hi : Inv c) by (destruct Hg as (_ & Hi & _); rewrite Forall_forall in Hi; apply Hi; eapply nth_error_In; eauto).
  rewrite (set_contains HC _ Hi B4). f_equal. apply has_key_iff. symmetry. eapply in_holds; eauto.
Qed.
(** ... and take takes effect at once, at some moment between call and return. *)
Theorem C58_take_at_a_moment : forall sets s, shared sets s -> forall x k, In x (a_returns s) -> ar_ask x = AskTake k ->
  exists m st st' o, ar_start x <= m < ar_end x /\ nth_error (history s) m = Some st /\ nth_error (history s) (S m) = Some st' /\
    ar_saw x = SawOne o /\
    match o with
    | Some (k', v) => k' = k /\ Permutation ((k, v) :: holds st') (holds st)
    | None => ~ In k (keys (holds st)) /\ Permutation (holds st') (holds st)
    end.
Proof.
  intros sets s (Hn & HI & Hr & [n H] & Hf) x k Hx Hk. destruct (reach_moments Hn HI Hr H Hf) as (G & _ & M).
  rewrite Forall_forall in M. destruct (M _ Hx) as (_ & M1 & M2). rewrite Hk in M1. cbn [program] in M1.
  apply follows_one in M1 as [m E]; auto. rewrite E in M2. inversion M2 as [|? ? (B1 & st & c & c' & B2 & B3 & B4 & B5) _]; subst.
  cbn [n_time n_set n_ask n_saw] in *.
  rewrite Forall_forall in G. destruct (G _ (nth_error_In _ _ B2)) as [Hg _].
  assert (Hi : Inv c) by (destruct Hg as (_ & Hi & _); rewrite Forall_forall in Hi; apply Hi; eapply nth_error_In; eauto).
  assert (Hfq : fine (AskTake (V := V) k)) by (apply not_push_fine; discriminate).
  assert (Hkq : forall k0, In k0 (keys (put (AskTake (V := V) k))) -> set_of (length sets) k0 = set_of (length sets) k) by (cbn; tauto).
  destruct (good_call Hg B3 Hfq Hkq B4) as ([o Eo] & _ & P & _).
  exists m, st, (replace_nth (set_of (length sets) k) c' st), o. repeat split; try tauto; auto.
  rewrite Eo in B4, P. pose proof (set_take HC _ Hi B4) as T. cbn [put got] in P. rewrite app_nil_r in P.
  destruct o as [[k' v]|]; cbn [opt_list app] in P; [subst k'; auto|]. split; auto.
  intros Hin. apply T. eapply in_holds; eauto.
Qed.
(** take_multiple: only requested keys come out; a requested key that does not come out was not there at some moment
    between call and return; the keys that leave the vector are keys that came out. *)
Theorem C58_take_multiple : forall sets s, shared sets s -> forall x ks, In x (a_returns s) -> ar_ask x = AskTakeMultiple ks ->
  exists left l, ar_saw x = SawKeys left l /\ incl (keys l) ks /\
    (exists removed, Permutation ks (removed ++ left) /\ incl removed (keys l)) /\
    forall k, In k ks -> ~ In k (keys l) ->
      exists m st, ar_start x <= m < ar_end x /\ nth_error (history s) m = Some st /\ ~ In k (keys (holds st)).
Proof.
  intros sets s (Hn & HI & Hr & [n H] & Hf) x ks Hx Hk. destruct (reach_moments Hn HI Hr H Hf) as (G & _ & M).
  rewrite Forall_forall in M. destruct (M _ Hx) as (_ & M1 & M2). rewrite Hk in M1. cbn [program] in M1.
  destruct (bins_new (fun k => k) ks Hn) as (kss & E & El & Ep & P). rewrite E in M1.
  assert (Hfacts : Forall tm_fact (ar_notes x)).
  { eapply Forall_impl; [|exact M2]. intros [i q r m] (B1 & st & c & c' & B2 & B3 & B4 & B5). cbn [n_time n_set n_ask n_saw] in *.
    unfold tm_fact. cbn [n_ask n_saw]. destruct q; auto. destruct r; auto.
    rewrite Forall_forall in G. destruct (G _ (nth_error_In _ _ B2)) as [(_ & Hi & _) _].
    rewrite Forall_forall in Hi. destruct (set_tm HC _ (Hi _ (nth_error_In _ _ B3)) B4) as (T1 & _ & T2). auto. }
  destruct (@follows_tm kss 0 [] [] _ _ M1 Hfacts) as (left' & out' & Er & H1 & (removed & H2 & H2') & H3). cbn [app] in Er.
  exists left', out'. split; [auto|]. split; [intros k Hk'; rewrite <- P; auto|]. split; [exists removed; rewrite <- P; auto|].
  intros k Hin Hout. rewrite <- P in Hin. apply in_concat in Hin as (ks' & Hks' & Hin). apply In_nth_error in Hks' as [j Ej].
  destruct (H3 _ _ _ Ej Hin) as (ks1 & o & m & A1 & A2). rewrite Forall_forall in M2.
  destruct (M2 _ A1) as (B1 & st & c & c' & B2 & B3 & B4 & B5). cbn [n_time n_set n_ask n_saw Nat.add] in *.
  exists m, st. split; [auto|]. split; [auto|]. rewrite Forall_forall in G. destruct (G _ (nth_error_In _ _ B2)) as [Hg _].
  assert (Hi : Inv c) by (destruct Hg as (_ & Hi & _); rewrite Forall_forall in Hi; apply Hi; eapply nth_error_In; eauto).
  destruct (set_tm HC _ Hi B4) as (_ & T & _). intros Hc. apply Hout.
  assert (Hset : set_of (length sets) k = j).
  { clear - Ep Ej Hin. rewrite (map_ext _ (fun l => l)) in Ep by (intros; apply map_id). rewrite map_id in Ep.
    assert (forall kss i j, placed (set_of (length sets)) i kss -> nth_error kss j = Some ks' -> set_of (length sets) k = i + j) as A.
    { clear - Hin. induction kss as [|a kss IH]; intros i [|j] Hp E; try discriminate.
      - injection E as ->. destruct Hp as [Hp _]. rewrite Nat.add_0_r. auto.
      - destruct Hp as [_ Hp]. rewrite (IH _ _ Hp E). lia. }
    rewrite (A _ _ _ Ep Ej). auto. }
  assert (In k (keys o)) as Hko by (apply T; auto; eapply in_holds; eauto).
  unfold keys in *. apply in_map_iff in Hko as (y & <- & Hy). apply List.in_map. auto.
Qed.
(** capacity: always the same number; size: never more. *)
Theorem C58_capacity_and_size : forall sets s, shared sets s -> forall x, In x (a_returns s) ->
  (ar_ask x = AskCapacity -> ar_saw x = SawNum (list_sum (map (capacity C) sets))) /\
  (ar_ask x = AskSize -> exists z, ar_saw x = SawNum z /\ z <= list_sum (map (capacity C) sets)).
Proof.
  intros sets s (Hn & HI & Hr & [n H] & Hf) x Hx. destruct (reach_moments Hn HI Hr H Hf) as (G & _ & M).
  rewrite Forall_forall in M. destruct (M _ Hx) as (_ & M1 & M2).
  assert (W : forall q ms, (q = AskCapacity \/ q = AskSize) -> 
     Forall (happened (history s) (ar_start x) (ar_end x)) (map (fun y => mkNote (fst (fst y)) q (SawNum (snd (fst y))) (snd y)) ms) ->
     Forall (fun y => exists d, nth_error (map (capacity C) sets) (fst (fst y)) = Some d /\
        (if match q with AskCapacity => true | _ => false end then snd (fst y) = d else snd (fst y) <= d)) ms).
  { intros q ms Hq HF. rewrite Forall_forall in *. intros y Hy.
    destruct (HF _ (List.in_map (fun y => mkNote (fst (fst y)) q (SawNum (snd (fst y))) (snd y)) _ _ Hy)) as (_ & st & c & c' & B2 & B3 & B4 & _).
    cbn [n_time n_set n_ask n_saw] in *. destruct (G _ (nth_error_In _ _ B2)) as [(_ & Hi & _) Hc].
    exists (capacity C c). rewrite <- Hc, nth_error_map, B3. split; [auto|].
    rewrite Forall_forall in Hi. specialize (Hi _ (nth_error_In _ _ B3)). destruct Hq; subst q; cbn [answer] in B4; injection B4 as _ <-; auto.
    apply (set_size HC). auto. }
  assert (S : forall (le : bool) (l rest : list nat) ms, map (fun y => fst (fst y)) ms = seq (length l) (length rest) ->
     Forall (fun y : nat * nat * nat => exists d, nth_error (l ++ rest) (fst (fst y)) = Some d /\
        (if le then snd (fst y) = d else snd (fst y) <= d)) ms ->
     if le then list_sum (map (fun y => snd (fst y)) ms) = list_sum rest else list_sum (map (fun y => snd (fst y)) ms) <= list_sum rest).
  { clear. intros le l rest ms Es HF.
    revert l ms Es HF. induction rest as [|d rest IH]; intros l [|y ms] Es HF; try discriminate.
    - destruct le; auto.
    - cbn [map length seq] in Es. injection Es as E1 E2. apply Forall_cons_iff in HF as [(d' & Ed & Hd) HF].
      rewrite E1, nth_error_app2, Nat.sub_diag in Ed by lia. injection Ed as <-.
      specialize (IH (l ++ [d]) ms). rewrite app_length, Nat.add_1_r, <- app_assoc in IH. cbn [app] in IH. specialize (IH E2 HF).
      cbn [map]. change (list_sum (d :: rest)) with (d + list_sum rest).
      match goal with |- context [list_sum (?x :: ?t)] => change (list_sum (x :: t)) with (x + list_sum t) end.
      destruct le; lia. }
  split; intros Eq; rewrite Eq in M1; cbn [program] in M1; apply follows_sum in M1 as (ms & E1 & E2 & E3); rewrite E1 in M2;
    (apply W in M2; [|auto]); rewrite E3; cbn [Nat.add].
  - f_equal. apply (S true [] (map (capacity C) sets) ms); auto. rewrite map_length. auto.
  - eexists; split; [reflexivity|]. apply (S false [] (map (capacity C) sets) ms); auto. rewrite map_length. auto.
Qed.
End Conc.

(** ** Sets that keep the contract *)
Section Instances.
Context {K : Type} {OK : Ord K} {EK : OrdEq K}.
(** Containers that keep the laws of Spec.v for any pushed keys. *)
Lemma laws_contract {V} (C : Block K V) Inv ct e : Laws C Inv ct true true e -> SetContract C Inv ct (fun _ => True).
Proof.
  intros L. constructor.
  - intros c q Hi _. destruct q as [| |k|k|ks|n|vs|]; cbn [answer put fits]; rewrite ?app_nil_r.
    + eexists _, _; split; [reflexivity|]. cbn. eauto 6.
    + eexists _, _; split; [reflexivity|]. cbn. eauto 6.
    + rewrite (law_contains L c k Hi). eexists _, _; split; [reflexivity|]. cbn. eauto 6.
    + destruct (law_take L c k Hi) as (s' & o & H1 & H2 & H3 & _ & H5). rewrite H1. eexists _, _; split; [reflexivity|].
      split; auto. split; [eauto|]. split; auto. cbn [got].
      destruct o as [[k' v]|]; cbn [opt_list app]; [destruct H5 as [-> H5]|destruct H5 as [_ H5]]; auto.
    + destruct (law_take_multiple L c ks Hi) as (s' & ks' & out & H1 & H2 & H3 & _ & H5 & _). rewrite H1.
      eexists _, _; split; [reflexivity|]. eauto 6.
    + destruct (law_pop L eq_refl c n Hi) as (s' & out & H1 & H2 & H3 & H5 & _). rewrite H1.
      eexists _, _; split; [reflexivity|]. eauto 6.
    + destruct (law_push L c vs Hi) as (s' & out & H1 & H2 & H3 & H5); [intros X; discriminate|]. rewrite H1.
      eexists _, _; split; [reflexivity|]. eauto 6.
    + destruct (law_flush L c Hi) as (s' & out & H1 & H2 & H3 & H5 & _). rewrite H1.
      eexists _, _; split; [reflexivity|]. eauto 6.
  - intros c. apply (law_size L).
  - intros c k c' r Hi H. cbn [answer] in H. rewrite (law_contains L c k Hi) in H. cbn in H. congruence.
  - intros c k c' o Hi H. destruct (law_take L c k Hi) as (s' & o' & H1 & _ & _ & _ & H5). cbn [answer] in H. rewrite H1 in H.
    cbn in H. injection H as _ <-. destruct o' as [[k' v]|]; tauto.
  - intros c ks c' l1 l2 Hi H. destruct (law_take_multiple L c ks Hi) as (s' & ks' & out & H1 & _ & _ & _ & _ & H6). cbn [answer] in H.
    rewrite H1 in H. cbn in H. injection H as _ <- <-. auto.
  - auto.
Qed.
(** The container BTree: the keys of each pushed vector distinct. *)
Lemma btree_contract {V} {OV : Ord V} E : SetContract (@BTreeB K V OK OV) (b_inv E) (@b_ct K V) (fun vs => NoDup (keys vs)).
Proof.
  pose proof (btree_laws (K := K) (V := V) E) as L. constructor.
  - intros c q Hi Hf. destruct q as [| |k|k|ks|n|vs|]; cbn [answer put fits]; rewrite ?app_nil_r.
    + eexists _, _; split; [reflexivity|]. cbn. eauto 6.
    + eexists _, _; split; [reflexivity|]. cbn. eauto 6.
    + rewrite (law_contains L c k Hi). eexists _, _; split; [reflexivity|]. cbn. eauto 6.
    + destruct (law_take L c k Hi) as (s' & o & H1 & H2 & H3 & _ & H5). rewrite H1. eexists _, _; split; [reflexivity|].
      split; auto. split; [eauto|]. split; auto. cbn [got].
      destruct o as [[k' v]|]; cbn [opt_list app]; [destruct H5 as [-> H5]|destruct H5 as [_ H5]]; auto.
    + destruct (law_take_multiple L c ks Hi) as (s' & ks' & out & H1 & H2 & H3 & _ & H5 & _). rewrite H1.
      eexists _, _; split; [reflexivity|]. eauto 6.
    + destruct (law_pop L eq_refl c n Hi) as (s' & out & H1 & H2 & H3 & H5 & _). rewrite H1.
      eexists _, _; split; [reflexivity|]. eauto 6.
    + destruct (b_push_spec vs Hi (Hf _ eq_refl)) as (s' & out & H1 & H2 & H3 & H5 & _). cbn [BTreeB push]. rewrite H1.
      eexists _, _; split; [reflexivity|]. eauto 6.
    + destruct (law_flush L c Hi) as (s' & out & H1 & H2 & H3 & H5 & _). rewrite H1.
      eexists _, _; split; [reflexivity|]. eauto 6.
  - intros c. apply (law_size L).
  - intros c k c' r Hi H. cbn [answer] in H. rewrite (law_contains L c k Hi) in H. cbn in H. congruence.
  - intros c k c' o Hi H. destruct (law_take L c k Hi) as (s' & o' & H1 & _ & _ & _ & H5). cbn [answer] in H. rewrite H1 in H.
    cbn in H. injection H as _ <-. destruct o' as [[k' v]|]; tauto.
  - intros c ks c' l1 l2 Hi H. destruct (law_take_multiple L c ks Hi) as (s' & ks' & out & H1 & _ & _ & _ & _ & H6). cbn [answer] in H.
    rewrite H1 in H. cbn in H. injection H as _ <- <-. auto.
  - intros vs parts x Hn P Hx. rewrite <- (keys_perm P) in Hn. apply in_split in Hx as (l1 & l2 & ->).
    rewrite concat_app, keys_app in Hn. cbn [concat] in Hn. rewrite keys_app in Hn.
    apply NoDup_app_inv in Hn as (_ & Hn & _). apply NoDup_app_inv in Hn. tauto.
Qed.

(** C58 for every Associative of any_keys containers without another Associative inside, from its creation. *)
Theorem C58_every_architecture : forall {V : Type} (hash : K -> N) (n : nat) (f : nat -> arch K V),
  any_keys (AAssociative hash n f) = true -> (forall i, i <= n -> has_associative (f i) = false) ->
  forall threads s, asteps hash (astart (SumB (fun i => block (f i))) (init (AAssociative hash n f)) threads) s ->
  (Forall idle (a_threads s) -> Permutation (pushed s) (held (AAssociative hash n f) (a_sets s) ++ handed_back s)) /\
  (forall t q contended, nth_error (a_threads s) t = Some (ADead q contended) -> contended = true \/ exists m, q = AskPop m) /\
  (forall x k, In x (a_returns s) -> ar_ask x = AskContains k -> exists m st, ar_start x <= m < ar_end x /\
     nth_error (history s) m = Some st /\ ar_saw x = SawBool (has_key k (held (AAssociative hash n f) st))).
Proof.
  intros V hash n f Hd Ha threads s H.
  assert (L : Laws (SumB (fun i => block (f i)))
       (fun c => (if projT1 c <? S n then ainv true (f (projT1 c)) else fun _ => False) (projT2 c))
       (fun c => held (f (projT1 c)) (projT2 c)) true true false).
  { apply family_laws. intros i Hi. eapply laws_flags; [apply arch_laws|rewrite Ha by lia; auto|discriminate].
    intros _. unfold any_keys in *. apply andb_true_iff in Hd as [H1 H2]. cbn [needs_new_keys profiled_dyn] in H1, H2. apply andb_true_iff. split.
    - apply (negb_existsb_in (fun i => needs_new_keys (f i)) (seq 0 (S n)) _ H1). apply in_seq0; auto.
    - apply (negb_existsb_in (fun i => profiled_dyn (f i)) (seq 0 (S n)) _ H2). apply in_seq0; auto. }
  pose proof (laws_contract L) as HC.
  destruct (init_ok true (AAssociative hash n f)) as [(I1 & I2 & I3 & _) I4].
  assert (Hempty : forall i (c : St (SumB (fun i => block (f i)))), nth_error (init (AAssociative hash n f)) i = Some c -> held (f (projT1 c)) (projT2 c) = []).
  { intros i c E. apply nth_error_In in E. cbn [held] in I4.
    destruct (held (f (projT1 c)) (projT2 c)) as [|p l] eqn:El; auto. exfalso.
    assert (In p []) as []. rewrite <- I4. apply in_flat_map. exists c. split; auto.
    refine (eq_ind_r (fun l => In p l) _ El). left. auto. }
  assert (Hs : shared hash (C := SumB (fun i => block (f i))) 
       (fun c => (if projT1 c <? S n then ainv true (f (projT1 c)) else fun _ => False) (projT2 c))
       (fun c => held (f (projT1 c)) (projT2 c)) (fun _ => True) (init (AAssociative hash n f)) s).
  { split; [cbn [init]; rewrite map_length, seq_length; lia|]. split; [exact I2|]. split.
    - intros i c k E Hk. rewrite (Hempty _ _ E) in Hk. destruct Hk.
    - split; [eauto|]. apply Forall_forall. intros q _ vs _. exact I. }
  split; [|split].
  - intros Hi. pose proof (C58_nothing_lost HC Hs Hi) as P.
    assert (E0 : holds (SumB (fun i => block (f i))) (fun c => held (f (projT1 c)) (projT2 c)) (init (AAssociative hash n f)) = []) by exact I4.
    refine (eq_ind _ (fun l => Permutation (l ++ pushed s) _) P _ E0).
  - intros t q contended. apply (C58_no_panic HC Hs).
  - intros x k. apply (C58_contains_at_a_moment HC Hs).
Qed.
(** ... and of BTrees, when the keys of each pushed vector are distinct. *)
Theorem C58_btree_sets : forall {V : Type} {OV : Ord V} (hash : K -> N) (caps : list nat) esz threads s,
  caps <> [] -> asteps hash (astart (@BTreeB K V OK OV) (map (fun cap => btree_new cap esz) caps) threads) s ->
  (forall vs, In (AskPush vs) (a_asked s) -> NoDup (keys vs)) ->
  (Forall idle (a_threads s) -> Permutation (pushed s) (holds (@BTreeB K V OK OV) (@b_ct K V) (a_sets s) ++ handed_back s)) /\
  (forall t q contended, nth_error (a_threads s) t = Some (ADead q contended) -> contended = true \/ exists m, q = AskPop m) /\
  (forall x k, In x (a_returns s) -> ar_ask x = AskContains k -> exists m st, ar_start x <= m < ar_end x /\
     nth_error (history s) m = Some st /\ ar_saw x = SawBool (has_key k (holds (@BTreeB K V OK OV) (@b_ct K V) st))).
Proof.
  intros V OV hash caps esz threads s Hc H Hp.
  assert (Hs : shared hash (C := @BTreeB K V OK OV) (b_inv esz) (@b_ct K V) (fun vs => NoDup (keys vs)) (map (fun cap => btree_new cap esz) caps) s).
  { split; [rewrite map_length; destruct caps; [congruence|cbn; lia]|]. split.
    - apply Forall_forall. intros c Hi. apply in_map_iff in Hi as (cap & <- & _). apply btree_new_inv.
    - split; [|split; [eauto|]].
      + intros i c k E Hk. rewrite nth_error_map in E. destruct (nth_error caps i); [|discriminate]. injection E as <-. destruct Hk.
      + apply Forall_forall. intros q Hq vs ->. auto. }
  split; [|split].
  - intros Hi. pose proof (C58_nothing_lost (btree_contract esz) Hs Hi) as P.
    assert (holds (@BTreeB K V OK OV) (@b_ct K V) (map (fun cap => btree_new cap esz) caps) = []) as E.
    { clear. induction caps; cbn; auto. }
    rewrite E in P. exact P.
  - intros t q contended. apply (C58_no_panic (btree_contract esz) Hs).
  - intros x k. apply (C58_contains_at_a_moment (btree_contract esz) Hs).
Qed.
End Instances.

(** ** Schedules one can run *)
Section Play.
Context {K V : Type}.
Variable hash : K -> N.
Variable C : Block K V.
Inductive move : Type := MCall (t : nat) (q : ask K V) | MGo (t : nat).
Definition go1 (s : asys C) (e : move) : option (asys C) :=
  match e with
  | MCall t q =>
      match nth_error (a_threads s) t with
      | Some AIdle => Some (mkA (a_sets s) (replace_nth t (ABusy q (now s) (program hash (length (a_sets s)) q) []) (a_threads s))
                 (a_past s) (a_asked s ++ [q]) (a_returns s))
      | _ => None
      end
  | MGo t =>
      match nth_error (a_threads s) t with
      | Some (ABusy q t0 (On i q' f) done) =>
          match nth_error (a_sets s) i with
          | Some c => match answer C c q' with
              | Ok (c', r) => Some (mkA (replace_nth i c' (a_sets s))
                 (replace_nth t (ABusy q t0 (f r) (done ++ [mkNote i q' r (now s)])) (a_threads s))
                 (a_past s ++ [a_sets s]) (a_asked s) (a_returns s))
              | Panic => Some (mkA (a_sets s) (replace_nth t (ADead q false) (a_threads s)) (a_past s) (a_asked s) (a_returns s))
              end
          | None => Some (mkA (a_sets s) (replace_nth t (ADead q false) (a_threads s)) (a_past s) (a_asked s) (a_returns s))
          end
      | Some (ABusy q t0 (Ret r) done) => Some (mkA (a_sets s) (replace_nth t AIdle (a_threads s)) (a_past s) (a_asked s)
                 (a_returns s ++ [mkAR t q r t0 (now s) done]))
      | Some (ABusy q t0 Crash done) =>
          Some (mkA (a_sets s) (replace_nth t (ADead q false) (a_threads s)) (a_past s) (a_asked s) (a_returns s))
      | _ => None
      end
  end.
Fixpoint go (s : asys C) (es : list move) : option (asys C) :=
  match es with [] => Some s | e :: es' => match go1 s e with Some s1 => go s1 es' | None => None end end.
Lemma go1_step s e s' : go1 s e = Some s' -> astep hash s s'.
Proof.
  destruct e as [t q|t]; cbn [go1]; destruct (nth_error (a_threads s) t) as [[|q0 t0 p done|q0 b]|] eqn:E; try discriminate; intros H.
  - injection H as <-. apply A_call; auto.
  - destruct p as [r| |i q' f].
    + injection H as <-. eapply A_return; eauto.
    + injection H as <-. eapply A_crash; eauto.
    + destruct (nth_error (a_sets s) i) as [c|] eqn:Ec; [|injection H as <-; eapply A_no_set; eauto].
      destruct (answer C c q') as [[c' r]|] eqn:Ea; injection H as <-; [eapply A_on|eapply A_set_panics]; eauto.
Qed.
Lemma go_steps es : forall s0 s s', asteps hash s0 s -> go s es = Some s' -> asteps hash s0 s'.
Proof.
  induction es as [|e es IH]; intros s0 s s' H G; cbn [go] in G; [injection G as <-; auto|].
  destruct (go1 s e) as [s1|] eqn:E; [|discriminate]. eapply IH; [|exact G]. eapply as_more; [exact H|]. apply go1_step with (e := e); auto.
Qed.
End Play.

(** Two Arrays of one element each as sets, keys 0 and 1 in sets 0 and 1; thread 0 moves the one element from set 0 to set
    1 while thread 1 is in the middle of [size()]. *)
Definition two_sets : Block nat nat := ArrayB (@std_sorter (nat * nat) _ Ord_nat snd) linear_bs.
Definition two_new : list (St two_sets) := [array_new 1 (fun _ => 1); array_new 1 (fun _ => 1)].
Definition moving : list (@move nat nat) :=
  [MCall 0 (AskPush [(0, 7)]); MGo 0; MGo 0; MGo 0;
   MCall 1 AskSize; MGo 1;
   MCall 0 (AskTake 0); MGo 0; MGo 0; MCall 0 (AskPush [(1, 7)]); MGo 0; MGo 0; MGo 0;
   MGo 1; MGo 1].
Definition moved (o : option (asys two_sets)) : asys two_sets := match o with Some s => s | None => astart two_sets [] 0 end.
(** C58: size() may answer a number the container never had. *)
Theorem C58_size_of_no_moment_refuted :
  exists s x, asteps N.of_nat (astart two_sets two_new 2) s /\ In x (a_returns s) /\ ar_ask x = AskSize /\
    ar_saw x = SawNum 2 /\ forall st, In st (history s) -> as_size two_sets st <= 1.
Proof.
  exists (moved (go N.of_nat (astart two_sets two_new 2) moving)).
  exists (mkAR 1 AskSize (SawNum 2) 2 7 [mkNote 0 AskSize (SawNum 1) 2; mkNote 1 AskSize (SawNum 1) 6]).
  split; [|split; [|split; [reflexivity|split; [reflexivity|]]]].
  - apply go_steps with (es := moving) (s := astart two_sets two_new 2); [constructor|].
    assert (match go N.of_nat (astart two_sets two_new 2) moving with Some _ => true | None => false end = true) by (vm_compute; reflexivity).
    destruct (go N.of_nat (astart two_sets two_new 2) moving); [reflexivity|discriminate].
  - vm_compute. tauto.
  - assert (forallb (fun st => as_size two_sets st <=? 1) (history (moved (go N.of_nat (astart two_sets two_new 2) moving))) = true) as H
      by (vm_compute; reflexivity).
    intros st Hin. rewrite forallb_forall in H. apply Nat.leb_le. exact (H st Hin).
Qed.

(** The hypotheses of the theorems above are met: this very run, in which every thread is idle again. *)
Definition is_idle (t : athread (K := nat) (V := nat)) : bool := match t with AIdle => true | _ => false end.
Lemma is_idle_ok t : is_idle t = true -> idle t.
Proof. destruct t; cbn; try discriminate. reflexivity. Qed.
Example C58_example : exists s, shared N.of_nat (C := two_sets) (fun s => a_inv_e (fun _ => 1) s) (@a_vals nat nat) (fun _ => True) two_new s /\
  Forall idle (a_threads s) /\ length (a_returns s) = 4 /\ pushed s = [(0, 7); (1, 7)] /\
  holds two_sets (@a_vals nat nat) (a_sets s) = [(1, 7)] /\ handed_back s = [(0, 7)].
Proof.
  exists (moved (go N.of_nat (astart two_sets two_new 2) moving)). split; [split; [cbn; lia|split; [|split; [|split]]]|].
  - constructor; [|constructor; [|constructor]]; split; [apply array_new_inv|reflexivity|apply array_new_inv|reflexivity].
  - intros [|[|i]] c k E Hk; try (injection E as <-; destruct Hk). destruct i; discriminate.
  - exists 2. apply go_steps with (es := moving) (s := astart two_sets two_new 2); [constructor|].
    assert (match go N.of_nat (astart two_sets two_new 2) moving with Some _ => true | None => false end = true) by (vm_compute; reflexivity).
    destruct (go N.of_nat (astart two_sets two_new 2) moving); [reflexivity|discriminate].
  - apply Forall_forall. intros q _ vs _. exact I.
  - split; [|split; [|split; [|split]]; vm_compute; reflexivity].
    assert (H : forallb is_idle (a_threads (moved (go N.of_nat (astart two_sets two_new 2) moving))) = true) by (vm_compute; reflexivity).
    apply Forall_forall. intros t Ht. rewrite forallb_forall in H. exact (is_idle_ok t (H t Ht)).
Qed.
