(** PAssocGet.v -- property theorems: C58 when the threads sharing an Associative also call get and get_mut
    (/repo/src/associative/get.rs:13-16, 27-30: the set of the key, then get of that set). *)
From Coq Require Import NArith.
From Verif Require Import Base PermSolve Block Spec LawsProof Cut Array ArrayProof BTree BTreeProof Wrappers WrappersProof
  Associative AssociativeProof Arch ArchProof Get GetProof PGet PStream Sim Linear Clones AssocConc PAssocConc.
Set Implicit Arguments.

(** A get or get_mut that returned, as an observer notes it: the key, what was done to the value through the guard, the
    value the guard showed, and the moment. *)
Record gread {K V : Type} : Type := mkR { r_key : K; r_write : V -> V; r_saw : option V; r_time : nat }.
Arguments gread : clear implicits.

Section System.
Context {K V : Type}.
Variable hash : K -> N.
Variable C : Block K V.
Variable g : bool -> Getter C.
(** What the users may do to a value through a guard of get ([m = false]) or get_mut. *)
Variable okf : bool -> (V -> V) -> Prop.

(** The threads of AssocConc.v, and what was noted of get and get_mut. *)
Record gsys : Type := mkG { g_sys : asys C; g_reads : list (gread K V) }.
Inductive gstep : gsys -> gsys -> Prop :=
| G_step : forall s s' l, astep hash s s' -> gstep (mkG s l) (mkG s' l)
(* an idle thread calls get or get_mut, uses the guard and drops it: one call on one set.  While the guard lives other
   threads may find the set in use: A_contended. *)
| G_get : forall s l t m k f i c c' o, nth_error (a_threads s) t = Some AIdle -> okf m f ->
    pick hash (length (a_sets s)) k = Ok i -> nth_error (a_sets s) i = Some c -> g m c k f = Ok (c', o) ->
    gstep (mkG s l)
          (mkG (mkA (replace_nth i c' (a_sets s)) (a_threads s) (a_past s ++ [a_sets s]) (a_asked s) (a_returns s))
               (l ++ [mkR k f o (now s)]))
(* ... finds the set in use and panics *)
| G_contended : forall s l t k, nth_error (a_threads s) t = Some AIdle ->
    gstep (mkG s l)
          (mkG (mkA (a_sets s) (replace_nth t (ADead (AskContains k) true) (a_threads s)) (a_past s) (a_asked s) (a_returns s)) l)
(* ... panics by itself: the get of the set does, or there is no set *)
| G_panics : forall s l t m k f, nth_error (a_threads s) t = Some AIdle -> okf m f ->
    (let* i := pick hash (length (a_sets s)) k in let* c := unwrap (nth_error (a_sets s) i) in g m c k f) = Panic ->
    gstep (mkG s l)
          (mkG (mkA (a_sets s) (replace_nth t (ADead (AskContains k) false) (a_threads s)) (a_past s) (a_asked s) (a_returns s)) l).
Inductive gsteps : gsys -> gsys -> Prop :=
| gs_refl : forall s, gsteps s s
| gs_more : forall s s' s'', gsteps s s' -> gstep s' s'' -> gsteps s s''.
Definition gstart (sets : list (St C)) (threads : nat) : gsys := mkG (astart C sets threads) [].
End System.
Arguments mkG {K V C} g_sys g_reads.
Arguments g_sys {K V C} g.
Arguments g_reads {K V C} g.

Section Conc.
Context {K V : Type} {OK : Ord K} {EK : OrdEq K}.
Variable hash : K -> N.
Variable C : Block K V.
Variable g : bool -> Getter C.
Variable okf : bool -> (V -> V) -> Prop.
Variable Inv : St C -> Prop.
Variable ct : St C -> list (K * V).
Variable okp : list (K * V) -> Prop.
Hypothesis HC : SetContract C Inv ct okp.
(** The get of a set is faithful (C46). *)
Hypothesis HG : forall m c k f, Inv c -> okf m f -> get_ok C Inv ct (g m) c k f.

(** The pairs that were there before the writes, and those there after. *)
Definition before (l : list (gread K V)) : list (K * V) :=
  flat_map (fun r => match r_saw r with Some v => [(r_key r, v)] | None => [] end) l.
Definition after (l : list (gread K V)) : list (K * V) :=
  flat_map (fun r => match r_saw r with Some v => [(r_key r, r_write r v)] | None => [] end) l.

(** The same threads, a write counted as taking the old pair out. *)
Definition ghost (p : K * V) : areturn := mkAR 0 (AskTake (fst p)) (SawOne (Some p)) 0 0 [].
Definition view (x : gsys C) : asys C :=
  let s := g_sys x in mkA (a_sets s) (a_threads s) (a_past s) (a_asked s) (map ghost (before (g_reads x)) ++ a_returns s).
Lemma view_handed x : handed_back (view x) = before (g_reads x) ++ handed_back (g_sys x).
Proof.
  unfold handed_back, view. cbn [a_returns]. rewrite flat_map_app. f_equal.
  generalize (before (g_reads x)). intros l. induction l as [|[k v] l IH]; auto. cbn. cbn in IH. rewrite IH. auto.
Qed.
Lemma view_step s s' l : astep hash s s' -> astep hash (view (mkG s l)) (view (mkG s' l)).
Proof.
  intros H. destruct H as [s t q E|s t q t0 i q' f done c c' r E Ec Ea|s t q t0 i q' f done E|
    s t q t0 i q' f done c E Ec Ea|s t q t0 i q' f done E Ec|s t q t0 done E|s t q t0 r done E].
  - exact (@A_call K V hash C (view (mkG s l)) t q E).
  - exact (@A_on K V hash C (view (mkG s l)) t q t0 i q' f done c c' r E Ec Ea).
  - exact (@A_contended K V hash C (view (mkG s l)) t q t0 i q' f done E).
  - exact (@A_set_panics K V hash C (view (mkG s l)) t q t0 i q' f done c E Ec Ea).
  - exact (@A_no_set K V hash C (view (mkG s l)) t q t0 i q' f done E Ec).
  - exact (@A_crash K V hash C (view (mkG s l)) t q t0 done E).
  - unfold view at 2. cbn [g_sys g_reads a_sets a_threads a_past a_asked a_returns]. rewrite app_assoc.
    exact (@A_return K V hash C (view (mkG s l)) t q t0 r done E).
Qed.
Notation good := (good hash C Inv ct).
Notation holds := (holds C ct).
Notation accounts := (accounts hash (C := C) Inv ct okp).
Notation moments := (moments hash (C := C) Inv ct).
Notation fine := (fine okp).

Lemma good_get n s m k f i c c' o : good n s -> nth_error s i = Some c -> okf m f -> g m c k f = Ok (c', o) ->
  good n (replace_nth i c' s) /\ map (capacity C) (replace_nth i c' s) = map (capacity C) s /\
  exists rest, match o with
    | Some v => Permutation (holds s) ((k, v) :: rest) /\ Permutation (holds (replace_nth i c' s)) ((k, f v) :: rest)
    | None => ~ In k (keys (ct c)) /\ Permutation (holds s) rest /\ Permutation (holds (replace_nth i c' s)) rest
    end.
Proof.
  intros (Hl & HI & Hr) E Hf Ha.
  assert (Hi : Inv c) by (rewrite Forall_forall in HI; apply HI; eapply nth_error_In; eauto).
  destruct (@HG m c k f Hi Hf) as (c1 & o1 & A1 & A2 & A3 & A4 & A5). rewrite Ha in A1. injection A1 as <- <-.
  assert (Hk : forall x, In x (keys (ct c')) -> In x (keys (ct c))).
  { intros x. destruct o as [v|].
    - destruct A5 as (rest & P1 & P2). rewrite (keys_perm P1), (keys_perm P2). auto.
    - destruct A5 as [_ P]. rewrite (keys_perm P). auto. }
  split; [split; [|split]|split].
  - rewrite replace_nth_length. auto.
  - apply replace_nth_Forall; auto.
  - intros j d x Ed Hx. rewrite replace_nth_length. destruct (Nat.eq_dec i j) as [<-|N].
    + rewrite replace_nth_same in Ed by (apply nth_error_Some; congruence). injection Ed as <-. eapply Hr; eauto.
    + rewrite replace_nth_other in Ed by auto. eapply Hr; eauto.
  - apply nth_error_split in E as (s1 & s2 & -> & <-). rewrite replace_nth_mid, !map_app. cbn [map]. rewrite A3. auto.
  - apply nth_error_split in E as (s1 & s2 & -> & <-). rewrite replace_nth_mid. unfold PAssocConc.holds. rewrite !flat_map_app. cbn [flat_map].
    destruct o as [v|].
    + destruct A5 as (rest & P1 & P2). exists (flat_map ct s1 ++ rest ++ flat_map ct s2). split; [perm1 P1|perm1 P2].
    + destruct A5 as [N P]. exists (flat_map ct s1 ++ ct c ++ flat_map ct s2). split; [auto|]. split; [auto|perm1 P].
Qed.

Definition gaccounts (n : nat) (start : list (K * V)) (x : gsys C) : Prop :=
  accounts n (start ++ after (g_reads x)) (view x).
Lemma gstep_accounts n start x x' : 1 <= n -> gaccounts n start x -> gstep hash g okf x x' -> Forall fine (a_asked (g_sys x')) ->
  gaccounts n start x'.
Proof.
  intros Hn Ha H Hf. destruct H as [s s' l H|s l t m k f i c c' o E Hw Ep Ec Hg|s l t k E|s l t m k f E Hw Hp].
  - unfold gaccounts in *. cbn [g_reads] in *. eapply step_accounts; eauto. apply view_step; auto.
  - unfold gaccounts, PAssocConc.accounts in *. destruct Ha as (Gd & carries & HF & P). rewrite view_handed in *.
    unfold view in *. cbn [g_sys g_reads a_sets a_threads] in *.
    destruct (good_get _ Gd Ec Hw Hg) as (G1 & _ & rest & G2). split; [exact G1|]. exists carries. split; [exact HF|].
    unfold pushed, handed_back in *. cbn [a_asked a_returns] in *.
    unfold after, before in *. rewrite !flat_map_app. cbn [flat_map r_saw r_key r_write]. destruct o as [v|].
    + destruct G2 as [G2 G3]. perm3 P G2 G3.
    + destruct G2 as (_ & G2 & G3). perm3 P G2 G3.
  - destruct Ha as (Gd & carries & HF & P). split; [exact Gd|].
    destruct (nth_split_F2 _ HF E) as (l1 & y & l2 & Hy & -> & HR). exists (l1 ++ y :: l2). split; [|exact P].
    apply HR. cbn. discriminate.
  - exfalso. destruct Ha as (Gd & _). cbn [view g_sys a_sets] in Gd. destruct Gd as (Hl & HI & _). cbn [a_sets] in *.
    rewrite pick_ok in Hp by (rewrite Hl; auto). cbn [bind] in Hp.
    destruct (nth_error (a_sets s) (set_of hash (length (a_sets s)) k)) as [c|] eqn:Ec.
    + cbn [unwrap bind] in Hp. assert (Hi : Inv c) by (rewrite Forall_forall in HI; apply HI; eapply nth_error_In; eauto).
      destruct (@HG m c k f Hi Hw) as (c1 & o1 & A1 & _). congruence.
    + apply nth_error_None in Ec. assert (1 <= length (a_sets s)) as L by lia. pose proof (set_of_lt hash k L). lia.
Qed.

(** What is true of the gets noted. *)
Definition read_fact (hist : list (list (St C))) (r : gread K V) : Prop :=
  exists st st', nth_error hist (r_time r) = Some st /\ nth_error hist (S (r_time r)) = Some st' /\
    exists rest, match r_saw r with
    | Some v => Permutation (holds st) ((r_key r, v) :: rest) /\ Permutation (holds st') ((r_key r, r_write r v) :: rest)
    | None => ~ In (r_key r) (keys (holds st)) /\ Permutation (holds st) rest /\ Permutation (holds st') rest
    end.
Lemma read_fact_more hist more r : read_fact hist r -> read_fact (hist ++ more) r.
Proof.
  intros (st & st' & H1 & H2 & H3). exists st, st'. rewrite !nth_error_app1 by (apply nth_error_Some; congruence). auto.
Qed.
Definition gmoments (n : nat) (caps : list nat) (x : gsys C) : Prop :=
  moments n caps (g_sys x) /\ Forall (read_fact (history (g_sys x))) (g_reads x).
Lemma step_history (s s' : asys C) : astep hash s s' -> exists more, history s' = history s ++ more.
Proof.
  intros H. destruct H; unfold history; cbn [a_past a_sets]; try (exists []; rewrite app_nil_r; reflexivity).
  eexists. reflexivity.
Qed.
Lemma gstep_moments n caps start x x' : 1 <= n -> gaccounts n start x -> gmoments n caps x -> gstep hash g okf x x' -> gmoments n caps x'.
Proof.
  intros Hn Ha [M R] H.
  assert (Rd : ready hash Inv ct okp n (g_sys x)).
  { apply accounts_ready in Ha. exact Ha. }
  destruct H as [s s' l H|s l t m k f i c c' o E Hw Ep Ec Hg|s l t k E|s l t m k f E Hw Hp]; cbn [g_sys g_reads] in *.
  - split; cbn [g_sys g_reads]; [eapply step_moments; eauto|]. destruct (step_history H) as [more ->].
    eapply Forall_impl; [|exact R]. intros r. apply read_fact_more.
  - destruct Rd as [Gd _]. destruct (good_get _ Gd Ec Hw Hg) as (G1 & G2 & rest & G3).
    destruct M as (M1 & M2 & M3). split; cbn [g_sys g_reads].
    + assert (Hc : map (capacity C) (a_sets s) = caps).
      { unfold history in M1. apply Forall_app in M1 as [_ M1]. inversion M1 as [|? ? [_ X] _]; auto. }
      unfold PAssocConc.moments, history, now in *. cbn [a_past a_sets a_threads a_returns].
      rewrite app_length. cbn [length]. split; [|split].
      * apply Forall_app. split; [exact M1|]. constructor; [|constructor]. split; [exact G1|congruence].
      * eapply Forall_impl; [|exact M2]. intros [|q1 t1 p1 d1|q1]; cbn [thread_mom]; auto.
        intros (A1 & A2 & A3). split; [lia|]. split; [auto|]. eapply Forall_impl; [|exact A3]. intros y Hy. eapply happened_more; eauto. lia.
      * eapply Forall_impl; [|exact M3]. intros y (A1 & A2 & A3). split; [lia|]. split; [auto|].
        eapply Forall_impl; [|exact A3]. intros y0 Hy0. eapply happened_more; eauto.
    + unfold history. cbn [a_past a_sets]. apply Forall_app. split.
      * eapply Forall_impl; [|exact R]. intros r. apply read_fact_more.
      * constructor; [|constructor]. exists (a_sets s), (replace_nth i c' (a_sets s)). cbn [r_time r_saw r_key r_write]. unfold now.
        split; [|split].
        -- rewrite <- app_assoc, nth_error_app2, Nat.sub_diag by lia. auto.
        -- rewrite nth_error_app2 by (rewrite app_length; cbn; lia).
           rewrite app_length. cbn [length]. replace (S (length (a_past s)) - (length (a_past s) + 1)) with 0 by lia. auto.
        -- exists rest. destruct o as [v|]; [exact G3|]. destruct G3 as (N & G3). split; [|exact G3].
           intros Hk. apply N. destruct Gd as (Hl & HI & Hr). unfold PAssocConc.holds, keys in Hk. apply in_map_iff in Hk as ([k1 v1] & E1 & Hk).
           cbn in E1. subst k1. apply in_flat_map in Hk as (d & Hd & Hk). apply In_nth_error in Hd as [j Hj].
           assert (Hkd : In k (keys (ct d))) by (apply in_map_iff; exists (k, v1); auto).
           rewrite pick_ok in Ep by (rewrite Hl; auto). injection Ep as <-. pose proof (Hr _ _ _ Hj Hkd) as X.
           unfold set_of in Ec. rewrite X in Ec. congruence.
  - destruct M as (M1 & M2 & M3). split; [|exact R]. split; [exact M1|]. split; [|exact M3].
    cbn [g_sys a_threads]. apply replace_nth_Forall; [exact M2|exact I].
  - destruct M as (M1 & M2 & M3). split; [|exact R]. split; [exact M1|]. split; [|exact M3].
    cbn [g_sys a_threads]. apply replace_nth_Forall; [exact M2|exact I].
Qed.

(** The situation of C58, with gets. *)
Definition shared_get (sets : list (St C)) (x : gsys C) : Prop :=
  1 <= length sets /\ Forall Inv sets /\ in_right_set hash C ct sets /\ (exists threads, gsteps hash g okf (gstart C sets threads) x) /\
  Forall fine (a_asked (g_sys x)).
Lemma gfine_before x x' : gstep hash g okf x x' -> Forall fine (a_asked (g_sys x')) -> Forall fine (a_asked (g_sys x)).
Proof. intros H Hf. destruct H; cbn [g_sys a_asked] in *; auto. eapply fine_before; eauto. Qed.
Lemma greach sets x : shared_get sets x ->
  gaccounts (length sets) (holds sets) x /\ gmoments (length sets) (map (capacity C) sets) x.
Proof.
  intros (Hn & HI & Hr & [threads H] & Hf). remember (gstart C sets threads) as x0 eqn:E0.
  induction H as [x|x x1 x2 H IH H2].
  - subst x. split.
    + unfold gaccounts. cbn [gstart g_reads after flat_map]. rewrite app_nil_r. apply start_accounts; auto.
    + split; [apply start_moments; auto|constructor].
  - pose proof (gfine_before H2 Hf) as Hf1. destruct (IH E0 Hf1) as [A M]. split.
    + eapply gstep_accounts; eauto.
    + eapply gstep_moments; eauto.
Qed.

(** C58.  With get and get_mut: when no method is running, every pair that was there, was pushed or was written through
    a guard is held, was handed back or was overwritten, once. *)
Theorem C58_nothing_lost_with_gets : forall sets x, shared_get sets x -> Forall (@idle K V) (a_threads (g_sys x)) ->
  Permutation (holds sets ++ pushed (g_sys x) ++ after (g_reads x))
              (holds (a_sets (g_sys x)) ++ handed_back (g_sys x) ++ before (g_reads x)).
Proof.
  intros sets x Hs Hi. destruct (greach Hs) as [(_ & carries & HF & P) _]. rewrite view_handed in P. unfold view in *. cbn [a_sets a_threads] in *.
  assert (concat carries = []) as E.
  { clear - HF Hi. induction HF as [|t y l1 l2 H1 H2 IH]; auto. apply Forall_cons_iff in Hi as [Hi1 Hi2]. unfold idle in Hi1.
    subst t. cbn in H1. subst y. cbn. auto. }
  rewrite E, app_nil_r in P. unfold pushed in *. cbn [a_asked] in P. perm1 P.
Qed.
(** Each get took effect at one moment: it showed the value of a pair held then and rewrote that pair and nothing else,
    or no pair with that key was held and nothing changed. *)
Theorem C58_get_at_a_moment : forall sets x, shared_get sets x -> forall r, In r (g_reads x) ->
  exists st st' rest, nth_error (history (g_sys x)) (r_time r) = Some st /\ nth_error (history (g_sys x)) (S (r_time r)) = Some st' /\
    match r_saw r with
    | Some v => Permutation (holds st) ((r_key r, v) :: rest) /\ Permutation (holds st') ((r_key r, r_write r v) :: rest)
    | None => ~ In (r_key r) (keys (holds st)) /\ Permutation (holds st') (holds st)
    end.
Proof.
  intros sets x Hs r Hr. destruct (greach Hs) as [_ [_ R]]. rewrite Forall_forall in R.
  destruct (R r Hr) as (st & st' & H1 & H2 & rest & H3). exists st, st', rest. split; [auto|]. split; [auto|].
  destruct (r_saw r); auto. destruct H3 as (N & P1 & P2). split; auto. rewrite P2. symmetry. auto.
Qed.
(** Nobody panics by itself, but for pop. *)
Theorem C58_no_panic_with_gets : forall sets x, shared_get sets x -> forall t q contended,
  nth_error (a_threads (g_sys x)) t = Some (ADead q contended) -> contended = true \/ exists m, q = AskPop m.
Proof.
  intros sets x Hs t q contended E. destruct (greach Hs) as [(_ & carries & HF & P) _]. cbn [view a_threads] in HF.
  destruct (nth_split_F2 _ HF E) as (_ & y & _ & Hy & _). cbn in Hy. destruct contended; auto. right.
  specialize (Hy eq_refl). destruct q; try discriminate. eauto.
Qed.
(** Every key is always in its set, and contains still answers what is true at a moment. *)
Theorem C58_right_set_with_gets : forall sets x, shared_get sets x -> forall m st, nth_error (history (g_sys x)) m = Some st ->
  length st = length sets /\ in_right_set hash C ct st /\ map (capacity C) st = map (capacity C) sets.
Proof.
  intros sets x Hs m st E. destruct (greach Hs) as [_ [(M & _) _]].
  rewrite Forall_forall in M. destruct (M _ (nth_error_In _ _ E)) as [(A & _ & B) D]. auto.
Qed.
End Conc.

(** ** Sets that are any container *)
Section Instances.
Context {K : Type} {OK : Ord K} {EK : OrdEq K}.
(** C58, for sets that are any containers keeping the laws for any pushed keys, without another Associative inside, and
    whose get is faithful (as in C46): everything above, from the Associative just built. *)
Theorem C58_every_architecture_with_gets : forall {V : Type} (hash : K -> N) (n : nat) (f : nat -> arch K V),
  any_keys (AAssociative hash n f) = true -> (forall i, i <= n -> has_associative (f i) = false) ->
  get_ready (AAssociative hash n f) ->
  forall threads x,
  gsteps hash (fun m => @sum_get K V nat (fun i => block (f i)) (fun i => aget m (f i)))
    (fun m => keeps_size m (AAssociative hash n f)) (gstart (SumB (fun i => block (f i))) (init (AAssociative hash n f)) threads) x ->
  (Forall (@idle K V) (a_threads (g_sys x)) ->
   Permutation (pushed (g_sys x) ++ after (g_reads x))
               (held (AAssociative hash n f) (a_sets (g_sys x)) ++ handed_back (g_sys x) ++ before (g_reads x))) /\
  (forall r, In r (g_reads x) -> exists st st' rest,
     nth_error (history (g_sys x)) (r_time r) = Some st /\ nth_error (history (g_sys x)) (S (r_time r)) = Some st' /\
     match r_saw r with
     | Some v => Permutation (held (AAssociative hash n f) st) ((r_key r, v) :: rest) /\
                 Permutation (held (AAssociative hash n f) st') ((r_key r, r_write r v) :: rest)
     | None => ~ In (r_key r) (keys (held (AAssociative hash n f) st)) /\
               Permutation (held (AAssociative hash n f) st') (held (AAssociative hash n f) st)
     end) /\
  (forall t q contended, nth_error (a_threads (g_sys x)) t = Some (ADead q contended) -> contended = true \/ exists m, q = AskPop m).
Proof.
  intros V hash n f Hd Ha Hr threads x H.
  set (InvS := fun c : St (SumB (fun i => block (f i))) => (if projT1 c <? S n then ainv true (f (projT1 c)) else fun _ => False) (projT2 c)).
  set (ctS := fun c : St (SumB (fun i => block (f i))) => held (f (projT1 c)) (projT2 c)).
  assert (Hk : forall i, i <= n -> any_keys (f i) = true).
  { intros i Hi. unfold any_keys in *. apply andb_true_iff in Hd as [H1 H2]. cbn [needs_new_keys profiled_dyn] in H1, H2. apply andb_true_iff. split.
    - apply (negb_existsb_in (fun i => needs_new_keys (f i)) (seq 0 (S n)) _ H1). apply in_seq0; lia.
    - apply (negb_existsb_in (fun i => profiled_dyn (f i)) (seq 0 (S n)) _ H2). apply in_seq0; lia. }
  assert (L : Laws (SumB (fun i => block (f i))) InvS ctS true true false).
  { apply family_laws. intros i Hi. eapply laws_flags; [apply arch_laws|rewrite Ha by lia; auto|discriminate].
    intros _. apply Hk. lia. }
  pose proof (laws_contract L) as HC.
  assert (HG : forall m c k w, InvS c -> keeps_size m (AAssociative hash n f) w ->
    get_ok (SumB (fun i => block (f i))) InvS ctS (@sum_get K V nat (fun i => block (f i)) (fun i => aget m (f i))) c k w).
  { intros m c k w Hi Hw. unfold InvS in Hi.
    apply (@sum_get_ok K V nat (fun i => block (f i)) (fun i => if i <? S n then ainv true (f i) else fun _ => False) (fun i => held (f i))).
    cbn [projT1 projT2] in *. destruct (projT1 c <? S n) eqn:E; [|contradiction]. apply Nat.ltb_lt in E.
    apply arch_get; auto. intros _. apply Hk. lia. }
  destruct (init_ok true (AAssociative hash n f)) as [(I1 & I2 & I3 & _) I4].
  assert (Hempty : forall i (c : St (SumB (fun i => block (f i)))), nth_error (init (AAssociative hash n f)) i = Some c -> held (f (projT1 c)) (projT2 c) = []).
  { intros i c E. apply nth_error_In in E. cbn [held] in I4.
    destruct (held (f (projT1 c)) (projT2 c)) as [|p l] eqn:El; auto. exfalso.
    assert (In p []) as []. rewrite <- I4. apply in_flat_map. exists c. split; auto.
    refine (eq_ind_r (fun l => In p l) _ El). left. auto. }
  assert (Hs : @shared_get K V hash (SumB (fun i => block (f i))) (fun m => @sum_get K V nat (fun i => block (f i)) (fun i => aget m (f i)))
      (fun m => keeps_size m (AAssociative hash n f)) InvS ctS (fun _ => True) (init (AAssociative hash n f)) x).
  { split; [cbn [init]; rewrite map_length, seq_length; lia|]. split; [exact I2|]. split.
    - intros i c k E Hkk. unfold ctS in Hkk. rewrite (Hempty _ _ E) in Hkk. destruct Hkk.
    - split; [eauto|]. apply Forall_forall. intros q _ vs _. exact I. }
  split; [|split].
  - intros Hi. pose proof (C58_nothing_lost_with_gets HC HG Hs Hi) as P.
    assert (E0 : holds (SumB (fun i => block (f i))) ctS (init (AAssociative hash n f)) = []) by exact I4.
    refine (eq_ind _ (fun l => Permutation (l ++ pushed (g_sys x) ++ after (g_reads x)) _) P _ E0).
  - intros r Hr'. exact (C58_get_at_a_moment HC HG Hs r Hr').
  - intros t q contended. apply (C58_no_panic_with_gets HC HG Hs).
Qed.
End Instances.

(** Executions, to give examples: moves of the threads as in PAssocConc.v, and gets. *)
Section Play.
Context {K V : Type}.
Variable hash : K -> N.
Variable C : Block K V.
Variable g : bool -> Getter C.
Variable okf : bool -> (V -> V) -> Prop.
Hypothesis any : forall m f, okf m f.
Inductive gmove : Type := MMove (e : @move K V) | MGet (t : nat) (m : bool) (k : K) (f : V -> V).
Definition ggo1 (x : gsys C) (e : gmove) : option (gsys C) :=
  match e with
  | MMove e => match go1 hash (g_sys x) e with Some s => Some (mkG s (g_reads x)) | None => None end
  | MGet t m k f =>
      let s := g_sys x in
      match nth_error (a_threads s) t, pick hash (length (a_sets s)) k with
      | Some AIdle, Ok i =>
          match nth_error (a_sets s) i with
          | Some c => match g m c k f with
              | Ok (c', o) => Some (mkG (mkA (replace_nth i c' (a_sets s)) (a_threads s) (a_past s ++ [a_sets s]) (a_asked s) (a_returns s))
                                        (g_reads x ++ [mkR k f o (now s)]))
              | Panic => None
              end
          | None => None
          end
      | _, _ => None
      end
  end.
Fixpoint ggo (x : gsys C) (es : list gmove) : option (gsys C) :=
  match es with [] => Some x | e :: es' => match ggo1 x e with Some x1 => ggo x1 es' | None => None end end.
Lemma ggo1_step x e x' : ggo1 x e = Some x' -> gstep hash g okf x x'.
Proof.
  destruct x as [s l]. destruct e as [e|t m k f]; cbn [ggo1 g_sys g_reads].
  - destruct (go1 hash s e) as [s1|] eqn:E; [|discriminate]. intros H. injection H as <-. apply G_step. eapply go1_step; eauto.
  - destruct (nth_error (a_threads s) t) as [[| |]|] eqn:E; try discriminate.
    destruct (pick hash (length (a_sets s)) k) as [i|] eqn:Ep; [|discriminate].
    destruct (nth_error (a_sets s) i) as [c|] eqn:Ec; [|discriminate].
    destruct (g m c k f) as [[c' o]|] eqn:Eg; [|discriminate]. intros H. injection H as <-. eapply G_get; eauto.
Qed.
Lemma ggo_steps es : forall x0 x x', gsteps hash g okf x0 x -> ggo x es = Some x' -> gsteps hash g okf x0 x'.
Proof.
  induction es as [|e es IH]; intros x0 x x' H G; cbn [ggo] in G; [injection G as <-; auto|].
  destruct (ggo1 x e) as [x1|] eqn:E; [|discriminate]. eapply IH; [|exact G]. eapply gs_more; [exact H|]. eapply ggo1_step; eauto.
Qed.
End Play.

(** The hypotheses are met: two threads, two sets; thread 0 pushes; thread 1 writes through a guard between the two calls
    of the push on the sets, looks for the key that is not there yet, and reads it once it is. *)
Definition small (i : nat) : arch nat nat := AArray (std_sorter snd) linear_bs 2 (fun _ => 1).
Definition small_sets : arch nat nat := AAssociative N.of_nat 1 small.
Definition small_block : Block nat nat := SumB (fun i => block (small i)).
Definition small_get : bool -> Getter small_block := fun m => @sum_get nat nat nat (fun i => block (small i)) (fun i => aget m (small i)).
Definition small_keeps (m : bool) (w : nat -> nat) : Prop := keeps_size m small_sets w.
Definition small_moves : list (@gmove nat nat) :=
  [MMove (MCall 0 (AskPush [(1, 10); (2, 20)])); MMove (MGo 0); MGet 1 true 2 S; MGet 1 false 1 (fun v => v);
   MMove (MGo 0); MMove (MGo 0); MGet 1 false 1 (fun v => v)].
Definition small_end : option (gsys small_block) := ggo N.of_nat small_get (gstart small_block (init small_sets) 2) small_moves.
Definition small_seen (x : gsys small_block) :=
  (map r_saw (g_reads x), before (g_reads x), after (g_reads x), map (@ar_saw nat nat) (a_returns (g_sys x)), held small_sets (a_sets (g_sys x))).
Lemma small_seen_is : option_map small_seen small_end =
  Some ([Some 20; None; Some 10], [(2, 20); (1, 10)], [(2, 21); (1, 10)], [SawPairs []], [(2, 21); (1, 10)]).
Proof. vm_compute. reflexivity. Qed.
Theorem C58_gets_example :
  any_keys small_sets = true /\ get_ready small_sets /\ (forall m w, small_keeps m w) /\
  exists x, gsteps N.of_nat small_get small_keeps (gstart small_block (init small_sets) 2) x /\
    map r_saw (g_reads x) = [Some 20; None; Some 10] /\ before (g_reads x) = [(2, 20); (1, 10)] /\
    after (g_reads x) = [(2, 21); (1, 10)] /\ map (@ar_saw nat nat) (a_returns (g_sys x)) = [SawPairs []] /\
    held small_sets (a_sets (g_sys x)) = [(2, 21); (1, 10)].
Proof.
  assert (A : forall m w, small_keeps m w) by (intros m w; cbn; auto).
  split; [reflexivity|]. split; [cbn; auto|]. split; [exact A|].
  pose proof small_seen_is as E. destruct small_end as [x|] eqn:Ex; [|discriminate].
  exists x. split; [eapply ggo_steps; [exact A|apply gs_refl|exact Ex]|].
  cbn [option_map] in E. injection E as E1 E2 E3 E4 E5. auto.
Qed.
Print Assumptions C58_every_architecture_with_gets.
