(** GetAlike.v -- proof side of ReprGet.v: get and get_mut keep the relation of Alike.v. *)
From Coq Require Import NArith.
From Verif Require Import Base PermSolve Block Spec LawsProof Cut Array ArrayProof BTree BTreeProof
  Batch BatchProof Exclusive ExclusiveProof Wrappers WrappersProof Associative AssociativeProof Sim SimProof Arch ArchProof Get GetProof
  Repr ReprProof Minus Alike PRepr.
Set Implicit Arguments.

Section GetAlike.
Context {K : Type} {OK : Ord K} {EK : OrdEq K} {V : Type} {O : Ord V}.
Definition may_write (k : K) (f : V -> V) (c : list (K * V)) : Prop := forall v rest, Permutation c ((k, v) :: rest) -> apart ((k, f v) :: rest).
Definition wrote (k : K) (f : V -> V) (c c' : list (K * V)) (o : option V) : Prop :=
  match o with
  | Some v => exists rest, Permutation c ((k, v) :: rest) /\ Permutation c' ((k, f v) :: rest)
  | None => Permutation c' c
  end.
Lemma wrote_apart k f c c' o : may_write k f c -> apart c -> wrote k f c c' o -> apart c'.
Proof.
  intros W Ha H. destruct o as [v|]; cbn in H.
  - destruct H as (rest & P1 & P2). eapply apart_perm; [symmetry; exact P2|]. apply W; auto.
  - eapply apart_perm; [symmetry; exact H|auto].
Qed.
Lemma wrote_app k f c c' d o : wrote k f c c' o -> wrote k f (c ++ d) (c' ++ d) o.
Proof.
  destruct o as [v|]; cbn.
  - intros (rest & P1 & P2). exists (rest ++ d). split; [apply (Permutation_app_tail d P1)|apply (Permutation_app_tail d P2)].
  - apply Permutation_app_tail.
Qed.
Lemma wrote_perm k f c c' d d' o : Permutation c d -> Permutation c' d' -> wrote k f c c' o -> wrote k f d d' o.
Proof.
  intros P P'. destruct o as [v|]; cbn.
  - intros (rest & P1 & P2). exists rest. rewrite <- P, <- P'. auto.
  - rewrite P, P'. auto.
Qed.
Lemma wrote_keys k f c c' o : wrote k f c c' o -> incl (keys c') (keys c).
Proof.
  destruct o as [v|]; cbn.
  - intros (rest & P1 & P2) x. rewrite (keys_perm P1), (keys_perm P2). auto.
  - intros P x. rewrite (keys_perm P). auto.
Qed.
Lemma may_perm k f c d : Permutation c d -> may_write k f c -> may_write k f d.
Proof. intros P H v rest Q. apply H. rewrite P. auto. Qed.
Lemma may_l k f c d : may_write k f (c ++ d) -> may_write k f c.
Proof. intros H v rest P. apply (apart_app_l ((k, f v) :: rest) d). apply (H v). apply (Permutation_app_tail d P). Qed.
Lemma may_r k f c d : may_write k f (c ++ d) -> may_write k f d.
Proof. intros H. apply may_l with (d := c). eapply may_perm; [apply Permutation_app_comm|auto]. Qed.

Definition GAlike (A B : Block K V) (cA : St A -> list (K * V)) (R : St A -> St B -> Prop) (gA : bool -> Getter A) (gB : bool -> Getter B)
    (ok : bool -> (V -> V) -> Prop) : Prop :=
  forall s t m k f, R s t -> ok m f -> may_write k f (cA s) ->
  (gA m s k f = Panic /\ gB m t k f = Panic) \/
  exists s' t' o, gA m s k f = Ok (s', o) /\ gB m t k f = Ok (t', o) /\ R s' t' /\ capacity A s' = capacity A s /\ wrote k f (cA s) (cA s') o.

Arguments GAlike : clear implicits.

(** *** Leaves *)
Lemma leaf_get (A B : Block K V) (IA : St A -> Prop) (IB : St B -> Prop) (cA : St A -> list (K * V)) (cB : St B -> list (K * V)) gA gB (ok : bool -> (V -> V) -> Prop) :
  (forall s m k f, IA s -> ok m f -> get_ok A IA cA (gA m) s k f) -> (forall s m k f, IB s -> ok m f -> get_ok B IB cB (gB m) s k f) ->
  GAlike A B cA (leaf_like A B IA IB cA cB) gA gB ok.
Proof.
  intros HA HB s t m k f (I & J & Ha & P & Hc) Hok W. right.
  destruct (HA s m k f I Hok) as (s' & o & E1 & I1 & C1 & _ & H1), (HB t m k f J Hok) as (t' & o' & E2 & J1 & C2 & _ & H2).
  assert (o = o') as <-.
  { destruct o as [v|], o' as [v'|]; auto.
    - destruct H1 as (r & P1 & _), H2 as (r' & P2 & _). f_equal. eapply keys_nodup_fun; [apply Ha| |].
      + rewrite P1. left; auto.
      + rewrite P, P2. left; auto.
    - destruct H1 as (r & P1 & _), H2 as [N _]. exfalso. apply N. rewrite <- (keys_perm P), (keys_perm P1). left; auto.
    - destruct H2 as (r & P1 & _), H1 as [N _]. exfalso. apply N. rewrite (keys_perm P), (keys_perm P1). left; auto. }
  assert (Wr : wrote k f (cA s) (cA s') o) by (destruct o; cbn; tauto).
  exists s', t', o. split; auto. split; auto. split; [|auto].
  split; auto. split; auto. split; [eapply wrote_apart; eauto|]. split; [|congruence].
  destruct o as [v|].
  - destruct H1 as (r & P1 & P2), H2 as (r' & P3 & P4). rewrite P2, P4. constructor.
    apply Permutation_cons_inv with (a := (k, v)). rewrite <- P1, <- P3. auto.
  - destruct H1 as [_ P1], H2 as [_ P2]. rewrite P1, P2. auto.
Qed.

(** *** Restricting by capacity *)
Lemma galike_cap (A B : Block K V) IA IB cA cB MA MB R gA gB ok c c' : Alike A B IA IB cA cB MA MB R -> GAlike A B cA R gA gB ok ->
  GAlike A B cA (fun s t => R s t /\ capacity A s = c /\ capacity B t = c') gA gB ok.
Proof.
  intros X H s t m k f (HR & H1 & H2) Hok W. destruct (H s t m k f HR Hok W) as [G|(s' & t' & o & G1 & G2 & G3 & G4 & G5)]; [left; auto|].
  right. exists s', t', o. pose proof (al_cap X _ _ HR). pose proof (al_cap X _ _ G3). repeat split; auto; congruence.
Qed.

(** *** Exclusive *)
Section Excl.
Variables (bs bs' : BSearch K) (A B A' B' : Block K V).
Variables (IA : St A -> Prop) (IB : St B -> Prop) (cA : St A -> list (K * V)) (cB : St B -> list (K * V)).
Variables (IA' : St A' -> Prop) (IB' : St B' -> Prop) (cA' : St A' -> list (K * V)) (cB' : St B' -> list (K * V)).
Variables (MA : (K -> bool) -> St A -> St A -> Prop) (MB : (K -> bool) -> St B -> St B -> Prop).
Variables (MA' : (K -> bool) -> St A' -> St A' -> Prop) (MB' : (K -> bool) -> St B' -> St B' -> Prop).
Variables (R : St A -> St A' -> Prop) (Q : St B -> St B' -> Prop).
Hypothesis HR : Alike A A' IA IA' cA cA' MA MA' R.
Hypothesis HQ : Alike B B' IB IB' cB cB' MB MB' Q.
Hypothesis UB : Minus B IB cB MB.
Hypothesis UB' : Minus B' IB' cB' MB'.
Variables pA eA pA' eA' pB eB pB' eB' : bool.
Hypothesis LA : Laws A IA cA false pA eA.
Hypothesis LA' : Laws A' IA' cA' false pA' eA'.
Hypothesis LB : Laws B IB cB false pB eB.
Hypothesis LB' : Laws B' IB' cB' false pB' eB'.
Variables (gA : bool -> Getter A) (gA' : bool -> Getter A') (ok : bool -> (V -> V) -> Prop).
Hypothesis HG : GAlike A A' cA R gA gA' ok.
Notation ext := (ex_like A B A' B' cA cB R Q).
Lemma downgrade_alike s t k : ext s t ->
  (ex_downgrade s k = Panic /\ ex_downgrade t k = Panic) \/
  exists s' t' b, ex_downgrade s k = Ok (s', b) /\ ex_downgrade t k = Ok (t', b) /\ ext s' t' /\
    Permutation (cA (fst s') ++ cB (snd s')) (cA (fst s) ++ cB (snd s)) /\
    capacity A (fst s') = capacity A (fst s) /\ capacity B (snd s') = capacity B (snd s).
Proof.
  intros (H1 & H2 & Ha). unfold ex_downgrade.
  destruct (al_inv HQ _ _ H2) as [I2 J2]. destruct (al_ct HQ _ _ H2) as [A2 P2].
  destruct (law_take LB (snd s) k I2) as (b & o & E1 & I1 & Cb & _ & T1).
  destruct (law_take LB' (snd t) k J2) as (b' & o' & E2 & J1 & Cb' & _ & T2). rewrite E1, E2. cbn [bind].
  assert (o = o') as <-.
  { eapply one_of with (k := k) (c := cB (snd s)); [apply A2|exact T1|].
    destruct o' as [[k' v]|].
    - destruct T2 as [-> T2]. split; auto. rewrite T2. symmetry; auto.
    - destruct T2 as [N T2]. split; [rewrite (keys_perm P2); auto|]. rewrite T2. symmetry; auto. }
  assert (Hb : Q b b') by (eapply (al_rm HQ); eauto; [apply (mi_take UB I2 E1)|apply (mi_take UB' J2 E2)]).
  destruct o as [[k' v]|].
  2:{ right. destruct T1 as [_ T1]. eexists _, _, false. split; [reflexivity|]. split; [reflexivity|]. cbn [fst snd].
      assert (P : Permutation (cA (fst s) ++ cB b) (cA (fst s) ++ cB (snd s))) by (apply Permutation_app_head; auto).
      split; [split; [auto|split; [auto|eapply apart_perm; [symmetry; exact P|auto]]]|]. auto. }
  destruct T1 as [-> T1].
  assert (Pa : Permutation ((cA (fst s) ++ [(k, v)]) ++ cB b) (cA (fst s) ++ cB (snd s))) by (rewrite <- app_assoc; apply Permutation_app_head; exact T1).
  assert (Ap : apart ((cA (fst s) ++ [(k, v)]) ++ cB b)) by (eapply apart_perm; [symmetry; exact Pa|auto]).
  destruct (al_push HR _ _ H1 (Permutation_refl [(k, v)]) (apart_app_l _ _ Ap)) as (f & f' & q & q' & G1 & G2 & G3 & G4 & G5 & G6).
  rewrite G1, G2. cbn [bind].
  assert (Pq : Permutation (cA f ++ (cB b ++ q)) (cA (fst s) ++ cB (snd s))).
  { rewrite <- Pa, <- G5. rewrite (Permutation_app_comm (cB b)), app_assoc. apply Permutation_app_tail. apply Permutation_app_comm. }
  assert (Aq : apart (cA f ++ (cB b ++ q))) by (eapply apart_perm; [symmetry; exact Pq|auto]).
  destruct (perm_nil_iff G4) as [[-> ->]|(x & r & y & r' & Ex & Ey)].
  - right. eexists _, _, true. split; [reflexivity|]. split; [reflexivity|]. cbn [fst snd]. rewrite app_nil_r in *.
    split; [split; [auto|split; auto]|]. auto.
  - rewrite Ex, Ey. rewrite <- Ex, <- Ey.
    destruct (al_push HQ _ _ Hb G4 (apart_app_r _ _ Aq)) as (c & c' & z & z' & D1 & D2 & D3 & D4 & D5 & D6).
    rewrite D1, D2. cbn [bind]. destruct (perm_nil_iff D4) as [[-> ->]|(x1 & r1 & y1 & r1' & Ex1 & Ey1)].
    + right. eexists _, _, true. split; [reflexivity|]. split; [reflexivity|]. cbn [fst snd]. cbn [app] in D5.
      assert (P : Permutation (cA f ++ cB c) (cA (fst s) ++ cB (snd s))) by (rewrite <- Pq; apply Permutation_app_head; auto).
      split; [split; [auto|split; [auto|eapply apart_perm; [symmetry; exact P|auto]]]|]. split; auto. split; auto. congruence.
    + left. rewrite Ex1, Ey1. auto.
Qed.
Lemma excl_get : GAlike (ExclusiveB bs A B) (ExclusiveB bs' A' B') (@ex_ct K V A B cA cB) ext
  (fun m => @ex_get K V A B (gA m)) (fun m => @ex_get K V A' B' (gA' m)) ok.
Proof.
  assert (Fr : forall s t m k f, ext s t -> ok m f -> may_write k f (cA (fst s) ++ cB (snd s)) ->
    (gA m (fst s) k f = Panic /\ gA' m (fst t) k f = Panic) \/
    exists s' t' o, gA m (fst s) k f = Ok (s', o) /\ gA' m (fst t) k f = Ok (t', o) /\ ext (s', snd s) (t', snd t) /\
      capacity A s' = capacity A (fst s) /\ wrote k f (cA (fst s) ++ cB (snd s)) (cA s' ++ cB (snd s)) o).
  { intros s t m k f (H1 & H2 & Ha) Hok W. destruct (HG H1 Hok (may_l _ W)) as [G|(s' & t' & o & G1 & G2 & G3 & G4 & G5)]; [left; auto|].
    right. exists s', t', o. pose proof (wrote_app k f _ _ (cB (snd s)) o G5) as Wr. split; auto. split; auto. split; [|auto].
    split; [auto|]. split; [auto|]. eapply wrote_apart; eauto. }
  intros s t m k f HE Hok W. unfold ex_ct in *. unfold ex_get. destruct HE as (H1 & H2 & Ha).
  destruct (al_inv HR _ _ H1) as [I1 J1]. destruct (al_ct HR _ _ H1) as [A1 P1].
  rewrite (law_contains LA _ k I1), (law_contains LA' _ k J1). cbn [bind]. rewrite <- (has_key_perm k P1).
  destruct (has_key k (cA (fst s))).
  - destruct (Fr s t m k f (conj H1 (conj H2 Ha)) Hok W) as [[G1 G2]|(s' & t' & o & G1 & G2 & G3 & G4 & G5)].
    + left. rewrite G1, G2. auto.
    + right. rewrite G1, G2. cbn [bind]. eexists _, _, o. split; [reflexivity|]. split; [reflexivity|]. split; [exact G3|].
      split; [|exact G5]. cbn. unfold ex_capacity. cbn [fst snd]. lia.
  - destruct (@downgrade_alike s t k (conj H1 (conj H2 Ha))) as [[E1 E2]|(s1 & t1 & b & E1 & E2 & E3 & E4 & E5 & E6)]; rewrite E1, E2; cbn [bind]; [left; auto|].
    destruct b.
    + assert (W1 : may_write k f (cA (fst s1) ++ cB (snd s1))) by (eapply may_perm; [symmetry; exact E4|auto]).
      destruct (Fr s1 t1 m k f E3 Hok W1) as [[G1 G2]|(s' & t' & o & G1 & G2 & G3 & G4 & G5)].
      * left. rewrite G1, G2. auto.
      * right. rewrite G1, G2. cbn [bind]. eexists _, _, o. split; [reflexivity|]. split; [reflexivity|]. split; [exact G3|].
        split; [|eapply wrote_perm; [exact E4|apply Permutation_refl|exact G5]]. cbn. unfold ex_capacity. cbn [fst snd]. lia.
    + right. eexists _, _, None. split; [reflexivity|]. split; [reflexivity|]. split; [exact E3|]. split; [|exact E4].
      cbn. unfold ex_capacity. cbn [fst snd]. lia.
Qed.
End Excl.

(** *** Batch and Associative *)
Section Lists.
Variables (A B : Block K V) (IA : St A -> Prop) (IB : St B -> Prop) (cA : St A -> list (K * V)) (cB : St B -> list (K * V)).
Variables (MA : (K -> bool) -> St A -> St A -> Prop) (MB : (K -> bool) -> St B -> St B -> Prop) (R : St A -> St B -> Prop).
Hypothesis H : Alike A B IA IB cA cB MA MB R.
Variables (gA : bool -> Getter A) (gB : bool -> Getter B) (ok : bool -> (V -> V) -> Prop).
Hypothesis HG : GAlike A B cA R gA gB ok.
Notation RL := (Forall2 R).
Notation fA := (flat_map cA).
Lemma rl_get m k f : ok m f -> forall s t, RL s t -> may_write k f (fA s) ->
  (bt_get (gA m) s k f = Panic /\ bt_get (gB m) t k f = Panic) \/
  exists s' t' o, bt_get (gA m) s k f = Ok (s', o) /\ bt_get (gB m) t k f = Ok (t', o) /\ RL s' t' /\ caps A s' = caps A s /\ wrote k f (fA s) (fA s') o.
Proof.
  intros Hok. induction 1 as [|x y s t Hx F IH]; intros W; cbn [bt_get].
  - right. exists [], [], None. split; [auto|]. split; [auto|]. split; [constructor|]. split; [auto|]. cbn. auto.
  - cbn [flat_map] in W. destruct (HG Hx Hok (may_l _ W)) as [[G1 G2]|(x' & y' & o & G1 & G2 & G3 & G4 & G5)]; rewrite G1, G2; cbn [bind]; [left; auto|].
    destruct o as [v|].
    + right. exists (x' :: s), (y' :: t), (Some v). split; [auto|]. split; [auto|]. split; [constructor; auto|]. split; [rewrite !caps_cons; lia|]. cbn [flat_map]. apply (wrote_app k f _ _ _ (Some v) G5).
    + destruct (IH (may_r _ W)) as [[D1 D2]|(s' & t' & o & D1 & D2 & D3 & D4 & D5)]; rewrite D1, D2; cbn [bind]; [left; auto|].
      right. exists (x' :: s'), (y' :: t'), o. split; [auto|]. split; [auto|]. split; [constructor; auto|]. split; [rewrite !caps_cons; lia|]. cbn [flat_map]. cbn in G5.
      eapply wrote_perm; [apply Permutation_app_comm| |apply (wrote_app k f _ _ (cA x) o D5)]. rewrite Permutation_app_comm. apply Permutation_app_tail. symmetry; auto.
Qed.
Lemma batch_get : GAlike (BatchB A) (BatchB B) fA (bt_like A B cA R) (fun m => bt_get (gA m)) (fun m => bt_get (gB m)) ok.
Proof.
  intros s t m k f [F Ha] Hok W. destruct (rl_get Hok F W) as [G|(s' & t' & o & G1 & G2 & G3 & G4 & G5)]; [left; auto|].
  right. exists s', t', o. split; auto. split; auto. split; [split; auto; eapply wrote_apart; eauto|]. auto.
Qed.
Variable hash : K -> N.
Lemma assoc_get : GAlike (AssociativeB hash A) (AssociativeB hash B) fA (as_like A B IA IB cA cB R hash)
  (fun m => as_get hash (gA m)) (fun m => as_get hash (gB m)) ok.
Proof.
  intros s t m k f (F & Ha & Hi & Hj) Hok W. unfold as_get, as_set. rewrite <- (rl_len A B F).
  destruct (length s) as [|n] eqn:El; [left; auto|]. cbn [bind]. rewrite <- El.
  set (i := N.to_nat _). destruct (rl_nth A B i F) as [[E1 E2]|(x & y & E1 & E2 & Hx)]; rewrite E1, E2; cbn [unwrap bind]; [left; auto|].
  destruct (nth_error_split _ _ E1) as (a & b & Es & Ea). 
  assert (Wx : may_write k f (cA x)).
  { subst s. rewrite flat_map_app in W. cbn [flat_map] in W. apply (may_l _ (may_r _ W)). }
  destruct (HG Hx Hok Wx) as [[G1 G2]|(x' & y' & o & G1 & G2 & G3 & G4 & G5)]; rewrite G1, G2; cbn [bind]; [left; auto|].
  right. eexists _, _, o. split; [reflexivity|]. split; [reflexivity|].
  pose proof (rl_replace A B i x' y' F G3) as F'.
  assert (Wr : wrote k f (fA s) (fA (replace_nth i x' s)) o).
  { subst s. rewrite <- Ea, replace_mid, !flat_map_app. cbn [flat_map].
    eapply wrote_perm; [| |apply (wrote_app k f _ _ (fA a ++ fA b) o G5)].
    - apply Permutation_app_swap_app.
    - apply Permutation_app_swap_app. }
  assert (Ha' : apart (fA (replace_nth i x' s))) by (eapply wrote_apart; [exact W|exact Ha|exact Wr]).
  assert (Hl : length (replace_nth i x' s) = length s) by (subst s; rewrite <- Ea, replace_mid, !app_length; auto).
  assert (Hin : Forall2 (@incl K) (ckeys cA (replace_nth i x' s)) (ckeys cA s)).
  { subst s. rewrite <- Ea, replace_mid. unfold ckeys. rewrite !map_app. cbn.
    apply Forall2_app; [apply Forall2_incl_refl|constructor; [|apply Forall2_incl_refl]]. apply (wrote_keys k f _ _ o G5). }
  destruct (rl_inv H F') as [V1 V2].
  assert (S1 : as_inv hash IA cA false (replace_nth i x' s)).
  { destruct Hi as (N1 & N2 & N3 & N4). split; [rewrite Hl; auto|]. split; auto. split; [|intros _; apply Ha'].
    rewrite Hl. eapply placed_incl; eauto. }
  split; [split; [exact F'|]; split; [exact Ha'|]; split; [exact S1|]|].
  - destruct S1 as (N1 & N2 & N3 & N4). rewrite (rl_len A B F') in N1, N3. split; auto. split; auto. split.
    + eapply placed_incl; [|exact N3]. clear - F' H. revert F'. generalize (replace_nth i x' s), (replace_nth i y' t). intros u w F'. unfold ckeys.
      induction F' as [|x0 y0 u w HR F0 IH]; cbn; constructor; auto.
      intros z Hz. destruct (al_ct H _ _ HR) as [_ P]. rewrite (keys_perm P). auto.
    + intros _. eapply nodup_keys_perm; [apply (rl_ct H F')|]. apply Ha'.
  - split; [|exact Wr]. cbn. fold (caps A s). change (caps A (replace_nth i x' s) = caps A s).
    subst s. rewrite <- Ea, replace_mid, !caps_app, !caps_cons. lia.
Qed.
End Lists.
End GetAlike.
Arguments GAlike {K V O} A B cA R gA gB ok.
Arguments galike_cap {K V O A B IA IB cA cB MA MB R gA gB ok} c c' _ _.
Arguments excl_get {K OK EK V O} bs bs' {A B A' B' IA IB cA cB IA' IB' cA' cB' MA MB MA' MB' R Q} _ _ _ _ {pA eA pA' eA' pB eB pB' eB'} _ _ _ _ {gA gA' ok} _.
Arguments assoc_get {K V O A B IA IB cA cB MA MB R} _ {gA gB ok} _ hash.
