(** PLrfuF32.v -- property theorems: Lrfu on the floating-point numbers of the code (C59). *)
From Coq Require Import ZArith NArith Sorted Lia.
From Coq Require Import Floats.SpecFloat.
From Verif Require Import Base Block LrfuF32.
Set Implicit Arguments.
Local Open Scope Z_scope.

(** ** Specification *)
(** A number of the scores: not NaN and not negative (infinity included). *)
Definition number (x : f32) : Prop := match x with S754_nan => False | S754_zero s | S754_infinity s | S754_finite s _ _ => s = false end.
(** The readings of a clock never decrease. *)
Fixpoint rising (t : N) (ts : list N) : Prop := match ts with [] => True | u :: ts' => (t <= u)%N /\ rising u ts' end.

(** ** Rounding does not change the sign *)
Lemma shr_1_nonneg r : 0 <= shr_m r -> 0 <= shr_m (shr_1 r).
Proof. destruct r as [[|[p|p|]|p] r s]; cbn; lia. Qed.
Lemma iter_shr_nonneg p : forall r, 0 <= shr_m r -> 0 <= shr_m (iter_pos shr_1 p r).
Proof. induction p as [p IH|p IH|]; intros r H; cbn [iter_pos]; auto using shr_1_nonneg. Qed.
Lemma shr_nonneg r e n : 0 <= shr_m r -> 0 <= shr_m (fst (shr r e n)).
Proof. destruct n; cbn; auto using iter_shr_nonneg. Qed.
Lemma shr_fexp_nonneg m e l : 0 <= m -> 0 <= shr_m (fst (shr_fexp 24 128 m e l)).
Proof. intros H. unfold shr_fexp. apply shr_nonneg. destruct l as [|[| |]]; auto. Qed.
Lemma rne_nonneg m l : 0 <= m -> 0 <= round_nearest_even m l.
Proof. destruct l as [|[| |]]; cbn [round_nearest_even]; try lia. destruct (Z.even m); lia. Qed.
Lemma round_aux_number m e l : 0 <= m -> number (binary_round_aux 24 128 false m e l).
Proof.
  intros H. unfold binary_round_aux. pose proof (shr_fexp_nonneg e l H) as H1.
  destruct (shr_fexp 24 128 m e l) as [r1 e1]. cbn [fst] in H1.
  pose proof (rne_nonneg (loc_of_shr_record r1) H1) as H2. pose proof (shr_fexp_nonneg e1 loc_Exact H2) as H3.
  destruct (shr_fexp 24 128 _ e1 loc_Exact) as [r2 e2]. cbn [fst] in H3.
  destruct (shr_m r2) as [|p|p]; [cbn; auto| |lia]. destruct (e2 <=? 128 - 24); cbn; auto.
Qed.
Lemma normalize_number m e : 0 <= m -> number (binary_normalize 24 128 m e false).
Proof.
  intros H. destruct m as [|p|p]; cbn [binary_normalize]; [cbn; auto| |lia]. unfold binary_round.
  destruct (shl_align _ _ _) as [mz ez]. apply round_aux_number. lia.
Qed.
Lemma f_of_number n : number (f_of n).
Proof. apply normalize_number. lia. Qed.
Lemma add_number x y : number x -> number y -> number (f_add x y).
Proof.
  destruct x as [s|s| |s m e], y as [s'|s'| |s' m' e']; cbn [number f_add SFadd]; intros; subst; cbn; auto.
  refine (@normalize_number (Zpos _) (Z.min e e') _). lia.
Qed.
(** Division by a positive number that is not infinite. *)
Lemma div_number x s m e : number x -> s = false -> number (f_div x (S754_finite s m e)).
Proof.
  intros Hx ->. destruct x as [s|s| |s m' e']; cbn [number f_div SFdiv] in *; subst; cbn [xorb]; auto; try contradiction.
  unfold SFdiv_core_binary. set (m1 := match _ with Z0 => _ | _ => _ end).
  assert (0 <= m1) as H1 by (unfold m1; destruct (e' - e - _); try lia; apply Z.shiftl_nonneg; lia).
  pose proof (Z_div_mod m1 (Zpos m) eq_refl) as D. destruct (Z.div_eucl m1 (Zpos m)) as [q r].
  apply round_aux_number. destruct D as [D1 D2]. nia.
Qed.

(** ** Rounding of integers *)

Lemma iter_pos_iter {A} (f : A -> A) p : forall x, iter_pos f p x = Nat.iter (Pos.to_nat p) f x.
Proof.
  assert (H : forall x, iter_pos f p x = Pos.iter f x p).
  { induction p as [p IH|p IH|]; intros x; cbn [iter_pos Pos.iter]; auto.
    - rewrite !IH. rewrite !(Pos.iter_swap p _ f). auto.
    - rewrite !IH. auto. }
  intros x. rewrite H. apply Pos2Nat.inj_iter.
Qed.
(** What the bits shifted out say. *)
Definition low (r : shr_record) (h x : Z) : Prop := (* [h]: half a unit; [x]: what was shifted out *)
  x = (if shr_r r then h else 0) + (x - if shr_r r then h else 0) /\ 0 <= x - (if shr_r r then h else 0) < h /\
  (shr_s r = false <-> x = if shr_r r then h else 0).
Lemma shr_1_low m k : 0 <= m -> forall r, shr_m r = m / 2 ^ Z.of_nat k -> (k <> O -> low r (2 ^ (Z.of_nat k - 1)) (m mod 2 ^ Z.of_nat k)) ->
  (k = O -> shr_r r = false /\ shr_s r = false) ->
  shr_m (shr_1 r) = m / 2 ^ Z.of_nat (S k) /\ low (shr_1 r) (2 ^ Z.of_nat k) (m mod 2 ^ Z.of_nat (S k)).
Proof.
  intros Hm r Hr Hl H0. set (P := 2 ^ Z.of_nat k) in *.
  assert (HP : 0 < P) by (apply Z.pow_pos_nonneg; lia).
  assert (E2 : 2 ^ Z.of_nat (S k) = P * 2) by (rewrite Nat2Z.inj_succ, Z.pow_succ_r by lia; unfold P; lia).
  assert (HQ : m = P * (m / P) + m mod P) by (apply Z.div_mod; lia).
  assert (HR : 0 <= m mod P < P) by (apply Z.mod_pos_bound; lia).
  assert (Hq : 0 <= m / P) by (apply Z.div_pos; lia).
  assert (D : m / (P * 2) = (m / P) / 2) by (rewrite Z.div_div by lia; auto).
  assert (M : m mod (P * 2) = P * ((m / P) mod 2) + m mod P) by (rewrite Z.rem_mul_r by lia; lia).
  rewrite E2, D, M.
  assert (LO : low (shr_1 r) P (P * ((m / P) mod 2) + m mod P) /\ shr_m (shr_1 r) = (m / P) / 2); [|tauto].
  rewrite <- Hr in *.
  assert (SL : shr_s (shr_1 r) = orb (shr_r r) (shr_s r)) by (destruct r as [[|[q|q|]|[q|q|]] b1 b2]; reflexivity).
  assert (RL : shr_r (shr_1 r) = Z.odd (shr_m r)) by (destruct r as [[|[q|q|]|[q|q|]] b1 b2]; reflexivity).
  assert (ML : shr_m (shr_1 r) = Z.div2 (shr_m r)) by (destruct r as [[|[q|q|]|[q|q|]] b1 b2]; cbn in *; auto; lia).
  rewrite ML, Z.div2_div. split; [|auto]. unfold low. rewrite RL, SL, Zmod_odd.
  destruct k as [|k].
  - destruct (H0 eq_refl) as [-> ->]. assert (P = 1) by reflexivity. assert (m mod P = 0) by lia.
    destruct (Z.odd (shr_m r)); cbn [orb]; (split; [lia|split; [lia|split; [lia|auto]]]).
  - destruct (Hl ltac:(discriminate)) as (L1 & L2 & L3). clear Hl H0.
    assert (P = 2 * 2 ^ (Z.of_nat (S k) - 1)) as EP.
    { unfold P. replace (Z.of_nat (S k)) with (Z.succ (Z.of_nat (S k) - 1)) at 1 by lia. apply Z.pow_succ_r. lia. }
    set (h := 2 ^ (Z.of_nat (S k) - 1)) in *. clearbody h P. 
    assert (OS : orb (shr_r r) (shr_s r) = false <-> m mod P = 0).
    { destruct (shr_r r); cbn [orb]; [split; [discriminate|lia]|]. auto. }
    destruct (Z.odd (shr_m r)); (split; [lia|split; [lia|]]; rewrite OS; split; lia).
Qed.
Lemma shr_low m : 0 <= m -> forall k, let r := Nat.iter k shr_1 (Build_shr_record m false false) in
  shr_m r = m / 2 ^ Z.of_nat k /\ (k <> O -> low r (2 ^ (Z.of_nat k - 1)) (m mod 2 ^ Z.of_nat k)) /\
  (k = O -> shr_r r = false /\ shr_s r = false).
Proof.
  intros Hm. induction k as [|k IH]; cbn zeta.
  - cbn [Nat.iter shr_m shr_r shr_s]. split; [rewrite Z.div_1_r; auto|]. split; [congruence|auto].
  - cbn zeta in IH. destruct IH as (I1 & I2 & I3). destruct (@shr_1_low m k Hm _ I1 I2 I3) as [J1 J2].
    change (Nat.iter (S k) shr_1 (Build_shr_record m false false)) with (shr_1 (Nat.iter k shr_1 (Build_shr_record m false false))).
    split; [auto|]. split; [|discriminate]. intros _. replace (Z.of_nat (S k) - 1) with (Z.of_nat k) by lia. auto.
Qed.
(** Rounding to the nearest multiple of [P], ties to even. *)
Definition rne (P m : Z) : Z :=
  match (2 * (m mod P)) ?= P with
  | Lt => m / P
  | Gt => m / P + 1
  | Eq => if Z.even (m / P) then m / P else m / P + 1
  end.
Lemma rne_shr m k : 0 <= m -> (k <> O)%nat -> let r := Nat.iter k shr_1 (Build_shr_record m false false) in
  round_nearest_even (shr_m r) (loc_of_shr_record r) = rne (2 ^ Z.of_nat k) m.
Proof.
  intros Hm Hk. cbn zeta. destruct (shr_low Hm k) as (E & L & _). specialize (L Hk).
  set (r := Nat.iter k shr_1 (Build_shr_record m false false)) in *. destruct L as (L1 & L2 & L3).
  assert (EP : 2 ^ Z.of_nat k = 2 * 2 ^ (Z.of_nat k - 1)).
  { replace (Z.of_nat k) with (Z.succ (Z.of_nat k - 1)) at 1 by lia. apply Z.pow_succ_r. lia. }
  unfold rne. rewrite <- E. set (x := m mod 2 ^ Z.of_nat k) in *. rewrite EP. set (h := 2 ^ (Z.of_nat k - 1)) in *.
  clearbody r x h. clear - L1 L2 L3. destruct r as [q r s]. cbn [shr_m shr_r shr_s] in *.
  destruct (Z.compare_spec (2 * x) (2 * h)) as [C|C|C]; destruct r, s; cbn [loc_of_shr_record round_nearest_even]; auto;
    exfalso; destruct L3 as [L3 L4]; try (specialize (L3 eq_refl)); try lia; try (discriminate (L4 ltac:(lia))).
Qed.
Lemma rne_bounds P m : 0 < P -> m / P <= rne P m <= m / P + 1.
Proof. intros HP. unfold rne. destruct (_ ?= _); try lia. destruct (Z.even _); lia. Qed.
Lemma rne_mono P m m' : 0 < P -> 0 <= m <= m' -> rne P m <= rne P m'.
Proof.
  intros HP H. pose proof (rne_bounds m HP) as B1. pose proof (rne_bounds m' HP) as B2.
  assert (D : m / P <= m' / P) by (apply Z.div_le_mono; lia).
  destruct (Z.eq_dec (m / P) (m' / P)) as [E|E]; [|lia].
  assert (m mod P <= m' mod P) by (rewrite !Z.mod_eq by lia; nia).
  unfold rne. rewrite E.
  destruct (Z.compare_spec (2 * (m mod P)) P), (Z.compare_spec (2 * (m' mod P)) P); try lia; destruct (Z.even (m' / P)); lia.
Qed.

Lemma digits_spec p : 2 ^ (Zpos (digits2_pos p) - 1) <= Zpos p < 2 ^ Zpos (digits2_pos p).
Proof.
  induction p as [p IH|p IH|]; cbn [digits2_pos]; rewrite ?Pos2Z.inj_succ; [| |cbn; lia];
    (replace (Z.succ (Zpos (digits2_pos p)) - 1) with (Z.succ (Zpos (digits2_pos p) - 1)) by lia);
    rewrite !Z.pow_succ_r by lia; rewrite ?(Pos2Z.inj_xI p), ?(Pos2Z.inj_xO p); lia.
Qed.
Lemma digits_unique p d : 0 < d -> 2 ^ (d - 1) <= Zpos p < 2 ^ d -> Zpos (digits2_pos p) = d.
Proof.
  intros Hd H. pose proof (digits_spec p) as [D1 D2]. 
  assert (Zpos (digits2_pos p) - 1 < d) by (apply (Z.pow_lt_mono_r_iff 2); lia).
  assert (d - 1 < Zpos (digits2_pos p)) by (apply (Z.pow_lt_mono_r_iff 2); lia). lia.
Qed.
(** A mantissa of exactly 24 bits. *)
Definition full (m : positive) : Prop := 2 ^ 23 <= Zpos m < 2 ^ 24.
Lemma full_digits m : full m -> Zpos (digits2_pos m) = 24.
Proof. intros H. apply digits_unique; [lia|exact H]. Qed.
Lemma round_full m e : full m -> -149 <= e <= 104 -> binary_round_aux 24 128 false (Zpos m) e loc_Exact = S754_finite false m e.
Proof.
  intros Hm He. unfold binary_round_aux, shr_fexp. cbn [shr_record_of_loc Zdigits2]. rewrite (full_digits Hm).
  unfold fexp, emin. replace (Z.max (24 + e - 24) (3 - 128 - 24) - e) with 0 by lia. cbn [shr shr_m loc_of_shr_record round_nearest_even].
  cbn [Zdigits2]. rewrite (full_digits Hm). replace (Z.max (24 + e - 24) (3 - 128 - 24) - e) with 0 by lia. cbn [shr shr_m].
  destruct (Z.leb_spec e (128 - 24)); [auto|lia].
Qed.
Lemma shift_pos_mul p d : Zpos (shift_pos d p) = Zpos p * 2 ^ Zpos d.
Proof. rewrite shift_pos_correct, Z.pow_pos_fold. lia. Qed.
(** The value of a number with a full mantissa, in units of 2^-23. *)
Definition worth (m : positive) (e : Z) : Z := Zpos m * 2 ^ (e + 23).
Lemma f_of_spec p : Zpos p < 2 ^ 127 -> exists m e, f_of (Npos p) = S754_finite false m e /\ full m /\ -23 <= e <= 104 /\
  (let d := Zpos (digits2_pos p) in
   worth m e = 2 ^ 23 * if d <=? 24 then Zpos p else rne (2 ^ (d - 24)) (Zpos p) * 2 ^ (d - 24)).
Proof.
  intros Hp. pose proof (digits_spec p) as [D1 D2]. set (d := Zpos (digits2_pos p)) in *. cbn zeta.
  assert (Hd : 1 <= d <= 127).
  { split; [unfold d; lia|]. assert (d - 1 < 127); [|lia]. apply (Z.pow_lt_mono_r_iff 2); lia. }
  unfold f_of. cbn [Z.of_N binary_normalize]. unfold binary_round. fold d. rewrite Z.add_0_r.
  assert (Ef : fexp 24 128 d = d - 24) by (unfold fexp, emin; lia). rewrite Ef.
  destruct (Z.leb_spec d 24) as [L|L].
  - unfold shl_align. rewrite Z.sub_0_r. destruct (d - 24) as [|q|q] eqn:E; [| lia |].
    + exists p, 0. assert (full p) as F by (unfold full; replace d with 24 in * by lia; exact (conj D1 D2)).
      rewrite round_full; [|auto|lia]. split; [auto|]. split; [auto|]. split; [lia|]. unfold worth. rewrite Z.add_0_l. lia.
    + assert (d = 24 - Zpos q) by lia.
      assert (F : full (shift_pos q p)).
      { unfold full. rewrite shift_pos_mul. replace (2 ^ 23) with (2 ^ (d - 1) * 2 ^ Zpos q) by (rewrite <- Z.pow_add_r by lia; f_equal; lia).
        replace (2 ^ 24) with (2 ^ d * 2 ^ Zpos q) by (rewrite <- Z.pow_add_r by lia; f_equal; lia).
        assert (0 < 2 ^ Zpos q) by (apply Z.pow_pos_nonneg; lia). nia. }
      exists (shift_pos q p), (Zneg q). rewrite round_full; [|auto|lia]. split; [auto|]. split; [auto|]. split; [lia|].
      unfold worth. rewrite shift_pos_mul. rewrite <- Z.mul_assoc, <- Z.pow_add_r by lia.
      replace (Zpos q + (Zneg q + 23)) with 23 by lia. lia.
  - unfold shl_align. rewrite Z.sub_0_r. destruct (d - 24) as [|q|q] eqn:E; [lia| |lia].
    unfold binary_round_aux at 1. unfold shr_fexp at 1. cbn [shr_record_of_loc Zdigits2]. fold d. rewrite Z.add_0_r, Ef, Z.sub_0_r, ?E.
    unfold shr at 1. rewrite iter_pos_iter. set (r := Nat.iter (Pos.to_nat q) shr_1 _). rewrite Z.add_0_l.
    assert (Ek : Z.of_nat (Pos.to_nat q) = Zpos q) by apply positive_nat_Z.
    pose proof (@rne_shr (Zpos p) (Pos.to_nat q) ltac:(lia) ltac:(lia)) as R. cbn zeta in R. fold r in R. rewrite R, Ek.
    set (P := 2 ^ Zpos q). assert (HP : 0 < P) by (apply Z.pow_pos_nonneg; lia).
    pose proof (rne_bounds (Zpos p) HP) as B.
    assert (Q : 2 ^ 23 <= Zpos p / P < 2 ^ 24).
    { assert (2 ^ (d - 1) = 2 ^ 23 * P) as E1 by (unfold P; rewrite <- Z.pow_add_r by lia; f_equal; lia).
      assert (2 ^ d = 2 ^ 24 * P) as E2 by (unfold P; rewrite <- Z.pow_add_r by lia; f_equal; lia).
      split; [apply Z.div_le_lower_bound; lia|apply Z.div_lt_upper_bound; lia]. }
    set (x := rne P (Zpos p)) in *. destruct (Z.eq_dec x (2 ^ 24)) as [Ex|Ex].
    + exists (2 ^ 23)%positive, (Zpos q + 1). assert (full (2 ^ 23)) as F by (unfold full; lia).
      split; [|split; [auto|split; [lia|]]].
      * rewrite Ex. unfold shr_fexp. cbn [shr_record_of_loc]. change (Zdigits2 (2 ^ 24)) with 25.
        replace (fexp 24 128 (25 + Zpos q) - Zpos q) with 1 by (unfold fexp, emin; lia). cbn [shr iter_pos].
        change (shr_m (shr_1 {| shr_m := 2 ^ 24; shr_r := false; shr_s := false |})) with (Zpos (2 ^ 23)).
        destruct (Z.leb_spec (Zpos q + 1) (128 - 24)); [auto|lia].
      * rewrite Ex. unfold worth. change (Zpos (2 ^ 23)) with (2 ^ 23). unfold P. rewrite <- !Z.pow_add_r by lia. f_equal. lia.
    + destruct x as [|m|m] eqn:Em; [lia| |lia]. exists m, (Zpos q). assert (full m) as F by (unfold full; lia).
      split; [|split; [auto|split; [lia|]]].
      * unfold shr_fexp. cbn [shr_record_of_loc Zdigits2]. rewrite (full_digits F).
        replace (fexp 24 128 (24 + Zpos q) - Zpos q) with 0 by (unfold fexp, emin; lia). cbn [shr shr_m].
        destruct (Z.leb_spec (Zpos q) (128 - 24)); [auto|lia].
      * unfold worth, P. rewrite Z.pow_add_r by lia. lia.
Qed.

(** ** The order of the numbers *)
Lemma full_compare m1 e1 m2 e2 : full m1 -> full m2 -> -23 <= e1 -> -23 <= e2 ->
  SFcompare (S754_finite false m1 e1) (S754_finite false m2 e2) = Some (worth m1 e1 ?= worth m2 e2).
Proof.
  intros [F1 F1'] [F2 F2'] H1 H2. cbn [SFcompare]. f_equal. symmetry.
  assert (G : forall m m' e e', Zpos m < 2 ^ 24 -> 2 ^ 23 <= Zpos m' -> -23 <= e -> e < e' -> worth m e < worth m' e').
  { clear. intros m m' e e' Hm Hm' He Hlt. unfold worth.
    assert (2 ^ (e' + 23) = 2 ^ (e + 23) * 2 ^ (e' - e)) as -> by (rewrite <- Z.pow_add_r by lia; f_equal; lia).
    assert (0 < 2 ^ (e + 23)) by (apply Z.pow_pos_nonneg; lia).
    assert (2 ^ 1 <= 2 ^ (e' - e)) by (apply Z.pow_le_mono_r; lia).
    set (A := 2 ^ (e + 23)) in *. set (B := 2 ^ (e' - e)) in *. clearbody A B.
    assert (Zpos m < Zpos m' * B) by nia. replace (Zpos m' * (A * B)) with (Zpos m' * B * A) by lia. apply Z.mul_lt_mono_pos_r; auto. }
  destruct (Z.compare_spec e1 e2) as [->|L|L].
  - unfold worth. change (Pos.compare_cont Eq m1 m2) with (Zpos m1 ?= Zpos m2). symmetry. apply Zmult_compare_compat_r.
    assert (0 < 2 ^ (e2 + 23)) by (apply Z.pow_pos_nonneg; lia). lia.
  - apply Z.compare_lt_iff. auto.
  - apply Z.compare_gt_iff. auto.
Qed.
Lemma f_of_mono n1 n2 : (n1 <= n2)%N -> (n2 < 2 ^ 127)%N -> SFcompare (f_of n1) (f_of n2) = Some Lt \/ SFcompare (f_of n1) (f_of n2) = Some Eq.
Proof.
  intros Hle Hlt. destruct n1 as [|p1]; [destruct n2 as [|p2]|destruct n2 as [|p2]]; [right; auto| |lia|].
  - destruct (@f_of_spec p2) as (m & e & -> & _); [lia|]. left. auto.
  - destruct (@f_of_spec p1) as (m1 & e1 & -> & F1 & [E1 _] & W1); [lia|].
    destruct (@f_of_spec p2) as (m2 & e2 & -> & F2 & [E2 _] & W2); [lia|].
    rewrite full_compare by auto. assert (W : worth m1 e1 <= worth m2 e2).
    2:{ destruct (Z.compare_spec (worth m1 e1) (worth m2 e2)); auto; lia. }
    cbn zeta in W1, W2. rewrite W1, W2. apply Z.mul_le_mono_nonneg_l; [lia|].
    pose proof (digits_spec p1) as [D1 D1']. pose proof (digits_spec p2) as [D2 D2'].
    set (d1 := Zpos (digits2_pos p1)) in *. set (d2 := Zpos (digits2_pos p2)) in *.
    assert (Hp : Zpos p1 <= Zpos p2) by lia.
    assert (Hd : d1 <= d2). { assert (d1 - 1 < d2); [|lia]. apply (Z.pow_lt_mono_r_iff 2); lia. }
    assert (LO : forall d p, 24 < d -> 2 ^ (d - 1) <= Zpos p < 2 ^ d -> 2 ^ (d - 1) <= rne (2 ^ (d - 24)) (Zpos p) * 2 ^ (d - 24) <= 2 ^ d).
    { clear. intros d p Hd [H1 H2]. set (P := 2 ^ (d - 24)). assert (HP : 0 < P) by (apply Z.pow_pos_nonneg; lia).
      pose proof (rne_bounds (Zpos p) HP) as B.
      assert (2 ^ (d - 1) = 2 ^ 23 * P) as E1 by (unfold P; rewrite <- Z.pow_add_r by lia; f_equal; lia).
      assert (2 ^ d = 2 ^ 24 * P) as E2 by (unfold P; rewrite <- Z.pow_add_r by lia; f_equal; lia).
      assert (2 ^ 23 <= Zpos p / P) by (apply Z.div_le_lower_bound; lia).
      assert (Zpos p / P < 2 ^ 24) by (apply Z.div_lt_upper_bound; lia). nia. }
    destruct (Z.leb_spec d1 24), (Z.leb_spec d2 24); try lia.
    + pose proof (LO d2 p2 ltac:(lia) (conj D2 D2')) as [L _]. assert (2 ^ d1 <= 2 ^ (d2 - 1)) by (apply Z.pow_le_mono_r; lia). lia.
    + destruct (Z.eq_dec d1 d2) as [E|E].
      * rewrite E. assert (HP : 0 < 2 ^ (d2 - 24)) by (apply Z.pow_pos_nonneg; lia). apply Z.mul_le_mono_nonneg_r; [lia|].
        apply rne_mono; lia.
      * pose proof (LO d2 p2 ltac:(lia) (conj D2 D2')) as [L _]. pose proof (LO d1 p1 ltac:(lia) (conj D1 D1')) as [_ L'].
        assert (2 ^ d1 <= 2 ^ (d2 - 1)) by (apply Z.pow_le_mono_r; lia). lia.
Qed.
(** Comparisons of numbers are those of a total order. *)
Definition below (x y : f32) : Prop := SFcompare x y = Some Lt \/ SFcompare x y = Some Eq.
Lemma compare_refl x : number x -> SFcompare x x = Some Eq.
Proof.
  destruct x as [s|s| |s m e]; cbn; intros; subst; auto; [contradiction|]. rewrite Z.compare_refl.
  change (Pos.compare_cont Eq m m) with (Pos.compare m m). rewrite Pos.compare_refl. auto.
Qed.
Lemma compare_anti x y : number x -> number y -> exists c, SFcompare x y = Some c /\ SFcompare y x = Some (CompOpp c).
Proof.
  destruct x as [s|s| |s m e], y as [s'|s'| |s' m' e']; cbn; intros; subst; try contradiction; try (eexists; split; reflexivity).
  eexists; split; [reflexivity|]. rewrite (Z.compare_antisym e e'). destruct (e ?= e'); cbn; auto.
  change (Pos.compare_cont Eq m m') with (Pos.compare m m'). change (Pos.compare_cont Eq m' m) with (Pos.compare m' m).
  rewrite (Pos.compare_antisym m m'). auto.
Qed.
Lemma below_finite m e m' e' : below (S754_finite false m e) (S754_finite false m' e') <-> e < e' \/ e = e' /\ Zpos m <= Zpos m'.
Proof.
  unfold below. cbn [SFcompare]. change (Pos.compare_cont Eq m m') with (Pos.compare m m').
  destruct (Z.compare_spec e e') as [E|E|E].
  - subst. split; [|intros [H|[_ H]]; [lia|]].
    + intros H. right. split; auto. assert (m <= m')%positive; [|lia]. destruct H as [H|H]; inversion H; unfold Pos.le; congruence.
    + destruct (Pos.compare_spec m m'); auto; lia.
  - split; auto.
  - split; [intros [H|H]; discriminate|lia].
Qed.
Lemma below_trans x y z : number x -> number y -> number z -> below x y -> below y z -> below x z.
Proof.
  destruct x as [s|s| |s m e], y as [s'|s'| |s' m' e'], z as [s''|s''| |s'' m'' e'']; cbn [number]; intros; subst; try contradiction;
    try (unfold below in *; cbn in *; tauto || (intuition congruence)); try (unfold below; cbn; auto; fail).
  rewrite below_finite in *. lia.
Qed.

(** ** Scores are numbers *)
Lemma accepted_exponent e : SFleb e f_zero = false -> e <> S754_nan -> e = S754_infinity false \/ exists m x, e = S754_finite false m x.
Proof.
  destruct e as [s|s| |s m x]; cbn; [discriminate| |congruence|].
  - destruct s; cbn; [discriminate|auto].
  - destruct s; cbn; [discriminate|eauto].
Qed.
Lemma f_of_small n : (n < 2 ^ 127)%N -> n = 0%N /\ f_of n = f_zero \/ exists m e, f_of n = S754_finite false m e.
Proof. intros H. destruct n as [|p]; [auto|]. right. destruct (@f_of_spec p) as (m & e & E & _); [lia|eauto]. Qed.
(** What is recorded of the accesses: a number, and not infinity when the exponent is. *)
Definition recorded (e x : f32) : Prop := number x /\ (e = S754_infinity false -> x <> S754_infinity false).
Lemma recorded_step e x n : SFleb e f_zero = false -> e <> S754_nan -> (n < 2 ^ 127)%N -> recorded e x ->
  recorded e (f_add (f_of n) (f_div x e)).
Proof.
  intros He Hn Hb [Hx Hi]. destruct (accepted_exponent He Hn) as [->|(m & y & ->)].
  - assert (E : f_div x (S754_infinity false) = f_zero).
    { destruct x as [s|s| |s m y]; cbn in *; subst; auto; [exfalso; apply Hi; auto|contradiction]. }
    rewrite E. destruct (f_of_small Hb) as [[_ ->]|(m & y & ->)]; cbn; split; cbn; auto; discriminate.
  - split; [|discriminate]. apply add_number; [apply f_of_number|]. apply div_number; auto.
Qed.
Lemma touches_spec e : SFleb e f_zero = false -> e <> S754_nan -> forall ts t x, rising t ts -> (last ts t < 2 ^ 127)%N -> recorded e x ->
  exists y, f_touches (mkFS t x e) ts = Ok (mkFS (last ts t) y e) /\ recorded e y.
Proof.
  intros He Hn. induction ts as [|u ts IH]; intros t x Hr Hl Hx; [exists x; auto|]. destruct Hr as [H1 H2].
  cbn [f_touches]. unfold fs_touch, t_diff. cbn [fs_last fs_eavg fs_exponent].
  destruct (N.leb_spec t u); [|lia]. cbn [bind].
  assert (Hu : last (u :: ts) t = last ts u) by (clear; destruct ts as [|v ts]; [auto|]; revert v; induction ts as [|w ts IH]; intros v; [auto|apply (IH w)]).
  rewrite Hu in *.
  assert (HL : (u <= last ts u)%N). { clear - H2. revert u H2. induction ts as [|v ts IH]; intros u H; [cbn; lia|]. destruct H as [H3 H4].
    specialize (IH v H4). assert (last (v :: ts) u = last ts v) as -> by (clear; destruct ts as [|w ts]; [auto|]; revert w; induction ts as [|z ts IH]; intros w; [auto|apply (IH z)]). lia. }
  apply IH; auto. apply recorded_step; auto. lia.
Qed.
Lemma rising_app t ts now : rising t (ts ++ [now]) -> rising t ts /\ (last ts t <= now)%N.
Proof.
  revert t. induction ts as [|u ts IH]; intros t; cbn [app rising]; [cbn; tauto|]. intros [H1 H2]. destruct (IH u H2) as [H3 H4].
  split; [auto|]. assert (last (u :: ts) t = last ts u) as ->; [|auto].
  clear; destruct ts as [|v ts]; [auto|]; revert v; induction ts as [|w ts IH]; intros v; [auto|apply (IH w)].
Qed.

(** ** C59 *)
(** The cell of a value created at [t0] and accessed at the times [ts], compared at the time [now]. *)
Definition cell_at (e : f32) (t0 : N) (ts : list N) (now : N) (c : fstats) : Prop :=
  SFleb e f_zero = false /\ e <> S754_nan /\ rising t0 (ts ++ [now]) /\ f_accessed e t0 ts = Ok c.
Definition compared_at (now : N) (c : fstats) : Prop := exists e t0 ts, cell_at e t0 ts now c.

Lemma score_number e t0 ts now : SFleb e f_zero = false -> e <> S754_nan -> rising t0 (ts ++ [now]) -> (now < 2 ^ 127)%N ->
  exists c x, f_accessed e t0 ts = Ok c /\ fs_score now c = Ok x /\ number x.
Proof.
  intros He Hn Hr Hb. destruct (rising_app _ _ _ Hr) as [H1 H2]. unfold f_accessed, f_cell, fs_new. rewrite He. cbn [bind].
  destruct (@touches_spec e He Hn ts t0 f_zero H1 ltac:(lia)) as (y & -> & Hy). { split; [reflexivity|discriminate]. }
  exists (mkFS (last ts t0) y e). unfold fs_score, t_diff. cbn [fs_last fs_eavg fs_exponent].
  destruct (N.leb_spec (last ts t0) now); [|lia]. cbn [bind]. eexists. split; [reflexivity|]. split; [reflexivity|].
  assert ((now - last ts t0 < 2 ^ 127)%N) as Hd by lia. exact (proj1 (recorded_step He Hn Hd Hy)).
Qed.
Theorem C59_score_is_a_number : forall e t0 ts now, SFleb e f_zero = false -> e <> S754_nan -> rising t0 (ts ++ [now]) -> (now < 2 ^ 127)%N ->
  exists c x, f_accessed e t0 ts = Ok c /\ fs_score now c = Ok x /\ SFcompare x x = Some Eq /\ SFleb f_zero x = true.
Proof.
  intros e t0 ts now He Hn Hr Hb. destruct (@score_number e t0 ts now He Hn Hr Hb) as (c & x & E1 & E2 & E3). exists c, x.
  split; [auto|]. split; [auto|]. split; [apply compare_refl; auto|].
  destruct x as [s|s| |s m y]; cbn in *; subst; auto.
Qed.
Lemma compared_score now c : (now < 2 ^ 127)%N -> compared_at now c -> exists x, fs_score now c = Ok x /\ number x.
Proof.
  intros Hb (e & t0 & ts & H1 & H2 & H3 & H4). destruct (@score_number e t0 ts now H1 H2 H3 Hb) as (c' & x & E1 & E2 & E3).
  rewrite H4 in E1. inversion E1; subst. eauto.
Qed.
(** At one time, the comparisons of any three cells are those of a total order. *)
Theorem C59_total_order_at_one_time : forall now a b c, (now < 2 ^ 127)%N -> compared_at now a -> compared_at now b -> compared_at now c ->
  fs_cmp now now a a = Ok Eq /\
  (exists o, fs_cmp now now a b = Ok o /\ fs_cmp now now b a = Ok (CompOpp o)) /\
  (forall o, fs_cmp now now a b = Ok o -> o <> Gt -> forall o', fs_cmp now now b c = Ok o' -> o' <> Gt ->
    fs_cmp now now a c = Ok Lt \/ fs_cmp now now a c = Ok Eq /\ o = Eq /\ o' = Eq).
Proof.
  intros now a b c Hb Ha1 Hb1 Hc1. destruct (compared_score Hb Ha1) as (x & Ex & Nx). destruct (compared_score Hb Hb1) as (y & Ey & Ny).
  destruct (compared_score Hb Hc1) as (z & Ez & Nz). unfold fs_cmp. rewrite Ex, Ey, Ez. cbn [bind].
  split; [rewrite compare_refl; auto|]. destruct (compare_anti _ _ Nx Ny) as (o & O1 & O2). split; [exists o; rewrite O1, O2; auto|].
  destruct (compare_anti _ _ Ny Nz) as (o' & P1 & P2). destruct (compare_anti _ _ Nx Nz) as (q & Q1 & Q2). rewrite O1, P1, Q1.
  intros o1 E1 G1 o2 E2 G2. inversion E1; inversion E2; subst o1 o2.
  assert (Bxy : below x y) by (unfold below; rewrite O1; destruct o; auto; congruence).
  assert (Byz : below y z) by (unfold below; rewrite P1; destruct o'; auto; congruence).
  assert (Bxz : below x z) by exact (@below_trans _ _ _ Nx Ny Nz Bxy Byz).
  unfold below in Bxz. rewrite Q1 in Bxz. destruct Bxz as [B|B]; inversion B; subst q; [auto|]. right. split; [auto|].
  (* z is not above x: then each of the three is below the others *)
  assert (Bzx : below z x) by (unfold below; rewrite Q2; auto).
  pose proof (@below_trans _ _ _ Ny Nz Nx Byz Bzx) as Byx. pose proof (@below_trans _ _ _ Nz Nx Ny Bzx Bxy) as Bzy.
  unfold below in Byx, Bzy. rewrite O2 in Byx. rewrite P2 in Bzy.
  destruct o, o'; cbn in *; split; auto; try congruence; destruct Byx, Bzy; congruence.
Qed.
(** Values never accessed since they were pushed are ordered by age, whatever their exponents: an older one is never below. *)
Theorem C59_untouched_by_age : forall e1 e2 t1 t2 now, SFleb e1 f_zero = false -> e1 <> S754_nan -> SFleb e2 f_zero = false -> e2 <> S754_nan ->
  (t1 <= t2)%N -> (t2 <= now)%N -> (now < 2 ^ 127)%N ->
  exists a b, f_cell e1 t1 = Ok a /\ f_cell e2 t2 = Ok b /\ (fs_cmp now now a b = Ok Gt \/ fs_cmp now now a b = Ok Eq).
Proof.
  intros e1 e2 t1 t2 now H1 N1 H2 N2 L1 L2 Hb.
  assert (S : forall e t, SFleb e f_zero = false -> e <> S754_nan -> (t <= now)%N -> fs_score now (fs_new e t) = Ok (f_of (now - t))).
  { intros e t He Hn Ht. unfold fs_score, t_diff, fs_new. cbn [fs_last fs_eavg fs_exponent]. destruct (N.leb_spec t now); [|lia]. cbn [bind]. f_equal.
    assert (f_div f_zero e = f_zero) as -> by (destruct (accepted_exponent He Hn) as [->|(m & y & ->)]; reflexivity).
    assert ((now - t < 2 ^ 127)%N) as Hd by lia. destruct (f_of_small Hd) as [[_ ->]|(m & y & ->)]; reflexivity. }
  exists (fs_new e1 t1), (fs_new e2 t2). unfold f_cell. rewrite H1, H2. split; [auto|]. split; [auto|].
  unfold fs_cmp. rewrite !S by (auto; lia). cbn [bind].
  destruct (compare_anti _ _ (f_of_number (now - t2)) (f_of_number (now - t1))) as (c & C1 & C2). rewrite C2.
  destruct (@f_of_mono (now - t2) (now - t1)) as [E|E]; [lia|lia| |]; rewrite C1 in E; inversion E; subst c; auto.
Qed.
(** Up to an age of 2^24 ticks the ages are exact, and the order by age is strict. *)
Theorem C59_young_strictly_by_age : forall e1 e2 t1 t2 now, SFleb e1 f_zero = false -> e1 <> S754_nan -> SFleb e2 f_zero = false -> e2 <> S754_nan ->
  (t1 < t2)%N -> (t2 <= now)%N -> (now - t1 < 2 ^ 24)%N ->
  exists a b, f_cell e1 t1 = Ok a /\ f_cell e2 t2 = Ok b /\ fs_cmp now now a b = Ok Gt.
Proof.
  intros e1 e2 t1 t2 now H1 N1 H2 N2 L1 L2 Hb.
  assert (S : forall e t, SFleb e f_zero = false -> e <> S754_nan -> (t1 <= t <= now)%N -> fs_score now (fs_new e t) = Ok (f_of (now - t))).
  { intros e t He Hn Ht. unfold fs_score, t_diff, fs_new. cbn [fs_last fs_eavg fs_exponent]. destruct (N.leb_spec t now); [|lia]. cbn [bind]. f_equal.
    assert (f_div f_zero e = f_zero) as -> by (destruct (accepted_exponent He Hn) as [->|(m & y & ->)]; reflexivity).
    assert ((now - t < 2 ^ 127)%N) as Hd by lia. destruct (f_of_small Hd) as [[_ ->]|(m & y & ->)]; reflexivity. }
  exists (fs_new e1 t1), (fs_new e2 t2). unfold f_cell. rewrite H1, H2. split; [auto|]. split; [auto|].
  unfold fs_cmp. rewrite !S by (auto; lia). cbn [bind].
  assert (D : forall p, (Npos p < 2 ^ 24)%N -> exists m e, f_of (Npos p) = S754_finite false m e /\ full m /\ -23 <= e /\ worth m e = 2 ^ 23 * Zpos p).
  { intros p Hp. destruct (@f_of_spec p) as (m & e & E & F & [G _] & W); [lia|]. exists m, e. cbn zeta in W.
    destruct (Z.leb_spec (Zpos (digits2_pos p)) 24) as [_|L]; auto. exfalso. pose proof (digits_spec p) as [D _].
    assert (2 ^ 24 <= 2 ^ (Zpos (digits2_pos p) - 1)) by (apply Z.pow_le_mono_r; lia). lia. }
  destruct (now - t1)%N as [|p1] eqn:E1; [lia|]. destruct (D p1) as (m1 & x1 & -> & F1 & G1 & W1); [lia|].
  destruct (now - t2)%N as [|p2] eqn:E2; [reflexivity|]. destruct (D p2) as (m2 & x2 & -> & F2 & G2 & W2); [lia|].
  rewrite full_compare by auto. rewrite W1, W2. destruct (Z.compare_spec (2 ^ 23 * Zpos p1) (2 ^ 23 * Zpos p2)); auto; lia.
Qed.
(** Beyond, values of different ages may compare equal. *)
Theorem C59_ages_told_apart_refuted : exists e t1 t2 now a b, SFleb e f_zero = false /\ e <> S754_nan /\ (t1 < t2 <= now)%N /\
  f_cell e t1 = Ok a /\ f_cell e t2 = Ok b /\ fs_cmp now now a b = Ok Eq.
Proof.
  exists (f_of 2), 0%N, 1%N, (2 ^ 24 + 1)%N. eexists _, _. split; [reflexivity|]. split; [discriminate|]. split; [lia|].
  split; [reflexivity|]. split; [reflexivity|]. vm_compute. reflexivity.
Qed.
(** NaN is accepted as an exponent; every comparison with a cell that has it is then [Equal], and this is not transitive. *)
Theorem C59_nan_exponent_refuted : forall t,
  (exists c, f_cell S754_nan t = Ok c) /\
  forall c b, f_cell S754_nan t = Ok c -> forall now, (t <= now)%N -> fs_score now b <> Panic ->
    fs_cmp now now c b = Ok Eq /\ fs_cmp now now b c = Ok Eq.
Proof.
  intros t. split; [eexists; reflexivity|]. intros c b E now Hn Hb. inversion E; subst.
  assert (S : fs_score now (fs_new S754_nan t) = Ok S754_nan).
  { unfold fs_score, t_diff, fs_new. cbn [fs_last fs_eavg fs_exponent]. destruct (N.leb_spec t now); [|lia]. cbn [bind].
    f_equal. destruct (f_of (now - t)); reflexivity. }
  unfold fs_cmp. rewrite S. destruct (fs_score now b) as [y|]; [|congruence]. cbn [bind]. split; [reflexivity|].
  destruct y; reflexivity.
Qed.
(** On exact numbers the order of two cells with the same exponent never changes as time passes (C24); on f32 it does. *)
Theorem C59_order_does_not_depend_on_time_refuted : exists e a b now1 now2,
  cell_at e 14 [17; 28]%N now1 a /\ cell_at e 6 [37]%N now1 b /\ cell_at e 14 [17; 28]%N now2 a /\ cell_at e 6 [37]%N now2 b /\
  (now1 < now2)%N /\ fs_cmp now1 now1 a b = Ok Lt /\ fs_cmp now2 now2 a b = Ok Gt.
Proof.
  pose (a := match f_accessed (f_of 2) 14 [17; 28]%N with Ok c => c | Panic => fs_new f_zero 0 end).
  pose (b := match f_accessed (f_of 2) 6 [37]%N with Ok c => c | Panic => fs_new f_zero 0 end).
  exists (f_of 2), a, b, 40%N, 33554594%N. unfold cell_at.
  assert (f_accessed (f_of 2) 14 [17; 28]%N = Ok a) as -> by (vm_compute; reflexivity).
  assert (f_accessed (f_of 2) 6 [37]%N = Ok b) as -> by (vm_compute; reflexivity).
  assert (SFleb (f_of 2) f_zero = false) as -> by (vm_compute; reflexivity).
  assert (f_of 2 <> S754_nan) by (vm_compute; discriminate).
  cbn [app rising]. split; [|split; [|split; [|split; [|split; [|split]]]]]; try (split; [auto|split; [auto|split; [lia|auto]]]); [lia| |];
    vm_compute; reflexivity.
Qed.
(** The clock is read once for each of the two cells: a cell may come out below itself. *)
Theorem C59_cell_below_itself_refuted : forall e t now, SFleb e f_zero = false -> e <> S754_nan -> (t <= now)%N -> (now - t < 2 ^ 24 - 1)%N ->
  exists c, f_cell e t = Ok c /\ fs_cmp now (now + 1) c c = Ok Lt.
Proof.
  intros e t now He Hn Ht Hb. exists (fs_new e t). unfold f_cell. rewrite He. split; [auto|].
  assert (S : forall n, (t <= n)%N -> (n - t < 2 ^ 24)%N -> fs_score n (fs_new e t) = Ok (f_of (n - t))).
  { intros n H1 H2. unfold fs_score, t_diff, fs_new. cbn [fs_last fs_eavg fs_exponent]. destruct (N.leb_spec t n); [|lia]. cbn [bind]. f_equal.
    assert (f_div f_zero e = f_zero) as -> by (destruct (accepted_exponent He Hn) as [->|(m & y & ->)]; reflexivity).
    assert ((n - t < 2 ^ 127)%N) as Hd by lia. destruct (f_of_small Hd) as [[_ ->]|(m & y & ->)]; reflexivity. }
  unfold fs_cmp. rewrite !S by lia. cbn [bind].
  assert (D : forall p, (Npos p < 2 ^ 24)%N -> exists m e, f_of (Npos p) = S754_finite false m e /\ full m /\ -23 <= e /\ worth m e = 2 ^ 23 * Zpos p).
  { intros p Hp. destruct (@f_of_spec p) as (m & x & E & F & [G _] & W); [lia|]. exists m, x. cbn zeta in W.
    destruct (Z.leb_spec (Zpos (digits2_pos p)) 24) as [_|L]; auto. exfalso. pose proof (digits_spec p) as [D _].
    assert (2 ^ 24 <= 2 ^ (Zpos (digits2_pos p) - 1)) by (apply Z.pow_le_mono_r; lia). lia. }
  destruct (now + 1 - t)%N as [|p1] eqn:E1; [lia|]. destruct (D p1) as (m1 & x1 & -> & F1 & G1 & W1); [lia|].
  destruct (now - t)%N as [|p2] eqn:E2; [reflexivity|]. destruct (D p2) as (m2 & x2 & -> & F2 & G2 & W2); [lia|].
  rewrite full_compare by auto. rewrite W1, W2. destruct (Z.compare_spec (2 ^ 23 * Zpos p2) (2 ^ 23 * Zpos p1)); auto; lia.
Qed.
(** A score cannot be computed, and a cell cannot be touched, exactly when the clock reads less than at the last access
    (a counter whose value is below that of the cell, in a program that checks its subtractions). *)
Theorem C59_clock_set_back : forall now c,
  (fs_score now c = Panic <-> (now < fs_last c)%N) /\ (fs_touch now c = Panic <-> (now < fs_last c)%N).
Proof.
  intros now c. unfold fs_score, fs_touch, t_diff. destruct (N.leb_spec (fs_last c) now) as [H|H]; cbn [bind]; split; split; intros X; auto; try discriminate; lia.
Qed.
(** Witness: three cells of different histories and exponents, compared at one time. *)
Example C59_example : exists a b c, cell_at (f_of 2) 14 [17; 28]%N 40 a /\ cell_at (S754_infinity false) 6 [37]%N 40 b /\ cell_at (f_div (f_of 1) (f_of 3)) 1 [] 40 c /\
  fs_cmp 40 40 a b = Ok Gt /\ fs_cmp 40 40 a c = Ok Lt /\ fs_cmp 40 40 b c = Ok Lt.
Proof.
  pose (a := match f_accessed (f_of 2) 14 [17; 28]%N with Ok c => c | Panic => fs_new f_zero 0 end).
  pose (b := match f_accessed (S754_infinity false) 6 [37]%N with Ok c => c | Panic => fs_new f_zero 0 end).
  pose (c := match f_accessed (f_div (f_of 1) (f_of 3)) 1 [] with Ok c => c | Panic => fs_new f_zero 0 end).
  exists a, b, c. unfold cell_at. cbn [app rising].
  split; [split; [vm_compute; reflexivity|split; [vm_compute; discriminate|split; [lia|vm_compute; reflexivity]]]|].
  split; [split; [vm_compute; reflexivity|split; [vm_compute; discriminate|split; [lia|vm_compute; reflexivity]]]|].
  split; [split; [vm_compute; reflexivity|split; [vm_compute; discriminate|split; [lia|vm_compute; reflexivity]]]|].
  split; [vm_compute; reflexivity|]. split; vm_compute; reflexivity.
Qed.
