(** PHasher.v -- property theorems: C18 (hashers) and C34 (log2, chunk_size). *)
From Coq Require Import NArith List Lia.
From Verif Require Import Base Hasher.
Import ListNotations.
Local Open Scope N_scope.

Lemma shifts_size p : shifts p = N.pos (Pos.size p).
Proof. induction p as [p IH|p IH|]; cbn [shifts Pos.size]; rewrite ?IH; lia. Qed.
Lemma log2_log2 n : log2 n = N.log2 n.
Proof.
  destruct n as [|p]; auto. unfold log2. rewrite shifts_size. destruct p as [p|p|]; cbn [Pos.size N.log2]; lia.
Qed.

(** C34 *)
Theorem C34_log2_is_floor : forall n, 1 <= n -> 2 ^ log2 n <= n /\ n < 2 ^ (log2 n + 1).
Proof.
  intros n Hn. rewrite log2_log2, N.add_1_r. apply N.log2_spec. lia.
Qed.
Theorem C34_chunk_size_is_next_power_of_two : forall s, 1 <= s -> s <= 2 ^ 63 ->
  exists i, chunk_size s = Ok (i, 2 ^ i) /\ s <= 2 ^ i /\ 2 ^ i < 2 * s /\ i < 64.
Proof.
  intros s H1 H2. unfold chunk_size. destruct (C34_log2_is_floor s H1) as [L1 L2].
  rewrite !N.shiftl_1_l. assert (Hi : log2 s <= 63).
  { rewrite log2_log2. transitivity (N.log2 (2 ^ 63)); [apply N.log2_le_mono; auto|]. rewrite N.log2_pow2; lia. }
  destruct (2 ^ log2 s =? s) eqn:E.
  - apply N.eqb_eq in E. exists (log2 s). rewrite E. repeat split; lia.
  - apply N.eqb_neq in E. rewrite N.add_1_r in *. rewrite N.pow_succ_r' in L2.
    assert (log2 s <> 63) by (intros E2; rewrite E2 in *; lia).
    replace (N.succ (log2 s) <? 64) with true by (symmetry; apply N.ltb_lt; lia).
    exists (N.succ (log2 s)). split; auto. rewrite N.pow_succ_r'. repeat split; lia.
Qed.
(** Sizes above 2^63 are refused by a panic, and size 0 gets a chunk of two bytes. *)
Theorem C34_chunk_size_overflow : forall s, 2 ^ 63 < s -> s < 2 ^ 64 -> chunk_size s = Panic.
Proof.
  intros s H1 H2. unfold chunk_size. assert (E : log2 s = 63).
  { rewrite log2_log2. apply N.log2_unique; lia. }
  rewrite E. rewrite N.shiftl_1_l. replace (2 ^ 63 =? s) with false by (symmetry; apply N.eqb_neq; lia). reflexivity.
Qed.
Theorem C34_chunk_size_zero : chunk_size 0 = Ok (1, 2).
Proof. reflexivity. Qed.

(** C18.  Specification: level [i] of a tower of [ns] sets uses [width n_i] bits of the key's hash, starting
    above all those of the levels before it. *)
Definition width (n : N) : N := N.log2 n + 1.
Definition total_width (ns : list N) : N := fold_right (fun n a => width n + a) 0 ns.
(** The number written in bits [off, off + w) of [x]. *)
Definition bits (off w x : N) : N := (x / 2 ^ off) mod 2 ^ w.

Definition eh_ok (h : exhasher) (off n : N) : Prop :=
  eh_mask h = N.shiftl (N.ones (width n)) off /\ eh_rshift h = off /\ eh_nbits h = width n /\ off + width n <= 64.

Lemma ones_shiftr a b : b <= a -> N.shiftr (N.ones a) b = N.ones (a - b).
Proof.
  intros H. apply N.bits_inj. intros m. rewrite N.shiftr_spec'.
  destruct (N.lt_ge_cases m (a - b)).
  - rewrite !N.ones_spec_low; auto; lia.
  - rewrite !N.ones_spec_high; auto; lia.
Qed.
Lemma width_le n : n < 2 ^ 64 -> width n <= 64.
Proof.
  intros H. unfold width. destruct (N.eq_dec n 0) as [->|Hn]; [cbn; lia|].
  assert (N.log2 n < 64) by (apply N.log2_lt_pow2; lia). lia.
Qed.
Lemma width_pos n : 1 <= width n. Proof. unfold width. lia. Qed.
Lemma eh_new_ok n : n < 2 ^ 64 -> eh_ok (eh_new n) 0 n.
Proof.
  intros H. unfold eh_new, eh_ok. rewrite log2_log2. fold (width n). cbn [eh_mask eh_rshift eh_nbits].
  pose proof (width_le n H). unfold ones64. rewrite ones_shiftr by lia. replace (64 - (64 - width n)) with (width n) by lia.
  rewrite N.shiftl_0_r. repeat split; auto. 
Qed.
Lemma eh_next_ok h off n m : eh_ok h off n -> m < 2 ^ 64 ->
  match eh_next h m with
  | Some h' => eh_ok h' (off + width n) m
  | None => 64 < off + width n + width m
  end.
Proof.
  intros (H1 & H2 & H3 & H4) Hm. unfold eh_next. rewrite log2_log2. fold (width m). rewrite H2, H3.
  replace (width n + off) with (off + width n) by lia.
  destruct (64 <? off + width n + width m) eqn:E; [apply N.ltb_lt in E; lia|]. apply N.ltb_ge in E.
  unfold eh_ok. cbn [eh_mask eh_rshift eh_nbits]. repeat split; auto.
  pose proof (width_le m Hm). unfold ones64. rewrite ones_shiftr by lia. replace (64 - (64 - width m)) with (width m) by lia.
  apply N.bits_inj. intros b. rewrite N.land_spec. destruct (N.lt_ge_cases b (off + width n)).
  - rewrite N.shiftl_spec_low by auto. auto.
  - rewrite N.shiftl_spec_high' by auto. destruct (N.lt_ge_cases b 64).
    + rewrite (N.ones_spec_low 64 b) by auto. rewrite andb_true_r. auto.
    + rewrite (N.ones_spec_high 64 b) by auto. rewrite andb_false_r. symmetry. apply N.ones_spec_high. lia.
Qed.
Lemma finish_bits h off n x : eh_ok h off n -> finish h x = bits off (width n) x.
Proof.
  intros (H1 & H2 & H3 & H4). unfold finish, bits. rewrite H1, H2, <- N.shiftr_div_pow2, <- N.land_ones.
  apply N.bits_inj. intros b. rewrite N.shiftr_spec', !N.land_spec, N.shiftr_spec', N.shiftl_spec_high' by lia.
  replace (b + off - off) with b by lia. auto.
Qed.

Fixpoint offsets (off : N) (ns : list N) : list N :=
  match ns with [] => [] | n :: ns' => off :: offsets (off + width n) ns' end.

Lemma eh_levels_ok ns : forall h off n, eh_ok h off n -> Forall (fun m => m < 2 ^ 64) ns ->
  match eh_levels h ns with
  | None => 64 < off + total_width (n :: ns)
  | Some l => off + total_width (n :: ns) <= 64 /\
      Forall2 (fun h' p => eh_ok h' (fst p) (snd p)) l (combine (offsets off (n :: ns)) (n :: ns))
  end.
Proof.
  induction ns as [|m ns IH]; intros h off n Hh Hns; cbn [eh_levels].
  - cbn. split; [destruct Hh as (_ & _ & _ & H); lia|]. constructor; [exact Hh|constructor].
  - apply Forall_cons_iff in Hns as [Hm Hns]. pose proof (eh_next_ok h off n m Hh Hm) as Hn.
    cbn [total_width fold_right]. destruct (eh_next h m) as [h'|].
    + specialize (IH h' _ m Hn Hns). destruct (eh_levels h' ns) as [l|].
      * destruct IH as [I1 I2]. cbn [total_width fold_right] in I1. split; [lia|]. constructor; auto.
      * cbn [total_width fold_right] in IH. lia.
    + pose proof (N.le_0_l (fold_right (fun n a => width n + a) 0 ns)). lia.
Qed.

(** C18, first part: building the tower fails exactly when the 64 bits are exhausted. *)
Theorem C18_tower_fails_iff_bits_exhausted : forall n ns, n < 2 ^ 64 -> Forall (fun m => m < 2 ^ 64) ns ->
  (eh_tower n ns = None <-> 64 < total_width (n :: ns)).
Proof.
  intros n ns Hn Hns. pose proof (eh_levels_ok ns (eh_new n) 0 n (eh_new_ok n Hn) Hns) as H.
  unfold eh_tower. destruct (eh_levels (eh_new n) ns) as [l|].
  - split; [discriminate|]. intros H2. exfalso. destruct H as [H _]. lia.
  - split; auto.
Qed.
(** Second part: the hash at each level is the number in its own bit range, above the previous levels'. *)
Theorem C18_levels_use_consecutive_bit_ranges : forall n ns l, n < 2 ^ 64 -> Forall (fun m => m < 2 ^ 64) ns ->
  eh_tower n ns = Some l ->
  Forall2 (fun h p => (forall x, finish h x = bits (fst p) (width (snd p)) x) /\ fst p + width (snd p) <= 64)
    l (combine (offsets 0 (n :: ns)) (n :: ns)).
Proof.
  intros n ns l Hn Hns E. pose proof (eh_levels_ok ns (eh_new n) 0 n (eh_new_ok n Hn) Hns) as H.
  unfold eh_tower in E. rewrite E in H. destruct H as [_ H].
  clear - H. induction H as [|h p l q H1 H2 IH]; constructor; [|exact IH].
  split; [intros x; apply finish_bits; exact H1|destruct H1 as (_ & _ & _ & H1); exact H1].
Qed.
(** A bit range depends on nothing else: words that agree on it are not distinguished ... *)
Lemma bits_ext off w x y : (forall b, off <= b < off + w -> N.testbit x b = N.testbit y b) -> bits off w x = bits off w y.
Proof.
  intros H. unfold bits. apply N.bits_inj. intros b. destruct (N.lt_ge_cases b w).
  - rewrite !N.mod_pow2_bits_low, !N.div_pow2_bits by auto. apply H. lia.
  - rewrite !N.mod_pow2_bits_high by auto. auto.
Qed.
Theorem C18_depends_only_on_its_bits : forall n ns l i h, n < 2 ^ 64 -> Forall (fun m => m < 2 ^ 64) ns ->
  eh_tower n ns = Some l -> nth_error l i = Some h ->
  exists off w, nth_error (combine (offsets 0 (n :: ns)) (n :: ns)) i = Some (off, w) /\
    forall x y, (forall b, off <= b < off + width w -> N.testbit x b = N.testbit y b) -> finish h x = finish h y.
Proof.
  intros n ns l i h Hn Hns E Hi. pose proof (C18_levels_use_consecutive_bit_ranges n ns l Hn Hns E) as H.
  clear Hn Hns E. revert i Hi. induction H as [|h0 p l q [H1 H1'] H2 IH]; intros [|i] Hi; cbn in Hi; try discriminate.
  - injection Hi as ->. destruct p as [off w]. exists off, w. split; auto. intros x y Hxy.
    rewrite !H1. apply bits_ext. auto.
  - apply IH. auto.
Qed.
(** ... the ranges are disjoint ... *)
Theorem C18_ranges_disjoint : forall ns off i j p q, (i < j)%nat ->
  nth_error (combine (offsets off ns) ns) i = Some p -> nth_error (combine (offsets off ns) ns) j = Some q ->
  fst p + width (snd p) <= fst q.
Proof.
  assert (G : forall ns off j q, nth_error (combine (offsets off ns) ns) j = Some q -> off <= fst q).
  { induction ns as [|n ns IH]; intros off [|j] q H; cbn in H; try discriminate.
    - injection H as <-. cbn. lia.
    - apply IH in H. pose proof (width_pos n). lia. }
  induction ns as [|n ns IH]; intros off [|i] [|j] p q Hij Hp Hq; cbn in Hp, Hq; try discriminate; try lia.
  - injection Hp as <-. cbn. apply G in Hq. lia.
  - eapply (IH _ i j); eauto. lia.
Qed.
(** ... and the levels are independent: every combination of hashes below 2^width is reached by some word. *)
Theorem C18_levels_independent : forall n ns l, n < 2 ^ 64 -> Forall (fun m => m < 2 ^ 64) ns ->
  eh_tower n ns = Some l ->
  forall vs, Forall2 (fun v m => v < 2 ^ width m) vs (n :: ns) ->
  exists x, x < 2 ^ 64 /\ map (fun h => finish h x) l = vs.
Proof.
  intros n ns l Hn Hns E vs Hvs.
  pose proof (C18_levels_use_consecutive_bit_ranges n ns l Hn Hns E) as H.
  assert (Hw : total_width (n :: ns) <= 64).
  { destruct (N.le_gt_cases (total_width (n :: ns)) 64); auto. apply C18_tower_fails_iff_bits_exhausted in H0; auto. congruence. }
  assert (G : forall ms vs off, Forall2 (fun v m => v < 2 ^ width m) vs ms ->
    exists x, x < 2 ^ total_width ms /\ map (fun p => bits (fst p) (width (snd p)) (x * 2 ^ off)) (combine (offsets off ms) ms) = vs).
  { clear. induction ms as [|m ms IH]; intros vs off Hv; inversion Hv as [|v m' vs' ms' Hv1 Hv2]; subst.
    - exists 0. cbn. split; auto. lia.
    - destruct (IH vs' (off + width m) Hv2) as (x & X1 & X2). exists (v + 2 ^ width m * x). cbn [total_width fold_right]. split.
      + rewrite N.pow_add_r. set (a := 2 ^ width m) in *. fold (total_width ms). set (b := 2 ^ total_width ms) in *.
        assert (a * x + a <= a * b) by nia. lia.
      + cbn [offsets combine map fst snd]. f_equal.
        * unfold bits. rewrite N.div_mul by (apply N.pow_nonzero; lia).
          rewrite N.mul_comm, N.mod_add by (apply N.pow_nonzero; lia). apply N.mod_small; auto.
        * rewrite <- X2. apply map_ext_in. intros [o w] Hin. cbn [fst snd]. apply bits_ext. intros b [Hb _].
          assert (Ho : off + width m <= o).
          { apply In_nth_error in Hin as [j Hj]. clear - Hj. revert off m j Hj.
            assert (G : forall ns off j q, nth_error (combine (offsets off ns) ns) j = Some q -> off <= fst q).
            { induction ns as [|n ns IH]; intros off [|j] q H; cbn in H; try discriminate.
              - injection H as <-. cbn. lia.
              - apply IH in H. pose proof (width_pos n). lia. }
            intros. apply G in Hj. auto. }
          rewrite N.mul_add_distr_r. replace (2 ^ width m * x * 2 ^ off) with (x * 2 ^ (off + width m)) by (rewrite N.pow_add_r; lia).
          assert (Hsmall : v * 2 ^ off < 2 ^ (off + width m)).
          { rewrite N.pow_add_r. assert (0 < 2 ^ off) by (apply N.neq_0_lt_0, N.pow_nonzero; lia). nia. }
          set (w1 := off + width m) in *. replace b with ((b - w1) + w1) by lia.
          rewrite <- !N.div_pow2_bits. rewrite N.div_add by (apply N.pow_nonzero; lia). rewrite N.div_small by auto.
          rewrite N.div_mul by (apply N.pow_nonzero; lia). rewrite N.add_0_l. auto. }
  destruct (G (n :: ns) vs 0 Hvs) as (x & X1 & X2). exists x. split.
  - eapply N.lt_le_trans; [exact X1|]. apply N.pow_le_mono_r; lia.
  - rewrite <- X2. rewrite N.pow_0_r, N.mul_1_r. clear - H.
    induction H as [|h p l q [H1 _] H2 IH]; cbn; auto. rewrite H1, IH. auto.
Qed.
(** The hash at a level ranges below a power of two greater than the number of its sets. *)
Theorem C18_range_covers_sets : forall n, 1 <= n -> n < 2 ^ width n.
Proof. intros n Hn. unfold width. rewrite N.add_1_r. apply N.log2_spec. lia. Qed.

Example c18_case : exists l, eh_tower 7 [7; 100; 3] = Some l /\ eh_tower (2 ^ 63) [1] = None /\
  map (fun h => finish h 123456789012345) l <> [0; 0; 0; 0].
Proof. eexists. split; [vm_compute; reflexivity|]. split; [reflexivity|]. vm_compute. discriminate. Qed.

Print Assumptions C34_chunk_size_is_next_power_of_two.
Print Assumptions C18_tower_fails_iff_bits_exhausted.
Print Assumptions C18_levels_use_consecutive_bit_ranges.
Print Assumptions C18_levels_independent.
