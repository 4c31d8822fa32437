(** PStreamFaults.v -- property theorems: C78 (ByteStream on storage whose operations fail). *)
From Coq Require Import ZArith NArith Sorting.Sorted Init.Byte Strings.Byte.
From Verif Require Import Base PermSolve Block Spec Cut BTree BTreeProof KMin PKMin LawsProof Hasher PHasher Stream PStream IOVec IOVecProof ByteStream ByteStreamProof PByteStream
  Quota PQuota Faults StreamFaults.
Set Implicit Arguments.

(** ** Readers *)
Section Readers.
Variable nf : sfaults.
Notation F := (FaultyStream nf).
Variable T : Type.
Variable de : list byte -> option T.
Variable ser : T -> option (list byte).

Definition whole_h (h : shandle) : Prop := whole (snd h).
Definition calm_b (b : bufreader F) : bufreader VecStream := @mkBR VecStream (br_w b) (fst (br_h b)) (br_buf b).

Lemma next_whole fs : Forall whole1 fs -> whole1 (fst (next_fault fs)) /\ Forall whole1 (snd (next_fault fs)).
Proof. intros H. destruct fs as [|f fs]; [split; [exact I|constructor]|]. inversion H; subst. split; assumption. Qed.
Lemma br_read_whole (b : bufreader F) n : whole_h (br_h b) -> let (b', r) := br_read b n in
  whole_h (br_h b') /\ (r = None \/ br_read (calm_b b) n = (calm_b b', r)).
Proof.
  destruct b as [w [pos [own cl]] buf]. unfold whole_h, whole, br_read, calm_b. cbn [br_w br_h br_buf fst snd]. intros [H1 H2].
  destruct buf as [|z zs]; [|split; [split; assumption|right; reflexivity]].
  cbn [s_read FaultyStream VecStream]. unfold r_read. destruct (next_whole H1) as [W1 W2].
  destruct (bufcap <=? n).
  - destruct (next_fault own) as [[| |m] fs]; cbn [fst snd] in W1, W2; [|split; [split; assumption|left; reflexivity]|destruct W1].
    destruct (vs_read w pos n) as [[w' p'] r]. split; [split; assumption|right; reflexivity].
  - destruct (next_fault own) as [[| |m] fs]; cbn [fst snd] in W1, W2; [|split; [split; assumption|left; reflexivity]|destruct W1].
    destruct (vs_read w pos bufcap) as [[w' p'] [r|]]; cbn [br_h fst snd]; split; try (split; assumption); right; reflexivity.
Qed.
Lemma iter_next_whole c (b : bufreader F) : whole_h (br_h b) -> match iter_next de c b with
  | Panic => True
  | Ok (b', o) => whole_h (br_h b') /\ iter_next de c (calm_b b) = Ok (calm_b b', o) end.
Proof.
  intros H. unfold iter_next. pose proof (br_read_whole b c H) as G. destruct (br_read b c) as [b' r]. destruct G as [G1 [-> | ->]]; [exact I|].
  destruct (chunk_from c r) as [[ch|]|]; auto. destruct (de ch); auto.
Qed.
Lemma iter_find_whole {A} (p : nat -> T -> option A) c fuel : forall j (b : bufreader F), whole_h (br_h b) ->
  iter_find de p c fuel j b = Panic \/ iter_find de p c fuel j b = iter_find de p c fuel j (calm_b b).
Proof.
  induction fuel as [|fuel IH]; intros j b H; cbn [iter_find]; auto. pose proof (iter_next_whole c b H) as G.
  destruct (iter_next de c b) as [[b' [x|]]|]; [| |auto]; destruct G as [G1 ->]; cbn [bind]; [|auto]. destruct (p j x); [auto|]. apply IH. exact G1.
Qed.
Lemma iter_list_whole c fuel : forall (b : bufreader F), whole_h (br_h b) ->
  iter_list de c fuel b = Panic \/ iter_list de c fuel b = iter_list de c fuel (calm_b b).
Proof.
  induction fuel as [|fuel IH]; intros b H; cbn [iter_list]; auto. pose proof (iter_next_whole c b H) as G.
  destruct (iter_next de c b) as [[b' [x|]]|]; [| |auto]; destruct G as [G1 ->]; cbn [bind]; [|auto].
  destruct (IH b' G1) as [-> | ->]; auto.
Qed.
(** The iterator of a vector: it is there, or the vector cannot be iterated. *)
Lemma clone_whole (h : shandle) : whole_h h -> whole_h (fst h, clone_faults (snd (snd h))).
Proof. destruct h as [pos [own cl]]. unfold whole_h, whole, clone_faults. cbn [fst snd]. intros [_ H]. split; [apply H|intros d; apply H]. Qed.
Lemma iv_iter_whole (v : iovec F) : whole_h (iv_h v) ->
  iv_iter v = Panic \/ exists b, iv_iter v = Ok b /\ whole_h (br_h b) /\ iv_iter (calm_v v) = Ok (calm_b b) /\ iv_fuel v = iv_fuel (calm_v v).
Proof.
  destruct v as [w [pos [own cl]] c]. unfold whole_h, whole, iv_iter, iv_fuel, iv_size, calm_v. cbn [iv_w iv_h iv_chunk s_seek s_clone FaultyStream VecStream fst snd]. intros [H1 H2].
  unfold f_seek, clone_faults. destruct (next_whole (H2 0)) as [W1 W2]. destruct (next_fault (cl 0)) as [[| |m] fs]; cbn [fst snd] in W1, W2; [|left; reflexivity|destruct W1].
  right. eexists. split; [reflexivity|]. cbn [br_new br_h]. split; [split; [exact W2|intros d; apply H2]|]. split; reflexivity.
Qed.
Lemma iv_find_whole {A} (p : nat -> T -> option A) (v : iovec F) : whole_h (iv_h v) ->
  iv_find de p v = Panic \/ iv_find de p v = iv_find de p (calm_v v).
Proof.
  intros H. unfold iv_find. destruct (iv_iter_whole v H) as [-> | (b & -> & Hb & -> & ->)]; auto. cbn [bind]. apply iter_find_whole. exact Hb.
Qed.
Lemma iv_list_whole (v : iovec F) : whole_h (iv_h v) ->
  iv_list de v = Panic \/ iv_list de v = iv_list de (calm_v v).
Proof.
  intros H. unfold iv_list. destruct (iv_iter_whole v H) as [-> | (b & -> & Hb & -> & ->)]; auto. cbn [bind]. apply iter_list_whole. exact Hb.
Qed.
(** swap_remove does all its work, or says that it failed and has changed no byte, or panics. *)
Lemma seek_whole (w : list byte) h x : whole_h h -> exists h' r, f_seek w h x = (w, h', r) /\ whole_h h' /\
  (r = None \/ vs_seek w (fst h) x = (w, fst h', r)).
Proof.
  destruct h as [pos [own cl]]. unfold whole_h, whole, f_seek. cbn [fst snd]. intros [H1 H2]. destruct (next_whole H1) as [W1 W2].
  destruct (next_fault own) as [[| |m] fs]; cbn [fst snd] in W1, W2; [| |destruct W1].
  - unfold vs_seek. eexists. eexists. split; [reflexivity|]. split; [split; assumption|right; reflexivity].
  - eexists. eexists. split; [reflexivity|]. split; [split; assumption|left; reflexivity].
Qed.
Lemma read_whole (w : list byte) h n : whole_h h -> exists h' r, r_read w h n = (w, h', r) /\ whole_h h' /\
  (r = None \/ vs_read w (fst h) n = (w, fst h', r)).
Proof.
  destruct h as [pos [own cl]]. unfold whole_h, whole, r_read. cbn [fst snd]. intros [H1 H2]. destruct (next_whole H1) as [W1 W2].
  destruct (next_fault own) as [[| |m] fs]; cbn [fst snd] in W1, W2; [| |destruct W1].
  - unfold vs_read. destruct (length w <=? pos); eexists; eexists; (split; [reflexivity|]); split; try (split; assumption); right; reflexivity.
  - eexists. eexists. split; [reflexivity|]. split; [split; assumption|left; reflexivity].
Qed.
Lemma write_whole (w : list byte) h buf : whole_h h -> match f_write w h buf with
  | Panic => True
  | Ok (w', h', None) => w' = w /\ whole_h h'
  | Ok (w', h', Some n) => vs_write w (fst h) buf = Ok (w', fst h', Some n) /\ whole_h h' end.
Proof.
  destruct h as [pos [own cl]]. unfold whole_h, whole, f_write. cbn [fst snd]. intros [H1 H2]. destruct (next_whole H1) as [W1 W2].
  destruct (next_fault own) as [[| |m] fs]; cbn [fst snd] in W1, W2; [| |destruct W1].
  - unfold vs_write. destruct (sub_chk (length w) pos); cbn [bind]; [|exact I]. split; [reflexivity|split; assumption].
  - split; [reflexivity|split; assumption].
Qed.
Lemma resize_whole (w : list byte) h n : whole_h h -> exists w' h' r, f_resize w h n = (w', h', r) /\ whole_h h' /\
  (r = None \/ vs_resize w (fst h) n = (w', fst h', r)).
Proof.
  destruct h as [pos [own cl]]. unfold whole_h, whole, f_resize. cbn [fst snd]. intros [H1 H2]. destruct (next_whole H1) as [W1 W2].
  destruct (next_fault own) as [[| |m] fs]; cbn [fst snd] in W1, W2; [| |destruct W1].
  - unfold vs_resize. eexists. eexists. eexists. split; [reflexivity|]. split; [split; assumption|right; reflexivity].
  - eexists. eexists. eexists. split; [reflexivity|]. split; [split; assumption|left; reflexivity].
Qed.
Lemma swap_remove_whole (v : iovec F) j : whole_h (iv_h v) -> match iv_swap_remove de v j with
  | Panic => True
  | Ok (v', None) => whole_h (iv_h v') /\ (iv_w v' : list byte) = iv_w v /\ iv_chunk v' = iv_chunk v
  | Ok (v', Some r) => whole_h (iv_h v') /\ iv_swap_remove de (calm_v v) j = Ok (calm_v v', Some r) end.
Proof.
  destruct v as [w h c]. unfold iv_swap_remove, calm_v. cbn [iv_w iv_h iv_chunk s_seek s_read s_write s_resize FaultyStream VecStream]. intros H.
  destruct (@seek_whole w h (SeekStart (j * c)) H) as (h1 & r1 & -> & H1 & E1). destruct r1 as [n1|]; [|cbn [iv_w iv_h iv_chunk]; auto].
  destruct E1 as [E1|E1]; [discriminate|]. rewrite E1. clear E1.
  destruct (@read_whole w h1 c H1) as (h2 & r2 & -> & H2 & E2). destruct r2 as [b2|]; [|cbn [chunk_from iv_w iv_h iv_chunk]; auto].
  destruct E2 as [E2|E2]; [discriminate|]. rewrite E2. clear E2.
  destruct (match chunk_from c (Some b2) with None => None | Some None => Some None | Some (Some buf) => match de buf with Some o => Some (Some o) | None => None end end) as [item|];
    [|cbn [iv_w iv_h iv_chunk]; auto].
  destruct (@seek_whole w h2 (SeekEnd 0) H2) as (h3 & r3 & -> & H3 & E3). destruct r3 as [ende|]; [|cbn [iv_w iv_h iv_chunk]; auto].
  destruct E3 as [E3|E3]; [discriminate|]. rewrite E3. clear E3.
  destruct (ende <? c); [cbn [iv_w iv_h iv_chunk]; auto|].
  assert (G : forall w4 h4, whole_h h4 -> match (let '(w5, h5, r4) := f_resize w4 h4 (ende - c) in match r4 with None => Panic | Some _ => Ok (@mkIV F w5 h5 c, Some item) end) with
    | Panic => True
    | Ok (v', None) => whole_h (iv_h v') /\ (iv_w v' : list byte) = w /\ iv_chunk v' = c
    | Ok (v', Some r) => whole_h (iv_h v') /\ (let '(w5, h5, r4) := vs_resize w4 (fst h4) (ende - c) in match r4 with None => Panic | Some _ => Ok (@mkIV VecStream w5 h5 c, Some item) end) =
        Ok (@mkIV VecStream (iv_w v') (fst (iv_h v')) (iv_chunk v'), Some r) end).
  { intros w4 h4 H4. destruct (@resize_whole w4 h4 (ende - c) H4) as (w5 & h5 & r5 & -> & H5 & E5). destruct r5; [|exact I].
    destruct E5 as [E5|E5]; [discriminate|]. rewrite E5. cbn [iv_w iv_h iv_chunk]. auto. }
  destruct (j * c <? ende - c); [|cbn [bind]; apply G; exact H3].
  destruct (@seek_whole w h3 (SeekStart (ende - c)) H3) as (h4 & r4 & -> & H4 & E4). destruct r4 as [n4|]; [|cbn [bind iv_w iv_h iv_chunk]; auto].
  destruct E4 as [E4|E4]; [discriminate|]. rewrite E4. clear E4.
  destruct (@read_whole w h4 c H4) as (h5 & r5 & -> & H5 & E5). destruct r5 as [b5|]; [|cbn [chunk_from bind iv_w iv_h iv_chunk]; auto].
  destruct E5 as [E5|E5]; [discriminate|]. rewrite E5. clear E5.
  destruct (chunk_from c (Some b5)) as [[last|]|]; [|exact I|cbn [bind iv_w iv_h iv_chunk]; auto].
  destruct (@seek_whole w h5 (SeekStart (j * c)) H5) as (h6 & r6 & -> & H6 & E6). destruct r6 as [n6|]; [|cbn [bind iv_w iv_h iv_chunk]; auto].
  destruct E6 as [E6|E6]; [discriminate|]. rewrite E6. clear E6.
  pose proof (@write_whole w h6 last H6) as W. destruct (f_write w h6 last) as [[[w7 h7] [n7|]]|]; cbn [bind]; [| |exact I].
  - destruct W as [E7 H7]. rewrite E7. cbn [bind]. apply G. exact H7.
  - destruct W as [-> H7]. cbn [iv_w iv_h iv_chunk]. auto.
Qed.
(** get_mut: what is written back is written whole, or the drop panics. *)
Lemma write_all_whole fuel : forall (w : list byte) h buf, whole_h h -> match write_loop F fuel w h buf with
  | Ok (w', h', rest, true) => write_loop VecStream fuel w (fst h) buf = Ok (w', fst h', rest, true)
  | _ => True end.
Proof.
  induction fuel as [|fuel IH]; intros w h [|z zs] H; cbn [write_loop]; auto. cbn [s_write FaultyStream VecStream].
  pose proof (@write_whole w h (z :: zs) H) as W. destruct (f_write w h (z :: zs)) as [[[w' h'] [n|]]|]; cbn [bind]; auto.
  destruct W as [E H']. rewrite E. cbn [bind]. destruct n as [|n]; [exact I|]. apply IH. exact H'.
Qed.
Lemma write_back_whole (w : list byte) h pos item : whole_h h ->
  write_back F ser w h pos item = Panic \/ write_back F ser w h pos item = write_back VecStream ser w (fst h) pos item.
Proof.
  intros H. unfold write_back. cbn [s_seek FaultyStream VecStream]. destruct (@seek_whole w h (SeekStart pos) H) as (h1 & r1 & -> & H1 & E1).
  destruct r1 as [n1|]; [|auto]. destruct E1 as [E1|E1]; [discriminate|]. rewrite E1. destruct (ser item) as [bytes|]; [|auto].
  unfold write_all. pose proof (@write_all_whole (length bytes) w h1 bytes H1) as W. destruct (write_loop F (length bytes) w h1 bytes) as [[[[w2 h2] rest] [|]]|]; cbn [bind]; auto.
  rewrite W. cbn [bind]. auto.
Qed.
Definition whole_im (m : itermut F) : Prop := whole_h (br_h (im_br m)) /\ whole_h (im_pos m).
Definition calm_im (m : itermut F) : itermut VecStream := @mkIM VecStream (calm_b (im_br m)) (fst (im_pos m)).
Lemma iter_mut_next_whole c (m : itermut F) : whole_im m -> match iter_mut_next de c m with
  | Panic => True
  | Ok (m', None) => whole_im m' /\ iter_mut_next de c (calm_im m) = Ok (calm_im m', None)
  | Ok (m', Some (x, pos, cur)) => whole_im m' /\ whole_h cur /\ iter_mut_next de c (calm_im m) = Ok (calm_im m', Some (x, pos, fst cur)) end.
Proof.
  destruct m as [b ph]. unfold whole_im, calm_im, iter_mut_next. cbn [im_br im_pos]. intros [Hb Hp].
  pose proof (br_read_whole b c Hb) as G. destruct (br_read b c) as [b' r]. destruct G as [G1 [-> | G2]]; [exact I|]. rewrite G2.
  destruct (chunk_from c r) as [[ch|]|]; auto. destruct (de ch) as [x|]; auto.
  unfold struct_mut_pos. cbn [s_seek s_clone FaultyStream VecStream br_w calm_b]. pose proof (@clone_whole ph Hp) as Hc.
  destruct (@seek_whole (br_w b') (fst ph, clone_faults (snd (snd ph))) (SeekCurrent 0) Hc) as (h1 & r1 & -> & H1 & E1).
  destruct r1 as [pos|]; [|exact I]. destruct E1 as [E1|E1]; [discriminate|]. cbn [fst] in E1. rewrite E1.
  destruct (@seek_whole (br_w b') ph (SeekCurrent (Z.of_nat c)) Hp) as (h2 & r2 & -> & H2 & E2). destruct r2 as [q|]; [|exact I].
  destruct E2 as [E2|E2]; [discriminate|]. rewrite E2. auto.
Qed.
Lemma iter_mut_find_whole (p : T -> bool) f c fuel : forall (m : itermut F), whole_im m ->
  iter_mut_find ser de p f c fuel m = Panic \/ iter_mut_find ser de p f c fuel m = iter_mut_find ser de p f c fuel (calm_im m).
Proof.
  induction fuel as [|fuel IH]; intros m H; cbn [iter_mut_find]; auto. pose proof (iter_mut_next_whole c H) as G.
  destruct (iter_mut_next de c m) as [[m' [[[x pos] cur]|]]|]; [| |auto].
  - destruct G as (G1 & G2 & ->). cbn [bind]. destruct (p x); [|apply IH; exact G1].
    destruct (@write_back_whole (br_w (im_br m')) cur pos (f x) G2) as [-> | ->]; [auto|]. right. reflexivity.
  - destruct G as [_ ->]. auto.
Qed.
Lemma iv_find_mut_whole (p : T -> bool) f (v : iovec F) : whole_h (iv_h v) ->
  match iv_find_mut ser de p f v with
  | Panic => True
  | Ok None => iv_find_mut ser de p f (calm_v v) = Ok None
  | Ok (Some (v', x)) => iv_find_mut ser de p f (calm_v v) = Ok (Some (calm_v v', x)) end.
Proof.
  intros H. pose proof (iv_iter_whole v H) as I1. unfold iv_iter, iv_find_mut in *. cbn [s_seek s_clone FaultyStream VecStream] in *.
  destruct v as [w h c]. cbn [iv_w iv_h iv_chunk calm_v] in *. pose proof (@clone_whole h H) as Hc.
  destruct (@seek_whole w (fst h, clone_faults (snd (snd h))) (SeekStart 0) Hc) as (h1 & r1 & E0 & H1 & E1). rewrite E0 in *.
  destruct r1 as [n1|]; [|exact I]. destruct E1 as [E1|E1]; [discriminate|]. cbn [fst] in E1. rewrite E1 in *.
  destruct I1 as [I1|(b & _ & _ & _ & Ef)]; [discriminate|]. unfold calm_v in Ef. cbn [iv_w iv_h iv_chunk] in Ef. rewrite Ef.
  assert (W : whole_im (mkIM (br_new F w h1) (fst h1, clone_faults (snd (snd h1))))) by (split; [exact H1|apply clone_whole; exact H1]).
  destruct (@iter_mut_find_whole p f c (@iv_fuel VecStream (@mkIV VecStream w (fst h) c)) _ W) as [-> | ->]; [exact I|].
  change (calm_im _) with (@mkIM VecStream (br_new VecStream w (fst h1)) (fst h1)).
  destruct (iter_mut_find ser de p f c _ _) as [[[w' x]|]|]; cbn [bind option_map fst snd]; auto.
Qed.
End Readers.

Section PStreamFaults.
Context {K V : Type} {OK : Ord K} {OV : Ord V} {EK : OrdEq K}.
Variable bs : BSearch K.
Variable ser : K * V -> option (list byte).
Variable de : list byte -> option (K * V).
Notation T := (K * V)%type.
Notation Bv := (ByteStreamB VecStream bs ser de).
Notation Bf nf := (ByteStreamB (FaultyStream nf) bs ser de).
Notation held := (bs_ct de).

(** ** The calls that return *)
Section Calls.
Variable nf : sfaults.
Notation F := (FaultyStream nf).
Definition whole_slot (o : option (iovec F)) : Prop := match o with Some v => whole_h (iv_h v) | None => True end.
Notation calms := (map (option_map (@calm_v nf))).

Lemma slots_find_whole {A} (p : nat -> nat -> T -> option A) : forall (sl : list (option (iovec F))) i, Forall whole_slot sl ->
  slots_find de p i sl = Panic \/ slots_find de p i sl = slots_find de p i (calms sl).
Proof.
  induction sl as [|[v|] sl IH]; intros i H; cbn [slots_find map option_map]; auto; inversion H as [|? ? H1 H2]; subst; [|apply IH; exact H2].
  destruct (iv_find_whole de (p i) v H1) as [-> | ->]; [auto|]. destruct (iv_find de (p i) (calm_v v)) as [[a|]|]; cbn [bind]; auto.
Qed.
Lemma tm_slots_whole : forall (sl : list (option (iovec F))) ks, Forall whole_slot sl ->
  bs_tm_slots bs de ks sl = Panic \/ bs_tm_slots bs de ks sl = bs_tm_slots bs de ks (calms sl).
Proof.
  induction sl as [|[v|] sl IH]; intros ks H; cbn [bs_tm_slots map option_map]; auto; inversion H as [|? ? H1 H2]; subst; [|apply IH; exact H2].
  destruct (iv_list_whole de v H1) as [-> | ->]; [auto|]. destruct (iv_list de (calm_v v)) as [l|]; cbn [bind]; [|auto].
  destruct (bs_tm_loop bs ks l) as [ks1 out1]. destruct (IH ks1 H2) as [-> | ->]; auto.
Qed.
Lemma collect_whole : forall (sl : list (option (iovec F))) i m, Forall whole_slot sl ->
  bs_collect de i sl m = Panic \/ bs_collect de i sl m = bs_collect de i (calms sl) m.
Proof.
  induction sl as [|[v|] sl IH]; intros i m H; cbn [bs_collect map option_map]; auto; inversion H as [|? ? H1 H2]; subst; [|apply IH; exact H2].
  destruct (iv_list_whole de v H1) as [-> | ->]; [auto|]. destruct (iv_list de (calm_v v)) as [l|]; cbn [bind]; [|auto].
  change (iv_chunk (calm_v v)) with (iv_chunk v). destruct (km_push_all m _) as [m'|]; cbn [bind]; auto.
Qed.
Lemma calm_faulty_slot f o : option_map (@calm_v nf) (faulty_slot nf f o) = o.
Proof. destruct o as [[w h c]|]; reflexivity. Qed.
Lemma calm_faulty_slots fs : forall sl i, calms (faulty_slots nf fs i sl) = sl.
Proof. induction sl as [|o sl IH]; intros i; cbn [faulty_slots map]; [reflexivity|]. rewrite IH, calm_faulty_slot. reflexivity. Qed.
Lemma calm_faulty_bs fs s : calm_bs (faulty_bs nf fs s) = s.
Proof. destruct s as [sl cap]. unfold calm_bs, faulty_bs. cbn [st_slots st_cap]. rewrite calm_faulty_slots. reflexivity. Qed.
Lemma faulty_whole fs : (forall i, whole (fs i)) -> forall sl i, Forall whole_slot (faulty_slots nf fs i sl).
Proof.
  intros H. induction sl as [|o sl IH]; intros i; cbn [faulty_slots]; constructor; auto. destruct o as [v|]; [exact (H i)|exact I].
Qed.
Lemma whole_nth sl i (v : iovec F) : Forall whole_slot sl -> nth_error sl i = Some (Some v) -> whole_h (iv_h v).
Proof. intros H E. apply nth_error_In in E. rewrite Forall_forall in H. exact (H _ E). Qed.
Lemma calms_nth sl i : nth_error (calms sl) i = option_map (option_map (@calm_v nf)) (nth_error sl i).
Proof. apply nth_error_map. Qed.
Lemma take_whole (s : bstream F) k : Forall whole_slot (st_slots s) -> match bs_take de s k with
  | Panic => True
  | Ok (s', o) => bs_take de (calm_bs s) k = Ok (calm_bs s', o) end.
Proof.
  intros H. unfold bs_take. set (p := fun (i j : nat) (kv : T) => if eqb (fst kv) k then Some (i, j) else None).
  change (st_slots (calm_bs s)) with (calms (st_slots s)).
  destruct (@slots_find_whole _ p (st_slots s) 0 H) as [-> | ->]; [exact I|].
  destruct (slots_find de p 0 (calms (st_slots s))) as [[[i j]|]|]; cbn [bind]; [|reflexivity|exact I].
  rewrite calms_nth. destruct (nth_error (st_slots s) i) as [[v|]|] eqn:E; cbn [option_map unwrap bind]; try exact I.
  pose proof (swap_remove_whole de v j (whole_nth i H E)) as G. destruct (iv_swap_remove de v j) as [[v' [[kv|]|]]|]; cbn [bind]; try exact I.
  destruct G as [_ ->]. cbn [bind]. unfold calm_bs. cbn [st_slots st_cap]. rewrite map_replace_nth. reflexivity.
Qed.
Lemma slots_mut_whole k f : forall (sl : list (option (iovec F))), Forall whole_slot sl -> match bs_slots_mut ser de k f sl with
  | Panic => True
  | Ok (sl', o) => bs_slots_mut ser de k f (calms sl) = Ok (calms sl', o) end.
Proof.
  induction sl as [|[v|] sl IH]; intros H; cbn [bs_slots_mut map option_map]; auto; inversion H as [|? ? H1 H2]; subst.
  - pose proof (iv_find_mut_whole de ser (fun kv => eqb (fst kv) k) (fun kv => (fst kv, f (snd kv))) v H1) as G.
    destruct (iv_find_mut ser de (fun kv => eqb (fst kv) k) (fun kv => (fst kv, f (snd kv))) v) as [[[v' x]|]|]; cbn [bind]; auto; rewrite G; cbn [bind]; [reflexivity|].
    specialize (IH H2). destruct (bs_slots_mut ser de k f sl) as [[sl' o]|]; cbn [bind]; auto. rewrite IH. reflexivity.
  - specialize (IH H2). destruct (bs_slots_mut ser de k f sl) as [[sl' o]|]; cbn [bind]; auto. rewrite IH. reflexivity.
Qed.
End Calls.

(** Whatever fails, a lookup or a take that returns answers what it answers on storage that works, and does what it
    does there. *)
Theorem C78_returns_right : forall nf fs s, (forall i, whole (fs i)) ->
  (forall k, contains (Bf nf) (faulty_bs nf fs s) k = Panic \/ contains (Bf nf) (faulty_bs nf fs s) k = contains Bv s k) /\
  (forall k, bs_get de (faulty_bs nf fs s) k = Panic \/ bs_get de (faulty_bs nf fs s) k = bs_get de s k) /\
  (forall k s' o, take (Bf nf) (faulty_bs nf fs s) k = Ok (s', o) -> take Bv s k = Ok (calm_bs s', o)) /\
  (forall ks s' ks' out, take_multiple (Bf nf) (faulty_bs nf fs s) ks = Ok (s', ks', out) -> take_multiple Bv s ks = Ok (calm_bs s', ks', out)) /\
  (forall k f s' o, bs_get_mut ser de (faulty_bs nf fs s) k f = Ok (s', o) -> bs_get_mut ser de s k f = Ok (calm_bs s', o)).
Proof.
  intros nf fs s H. pose proof (faulty_whole nf fs H (st_slots s) 0) as W. split; [|split; [|split; [|split]]].
  - intros k. cbn [contains ByteStreamB]. unfold bs_contains. cbn [faulty_bs st_slots].
    set (p := fun (_ _ : nat) (kv : T) => if eqb (fst kv) k then Some tt else None).
    destruct (@slots_find_whole nf _ p _ 0 W) as [-> | ->]; [auto|right]. rewrite calm_faulty_slots. reflexivity.
  - intros k. unfold bs_get. cbn [faulty_bs st_slots].
    set (p := fun (_ _ : nat) (kv : T) => if eqb (fst kv) k then Some (snd kv) else None).
    destruct (@slots_find_whole nf _ p _ 0 W) as [-> | ->]; [auto|right]. rewrite calm_faulty_slots. reflexivity.
  - intros k s' o E. cbn [take ByteStreamB] in *. pose proof (@take_whole nf (faulty_bs nf fs s) k W) as G. rewrite E, calm_faulty_bs in G. exact G.
  - intros ks s' ks' out E. cbn [take_multiple ByteStreamB] in *. unfold bs_take_multiple in *. cbn [faulty_bs st_slots] in E.
    destruct (tm_slots_whole (sort_keys ks) W) as [G|G]; rewrite G in E; [discriminate|]. rewrite calm_faulty_slots in E.
    destruct (bs_tm_slots bs de (sort_keys ks) (st_slots s)) as [[ks1 out1]|]; cbn [bind] in *; [|discriminate]. injection E as <- <- <-.
    change (mkBS (faulty_slots nf fs 0 (st_slots s)) (st_cap s)) with (faulty_bs nf fs s). rewrite calm_faulty_bs. reflexivity.
  - intros k f s' o E. unfold bs_get_mut in *. cbn [faulty_bs st_slots st_cap] in E. pose proof (slots_mut_whole k f W) as G.
    destruct (bs_slots_mut ser de k f (faulty_slots nf fs 0 (st_slots s))) as [[sl' o']|]; cbn [bind] in E; [|discriminate].
    injection E as <- <-. rewrite calm_faulty_slots in G. rewrite G. reflexivity.
Qed.

(** ** What is held, through calls that fail *)
(** Where a handle stands is of no account to the calls below: they all begin by moving. *)
Definition at_end (v : iovec VecStream) : iovec VecStream := @mkIV VecStream (iv_w v) (length (iv_w v : list byte)) (iv_chunk v).
Notation ends := (map (option_map at_end)).
Notation rep := (slots_rep ser de).
Hypothesis Codec : codec_ok ser de.
Hypothesis Sizes : sizes_ok ser.
Definition fault_ok (s : bstream VecStream) : Prop := exists rs, rep 0 (ends (st_slots s)) rs /\ length rs = 64.

Lemma at_end_ok v xs k : iv_ok de v xs k -> iv_ok de (at_end v) xs (length xs).
Proof.
  intros H. pose proof (iv_ok_length H) as HL. destruct H as (Hc & _ & _ & _ & cs & E & F). unfold iv_ok, at_end. cbn [iv_w iv_h iv_chunk].
  split; [exact Hc|]. split; [exact HL|]. split; [lia|]. split; [intros H0; destruct xs; [reflexivity|discriminate]|]. exists cs. auto.
Qed.
Lemma rep_ends : forall sl i rs, rep i sl rs -> rep i (ends sl) (map (fun r => (fst r, length (fst r))) rs).
Proof.
  induction sl as [|o sl IH]; intros i [|r rs] H; cbn [slots_rep map] in *; try tauto. destruct H as [H1 H2]. split; [|apply IH; exact H2].
  destruct o as [v|]; cbn [slot_rep option_map] in *; [|rewrite H1; reflexivity]. destruct H1 as (Hc & Hv & Hf). split; [exact Hc|]. split; [|exact Hf].
  cbn [fst snd]. exact (at_end_ok Hv).
Qed.
Lemma ends_ends sl : ends (ends sl) = ends sl.
Proof. rewrite map_map. apply map_ext. intros [v|]; reflexivity. Qed.
Lemma items_norm rs : items (map (fun r : list T * nat => (fst r, length (fst r))) rs) = items rs.
Proof. unfold items. rewrite map_map. reflexivity. Qed.
Lemma slot_ct_ends sl : map (slot_ct de) (ends sl) = map (slot_ct de) sl.
Proof. rewrite map_map. apply map_ext. intros [v|]; reflexivity. Qed.
Lemma held_rep s rs : rep 0 (ends (st_slots s)) rs -> held s = concat (items rs).
Proof. intros H. unfold bs_ct. rewrite <- slot_ct_ends, (slots_rep_ct _ _ _ _ _ H). reflexivity. Qed.
Lemma replace_same {A} (x : A) : forall l i, nth_error l i = Some x -> replace_nth i x l = l.
Proof. induction l as [|a l IH]; intros [|i] E; cbn in *; try discriminate; [injection E as ->; reflexivity|]. f_equal. apply IH. exact E. Qed.
Lemma collect_ends : forall sl i m, bs_collect de i (ends sl) m = bs_collect de i sl m.
Proof.
  induction sl as [|[v|] sl IH]; intros i m; cbn [bs_collect map option_map]; auto.
  change (iv_list de (at_end v)) with (iv_list de v). change (iv_chunk (at_end v)) with (iv_chunk v). destruct (iv_list de v); cbn [bind]; [|reflexivity].
  destruct (km_push_all m _); cbn [bind]; auto.
Qed.
Lemma find_ends {A} (p : nat -> nat -> T -> option A) : forall sl i, slots_find de p i (ends sl) = slots_find de p i sl.
Proof.
  induction sl as [|[v|] sl IH]; intros i; cbn [slots_find map option_map]; auto.
  change (iv_find de (p i) (at_end v)) with (iv_find de (p i) v). destruct (iv_find de (p i) v) as [[a|]|]; cbn [bind]; auto.
Qed.

Section Held.
Variable nf : sfaults.
Hypothesis Hnf : whole nf.
Notation F := (FaultyStream nf).
Notation calms := (map (option_map (@calm_v nf))).

Lemma faulty_remove sl rs i r j x : Forall (@whole_slot nf) sl -> rep 0 (ends (calms sl)) rs -> nth_error rs i = Some r -> nth_error (fst r) j = Some x ->
  exists v, nth_error sl i = Some (Some v) /\ match iv_swap_remove de v j with
    | Panic => True
    | Ok (v', res) => Forall (@whole_slot nf) (replace_nth i (Some v') sl) /\
        ((res = None /\ rep 0 (ends (calms (replace_nth i (Some v') sl))) rs) \/
         (res = Some (Some x) /\ exists rs', rep 0 (ends (calms (replace_nth i (Some v') sl))) rs' /\ length rs' = length rs /\
            items rs' = replace_nth i (swap_remove j (fst r)) (items rs))) end.
Proof.
  intros W H Er Ej. destruct (slot_remove _ _ _ _ _ _ H Er Ej) as (u & u' & k' & G1 & G2 & G3 & _).
  rewrite !nth_error_map in G1. destruct (nth_error sl i) as [[v|]|] eqn:E; cbn [option_map] in G1; try discriminate. injection G1 as <-.
  exists v. split; [reflexivity|]. pose proof (swap_remove_whole de v j (whole_nth i W E)) as G.
  assert (Er2 : forall v', ends (calms (replace_nth i (Some v') sl)) = replace_nth i (Some (at_end (calm_v v'))) (ends (calms sl))).
  { intros v'. rewrite !map_replace_nth. reflexivity. }
  assert (Wr : forall v' : iovec F, whole_h (iv_h v') -> Forall (@whole_slot nf) (replace_nth i (Some v') sl)).
  { intros v' Hv. apply replace_nth_Forall; auto. }
  destruct (iv_swap_remove de v j) as [[v' [r'|]]|]; [| |exact I]; destruct G as [Hw G]; (split; [apply Wr; exact Hw|]).
  - right. change (iv_swap_remove de (at_end (calm_v v)) j) with (iv_swap_remove de (calm_v v) j) in G2. rewrite G2 in G. injection G as -> <-. split; [reflexivity|].
    pose proof (rep_ends _ _ _ G3) as G4. rewrite map_replace_nth, ends_ends in G4. rewrite Er2. eexists. split; [exact G4|].
    split; [rewrite map_length; apply replace_nth_length|]. rewrite items_norm, items_replace. reflexivity.
  - left. split; [reflexivity|]. rewrite Er2. destruct G as [Gw Gc]. assert (Ea : at_end (calm_v v') = at_end (calm_v v)).
    { unfold at_end, calm_v. cbn [iv_w iv_chunk]. rewrite Gw, Gc. reflexivity. }
    rewrite Ea, replace_same; [exact H|]. rewrite !nth_error_map, E. reflexivity.
Qed.

Lemma take_held (s : bstream F) rs k : Forall (@whole_slot nf) (st_slots s) -> rep 0 (ends (calms (st_slots s))) rs -> length rs = 64 ->
  match bs_take de s k with
  | Panic => True
  | Ok (s', o) => exists rs', rep 0 (ends (calms (st_slots s'))) rs' /\ length rs' = 64 /\
      Permutation (concat (items rs)) (match o with Some x => [x] | None => [] end ++ concat (items rs')) end.
Proof.
  intros W H Hl. unfold bs_take. set (p := fun (i j : nat) (kv : T) => if eqb (fst kv) k then Some (i, j) else None).
  destruct (@slots_find_whole nf _ p (st_slots s) 0 W) as [-> | ->]; [exact I|]. rewrite <- find_ends, (slots_find_ok ser _ p _ _ _ H). cbn [bind].
  pose proof (find_items_spec p (items rs) 0) as Fi. destruct (find_items p 0 (items rs)) as [[i j]|].
  2: { exists rs. auto. }
  destruct Fi as (n & xs & j' & [k' v'] & E1 & E2 & E3). unfold p in E3. cbn [fst plus] in E3.
  destruct (eqb k' k) eqn:Ek; [|discriminate]. injection E3 as <- <-. apply nth_items in E1 as (r & Er & <-).
  destruct (@faulty_remove _ _ _ _ _ _ W H Er E2) as (v & Ev & G). rewrite Ev. cbn [unwrap bind].
  destruct (iv_swap_remove de v j') as [[w [[y|]|]]|]; cbn [bind]; try exact I. destruct G as (_ & [[G _]|(G & rs' & G1 & G2 & G3)]); [discriminate|].
  injection G as ->. exists rs'. split; [exact G1|]. split; [lia|]. rewrite G3. apply concat_replace_perm with (xs := fst r).
  - apply nth_items. eauto.
  - symmetry. apply swap_remove_perm. exact E2.
Qed.

Lemma remove_held : forall (ts : list (@tag K V)) sl rs, Forall (@whole_slot nf) sl -> rep 0 (ends (calms sl)) rs ->
  StronglySorted below (map fst ts) ->
  (forall t, In t ts -> exists xs, nth_error (items rs) (fst (fst t)) = Some xs /\ nth_error xs (snd (fst t)) = Some (snd t)) ->
  match bs_remove de sl (map fst ts) with
  | Panic => True
  | Ok (sl', out) => exists rs', rep 0 (ends (calms sl')) rs' /\ length rs' = length rs /\ Permutation (concat (items rs)) (out ++ concat (items rs')) end.
Proof.
  induction ts as [|[[i j] x] ts IH]; intros sl rs W H Hs Hin; cbn [map bs_remove].
  - exists rs. auto.
  - destruct (Hin _ (or_introl eq_refl)) as (xs & E1 & E2). cbn [fst snd] in E1, E2. apply nth_items in E1 as (r & Er & <-).
    destruct (@faulty_remove _ _ _ _ _ _ W H Er E2) as (v & Ev & G). cbn [fst]. rewrite Ev. cbn [unwrap bind].
    destruct (iv_swap_remove de v j) as [[v' res]|]; cbn [bind]; [|exact I]. destruct G as (W' & [[-> G]|(-> & rs1 & G1 & G2 & G3)]).
    { exists rs. auto. }
    cbn [map] in Hs. inversion Hs as [|? ? Hs1 Hs2]; subst.
    assert (Hj : j < length (fst r)) by (apply nth_error_Some; congruence).
    specialize (IH _ rs1 W' G1 Hs1). destruct (bs_remove de (replace_nth i (Some v') sl) (map fst ts)) as [[sl' out]|]; cbn [bind]; [|exact I].
    destruct IH as (rs' & F1 & F2 & F3).
    { intros t Ht. destruct (Hin t (or_intror Ht)) as (ys & A1 & A2). rewrite G3.
      rewrite Forall_forall in Hs2. specialize (Hs2 (fst t) (List.in_map _ _ _ Ht)). unfold below in Hs2. cbn [fst snd] in Hs2.
      destruct Hs2 as [Hlt|[Heq Hlt]].
      - exists ys. split; auto. rewrite replace_nth_other by lia. auto.
      - rewrite Heq in *. assert (Ei : nth_error (items rs) i = Some (fst r)) by (apply nth_items; eauto).
        rewrite Ei in A1. injection A1 as <-. exists (swap_remove j (fst r)). split.
        + apply replace_nth_same. apply nth_error_Some. congruence.
        + rewrite swap_remove_below; auto. }
    exists rs'. split; [exact F1|]. split; [lia|].
    assert (P : Permutation (concat (items rs)) ([x] ++ concat (items rs1))).
    { rewrite G3. apply concat_replace_perm with (xs := fst r); [apply nth_items; eauto|]. symmetry. apply swap_remove_perm. exact E2. }
    rewrite P, F3. reflexivity.
Qed.
Lemma pop_held (s : bstream F) rs n : Forall (@whole_slot nf) (st_slots s) -> rep 0 (ends (calms (st_slots s))) rs -> length rs = 64 ->
  match bs_pop de s n with
  | Panic => True
  | Ok (s', out) => exists rs', rep 0 (ends (calms (st_slots s'))) rs' /\ length rs' = 64 /\ Permutation (concat (items rs)) (out ++ concat (items rs')) end.
Proof.
  intros W H Hl. unfold bs_pop. destruct (@collect_whole nf (st_slots s) 0 (km_new n) W) as [-> | ->]; [exact I|]. rewrite <- collect_ends, (bs_collect_ok ser _ _ _ _ (km_new n) H).
  set (ts := tags 0 (items rs)).
  destruct (@C33_kmin_keeps_greatest _ _ n (map (@entry_of K V) ts) (entries_distinct _ (tags_nodup 0 (items rs)))) as (m & dropped & M1 & M2 & M3 & M4 & M5).
  rewrite M1. cbn [bind].
  destruct (Permutation_map_inv _ _ M2) as (ts' & Et & Pt). symmetry in Et.
  apply map_eq_app in Et as (t1 & t2 & -> & E1 & E2). rewrite <- E1 in *. rewrite <- E2 in *. clear E1 E2.
  set (ix := stable_sort _ _).
  assert (Eix : map (fun e : V * nat * nat * nat => (snd (fst (fst e)), snd (fst e))) (map (@entry_of K V) t1) = map fst t1).
  { rewrite map_map. apply map_ext. intros [[a b] c]. auto. }
  assert (Pix : Permutation ix (map fst t1)) by (unfold ix; rewrite <- Eix; apply stable_sort_perm).
  assert (Six : sorted_by (fun x => x) ix) by apply stable_sort_sorted.
  assert (Nix : NoDup ix).
  { eapply NoDup_perm; [symmetry; exact Pix|]. assert (N0 : NoDup (map fst (t1 ++ t2))).
    { eapply NoDup_perm; [apply Permutation_map; exact Pt|]. apply tags_nodup. }
    rewrite map_app in N0. apply NoDup_app_inv in N0. tauto. }
  assert (Prev : Permutation (rev ix) (map fst t1)) by (rewrite <- Permutation_rev; auto).
  destruct (Permutation_map_inv _ _ Prev) as (u & Eu & Pu). rewrite Eu.
  assert (Hin : forall t, In t (t1 ++ t2) -> exists xs, nth_error (items rs) (fst (fst t)) = Some xs /\ nth_error xs (snd (fst t)) = Some (snd t)).
  { intros t Ht. apply (Permutation_in _ (Permutation_sym Pt)) in Ht. apply tags_in in Ht as (k & xs & A1 & A2 & A3). exists xs. rewrite A1. auto. }
  pose proof (@remove_held u (st_slots s) rs W H) as G.
  destruct (bs_remove de (st_slots s) (map fst u)) as [[sl' out]|]; cbn [bind]; [|exact I].
  destruct G as (rs' & F1 & F2 & F3).
  { rewrite <- Eu. apply sorted_strict; auto. }
  { intros t Ht. apply Hin. apply in_or_app. left. apply (Permutation_in _ (Permutation_sym Pu)); auto. }
  exists rs'. split; [exact F1|]. split; [lia|exact F3].
Qed.

(** Pushing: an operation that fails means that the element is handed back, or lost. *)
Definition clean (l : list fault) : Prop := Forall (eq Works) l.
Definition clean_h (h : shandle) : Prop := clean (fst (snd h)).
Definition clean_slot (o : option (iovec F)) : Prop := match o with Some v => clean_h (iv_h v) | None => True end.
Lemma flush_whole (w : list byte) own cl (ch : list byte) : Forall whole1 own -> exists own', Forall whole1 own' /\ (clean own -> clean own') /\
  ((exists b, bw_flush F w (length w, (own, cl)) ch = Ok (w ++ ch, (length (w ++ ch), (own', cl)), b, true)) \/
   (~ clean own /\ exists b, bw_flush F w (length w, (own, cl)) ch = Ok (w, (length w, (own', cl)), b, false))).
Proof.
  intros H. unfold bw_flush, write_all. destruct ch as [|z zs].
  { exists own. split; [exact H|]. split; [auto|]. left. exists []. rewrite app_nil_r. reflexivity. }
  set (ch := z :: zs) in *. destruct (next_whole H) as [W1 W2].
  assert (E1 : write_loop F (length ch) w (length w, (own, cl)) ch =
      let* (w', h', o) := f_write w (length w, (own, cl)) ch in
      match o with None | Some 0 => Ok (w', h', ch, false) | Some n => write_loop F (length zs) w' h' (skipn n ch) end) by reflexivity.
  rewrite E1. clear E1. unfold f_write. exists (snd (next_fault own)). split; [exact W2|]. split.
  { intros Hc. destruct own as [|f own]; [constructor|]. inversion Hc; subst. assumption. }
  destruct own as [|[| |m] own]; cbn [next_fault fst snd] in *.
  - left. rewrite vs_write_end. cbn [bind]. rewrite app_length. replace (length ch) with (S (length zs)) by reflexivity. cbv iota.
    rewrite (skipn_all2 (n := S (length zs)) ch) by (cbn; lia). exists []. destruct (length zs); reflexivity.
  - left. rewrite vs_write_end. cbn [bind]. rewrite app_length. replace (length ch) with (S (length zs)) by reflexivity. cbv iota.
    rewrite (skipn_all2 (n := S (length zs)) ch) by (cbn; lia). exists []. destruct (length zs); reflexivity.
  - right. split; [intros Hc; inversion Hc; discriminate|]. cbn [bind]. exists ch. reflexivity.
  - destruct W1.
Qed.
Lemma append_whole (v : iovec F) x ch : whole_h (iv_h v) -> chunk_serialize ser (iv_chunk v) x = Some ch ->
  match iv_append ser v [x] with
  | Panic => True
  | Ok (v', rest, ok) => whole_h (iv_h v') /\ iv_chunk v' = iv_chunk v /\ (clean_h (iv_h v) -> clean_h (iv_h v')) /\
      ((ok = false /\ rest = [x] /\ (iv_w v' : list byte) = iv_w v) \/ (ok = false /\ rest = []) \/
       (ok = true /\ (iv_w v' : list byte) = iv_w v /\ ~ clean_h (iv_h v)) \/
       (ok = true /\ (iv_w v' : list byte) = iv_w v ++ ch)) end.
Proof.
  destruct v as [w [pos [own cl]] c]. unfold whole_h, whole, clean_h. cbn [iv_w iv_h iv_chunk fst snd]. intros [H1 H2] Hch.
  unfold iv_append. cbn [iv_w iv_h iv_chunk s_seek FaultyStream]. unfold f_seek. destruct (next_whole H1) as [W1 W2].
  assert (Hn : clean own -> clean (snd (next_fault own))) by (intros Hc; destruct own as [|f own]; [constructor|]; inversion Hc; subst; assumption).
  assert (Nc : forall own1, ~ clean own1 -> own1 = snd (next_fault own) -> ~ clean own) by (intros own1 A -> B; apply A, Hn, B).
  destruct (next_fault own) as [f own1] eqn:En. cbn [fst snd] in *. destruct f as [| |m]; [| |destruct W1].
  2: { cbn [iv_w iv_h iv_chunk fst snd]. repeat (split; [first [reflexivity|assumption|exact (conj W2 H2)]|]). left. auto. }
  rewrite seek_end. cbn [rev app append_loop]. rewrite Hch. unfold bw_write. cbn [length app]. rewrite Nat.sub_0_r.
  destruct (length ch <? bufcap) eqn:Ec.
  - cbn [bind]. destruct (@flush_whole w own1 cl ch W2) as (own2 & A1 & A2 & [(b & E)|(A3 & b & E)]); rewrite E; cbn [bind iv_w iv_h iv_chunk fst snd].
    + split; [exact (conj A1 H2)|]. split; [reflexivity|]. split; [auto|]. right. right. right. auto.
    + split; [exact (conj A1 H2)|]. split; [reflexivity|]. split; [auto|]. right. right. left. split; [reflexivity|]. split; [reflexivity|]. exact (Nc own1 A3 eq_refl).
  - apply Nat.ltb_ge in Ec.
    match goal with |- context [if bufcap <? length ch then ?a else ?b] =>
      replace (if bufcap <? length ch then a else b) with b by (destruct (bufcap <? length ch); reflexivity) end. cbn [bind negb].
    replace (bufcap <=? length ch) with true by (symmetry; apply Nat.leb_le; auto).
    cbn [s_write FaultyStream]. unfold f_write. destruct (next_whole W2) as [W3 W4].
    assert (Hn2 : clean own1 -> clean (snd (next_fault own1))) by (intros Hc; destruct own1 as [|f own1]; [constructor|]; inversion Hc; subst; assumption).
    destruct (next_fault own1) as [f own2]. cbn [fst snd] in *. destruct f as [| |m]; [| |destruct W3].
    + rewrite vs_write_end. cbn [bind]. unfold bw_flush, write_all. cbn [write_loop length bind iv_w iv_h iv_chunk fst snd].
      split; [exact (conj W4 H2)|]. split; [reflexivity|]. split; [auto|]. right. right. right. auto.
    + cbn [bind]. unfold bw_flush, write_all. cbn [write_loop length bind iv_w iv_h iv_chunk fst snd].
      split; [exact (conj W4 H2)|]. split; [reflexivity|]. split; [auto|]. right. left. auto.
Qed.

Lemma push_held cap : forall vs sl rs total, Forall (@whole_slot nf) sl -> rep 0 (ends (calms sl)) rs -> length rs = 64 ->
  match bs_push_loop ser sl cap total vs with
  | Panic => True
  | Ok (sl', out) => exists rs' kept lost, rep 0 (ends (calms sl')) rs' /\ length rs' = 64 /\
      Permutation vs (out ++ kept ++ lost) /\ Permutation (concat (items rs')) (concat (items rs) ++ kept) /\
      (Forall clean_slot sl -> clean (fst nf) -> lost = []) end.
Proof.
  induction vs as [|x vs IH]; intros sl rs total W H Hl; cbn [bs_push_loop].
  - exists rs, [], []. cbn [app]. rewrite app_nil_r. auto.
  - assert (Back : forall sl1 rs1 total1, Forall (@whole_slot nf) sl1 -> rep 0 (ends (calms sl1)) rs1 -> length rs1 = 64 -> items rs1 = items rs ->
      (Forall clean_slot sl -> clean (fst nf) -> Forall clean_slot sl1) ->
      match (let* (s2, out) := bs_push_loop ser sl1 cap total1 vs in Ok (s2, x :: out)) with
      | Panic => True
      | Ok (sl', out) => exists rs' kept lost, rep 0 (ends (calms sl')) rs' /\ length rs' = 64 /\
          Permutation (x :: vs) (out ++ kept ++ lost) /\ Permutation (concat (items rs')) (concat (items rs) ++ kept) /\
          (Forall clean_slot sl -> clean (fst nf) -> lost = []) end).
    { intros sl1 rs1 total1 W1 R1 L1 I1 C1. specialize (IH sl1 rs1 total1 W1 R1 L1). destruct (bs_push_loop ser sl1 cap total1 vs) as [[s2 out]|]; cbn [bind]; [|exact I].
      destruct IH as (rs' & kept & lost & B1 & B2 & B3 & B4 & B5). exists rs', kept, lost. split; [exact B1|]. split; [exact B2|].
      split; [cbn [app]; apply perm_skip; exact B3|]. split; [rewrite <- I1; exact B4|]. auto. }
    destruct (ser x) as [b|] eqn:Eb; [|apply (Back sl rs total); auto].
    destruct (chunk_size_class _ (Sizes Eb)) as (iN & E & Ei & Hi & Hb). rewrite E. cbn [bind].
    rewrite pow_to_nat, Ei. set (i := class (length b)) in *.
    destruct (cap <? 2 ^ i + total); [apply (Back sl rs total); auto|].
    destruct (nth_error rs i) as [r|] eqn:Er; [|apply nth_error_None in Er; lia].
    destruct (slot_append Codec _ _ _ _ H Er Eb Hb) as (o & u & E1 & E2 & E3 & _). rewrite !nth_error_map in E1.
    destruct (nth_error sl i) as [oi|] eqn:En; cbn [option_map] in E1; [|discriminate]. injection E1 as <-. cbn [unwrap bind].
    set (v := match oi with Some v => v | None => iv_new F (s_new F) (2 ^ i) end).
    assert (Hc : iv_chunk v = 2 ^ i).
    { unfold v. destruct oi as [v0|]; [|reflexivity]. destruct (slots_rep_nth _ _ _ _ _ _ H Er) as (o & Eo & Ho). rewrite !nth_error_map, En in Eo.
      cbn [option_map] in Eo. injection Eo as <-. cbn [plus slot_rep] in Ho. exact (proj1 Ho). }
    assert (Hw : whole_h (iv_h v)).
    { unfold v. destruct oi as [v0|]; [exact (whole_nth i W En)|]. exact Hnf. }
    assert (Hcl : Forall clean_slot sl -> clean (fst nf) -> clean_h (iv_h v)).
    { intros A B. unfold v. destruct oi as [v0|]; [|exact B]. apply nth_error_In in En. rewrite Forall_forall in A. exact (A _ En). }
    assert (Hch : chunk_serialize ser (2 ^ i) x = Some (vec_resize (2 ^ i) b)).
    { unfold chunk_serialize. rewrite Eb. replace (2 ^ i <? length b) with false by (symmetry; apply Nat.ltb_ge; exact Hb). reflexivity. }
    set (ch := vec_resize (2 ^ i) b) in *.
    assert (Eu : u = @mkIV VecStream ((iv_w v : list byte) ++ ch) (length ((iv_w v : list byte) ++ ch)) (2 ^ i)).
    { revert E2. unfold v in Hc |- *. destruct oi as [v0|]; cbn [option_map].
      - unfold at_end, calm_v. cbn [iv_w iv_chunk]. rewrite Hc. rewrite (@v_append _ _ ser _ _ _ _ _ Hch). intros E2. injection E2 as <-. reflexivity.
      - unfold iv_new. rewrite (@v_append _ _ ser _ _ _ _ _ Hch). intros E2. injection E2 as <-. reflexivity. }
    assert (Hch' : chunk_serialize ser (iv_chunk v) x = Some ch) by (rewrite Hc; exact Hch).
    pose proof (append_whole v x Hw Hch') as G. fold F. destruct (iv_append ser v [x]) as [[[v' rest] ok]|]; cbn [bind]; [|exact I].
    destruct G as (G1 & G2 & G3 & G4).
    assert (W' : Forall (@whole_slot nf) (replace_nth i (Some v') sl)) by (apply replace_nth_Forall; auto).
    assert (Cl' : Forall clean_slot sl -> clean (fst nf) -> Forall clean_slot (replace_nth i (Some v') sl)).
    { intros A B. apply replace_nth_Forall; auto. apply G3. auto. }
    assert (Er2 : ends (calms (replace_nth i (Some v') sl)) = replace_nth i (Some (at_end (calm_v v'))) (ends (calms sl))).
    { rewrite !map_replace_nth. reflexivity. }
    assert (Same : (iv_w v' : list byte) = iv_w v -> rep 0 (ends (calms (replace_nth i (Some v') sl))) rs).
    { intros Ew. rewrite Er2. assert (Ea : at_end (calm_v v') = @mkIV VecStream (iv_w v) (length (iv_w v : list byte)) (2 ^ i)).
      { unfold at_end, calm_v. cbn [iv_w iv_chunk]. rewrite Ew, G2, Hc. reflexivity. }
      rewrite Ea. clear Ea. unfold v in *. destruct oi as [v0|].
      - rewrite replace_same; [exact H|]. rewrite !nth_error_map, En. cbn [option_map]. unfold at_end, calm_v. cbn [iv_w iv_chunk]. rewrite Hc. reflexivity.
      - rewrite <- (replace_same _ _ Er). apply slots_rep_replace; [exact H|]. destruct (slots_rep_nth _ _ _ _ _ _ H Er) as (o & Eo & Ho).
        rewrite !nth_error_map, En in Eo. cbn [option_map] in Eo. injection Eo as <-. cbn in Ho. subst r. cbn [plus slot_rep fst snd iv_chunk iv_new s_new FaultyStream iv_w].
        split; [reflexivity|]. split; [|constructor]. apply iv_new_ok. pose proof (Nat.pow_nonzero 2 i). lia. }
    destruct G4 as [(-> & -> & Ew)|[(-> & ->)|[(-> & Ew & Nc)|(-> & Ew)]]]; [|exact I| |].
    + apply (Back _ rs total); auto.
    + specialize (IH _ rs (total + 2 ^ i) W' (Same Ew) Hl). destruct (bs_push_loop ser (replace_nth i (Some v') sl) cap (total + 2 ^ i) vs) as [[s2 out]|]; [|exact I].
      destruct IH as (rs' & kept & lost & B1 & B2 & B3 & B4 & B5). exists rs', kept, (x :: lost). split; [exact B1|]. split; [exact B2|].
      split; [rewrite B3; perm0|]. split; [exact B4|]. intros A B. exfalso. exact (Nc (Hcl A B)).
    + assert (R' : rep 0 (ends (calms (replace_nth i (Some v') sl))) (replace_nth i (fst r ++ [x], length (fst r ++ [x])) rs)).
      { rewrite Er2. assert (Ea : at_end (calm_v v') = u). { rewrite Eu. unfold at_end, calm_v. cbn [iv_w iv_chunk]. rewrite Ew, G2, Hc. reflexivity. } rewrite Ea. exact E3. }
      assert (L' : length (replace_nth i (fst r ++ [x], length (fst r ++ [x])) rs) = 64) by (rewrite replace_nth_length; exact Hl).
      specialize (IH _ _ (total + 2 ^ i) W' R' L'). destruct (bs_push_loop ser (replace_nth i (Some v') sl) cap (total + 2 ^ i) vs) as [[s2 out]|]; [|exact I].
      destruct IH as (rs' & kept & lost & B1 & B2 & B3 & B4 & B5). exists rs', (x :: kept), lost. split; [exact B1|]. split; [exact B2|].
      split; [rewrite B3; perm0|]. split; [|intros A B; apply B5; auto].
      rewrite B4, items_replace. cbn [fst]. assert (P : Permutation (concat (replace_nth i (fst r ++ [x]) (items rs))) (x :: concat (items rs))).
      { apply (concat_put x). apply nth_items. eauto. }
      rewrite P. perm0.
Qed.
End Held.

(** No operation of a handle that writes fails. *)
Definition no_write_fails (nf : sfaults) (fs : nat -> sfaults) : Prop := clean (fst nf) /\ forall i, clean (fst (fs i)).
Lemma faulty_clean nf fs : (forall i, clean (fst (fs i))) -> forall sl i, Forall (@clean_slot nf) (faulty_slots nf fs i sl).
Proof. intros H. induction sl as [|[v|] sl IH]; intros i; cbn [faulty_slots]; constructor; try apply IH; [exact (H i)|exact I]. Qed.

(** What take and pop hand back is what they remove, and nothing else goes, whatever fails. *)
Theorem C78_take_pop : forall nf fs s o s' out, whole nf -> (forall i, whole (fs i)) -> fault_ok s ->
  (match o with OpTake _ | OpPop _ => True | _ => False end) -> step (Bf nf) (faulty_bs nf fs s) o = Ok (s', out) ->
  fault_ok (calm_bs s') /\ Permutation (held s) (out ++ held (calm_bs s')).
Proof.
  intros nf fs s o s' out Hn Hf (rs & H & Hl) Ho E. pose proof (faulty_whole nf fs Hf (st_slots s) 0) as W.
  assert (H' : rep 0 (ends (map (option_map (@calm_v nf)) (faulty_slots nf fs 0 (st_slots s)))) rs) by (rewrite calm_faulty_slots; exact H).
  assert (G : exists rs', rep 0 (ends (st_slots (calm_bs s'))) rs' /\ length rs' = 64 /\ Permutation (concat (items rs)) (out ++ concat (items rs'))).
  { destruct o as [vs|n|k|ks|]; try destruct Ho; cbn [step pop take ByteStreamB] in E.
    - pose proof (@pop_held nf (faulty_bs nf fs s) rs n W H' Hl) as G. rewrite E in G. exact G.
    - pose proof (@take_held nf (faulty_bs nf fs s) rs k W H' Hl) as G. destruct (bs_take de (faulty_bs nf fs s) k) as [[s1 o]|]; cbn [bind] in E; [|discriminate].
      injection E as <- <-. exact G. }
  destruct G as (rs' & R & L & P). split; [exists rs'; auto|]. rewrite (@held_rep s rs H), (@held_rep (calm_bs s') rs' R). exact P.
Qed.
(** push hands back, stores or loses each element, touches nothing else, and loses none if no write fails. *)
Theorem C78_push : forall nf fs s vs s' out, whole nf -> (forall i, whole (fs i)) -> fault_ok s ->
  push (Bf nf) (faulty_bs nf fs s) vs = Ok (s', out) ->
  fault_ok (calm_bs s') /\ exists stored lost, Permutation vs (out ++ stored ++ lost) /\ Permutation (held (calm_bs s')) (held s ++ stored) /\
    (no_write_fails nf fs -> lost = []).
Proof.
  intros nf fs s vs s' out Hn Hf (rs & H & Hl) E. pose proof (faulty_whole nf fs Hf (st_slots s) 0) as W.
  assert (H' : rep 0 (ends (map (option_map (@calm_v nf)) (faulty_slots nf fs 0 (st_slots s)))) rs) by (rewrite calm_faulty_slots; exact H).
  cbn [push ByteStreamB] in E. unfold bs_push in E. cbn [faulty_bs st_slots st_cap] in E.
  pose proof (@push_held nf Hn (st_cap s) vs (faulty_slots nf fs 0 (st_slots s)) rs (bs_size (faulty_bs nf fs s)) W H' Hl) as G.
  destruct (bs_push_loop ser (faulty_slots nf fs 0 (st_slots s)) (st_cap s) (bs_size (faulty_bs nf fs s)) vs) as [[sl out']|]; cbn [bind] in E; [|discriminate].
  injection E as <- <-. destruct G as (rs' & kept & lost & R & L & P1 & P2 & C).
  split; [exists rs'; auto|]. exists kept, lost. split; [exact P1|]. split.
  - rewrite (@held_rep s rs H). rewrite (@held_rep (calm_bs (mkBS sl (st_cap s))) rs' R). exact P2.
  - intros [A B]. apply C; [apply faulty_clean; exact B|exact A].
Qed.
Lemma new_fault_ok cap : fault_ok (bs_new VecStream cap).
Proof. exists (repeat ([], 0) 64). split; [exact (proj1 (bs_new_ok ser de cap))|apply repeat_length]. Qed.
(** A whole history of pushes, takes and pops: what was pushed has been handed back, is held, or was lost by a push that
    met a failing write. *)
Definition fault_call (c : sfaults * (nat -> sfaults) * op K V) : Prop :=
  whole (fst (fst c)) /\ (forall i, whole (snd (fst c) i)) /\ match snd c with OpPush _ | OpTake _ | OpPop _ => True | _ => False end.
Theorem C78_history : forall cap h s out, Forall fault_call h -> bs_fault_run bs ser de (bs_new VecStream cap) h = Ok (s, out) ->
  exists lost, Permutation (flat_map (fun c => given (snd c)) h) (out ++ held s ++ lost) /\
    (forall x, In x lost -> exists nf fs vs, In (nf, fs, OpPush vs) h /\ In x vs /\ ~ no_write_fails nf fs).
Proof.
  intros cap h s out Hh E.
  assert (G : forall h s0 s out, Forall fault_call h -> fault_ok s0 -> bs_fault_run bs ser de s0 h = Ok (s, out) ->
    exists lost, Permutation (held s0 ++ flat_map (fun c => given (snd c)) h) (out ++ held s ++ lost) /\
      (forall x, In x lost -> exists nf fs vs, In (nf, fs, OpPush vs) h /\ In x vs /\ ~ no_write_fails nf fs)).
  2: { destruct (G h _ s out Hh (new_fault_ok cap) E) as (lost & P & L). exists lost. split; [|exact L].
       assert (Z : held (bs_new VecStream cap) = []).
       { assert (R0 : rep 0 (ends (st_slots (bs_new VecStream cap))) (repeat ([], 0) 64)) by exact (proj1 (bs_new_ok ser de cap)).
         rewrite (@held_rep (bs_new VecStream cap) _ R0). reflexivity. }
       rewrite Z in P. exact P. }
  clear - EK Codec Sizes. induction h as [|[[nf fs] o] h IH]; intros s0 s out Hh H0 E; cbn [bs_fault_run] in E.
  - injection E as <- <-. exists []. split; [cbn [flat_map app]; rewrite !app_nil_r; reflexivity|intros x []].
  - inversion Hh as [|? ? [Hn [Hf Ho]] Hh']; subst. cbn [fst snd] in Hn, Hf, Ho.
    destruct (step (Bf nf) (faulty_bs nf fs s0) o) as [[s1 out1]|] eqn:E1; cbn [bind] in E; [|discriminate].
    destruct (bs_fault_run bs ser de (calm_bs s1) h) as [[s2 out2]|] eqn:E2; cbn [bind] in E; [|discriminate]. injection E as <- <-.
    assert (S : fault_ok (calm_bs s1) /\ exists lost, Permutation (held s0 ++ given o) (out1 ++ held (calm_bs s1) ++ lost) /\
      (forall x, In x lost -> exists vs, o = OpPush vs /\ In x vs /\ ~ no_write_fails nf fs)).
    { destruct o as [vs|n|k|ks|]; try destruct Ho.
      - destruct (@C78_push nf fs s0 vs s1 out1 Hn Hf H0 E1) as (A & stored & lost & P1 & P2 & C). split; [exact A|]. exists lost. split.
        + cbn [given]. rewrite P1, P2. perm0.
        + intros x Hx. exists vs. split; [reflexivity|]. split.
          * apply (Permutation_in _ (Permutation_sym P1)). apply in_or_app. right. apply in_or_app. right. exact Hx.
          * intros Nf. rewrite (C Nf) in Hx. destruct Hx.
      - destruct (@C78_take_pop nf fs s0 (OpPop n) s1 out1 Hn Hf H0 I E1) as (A & P). split; [exact A|]. exists []. split; [cbn [given]; rewrite !app_nil_r; exact P|intros x []].
      - destruct (@C78_take_pop nf fs s0 (OpTake k) s1 out1 Hn Hf H0 I E1) as (A & P). split; [exact A|]. exists []. split; [cbn [given]; rewrite !app_nil_r; exact P|intros x []]. }
    destruct S as (A & lost & P & L). destruct (IH _ _ _ Hh' A E2) as (lost' & P' & L'). exists (lost ++ lost'). split.
    + cbn [flat_map snd]. rewrite app_assoc, P. transitivity (out1 ++ lost ++ (held (calm_bs s1) ++ flat_map (fun c => given (snd c)) h)); [perm0|]. rewrite P'. perm0.
    + intros x Hx. apply in_app_or in Hx as [Hx|Hx].
      * destruct (L x Hx) as (vs & -> & Hv & Nf). exists nf, fs, vs. split; [left; reflexivity|auto].
      * destruct (L' x Hx) as (nf' & fs' & vs & Hi & Hv & Nf). exists nf', fs', vs. split; [right; exact Hi|auto].
Qed.

(** A get_mut whose guard is written [f] and dropped, when the new value fits the chunk of the old one. *)
Lemma find_mut_end (p : T -> bool) f (v : iovec VecStream) : iv_find_mut ser de p f (at_end v) =
  match iv_find_mut ser de p f v with
  | Ok (Some (v', x)) => Ok (Some (@mkIV VecStream (iv_w v') (length (iv_w v : list byte)) (iv_chunk v'), x)) | Ok None => Ok None | Panic => Panic end.
Proof.
  destruct v as [w h c]. unfold iv_find_mut, at_end. cbn [s_seek s_clone VecStream iv_w iv_h iv_chunk].
  rewrite (@seek_start w h 0), (@seek_start w (length w) 0) by apply Nat.le_0_l. change (iv_fuel _) with (@iv_fuel VecStream (@mkIV VecStream w h c)).
  destruct (iter_mut_find ser de p f c _ _) as [[[w' x]|]|]; reflexivity.
Qed.
Lemma slots_mut_ends k f : forall sl : list (option (iovec VecStream)), match bs_slots_mut ser de k f sl with
  | Panic => True
  | Ok (sl', o) => exists sl2, bs_slots_mut ser de k f (ends sl) = Ok (sl2, o) /\ ends sl2 = ends sl' end.
Proof.
  induction sl as [|[v|] sl IH]; cbn [bs_slots_mut map option_map]; eauto.
  - rewrite find_mut_end. destruct (iv_find_mut ser de (fun kv => eqb (fst kv) k) (fun kv => (fst kv, f (snd kv))) v) as [[[v' x]|]|]; cbn [bind]; auto.
    + eexists. split; [reflexivity|]. cbn [map option_map]. f_equal. apply ends_ends.
    + destruct (bs_slots_mut ser de k f sl) as [[sl' o]|]; cbn [bind]; auto. destruct IH as (sl2 & -> & E). cbn [bind]. eexists. split; [reflexivity|].
      cbn [map option_map]. rewrite E. reflexivity.
  - destruct (bs_slots_mut ser de k f sl) as [[sl' o]|]; cbn [bind]; auto. destruct IH as (sl2 & -> & E). cbn [bind]. eexists. split; [reflexivity|].
    cbn [map option_map]. rewrite E. reflexivity.
Qed.
Theorem C78_get_mut : forall nf fs s k f s' o, (forall i, whole (fs i)) -> fault_ok s ->
  (forall v b, In (k, v) (held s) -> ser (k, v) = Some b -> exists b', ser (k, f v) = Some b' /\ length b' <= 2 ^ Nat.log2_up (length b)) ->
  bs_get_mut ser de (faulty_bs nf fs s) k f = Ok (s', o) ->
  fault_ok (calm_bs s') /\
  match o with
  | Some v => exists rest, Permutation (held s) ((k, v) :: rest) /\ Permutation (held (calm_bs s')) ((k, f v) :: rest)
  | None => ~ In k (keys (held s)) /\ Permutation (held (calm_bs s')) (held s)
  end.
Proof.
  intros nf fs s k f s' o W (rs & H1 & Hl) Hf E. apply (proj2 (proj2 (proj2 (proj2 (C78_returns_right nf fs s W))))) in E.
  unfold bs_get_mut in E. pose proof (slots_mut_ends k f (st_slots s)) as G. destruct (bs_slots_mut ser de k f (st_slots s)) as [[sl o1]|]; cbn [bind] in E; [|discriminate].
  injection E as E _ <-. destruct G as (sl2 & G1 & G2).
  destruct (bs_slots_mut_ok Codec (k := k) f (ends (st_slots s)) 0 rs H1) as (sl' & rs' & o2 & E2 & R & Z & O).
  { intros j r v Ej Hin. destruct (slots_rep_nth _ _ _ _ _ _ H1 Ej) as (o & Eo & Ho). cbn [plus] in Ho |- *. destruct o as [w|].
    - destruct Ho as (_ & _ & Hfit). rewrite Forall_forall in Hfit. destruct (Hfit _ Hin) as (b & Eb & Lb).
      destruct (Hf v b) as (b' & Eb' & Lb'); auto.
      { rewrite (held_rep s rs H1). apply in_concat. exists (fst r). split; auto. unfold items. apply List.in_map. eapply nth_error_In; eauto. }
      exists b'. split; auto. etransitivity; [exact Lb'|]. apply Nat.pow_le_mono_r; [lia|].
      destruct (length b) as [|n]; [cbn; lia|]. apply Nat.log2_up_le_pow2; [lia|auto].
    - cbn in Ho. subst r. destruct Hin. }
  rewrite G1 in E2. injection E2 as <- <-.
  assert (Ll : length rs' = length rs).
  { clear - Z. revert rs' Z. generalize 0. induction rs; intros n [|r rs'] Z; cbn in *; try discriminate; auto. f_equal. injection Z as _ Z. eauto. }
  assert (R2 : rep 0 (ends (st_slots (calm_bs s'))) (map (fun r => (fst r, length (fst r))) rs')).
  { change (st_slots (calm_bs s')) with (map (option_map (@calm_v nf)) (st_slots s')). rewrite <- E, <- G2. apply rep_ends. exact R. }
  assert (Ei : concat (items (map (fun r => (fst r, length (fst r))) rs')) = concat (items rs')).
  { unfold items. rewrite map_map. reflexivity. }
  split; [eexists; split; [exact R2|]; rewrite map_length; lia|].
  rewrite (held_rep (calm_bs s') _ R2), (held_rep s _ H1), Ei. destruct o1 as [v|]; [exact O|]. destruct O as [O ->]. auto.
Qed.

(** ** Size *)
Section Size.
Variable nf : sfaults.
Hypothesis Hnf : whole nf.
Notation F := (FaultyStream nf).
Notation calms := (map (option_map (@calm_v nf))).
Definition stored (sl : list (option (iovec F))) : nat := list_sum (map (@slot_size VecStream) (calms sl)).
Definition classes (sl : list (option (iovec F))) : Prop := forall i v, nth_error sl i = Some (Some v) -> iv_chunk v = 2 ^ i.
Definition len (o : option (iovec F)) : nat := match o with Some v => length (iv_w v : list byte) | None => 0 end.
Lemma slot_len o : slot_size (option_map (@calm_v nf) o) = len o.
Proof. destruct o as [[w h c]|]; [|reflexivity]. unfold slot_size, iv_size, calm_v. cbn [option_map iv_w iv_h s_seek s_clone VecStream]. rewrite seek_end. reflexivity. Qed.
Lemma stored_replace sl i o o' : nth_error sl i = Some o -> stored (replace_nth i o' sl) + len o = stored sl + len o'.
Proof.
  intros E. unfold stored. rewrite !map_replace_nth, <- (slot_len o), <- (slot_len o'). apply list_sum_replace. rewrite !nth_error_map, E. reflexivity.
Qed.
Lemma classes_replace sl i v : classes sl -> iv_chunk v = 2 ^ i -> classes (replace_nth i (Some v) sl).
Proof.
  intros H Hv j w E. destruct (Nat.eq_dec i j) as [<-|N].
  - destruct (nth_error sl i) as [o|] eqn:En.
    + erewrite nth_replace_same in E by exact En. injection E as <-. exact Hv.
    + apply nth_error_None in En. assert (nth_error (replace_nth i (Some v) sl) i = None) by (apply nth_error_None; rewrite replace_nth_length; exact En). congruence.
  - rewrite nth_replace_other in E by exact N. exact (H j w E).
Qed.
Lemma push_stored cap : forall vs sl total sl' out, Forall (@whole_slot nf) sl -> classes sl -> stored sl <= total -> total <= cap ->
  bs_push_loop ser sl cap total vs = Ok (sl', out) -> stored sl' <= cap.
Proof.
  induction vs as [|x vs IH]; intros sl total sl' out W C Ht Hc E; cbn [bs_push_loop] in E; [injection E as <- _; lia|].
  assert (Back : forall sl1 total1, Forall (@whole_slot nf) sl1 -> classes sl1 -> stored sl1 <= total1 -> total1 <= cap -> forall y,
    (let* (s2, o2) := bs_push_loop ser sl1 cap total1 vs in Ok (s2, y :: o2)) = Ok (sl', out) -> stored sl' <= cap).
  { intros sl1 t1 A1 A2 A3 A4 y A5. destruct (bs_push_loop ser sl1 cap t1 vs) as [[s2 o2]|] eqn:Es; cbn [bind] in A5; [|discriminate]. injection A5 as <- _.
    exact (IH sl1 t1 s2 o2 A1 A2 A3 A4 Es). }
  destruct (ser x) as [b|] eqn:Eb; [|exact (Back sl total W C Ht Hc x E)].
  destruct (chunk_size_class _ (Sizes Eb)) as (iN & Ec & Ei & Hi & Hb). rewrite Ec in E. cbn [bind] in E.
  rewrite pow_to_nat, Ei in E. set (i := class (length b)) in *.
  destruct (cap <? 2 ^ i + total) eqn:Ecap; [exact (Back sl total W C Ht Hc x E)|]. apply Nat.ltb_ge in Ecap.
  destruct (nth_error sl i) as [oi|] eqn:En; cbn [unwrap bind] in E; [|discriminate].
  set (v := match oi with Some v => v | None => iv_new F (s_new F) (2 ^ i) end) in E.
  assert (Hv : iv_chunk v = 2 ^ i) by (unfold v; destruct oi as [v0|]; [exact (C i v0 En)|reflexivity]).
  assert (Hw : whole_h (iv_h v)) by (unfold v; destruct oi as [v0|]; [exact (whole_nth i W En)|exact Hnf]).
  assert (Lv : len (Some v) = len oi) by (unfold v; destruct oi; reflexivity).
  assert (Hch : chunk_serialize ser (iv_chunk v) x = Some (vec_resize (2 ^ i) b)).
  { unfold chunk_serialize. rewrite Eb, Hv. replace (2 ^ i <? length b) with false by (symmetry; apply Nat.ltb_ge; exact Hb). reflexivity. }
  pose proof (append_whole v x Hw Hch) as G. fold F in E. destruct (iv_append ser v [x]) as [[[v' rest] ok]|]; cbn [bind] in E; [|discriminate].
  destruct G as (G1 & G2 & _ & G4).
  assert (W' : Forall (@whole_slot nf) (replace_nth i (Some v') sl)) by (apply replace_nth_Forall; auto).
  assert (C' : classes (replace_nth i (Some v') sl)) by (apply classes_replace; [exact C|congruence]).
  pose proof (stored_replace sl i (Some v') En) as R. rewrite <- Lv in R. cbn [len] in R.
  destruct G4 as [(-> & -> & Ew)|[(-> & ->)|[(-> & Ew & _)|(-> & Ew)]]]; rewrite ?Ew, ?app_length, ?vec_resize_length in R; [|discriminate| |].
  - assert (A : stored (replace_nth i (Some v') sl) <= total) by lia. exact (Back (replace_nth i (Some v') sl) total W' C' A Hc x E).
  - apply (IH (replace_nth i (Some v') sl) (total + 2 ^ i) sl' out W' C'); [lia|lia|exact E].
  - apply (IH (replace_nth i (Some v') sl) (total + 2 ^ i) sl' out W' C'); [lia|lia|exact E].
Qed.
Lemma list_sum_cons a l : list_sum (a :: l) = a + list_sum l.
Proof. reflexivity. Qed.
(** What a removal leaves in a stream is not longer. *)
Lemma vec_swap_remove_len (v : iovec VecStream) j v' r : iv_swap_remove de v j = Ok (v', Some r) -> length (iv_w v' : list byte) <= length (iv_w v : list byte).
Proof.
  destruct v as [w h c]. unfold iv_swap_remove. cbn [iv_w iv_h iv_chunk s_seek s_read s_write s_resize VecStream].
  intros E. unfold vs_seek at 1 in E. destruct (vs_read w _ c) as [[w1 h1] b1] eqn:E1.
  assert (w1 = w) by (unfold vs_read in E1; destruct (length w <=? _); injection E1 as <- _ _; reflexivity). subst w1. clear E1.
  destruct (match chunk_from c b1 with None => None | Some None => Some None | Some (Some buf) => match de buf with Some o => Some (Some o) | None => None end end) as [item|]; [|discriminate].
  rewrite seek_end in E. destruct (length w <? c); [injection E as <- _; auto|].
  destruct (j * c <? length w - c).
  - unfold vs_seek at 1 in E. destruct (vs_read w _ c) as [[w1 h2] b2] eqn:E1.
    destruct (chunk_from c b2) as [[last|]|]; cbn [bind] in E; try discriminate.
    unfold vs_seek at 1 in E. destruct (vs_write w1 _ last) as [[[w3 h3] [n3|]]|]; cbn [bind] in E; try discriminate.
    unfold vs_resize in E. injection E as <- _. cbn [iv_w]. rewrite vec_resize_length. lia.
  - cbn [bind] in E. unfold vs_resize in E. injection E as <- _. cbn [iv_w]. rewrite vec_resize_length. lia.
Qed.
Lemma swap_remove_len (v : iovec F) j v' r : whole_h (iv_h v) -> iv_swap_remove de v j = Ok (v', r) -> whole_h (iv_h v') /\ len (Some v') <= len (Some v).
Proof.
  intros H E. pose proof (swap_remove_whole de v j H) as G. rewrite E in G. destruct r as [r|].
  - destruct G as [G1 G2]. split; [exact G1|]. exact (vec_swap_remove_len _ _ G2).
  - destruct G as (G1 & G2 & _). split; [exact G1|]. cbn [len]. rewrite G2. auto.
Qed.
Lemma remove_stored : forall ix sl sl' out, Forall (@whole_slot nf) sl -> bs_remove de sl ix = Ok (sl', out) -> stored sl' <= stored sl.
Proof.
  induction ix as [|[i j] ix IH]; intros sl sl' out W E; cbn [bs_remove] in E; [injection E as <- _; auto|].
  destruct (nth_error sl i) as [[v|]|] eqn:En; cbn [unwrap bind] in E; try discriminate.
  destruct (iv_swap_remove de v j) as [[v' r]|] eqn:Es; cbn [bind] in E; [|discriminate].
  destruct (swap_remove_len v j (whole_nth i W En) Es) as [G1 G2]. pose proof (stored_replace sl i (Some v') En) as R.
  destruct r as [[kv|]|]; try (injection E as <- _; lia).
  destruct (bs_remove de (replace_nth i (Some v') sl) ix) as [[s2 o2]|] eqn:E2; cbn [bind] in E; [|discriminate]. injection E as <- _.
  apply IH in E2; [lia|]. apply replace_nth_Forall; auto.
Qed.
End Size.
(** Size stays within capacity as long as the streams can tell their sizes (the first seek of a clone, in a push). *)
Theorem C78_size : forall nf fs s o s' out, whole nf -> (forall i, whole (fs i)) -> fault_ok s ->
  (forall i, fst (next_fault (snd (fs i) 0)) = Works) ->
  (match o with OpPush _ | OpTake _ | OpPop _ => True | _ => False end) -> step (Bf nf) (faulty_bs nf fs s) o = Ok (s', out) ->
  bs_size s <= st_cap s -> bs_size (calm_bs s') <= st_cap s /\ st_cap s' = st_cap s.
Proof.
  intros nf fs s o s' out Hnf W (rs & H & Hl) Hs Ho E Hle. pose proof (faulty_whole nf fs W (st_slots s) 0) as Wf.
  assert (Hst : stored (st_slots (faulty_bs nf fs s)) = bs_size s).
  { unfold stored. cbn [faulty_bs st_slots]. rewrite calm_faulty_slots. reflexivity. }
  destruct o as [vs|n|k| |]; try destruct Ho; cbn [step push pop take ByteStreamB] in E.
  - assert (Hz : bs_size (faulty_bs nf fs s) = bs_size s).
    { unfold bs_size. cbn [faulty_bs st_slots]. clear - Hs. generalize 0. induction (st_slots s) as [|[[w h c]|] sl IH]; intros n; cbn [faulty_slots faulty_slot map]; [reflexivity| |].
      - rewrite !list_sum_cons, IH. f_equal. unfold slot_size, iv_size. cbn [iv_w iv_h s_seek s_clone FaultyStream VecStream fst snd].
        unfold f_seek, clone_faults. specialize (Hs n). destruct (next_fault (snd (fs n) 0)) as [f fs']. cbn [fst] in Hs. subst f. rewrite !seek_end. reflexivity.
      - rewrite !list_sum_cons, IH. reflexivity. }
    unfold bs_push in E. rewrite Hz in E. cbn [faulty_bs st_slots st_cap] in E.
    destruct (bs_push_loop ser (faulty_slots nf fs 0 (st_slots s)) (st_cap s) (bs_size s) vs) as [[sl o1]|] eqn:Ep; cbn [bind] in E; [|discriminate].
    injection E as <- _. split; [|reflexivity]. cbn [faulty_bs st_slots] in Hst.
    apply (@push_stored nf Hnf (st_cap s) vs (faulty_slots nf fs 0 (st_slots s)) (bs_size s) sl o1); auto; [|exact (Nat.eq_le_incl _ _ Hst)].
    intros i v En. assert (En2 : nth_error (st_slots s) i = Some (Some (calm_v v))).
    { rewrite <- (calm_faulty_slots nf fs (st_slots s) 0), nth_error_map, En. reflexivity. }
    destruct (nth_error rs i) as [r|] eqn:Er.
    + destruct (slots_rep_nth _ _ _ _ _ _ H Er) as (o & Eo & Ho). rewrite nth_error_map, En2 in Eo. cbn [option_map] in Eo. injection Eo as <-. exact (proj1 Ho).
    + exfalso. apply nth_error_None in Er. assert (Hll : length (ends (st_slots s)) = length rs).
      { clear - H. revert H. generalize 0. generalize (ends (st_slots s)). intros l. revert rs. induction l as [|a l IH]; intros [|r rs] n H; cbn in H; try tauto. destruct H as [_ H]. cbn. f_equal. exact (IH _ _ H). }
      rewrite map_length in Hll. assert (i < length (st_slots s)) by (apply nth_error_Some; congruence). lia.
  - unfold bs_pop in E. destruct (bs_collect de 0 (st_slots (faulty_bs nf fs s)) (km_new n)) as [m|]; cbn [bind] in E; [|discriminate].
    match type of E with (let* (a, b) := ?X in _) = _ => destruct X as [[sl o1]|] eqn:Er; cbn [bind] in E; [|discriminate] end. injection E as <- _.
    split; [|reflexivity]. apply remove_stored in Er; [|exact Wf]. rewrite Hst in Er. unfold stored in Er. unfold bs_size, calm_bs. cbn [st_slots st_cap] in *. lia.
  - unfold bs_take in E. destruct (slots_find de _ 0 (st_slots (faulty_bs nf fs s))) as [[[i j]|]|]; cbn [bind] in E; [| |discriminate].
    + destruct (nth_error (st_slots (faulty_bs nf fs s)) i) as [[v|]|] eqn:En; cbn [unwrap bind] in E; try discriminate.
      destruct (iv_swap_remove de v j) as [[v' r]|] eqn:Es; cbn [bind] in E; [|discriminate]. destruct r as [[kv|]|]; try discriminate.
      injection E as <- _. destruct (swap_remove_len v j (whole_nth i Wf En) Es) as [_ G2]. pose proof (stored_replace _ i (Some v') En) as R.
      split; [|reflexivity]. rewrite Hst in R. cbn [len] in G2, R. assert (A : stored (replace_nth i (Some v') (st_slots (faulty_bs nf fs s))) <= st_cap s) by lia. exact A.
    + injection E as <- _. split; [|reflexivity]. rewrite calm_faulty_bs. exact Hle.
Qed.

(** ** Reads that come short *)
Section Short.
Variable nf : sfaults.
Notation F := (FaultyStream nf).
Notation calms := (map (option_map (@calm_v nf))).
Definition left_f (b : bufreader F) : list byte := br_buf b ++ skipn (fst (br_h b)) (br_w b : list byte).
Definition inside (b : bufreader F) : Prop := fst (br_h b) <= length (br_w b : list byte).
Lemma r_read_any (w : list byte) h n : fst h <= length w -> exists h' r, r_read w h n = (w, h', r) /\ fst h' <= length w /\
  (r = None \/ exists m, m <= n /\ r = Some (firstn m (skipn (fst h) w)) /\ skipn (fst h') w = skipn m (skipn (fst h) w)).
Proof.
  destruct h as [pos [own cl]]. cbn [fst]. intros H. unfold r_read. destruct (next_fault own) as [[| |m] fs].
  - destruct (@vs_read_is w pos n H) as (h' & E & Hh & Es). rewrite E. eexists. eexists. split; [reflexivity|]. split; [exact Hh|]. right. exists n. auto.
  - eexists. eexists. split; [reflexivity|]. split; [exact H|]. left. reflexivity.
  - destruct (@vs_read_is w pos (Nat.min m n) H) as (h' & E & Hh & Es). rewrite E. eexists. eexists. split; [reflexivity|]. split; [exact Hh|]. right.
    exists (Nat.min m n). split; [lia|auto].
Qed.
Lemma br_read_any c (b : bufreader F) : 1 <= c -> inside b -> exists b' r, br_read b c = (b', r) /\
  (r = None \/ exists l, r = Some l /\ (length l < c \/ (length l = c /\ l = firstn c (left_f b) /\ left_f b' = skipn c (left_f b) /\ inside b'))).
Proof.
  intros Hc H. destruct b as [w h buf]. unfold inside, left_f in *. cbn [br_w br_h br_buf] in *. unfold br_read. cbn [br_w br_h br_buf].
  assert (Sk : forall (a z : list byte), c <= length a -> firstn c (a ++ z) = firstn c a /\ skipn c (a ++ z) = skipn c a ++ z).
  { intros a z Ha. rewrite firstn_app, skipn_app. replace (c - length a) with 0 by lia. cbn [firstn skipn]. rewrite app_nil_r. auto. }
  destruct buf as [|z zs].
  - cbn [app]. set (R := skipn (fst h) w) in *. destruct (bufcap <=? c) eqn:Eq; cbn [s_read FaultyStream].
    + destruct (@r_read_any w h c H) as (h' & r & E & Hh & G). rewrite E. eexists. eexists. split; [reflexivity|]. destruct G as [->|(m & Hm & -> & Es)]; [auto|]. right.
      eexists. split; [reflexivity|]. fold R in Es |- *. destruct (Nat.lt_ge_cases (length (firstn m R)) c) as [L|L]; [left; exact L|right]. rewrite firstn_length in L. assert (m = c) by lia. subst m.
      cbn [br_w br_h br_buf app]. rewrite firstn_length, Nat.min_l by lia. auto.
    + destruct (@r_read_any w h bufcap H) as (h' & r & E & Hh & G). rewrite E. destruct G as [->|(m & Hm & -> & Es)]; [eexists; eexists; split; [reflexivity|auto]|].
      eexists. eexists. split; [reflexivity|]. right. eexists. split; [reflexivity|]. fold R in Es |- *. destruct (Nat.lt_ge_cases (length (firstn m R)) c) as [L|L]; [left; rewrite firstn_length; lia|right].
      cbn [br_w br_h br_buf]. rewrite Es. destruct (Sk (firstn m R) (skipn m R) L) as [S1 S2]. rewrite firstn_skipn in S1, S2. rewrite S1, S2.
      rewrite firstn_length, Nat.min_l by lia. auto.
  - set (buf := z :: zs) in *. eexists. eexists. split; [reflexivity|]. right. eexists. split; [reflexivity|].
    destruct (Nat.lt_ge_cases (length buf) c) as [L|L]; [left; rewrite firstn_length; lia|right]. cbn [br_w br_h br_buf].
    destruct (Sk buf (skipn (fst h) w) L) as [-> ->]. rewrite firstn_length, Nat.min_l by lia. auto.
Qed.
Lemma chunk_left c ch cs (xs : list T) x : encodes de c ch x -> firstn c (concat (ch :: cs)) = ch /\ skipn c (concat (ch :: cs)) = concat cs.
Proof. intros [<- _]. cbn [concat]. rewrite firstn_app, firstn_all, Nat.sub_diag, skipn_app, skipn_all, Nat.sub_diag. cbn [firstn skipn app]. rewrite app_nil_r. auto. Qed.
Lemma iter_next_any c (b : bufreader F) cs xs : 1 <= c -> inside b -> left_f b = concat cs -> Forall2 (encodes de c) cs xs ->
  match iter_next de c b with
  | Panic => True
  | Ok (b', None) => True
  | Ok (b', Some x) => exists cs' xs', xs = x :: xs' /\ inside b' /\ left_f b' = concat cs' /\ Forall2 (encodes de c) cs' xs' end.
Proof.
  intros Hc Hi Hl Hf. unfold iter_next. destruct (br_read_any Hc Hi) as (b' & r & -> & G). destruct G as [->|(l & -> & G)]; [exact I|]. unfold chunk_from.
  destruct (length l <? c) eqn:El; [exact I|]. apply Nat.ltb_ge in El. destruct G as [G|(G1 & -> & G3 & G4)]; [lia|].
  rewrite Hl in *. destruct Hf as [|ch x cs xs He Hf]; [cbn [concat] in G1; rewrite firstn_nil in G1; cbn in G1; lia|].
  destruct (@chunk_left c ch cs xs x He) as [E1 E2]. rewrite E1. rewrite (proj2 He). exists cs, xs. rewrite G3, E2. auto.
Qed.
Lemma iter_find_any {A} (p : nat -> T -> option A) c fuel : 1 <= c -> forall j (b : bufreader F) cs xs, inside b -> left_f b = concat cs -> Forall2 (encodes de c) cs xs ->
  match iter_find de p c fuel j b with Ok (Some a) => exists i x, nth_error xs i = Some x /\ p (j + i) x = Some a | _ => True end.
Proof.
  intros Hc. induction fuel as [|fuel IH]; intros j b cs xs Hi Hl Hf; cbn [iter_find]; [exact I|]. pose proof (iter_next_any Hc Hi Hl Hf) as G.
  destruct (iter_next de c b) as [[b' [x|]]|]; cbn [bind]; auto. destruct G as (cs' & xs' & -> & G1 & G2 & G3). destruct (p j x) as [a|] eqn:Ep.
  - exists 0, x. rewrite Nat.add_0_r. auto.
  - specialize (IH (S j) b' cs' xs' G1 G2 G3). destruct (iter_find de p c fuel (S j) b') as [[a|]|]; auto. destruct IH as (i & y & E1 & E2). exists (S i), y.
    split; [exact E1|]. rewrite Nat.add_succ_r. exact E2.
Qed.
Lemma iter_list_any c fuel : 1 <= c -> forall (b : bufreader F) cs xs, inside b -> left_f b = concat cs -> Forall2 (encodes de c) cs xs ->
  match iter_list de c fuel b with Ok l => exists rest, xs = l ++ rest | Panic => True end.
Proof.
  intros Hc. induction fuel as [|fuel IH]; intros b cs xs Hi Hl Hf; cbn [iter_list]; [exists xs; reflexivity|]. pose proof (iter_next_any Hc Hi Hl Hf) as G.
  destruct (iter_next de c b) as [[b' [x|]]|]; cbn [bind]; auto; [|exists xs; reflexivity]. destruct G as (cs' & xs' & -> & G1 & G2 & G3).
  specialize (IH b' cs' xs' G1 G2 G3). destruct (iter_list de c fuel b') as [l|]; cbn [bind]; auto. destruct IH as (rest & ->). exists rest. reflexivity.
Qed.
Lemma iv_iter_any i (v : iovec F) r : slot_rep ser de i (Some (at_end (calm_v v))) r ->
  match iv_iter v with Panic => True | Ok b => 1 <= iv_chunk v /\ inside b /\ exists cs, left_f b = concat cs /\ Forall2 (encodes de (iv_chunk v)) cs (fst r) end.
Proof.
  destruct v as [w [pos [own cl]] c]. intros (_ & (H1 & _ & _ & _ & cs & E & Hf) & _). unfold at_end, calm_v in *. cbn [iv_w iv_h iv_chunk] in *.
  unfold iv_iter. cbn [iv_w iv_h iv_chunk s_seek s_clone FaultyStream fst snd]. unfold f_seek, clone_faults. destruct (next_fault (cl 0)) as [[| |m] fs]; try exact I;
    (rewrite (@seek_start w pos 0) by (apply Nat.le_0_l); unfold inside, left_f, br_new; cbn [br_w br_h br_buf fst app skipn]; split; [exact H1|]; split; [lia|]; exists cs; auto).
Qed.
Lemma slots_find_any {A} (p : nat -> nat -> T -> option A) : forall (sl : list (option (iovec F))) i rs, rep i (ends (calms sl)) rs ->
  match slots_find de p i sl with Ok (Some a) => exists n m x, In x (concat (items rs)) /\ p n m x = Some a | _ => True end.
Proof.
  induction sl as [|o sl IH]; intros i [|r rs] H; cbn [slots_find map option_map slots_rep] in *; try exact I; try tauto. destruct H as [H1 H2].
  assert (G : match slots_find de p (S i) sl with Ok (Some a) => exists n m x, In x (concat (items (r :: rs))) /\ p n m x = Some a | _ => True end).
  { specialize (IH (S i) rs H2). destruct (slots_find de p (S i) sl) as [[a|]|]; auto. destruct IH as (n & m & x & E1 & E2). exists n, m, x. split; [|exact E2].
    unfold items. cbn [map concat]. apply in_or_app. right. exact E1. }
  destruct o as [v|]; [|exact G]. unfold iv_find. pose proof (@iv_iter_any i v r H1) as I1. destruct (iv_iter v) as [b|]; cbn [bind]; [|exact I].
  destruct I1 as (Hc & Hi & cs & Hl & Hf). pose proof (@iter_find_any A (p i) (iv_chunk v) (iv_fuel v) Hc 0 b cs (fst r) Hi Hl Hf) as J.
  destruct (iter_find de (p i) (iv_chunk v) (iv_fuel v) 0 b) as [[a|]|]; cbn [bind]; [|exact G|exact I]. destruct J as (m & x & E1 & E2). exists i, m, x.
  split; [|exact E2]. unfold items. cbn [map concat]. apply in_or_app. left. exact (nth_error_In _ _ E1).
Qed.
Lemma tm_loop_in : forall (l : list T) ks, incl (snd (bs_tm_loop bs ks l)) l.
Proof.
  induction l as [|[k v] l IH]; intros ks; cbn [bs_tm_loop]; [intros x Hx; exact Hx|]. destruct (bs ks k) as [i|].
  - destruct (remove_nth i ks) as [|k0 ks']; [intros x [<-|[]]; left; reflexivity|]. specialize (IH (k0 :: ks')). destruct (bs_tm_loop bs (k0 :: ks') l) as [ks'' out]. cbn [snd] in *.
    intros x [<-|Hx]; [left; reflexivity|right; apply IH; exact Hx].
  - intros x Hx. right. exact (IH ks x Hx).
Qed.
Lemma tm_slots_any : forall (sl : list (option (iovec F))) i rs ks, rep i (ends (calms sl)) rs ->
  match bs_tm_slots bs de ks sl with Ok (_, out) => incl out (concat (items rs)) | Panic => True end.
Proof.
  induction sl as [|o sl IH]; intros i [|r rs] ks H; cbn [bs_tm_slots map option_map slots_rep] in *; try tauto; [intros x []|]. destruct H as [H1 H2].
  destruct o as [v|].
  - unfold iv_list. pose proof (@iv_iter_any i v r H1) as I1. destruct (iv_iter v) as [b|]; cbn [bind]; [|exact I].
    destruct I1 as (Hc & Hi & cs & Hl & Hf). pose proof (@iter_list_any (iv_chunk v) (iv_fuel v) Hc b cs (fst r) Hi Hl Hf) as J.
    destruct (iter_list de (iv_chunk v) (iv_fuel v) b) as [l|]; cbn [bind]; [|exact I]. destruct J as (rest & E). pose proof (tm_loop_in l ks) as L.
    destruct (bs_tm_loop bs ks l) as [ks1 out1]. specialize (IH (S i) rs ks1 H2). destruct (bs_tm_slots bs de ks1 sl) as [[ks2 out2]|]; cbn [bind]; [|exact I]. cbn [snd] in L.
    unfold items. cbn [map concat]. rewrite E. intros x Hx. apply in_app_or in Hx as [Hx|Hx]; apply in_or_app; [left; apply in_or_app; left; exact (L x Hx)|right; exact (IH x Hx)].
  - specialize (IH (S i) rs ks H2). destruct (bs_tm_slots bs de ks sl) as [[ks2 out2]|]; [|exact I]. unfold items. cbn [map concat]. intros x Hx. apply in_or_app. right. exact (IH x Hx).
Qed.
End Short.
(** Whatever fails or comes short, what a lookup finds is held. *)
Theorem C78_found_is_held : forall nf fs s, fault_ok s ->
  (forall k, contains (Bf nf) (faulty_bs nf fs s) k = Ok true -> In k (keys (held s))) /\
  (forall k v, bs_get de (faulty_bs nf fs s) k = Ok (Some v) -> In (k, v) (held s)) /\
  (forall ks s' ks' out, take_multiple (Bf nf) (faulty_bs nf fs s) ks = Ok (s', ks', out) -> incl out (held s)).
Proof.
  intros nf fs s (rs & H & Hl). rewrite (@held_rep s rs H).
  assert (H' : rep 0 (ends (map (option_map (@calm_v nf)) (faulty_slots nf fs 0 (st_slots s)))) rs) by (rewrite calm_faulty_slots; exact H).
  split; [|split].
  - intros k E. cbn [contains ByteStreamB] in E. unfold bs_contains in E. cbn [faulty_bs st_slots] in E.
    pose proof (@slots_find_any nf _ (fun (_ _ : nat) (kv : T) => if eqb (fst kv) k then Some tt else None) _ 0 rs H') as G. cbv beta in G.
    destruct (slots_find de (fun (_ _ : nat) (kv : T) => if eqb (fst kv) k then Some tt else None) 0 (faulty_slots nf fs 0 (st_slots s))) as [[a|]|]; cbn [bind] in E; try discriminate.
    destruct G as (_ & _ & [k' v] & Hin & Ek). cbn [fst] in Ek. destruct (eqb k' k) eqn:E0; [|discriminate]. apply eqb_eq in E0. subst k'. unfold keys. apply in_map_iff. exists (k, v). auto.
  - intros k v E. unfold bs_get in E. cbn [faulty_bs st_slots] in E.
    pose proof (@slots_find_any nf _ (fun (_ _ : nat) (kv : T) => if eqb (fst kv) k then Some (snd kv) else None) _ 0 rs H') as G. cbv beta in G.
    rewrite E in G. destruct G as (_ & _ & [k' v'] & Hin & Ek). cbn [fst snd] in Ek. destruct (eqb k' k) eqn:E0; [|discriminate]. injection Ek as <-. apply eqb_eq in E0. subst k'. exact Hin.
  - intros ks s' ks' out E. cbn [take_multiple ByteStreamB] in E. unfold bs_take_multiple in E. cbn [faulty_bs st_slots] in E.
    pose proof (@tm_slots_any nf (faulty_slots nf fs 0 (st_slots s)) 0 rs (sort_keys ks) H') as G.
    destruct (bs_tm_slots bs de (sort_keys ks) (faulty_slots nf fs 0 (st_slots s))) as [[ks1 out1]|]; cbn [bind] in E; [|discriminate]. injection E as <- <- <-. exact G.
Qed.
End PStreamFaults.

(** ** Concrete cases *)
(** Faults of a clone, and none of its clones. *)
Definition in_clone (l : list fault) : nat -> list fault := fun d => match d with 0 => l | _ => [] end.
Definition no_faults : sfaults := ([], fun _ => []).
Definition all_same (f : sfaults) : nat -> sfaults := fun _ => f.
Notation run_v := (run demo_bs).
Notation fault_bs nf := (ByteStreamB (FaultyStream nf) linear_bs pair_ser pair_de).
(** What a step on [s] with the faults [f] shows: what it hands back, and then, for some keys, whether they are held. *)
Definition fault_saw (nf f : sfaults) (s : bstream VecStream) (o : op nat nat) (ks : list nat) : option (list (nat * nat) * list (res bool) * nat) :=
  match step (fault_bs nf) (faulty_bs nf (all_same f) s) o with
  | Ok (s', out) => Some (out, map (contains demo_bs (calm_bs s')) ks, bs_size (calm_bs s'))
  | Panic => None
  end.
(** Refuted: an element that a push does not hand back is held.  A write fails in the drop of the buffered writer. *)
Theorem C78_push_loses_in_silence_refuted : fault_saw ([Works; Fails], fun _ => []) no_faults (bs_new VecStream 100) (OpPush [(1, 0)]) [1] = Some ([], [Ok false], 0).
Proof. vm_compute; reflexivity. Qed.
(** Refuted: size() <= capacity().  A stream whose size cannot be told counts for nothing. *)
Theorem C78_size_within_capacity_refuted : run_v (bs_new VecStream 4) [OpPush [(1, 0); (2, 0)]] = Ok (demo_state [None; vslot [x01; x00; x02; x00] 4 2] 4, []) /\
  fault_saw no_faults ([], in_clone [Fails]) (demo_state [None; vslot [x01; x00; x02; x00] 4 2] 4) (OpPush [(3, 0)]) [1; 2; 3] = Some ([], [Ok true; Ok true; Ok true], 6).
Proof. split; vm_compute; reflexivity. Qed.
(** Refuted: the same when reads or writes are done by halves, as a Read and a Write may: a lookup misses what is held,
    a pop removes an element without handing it back, a take leaves elements that nobody pushed. *)
Theorem C78_short_read_misses_refuted :
  contains demo_bs demo_two 2 = Ok true /\ contains (fault_bs no_faults) (faulty_bs no_faults (all_same ([], in_clone [Works; Short 1])) demo_two) 2 = Ok false /\
  contains (fault_bs no_faults) (faulty_bs no_faults (all_same ([], in_clone [Works; Short 3])) demo_two) 2 = Ok false.
Proof. split; [vm_compute; reflexivity|]. split; vm_compute; reflexivity. Qed.
Theorem C78_short_read_loses_refuted : fault_saw no_faults ([Works; Short 1], fun _ => []) demo_two (OpPop 1) [1; 2] = Some ([], [Ok true; Ok false], 2).
Proof. vm_compute; reflexivity. Qed.
Definition demo_four : bstream VecStream := demo_state [None; None; vslot [x01; x01; x00; x00; x02; x01; x01; x00] 8 4] 100.
Theorem C78_short_write_invents_refuted : run_v (bs_new VecStream 100) [OpPush [(1, 1); (2, 2)]] = Ok (demo_four, []) /\
  match step (fault_bs no_faults) (faulty_bs no_faults (all_same ([Works; Works; Works; Works; Works; Works; Short 1], fun _ => [])) demo_four) (OpTake 1) with
  | Ok (s', out) => out = [(1, 1)] /\ bs_get pair_de (calm_bs s') 2 = Ok (Some 1)
  | Panic => False end.
Proof. split; [vm_compute; reflexivity|]. vm_compute. split; reflexivity. Qed.
(** The hypotheses are met by a history in which reads, writes and seeks fail, one element is lost and one call has no effect. *)
Definition fault_case : list (sfaults * (nat -> sfaults) * op nat nat) :=
  [(no_faults, all_same no_faults, OpPush [(1, 0); (2, 5)]); (no_faults, all_same ([Fails], fun _ => []), OpPush [(3, 0)]);
   (no_faults, all_same ([Works; Fails], fun _ => []), OpPush [(4, 0)]); (no_faults, all_same ([Works; Fails], fun _ => []), OpPop 2);
   (no_faults, all_same no_faults, OpPush [(6, 9)]); (no_faults, all_same no_faults, OpTake 2)].
Example c78_case : Forall (@fault_call nat nat) fault_case /\ match bs_fault_run linear_bs pair_ser pair_de (bs_new VecStream 100) fault_case with
  | Ok (s, out) => out = [(3, 0); (2, 5)] /\ contains demo_bs s 4 = Ok false /\ contains demo_bs s 1 = Ok true /\ contains demo_bs s 6 = Ok true
  | Panic => False end.
Proof.
  split; [|vm_compute; repeat split; reflexivity].
  repeat match goal with
  | |- Forall _ _ => constructor
  | |- fault_call _ => split; [|split; [intros i|]]
  | |- whole _ => split
  | |- forall d : nat, Forall _ _ => intros d; cbn
  | |- whole1 _ => exact I
  | |- True => exact I
  end; cbn; exact I.
Qed.
(** A call that meets a failing read panics. *)
Example c78_panic_case : contains (fault_bs no_faults) (faulty_bs no_faults (all_same ([], in_clone [Works; Fails])) demo_two) 2 = Panic /\
  step (fault_bs no_faults) (faulty_bs no_faults (all_same ([Works; Works; Works; Fails], fun _ => [])) demo_two) (OpTake 1) = Panic.
Proof. split; vm_compute; reflexivity. Qed.
(** So does the drop of a guard whose write fails; without that failure the value is the new one. *)
Definition in_guard (l : list fault) : nat -> list fault := fun d => match d with 2 => l | _ => [] end.
Example c78_get_mut_case :
  bs_get_mut pair_ser pair_de (faulty_bs no_faults (all_same ([], in_guard [Works; Works; Fails])) demo_two) 2 (fun _ => 7) = Panic /\
  match bs_get_mut pair_ser pair_de (faulty_bs no_faults (all_same ([Fails], in_guard [])) demo_two) 1 (fun _ => 0) with
  | Ok (s', o) => o <> None /\ bs_get pair_de (calm_bs s') 1 = Ok (Some 0) /\ bs_get pair_de (calm_bs s') 2 = bs_get pair_de demo_two 2
  | Panic => False end.
Proof. split; [vm_compute; reflexivity|]. vm_compute. split; [discriminate|split; reflexivity]. Qed.
Print Assumptions C78_returns_right.
Print Assumptions C78_size.
Print Assumptions C78_get_mut.
Print Assumptions C78_push.
Print Assumptions C78_history.
Print Assumptions C78_found_is_held.
