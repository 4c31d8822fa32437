(** Bincode.v -- the wire format of bincode 1 (default options: fixed-size little-endian integers, u64 lengths,
    u32 enum tags), as used through serialize_into and deserialize_from by /repo/src/socket/message.rs.
    bincode is not part of /repo: this is a model of its documented format. *)
From Coq Require Import NArith Strings.Byte.
From Verif Require Import Base.
Set Implicit Arguments.

(** Errors of a decoder, as /repo/src/socket/error.rs:44-78 tells them apart: bad bool or Option tags
    (InvalidEncoding) and errors raised by serde, among them unknown enum variants (Custom). *)
Inductive derr : Type := EInvalid | ECustom.
(** A decoder reads bytes one after the other; [More]: it waits for more of them. *)
Inductive dres (A : Type) : Type := Done (x : A) (rest : list byte) | More | Bad (e : derr).
Arguments More {A}. Arguments Bad {A} e.
Definition decoder (A : Type) : Type := list byte -> dres A.
Definition d_ret {A} (x : A) : decoder A := fun l => Done x l.
Definition d_bad {A} (e : derr) : decoder A := fun _ => Bad e.
Definition d_bind {A B} (d : decoder A) (f : A -> decoder B) : decoder B := fun l =>
  match d l with Done x rest => f x rest | More => More | Bad e => Bad e end.

(** A type with its encoding.  [valid]: the values of the model that are values of the Rust type (integers are
    bounded there). *)
Record codec (A : Type) : Type := mkCodec {
  enc : A -> list byte;
  de : decoder A;
  valid : A -> Prop;
  c_full : forall x rest, valid x -> de (enc x ++ rest) = Done x rest;
  c_part : forall x p q, valid x -> enc x = p ++ q -> q <> [] -> de p = More
}.

Lemma d_bind_full {A B} (d : decoder A) (f : A -> decoder B) x y e1 e2 rest :
  d (e1 ++ (e2 ++ rest)) = Done x (e2 ++ rest) -> f x (e2 ++ rest) = Done y rest -> d_bind d f ((e1 ++ e2) ++ rest) = Done y rest.
Proof. intros H1 H2. unfold d_bind. rewrite <- app_assoc, H1. auto. Qed.
Lemma d_bind_part {A B} (c : codec A) (f : A -> decoder B) x e2 p q :
  valid c x -> (forall p2, e2 = p2 ++ q -> f x p2 = More) -> enc c x ++ e2 = p ++ q -> q <> [] -> d_bind (de c) f p = More.
Proof.
  intros Hv H E Hq. unfold d_bind. destruct (app_eq_app _ _ _ _ E) as (l & [[E1 E2]|[E1 E2]]).
  - destruct l as [|b l].
    + rewrite app_nil_r in E1. subst p. rewrite <- (app_nil_r (enc c x)), c_full; auto.
    + rewrite (@c_part _ c x p (b :: l)); auto. discriminate.
  - subst p. rewrite c_full; auto.
Qed.

(** u8 *)
Definition byte_codec : codec byte.
Proof.
  refine (@mkCodec byte (fun b => [b]) (fun l => match l with b :: r => Done b r | [] => More end) (fun _ => True) _ _); auto.
  intros x [|b p] q _ E Hq; auto. destruct p; destruct q; try discriminate; congruence.
Defined.
(** unsigned integers on [n] bytes, little-endian *)
Fixpoint le (n : nat) (x : N) : list byte :=
  match n with
  | O => []
  | S n' => match Byte.of_N (x mod 256) with Some b => b | None => x00 end :: le n' (x / 256)
  end.
Fixpoint unle (l : list byte) : N := match l with [] => 0 | b :: r => Byte.to_N b + 256 * unle r end%N.
Lemma le_length n x : length (le n x) = n.
Proof. revert x. induction n; intros; cbn [le length]; auto. Qed.
Lemma unle_le n x : (x < 256 ^ N.of_nat n)%N -> unle (le n x) = x.
Proof.
  revert x. induction n as [|n IH]; intros x H.
  - cbn in *. lia.
  - cbn [le unle]. assert (Hm : (x mod 256 < 256)%N) by (apply N.mod_lt; lia). rewrite IH.
    + destruct (Byte.of_N (x mod 256)) as [b|] eqn:E.
      * apply Byte.to_of_N in E. rewrite E. rewrite (N.div_mod x 256) at 3 by lia. lia.
      * apply Byte.of_N_None_iff in E. lia.
    + apply N.div_lt_upper_bound; [lia|]. rewrite Nat2N.inj_succ, N.pow_succ_r' in H. lia.
Qed.
Definition d_uint (n : nat) : decoder N := fun l => if length l <? n then More else Done (unle (firstn n l)) (skipn n l).
Definition uint_codec (n : nat) : codec N.
Proof.
  refine (@mkCodec N (le n) (d_uint n) (fun x => (x < 256 ^ N.of_nat n)%N) _ _).
  - intros x rest H. unfold d_uint. rewrite app_length, le_length. replace (n + length rest <? n) with false by (symmetry; apply Nat.ltb_ge; lia).
    rewrite firstn_app, skipn_app, le_length, Nat.sub_diag. rewrite firstn_all2 by (rewrite le_length; auto).
    rewrite skipn_all2 by (rewrite le_length; auto). cbn [firstn skipn app]. rewrite app_nil_r. rewrite unle_le; auto.
  - intros x p q _ E Hq. unfold d_uint. assert (G := le_length n x). rewrite E, app_length in G. destruct q; [congruence|]. cbn in G.
    replace (length p <? n) with true by (symmetry; apply Nat.ltb_lt; lia). auto.
Defined.
(** usize, sent as u64 *)
Definition usize_codec : codec nat.
Proof.
  refine (@mkCodec nat (fun x => enc (uint_codec 8) (N.of_nat x)) (d_bind (de (uint_codec 8)) (fun x => d_ret (N.to_nat x)))
    (fun x => N.of_nat x < 256 ^ 8)%N _ _).
  - intros x rest H. unfold d_bind. rewrite (@c_full _ (uint_codec 8)); auto. unfold d_ret. rewrite Nat2N.id. auto.
  - intros x p q H E Hq. unfold d_bind. rewrite (@c_part _ (uint_codec 8) (N.of_nat x) p q); auto.
Defined.
(** bool *)
Definition bool_codec : codec bool.
Proof.
  refine (@mkCodec bool (fun b => [if b then x01 else x00])
    (fun l => match l with [] => More | x00 :: r => Done false r | x01 :: r => Done true r | _ => Bad EInvalid end) (fun _ => True) _ _).
  - intros [|] rest _; auto.
  - intros x [|b p] q _ E Hq; auto. destruct p; destruct q; try discriminate; congruence.
Defined.
(** pairs *)
Definition pair_codec {A B} (a : codec A) (b : codec B) : codec (A * B).
Proof.
  refine (@mkCodec (A * B) (fun x => enc a (fst x) ++ enc b (snd x))
    (d_bind (de a) (fun x => d_bind (de b) (fun y => d_ret (x, y)))) (fun x => valid a (fst x) /\ valid b (snd x)) _ _).
  - intros [x y] rest [Hx Hy]. cbn [fst snd] in *. eapply d_bind_full; [apply c_full; auto|]. unfold d_bind. rewrite c_full; auto.
  - intros [x y] p q [Hx Hy] E Hq. cbn [fst snd] in *. eapply d_bind_part; eauto. intros p2 E2. unfold d_bind. rewrite (c_part b y p2 Hy E2); auto.
Defined.
(** Option *)
Definition option_codec {A} (a : codec A) : codec (option A).
Proof.
  refine (@mkCodec (option A) (fun o => match o with None => [x00] | Some x => x01 :: enc a x end)
    (fun l => match l with [] => More | x00 :: r => Done None r | x01 :: r => d_bind (de a) (fun x => d_ret (Some x)) r | _ => Bad EInvalid end)
    (fun o => match o with None => True | Some x => valid a x end) _ _).
  - intros [x|] rest H; cbn [app]; auto. unfold d_bind. rewrite c_full; auto.
  - intros [x|] [|b p] q H E Hq; auto.
    + injection E as <- E. unfold d_bind. rewrite (c_part a x p H E); auto.
    + exfalso. injection E as _ E. destruct p; destruct q; try discriminate. congruence.
Defined.
(** Vec *)
Fixpoint d_many {A} (d : decoder A) (n : nat) : decoder (list A) :=
  match n with O => d_ret [] | S n' => d_bind d (fun x => d_bind (d_many d n') (fun l => d_ret (x :: l))) end.
Lemma d_many_full {A} (a : codec A) l rest : Forall (valid a) l -> d_many (de a) (length l) (flat_map (enc a) l ++ rest) = Done l rest.
Proof.
  induction 1 as [|x l Hx Hl IH]; cbn [d_many length flat_map]; auto. eapply d_bind_full; [apply c_full; auto|]. unfold d_bind. rewrite IH. auto.
Qed.
Lemma d_many_part {A} (a : codec A) l : Forall (valid a) l -> forall p q, flat_map (enc a) l = p ++ q -> q <> [] -> d_many (de a) (length l) p = More.
Proof.
  induction 1 as [|x l Hx Hl IH]; intros p q E Hq; cbn [d_many length flat_map] in *.
  - destruct p; destruct q; try discriminate. congruence.
  - eapply d_bind_part; eauto. intros p2 E2. unfold d_bind. rewrite (IH p2 q); auto.
Qed.
Definition vec_codec {A} (a : codec A) : codec (list A).
Proof.
  refine (@mkCodec (list A) (fun l => enc usize_codec (length l) ++ flat_map (enc a) l)
    (d_bind (de usize_codec) (d_many (de a))) (fun l => valid usize_codec (length l) /\ Forall (valid a) l) _ _).
  - intros l rest [H1 H2]. eapply d_bind_full; [apply c_full; auto|]. apply d_many_full; auto.
  - intros l p q [H1 H2] E Hq. eapply d_bind_part; eauto. intros p2 E2. eapply d_many_part; eauto.
Defined.
(** Enums: a u32 tag, then the fields of the variant. *)
Lemma enum_full {A} (dec : N -> decoder A) x tag body rest : (tag < 256 ^ 4)%N -> dec tag (body ++ rest) = Done x rest ->
  d_bind (de (uint_codec 4)) dec ((le 4 tag ++ body) ++ rest) = Done x rest.
Proof. intros H1 H2. eapply d_bind_full; [apply (@c_full _ (uint_codec 4)); auto|auto]. Qed.
Lemma enum_part {A} (dec : N -> decoder A) tag body p q : (tag < 256 ^ 4)%N -> (forall p2, body = p2 ++ q -> dec tag p2 = More) ->
  le 4 tag ++ body = p ++ q -> q <> [] -> d_bind (de (uint_codec 4)) dec p = More.
Proof. intros H1 H2 E Hq. apply (@d_bind_part _ _ (uint_codec 4) dec tag body p q); auto. Qed.
