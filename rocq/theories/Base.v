(** Base.v -- the notions shared by the whole model: results with panics, total orders, sums of
    sizes, sorting and binary search as used from Rust's standard library.  Definitions here model no
    particular function of /repo unless a citation says so. *)
From Coq Require Export List Arith Lia Bool Permutation Sorted.
Export ListNotations.
Set Implicit Arguments.

(** A call either returns or panics.  [Panic] stands for every panicking construct of the code: failed
    unwrap/expect/assert!, explicit panic!, out of bounds index, usize underflow (debug builds),
    division by zero.  Nothing is said about the state after a panic. *)
Inductive res (A : Type) : Type := Ok (a : A) | Panic.
Arguments Ok {A} a.
Arguments Panic {A}.

Definition bind {A B : Type} (r : res A) (f : A -> res B) : res B :=
  match r with Ok a => f a | Panic => Panic end.
Notation "'let*' p ':=' e 'in' f" :=
  (bind e (fun x => match x with p => f end))
  (at level 200, p pattern, e at level 200, f at level 200, right associativity).

(** usize subtraction: panics on underflow. *)
Definition sub_chk (a b : nat) : res nat := if b <=? a then Ok (a - b) else Panic.

(** [Option::unwrap] *)
Definition unwrap {A} (o : option A) : res A :=
  match o with Some a => Ok a | None => Panic end.

(** Rust's [Ord] for values: a total preorder ([cmp == Equal] need not be Leibniz equality: FifoCell
    and LruCell compare only a counter or a timestamp). *)
Class Ord (A : Type) : Type := {
  leb : A -> A -> bool;
  leb_total : forall a b, leb a b = true \/ leb b a = true;
  leb_trans : forall a b c, leb a b = true -> leb b c = true -> leb a c = true
}.

(** Keys: [==] coincides with [cmp == Equal]. *)
Class OrdEq (A : Type) {O : Ord A} : Prop :=
  leb_antisym : forall a b, leb a b = true -> leb b a = true -> a = b.
Arguments OrdEq A {O}.

Definition eqb {A} {O : Ord A} (a b : A) : bool := leb a b && leb b a.

Lemma leb_refl {A} {O : Ord A} (a : A) : leb a a = true.
Proof. destruct (leb_total a a); auto. Qed.

Lemma eqb_eq {A} {O : Ord A} {E : OrdEq A} (a b : A) : eqb a b = true <-> a = b.
Proof.
  unfold eqb; split.
  - intros H; apply andb_true_iff in H; destruct H; apply leb_antisym; auto.
  - intros ->; rewrite !leb_refl; reflexivity.
Qed.

Lemma eqb_refl {A} {O : Ord A} (a : A) : eqb a a = true.
Proof. unfold eqb; rewrite !leb_refl; reflexivity. Qed.

Lemma eqb_neq {A} {O : Ord A} {E : OrdEq A} (a b : A) : eqb a b = false <-> a <> b.
Proof.
  rewrite <- eqb_eq. destruct (eqb a b); split; congruence.
Qed.

Lemma eq_dec_ord {A} {O : Ord A} {E : OrdEq A} (a b : A) : {a = b} + {a <> b}.
Proof.
  destruct (eqb a b) eqn:H; [left; apply eqb_eq | right; apply eqb_neq]; auto.
Qed.

#[global] Instance Ord_nat : Ord nat.
Proof.
  refine {| leb := Nat.leb |}.
  - intros a b; rewrite !Nat.leb_le; lia.
  - intros a b c; rewrite !Nat.leb_le; lia.
Defined.
#[global] Instance OrdEq_nat : OrdEq nat.
Proof. intros a b; cbn; rewrite !Nat.leb_le; lia. Qed.

(** Total size of a list of elements. *)
Definition sum_sz {T} (sz : T -> nat) (l : list T) : nat := list_sum (map sz l).

Lemma sum_sz_app {T} (sz : T -> nat) l1 l2 : sum_sz sz (l1 ++ l2) = sum_sz sz l1 + sum_sz sz l2.
Proof. unfold sum_sz; rewrite map_app, list_sum_app; reflexivity. Qed.
Lemma sum_sz_cons {T} (sz : T -> nat) x l : sum_sz sz (x :: l) = sz x + sum_sz sz l.
Proof. reflexivity. Qed.
Lemma sum_sz_perm {T} (sz : T -> nat) l1 l2 : Permutation l1 l2 -> sum_sz sz l1 = sum_sz sz l2.
Proof. induction 1; unfold sum_sz in *; simpl in *; lia. Qed.

(** Keys of a list of pairs. *)
Definition keys {K V} (l : list (K * V)) : list K := map fst l.
Lemma keys_app {K V} (l1 l2 : list (K * V)) : keys (l1 ++ l2) = keys l1 ++ keys l2.
Proof. apply map_app. Qed.
Lemma keys_perm {K V} (l1 l2 : list (K * V)) : Permutation l1 l2 -> Permutation (keys l1) (keys l2).
Proof. apply Permutation_map. Qed.

Definition has_key {K V} {O : Ord K} (k : K) (l : list (K * V)) : bool :=
  existsb (fun p => eqb (fst p) k) l.

Lemma has_key_in {K V} {O : Ord K} {E : OrdEq K} (k : K) (l : list (K * V)) :
  has_key k l = true <-> In k (keys l).
Proof.
  unfold has_key, keys; rewrite existsb_exists, in_map_iff. split.
  - intros [p [Hin He]]. apply eqb_eq in He. eauto.
  - intros [p [He Hin]]. exists p; split; auto. apply eqb_eq; auto.
Qed.

Lemma has_key_not_in {K V} {O : Ord K} {E : OrdEq K} (k : K) (l : list (K * V)) :
  has_key k l = false <-> ~ In k (keys l).
Proof.
  rewrite <- has_key_in. destruct (has_key k l); split; try congruence; intros H; exfalso; apply H; auto.
Qed.

(** Sortedness of a list according to a key function into an ordered type. *)
Definition sorted_by {T A} {O : Ord A} (f : T -> A) (l : list T) : Prop :=
  StronglySorted (fun a b => leb (f a) (f b) = true) l.

(** ** Sorting
    [slice::sort] and [slice::sort_by] are stable: the result is unique, and insertion sort computes
    it.  [slice::sort_unstable_by] may return any sorted permutation: it is a parameter [Sorter]. *)
Fixpoint ins {T A} {O : Ord A} (f : T -> A) (x : T) (l : list T) : list T :=
  match l with
  | [] => [x]
  | y :: l' => if leb (f x) (f y) then x :: y :: l' else y :: ins f x l'
  end.
Fixpoint stable_sort {T A} {O : Ord A} (f : T -> A) (l : list T) : list T :=
  match l with [] => [] | x :: l' => ins f x (stable_sort f l') end.

Lemma ins_perm {T A} {O : Ord A} (f : T -> A) x l : Permutation (ins f x l) (x :: l).
Proof.
  induction l as [|y l IH]; simpl; auto.
  destruct (leb (f x) (f y)); auto. rewrite IH. apply perm_swap.
Qed.
Lemma stable_sort_perm {T A} {O : Ord A} (f : T -> A) l : Permutation (stable_sort f l) l.
Proof. induction l as [|x l IH]; simpl; auto. rewrite ins_perm; auto. Qed.
Lemma ins_sorted {T A} {O : Ord A} (f : T -> A) x l : sorted_by f l -> sorted_by f (ins f x l).
Proof.
  unfold sorted_by. induction 1 as [|y l HS IH HF]; simpl.
  - repeat constructor.
  - destruct (leb (f x) (f y)) eqn:E.
    + constructor; [constructor; auto|]. constructor; auto.
      eapply Forall_impl; [|exact HF]; simpl; intros a Ha. eapply leb_trans; eauto.
    + constructor; auto. rewrite Forall_forall in *. intros z Hz.
      rewrite (ins_perm f x l) in Hz. destruct Hz as [<-|Hz]; auto.
      destruct (leb_total (f x) (f y)); congruence.
Qed.
Lemma stable_sort_sorted {T A} {O : Ord A} (f : T -> A) l : sorted_by f (stable_sort f l).
Proof. induction l; simpl; [constructor | apply ins_sorted; auto]. Qed.

Record Sorter (T A : Type) {O : Ord A} (f : T -> A) : Type := {
  sort_fun :> list T -> list T;
  sort_perm : forall l, Permutation (sort_fun l) l;
  sort_sorted : forall l, sorted_by f (sort_fun l)
}.
Arguments Sorter T A {O} f.

Definition std_sorter {T A} {O : Ord A} (f : T -> A) : Sorter T A f :=
  {| sort_fun := stable_sort f;
     sort_perm := stable_sort_perm f;
     sort_sorted := stable_sort_sorted f |}.

(** [keys.sort()] on a vector of keys. *)
Definition sort_keys {K} {O : Ord K} (l : list K) : list K := stable_sort (fun k => k) l.

(** [slice::binary_search]: returns [Ok(i)] only at a matching index; on a sorted slice it finds a
    match if there is one; which one, and what happens on an unsorted slice, is unspecified. *)
Record BSearch (K : Type) {O : Ord K} : Type := {
  bs_fun :> list K -> K -> option nat;
  bs_sound : forall l k i, bs_fun l k = Some i -> nth_error l i = Some k;
  bs_complete : forall l k, sorted_by (fun x => x) l -> In k l -> bs_fun l k <> None
}.
Arguments BSearch K {O}.

Fixpoint find_index {T} (p : T -> bool) (l : list T) : option nat :=
  match l with
  | [] => None
  | x :: l' => if p x then Some 0 else option_map S (find_index p l')
  end.

Lemma find_index_some {T} (p : T -> bool) l i :
  find_index p l = Some i -> exists x, nth_error l i = Some x /\ p x = true /\
    (forall j y, j < i -> nth_error l j = Some y -> p y = false).
Proof.
  revert i; induction l as [|x l IH]; simpl; intros i H; try discriminate.
  destruct (p x) eqn:E.
  - inversion H; subst. exists x; split; auto. split; auto. intros; lia.
  - destruct (find_index p l) as [j|] eqn:F; simpl in H; inversion H; subst.
    destruct (IH j eq_refl) as (y & Hn & Hp & Hb). exists y; split; auto. split; auto.
    intros [|j'] z Hlt Hz; simpl in Hz.
    + inversion Hz; subst; auto.
    + apply (Hb j'); auto; lia.
Qed.
Lemma find_index_none {T} (p : T -> bool) l :
  find_index p l = None <-> forall x, In x l -> p x = false.
Proof.
  induction l as [|x l IH]; simpl.
  - split; auto. intros _ y [].
  - destruct (p x) eqn:E.
    + split; [discriminate|]. intros H. rewrite H in E; auto; discriminate.
    + destruct (find_index p l) eqn:F; simpl.
      * split; [discriminate|]. intros H. destruct IH as [_ IH]. discriminate IH; auto.
      * split; auto. intros _ y [<-|Hy]; auto. apply IH; auto.
Qed.

Definition linear_bs {K} {O : Ord K} {E : OrdEq K} : BSearch K.
Proof.
  refine {| bs_fun := fun l k => find_index (fun x => eqb x k) l |}.
  - intros l k i H. apply find_index_some in H. destruct H as (x & Hn & Hp & _).
    apply eqb_eq in Hp; subst; auto.
  - intros l k _ Hin H. rewrite find_index_none in H. specialize (H k Hin).
    rewrite eqb_refl in H; discriminate.
Defined.

(** [Vec::remove(i)] (i in bounds; the code only calls it with an index just returned by a search). *)
Fixpoint remove_nth {T} (i : nat) (l : list T) : list T :=
  match l, i with
  | [], _ => []
  | _ :: l', 0 => l'
  | x :: l', S i' => x :: remove_nth i' l'
  end.

Lemma remove_nth_perm {T} (i : nat) (l : list T) x :
  nth_error l i = Some x -> Permutation (x :: remove_nth i l) l.
Proof.
  revert i; induction l as [|y l IH]; intros [|i]; simpl; intros H; try discriminate.
  - inversion H; auto.
  - rewrite perm_swap. constructor. auto.
Qed.
Lemma remove_nth_sorted {T A} {O : Ord A} (f : T -> A) i (l : list T) :
  sorted_by f l -> sorted_by f (remove_nth i l).
Proof.
  unfold sorted_by; intros H; revert i; induction H as [|y l HS IH HF]; intros [|i]; simpl; auto; try constructor; auto.
  rewrite Forall_forall in *. intros z Hz. apply HF.
  clear - Hz. revert i Hz; induction l as [|a l IH]; intros [|i]; simpl; auto. intros [->|Hz]; auto. right; eauto.
Qed.

(** [Vec::swap_remove(i)]: remove index [i], the last element takes its place. *)
Fixpoint replace_nth {T} (i : nat) (x : T) (l : list T) : list T :=
  match l, i with
  | [], _ => []
  | _ :: l', 0 => x :: l'
  | y :: l', S i' => y :: replace_nth i' x l'
  end.
Definition swap_remove {T} (i : nat) (l : list T) : list T :=
  match rev l with
  | [] => []
  | z :: _ => removelast (replace_nth i z l)
  end.

Lemma replace_nth_length {T} i (x : T) l : length (replace_nth i x l) = length l.
Proof. revert i; induction l; intros [|i]; simpl; auto. Qed.

Lemma swap_remove_perm {T} (i : nat) (l : list T) x :
  nth_error l i = Some x -> Permutation (x :: swap_remove i l) l.
Proof.
  unfold swap_remove. intros H.
  destruct (rev l) as [|z rl] eqn:E.
  - apply (f_equal (@rev T)) in E. rewrite rev_involutive in E; subst. destruct i; discriminate.
  - assert (El : l = rev rl ++ [z]).
    { apply (f_equal (@rev T)) in E. rewrite rev_involutive in E. simpl in E; auto. }
    subst l. set (m := rev rl) in *. clearbody m. clear E.
    revert i H; induction m as [|y m IH]; intros i H.
    + destruct i; simpl in *; [inversion H; subst; auto | destruct i; discriminate].
    + destruct i as [|i]; simpl in H.
      * inversion H; subst. simpl app. simpl replace_nth.
        replace (z :: m ++ [z]) with ((z :: m) ++ [z]) by reflexivity.
        rewrite removelast_last. constructor. apply Permutation_cons_append.
      * simpl. specialize (IH i H). remember (replace_nth i z (m ++ [z])) as r eqn:Er.
        destruct r as [|a r].
        { exfalso. apply (f_equal (@length T)) in Er. rewrite replace_nth_length, app_length in Er; simpl in Er; lia. }
        rewrite perm_swap. constructor. auto.
Qed.

Lemma NoDup_perm {T} (l1 l2 : list T) : Permutation l1 l2 -> NoDup l1 -> NoDup l2.
Proof. intros; eapply Permutation_NoDup; eauto. Qed.

Lemma NoDup_app_inv {T} (l1 l2 : list T) :
  NoDup (l1 ++ l2) <-> NoDup l1 /\ NoDup l2 /\ (forall x, In x l1 -> In x l2 -> False).
Proof.
  induction l1 as [|a l1 IH]; simpl.
  - split; [intros; repeat split; auto; try constructor | tauto].
  - rewrite !NoDup_cons_iff, IH, in_app_iff. split.
    + intros (Hn & H1 & H2 & H3). repeat split; auto. intros x [<-|Hx] Hx2; eauto.
    + intros ((Hn & H1) & H2 & H3). repeat split; auto.
      * intros [H|H]; eauto.
      * intros x Hx Hx2; eauto.
Qed.

Lemma in_keys {K V} (l : list (K * V)) k v : In (k, v) l -> In k (keys l).
Proof. intros H. unfold keys. apply in_map_iff. exists (k, v); auto. Qed.

Lemma keys_unique {K V} (l : list (K * V)) k v1 v2 :
  NoDup (keys l) -> In (k, v1) l -> In (k, v2) l -> v1 = v2.
Proof.
  unfold keys. induction l as [|[k' v'] l IH]; simpl; [tauto|].
  intros Hn; inversion Hn as [|? ? Hni Hnd]; subst.
  intros [H1|H1] [H2|H2].
  - congruence.
  - inversion H1; subst. exfalso; apply Hni. apply (in_keys l k v2); auto.
  - inversion H2; subst. exfalso; apply Hni. apply (in_keys l k v1); auto.
  - auto.
Qed.
