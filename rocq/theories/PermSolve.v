(** PermSolve.v -- a reflective decision procedure for permutations of concatenations.
    Proof engineering only; models nothing. *)
From Verif Require Import Base.
Set Implicit Arguments.

Inductive pexp : Type := PNil | PAtom (n : nat) | PApp (a b : pexp).

Fixpoint peval {T} (env : list (list T)) (e : pexp) : list T :=
  match e with
  | PNil => []
  | PAtom n => nth n env []
  | PApp a b => peval env a ++ peval env b
  end.
Fixpoint pflat (e : pexp) : list nat :=
  match e with PNil => [] | PAtom n => [n] | PApp a b => pflat a ++ pflat b end.

Lemma peval_flat {T} (env : list (list T)) e :
  peval env e = flat_map (fun n => nth n env []) (pflat e).
Proof.
  induction e as [| n | a IHa b IHb]; simpl; auto.
  - rewrite app_nil_r; auto.
  - rewrite flat_map_app, IHa, IHb; auto.
Qed.
Lemma perm_flat_map {T} (g : nat -> list T) l1 l2 :
  Permutation l1 l2 -> Permutation (flat_map g l1) (flat_map g l2).
Proof.
  induction 1; simpl; auto.
  - apply Permutation_app_head; auto.
  - rewrite !app_assoc. apply Permutation_app_tail, Permutation_app_comm.
  - etransitivity; eauto.
Qed.
Definition pcheck (a b : pexp) : bool :=
  if list_eq_dec Nat.eq_dec (stable_sort (fun n => n) (pflat a)) (stable_sort (fun n => n) (pflat b)) then true else false.
Lemma pcheck_ok {T} (env : list (list T)) a b :
  pcheck a b = true -> Permutation (peval env a) (peval env b).
Proof.
  unfold pcheck. destruct list_eq_dec as [H|]; [|discriminate]. intros _.
  rewrite !peval_flat. apply perm_flat_map.
  rewrite <- (stable_sort_perm (fun n => n) (pflat a)), H. apply stable_sort_perm.
Qed.
(** linear combination with hypotheses A ~ B *)
Lemma pcheck_lin {T} (env : list (list T)) l r a b :
  Permutation (peval env a) (peval env b) ->
  pcheck (PApp l b) (PApp r a) = true -> Permutation (peval env l) (peval env r).
Proof.
  intros H1 H2. apply (pcheck_ok env) in H2. simpl in H2.
  rewrite H1 in H2. apply Permutation_app_inv_r in H2; auto.
Qed.

Ltac pmem x env :=
  lazymatch env with
  | [] => constr:(false)
  | x :: _ => constr:(true)
  | _ :: ?e => pmem x e
  end.
Ltac padd x env := match pmem x env with true => env | false => constr:(x :: env) end.
Ltac pidx x env :=
  lazymatch env with
  | x :: _ => constr:(0)
  | _ :: ?e => let n := pidx x e in constr:(S n)
  end.
Ltac pcollect t env :=
  lazymatch t with
  | ?a ++ ?b => let env := pcollect a env in pcollect b env
  | ?x :: ?l => lazymatch l with
                | [] => padd t env
                | _ => let T := type of x in let env := padd (@cons T x (@nil T)) env in pcollect l env
                end
  | [] => env
  | ?a => padd a env
  end.
Ltac preify t env :=
  lazymatch t with
  | ?a ++ ?b => let a' := preify a env in let b' := preify b env in constr:(PApp a' b')
  | ?x :: ?l => lazymatch l with
                | [] => let n := pidx t env in constr:(PAtom n)
                | _ => let T := type of x in
                       let n := pidx (@cons T x (@nil T)) env in
                       let l' := preify l env in constr:(PApp (PAtom n) l')
                end
  | [] => constr:(PNil)
  | ?a => let n := pidx a env in constr:(PAtom n)
  end.

Ltac perm_norm := rewrite ?app_nil_r; cbn [app].

(** [perm0]: closes a permutation of concatenations without hypotheses. *)
Ltac perm0 :=
  lazymatch goal with
  | |- @Permutation ?T ?l ?r =>
    let env0 := constr:(@nil (list T)) in
    let env := pcollect l env0 in
    let env := pcollect r env in
    let a := preify l env in
    let b := preify r env in
    let H := fresh in
    assert (H : Permutation (peval env a) (peval env b))
      by (apply pcheck_ok; vm_compute; reflexivity);
    exact H
  end.

(** [perm_with H]: goal follows from one use of [H : Permutation _ _] in either direction. *)
Ltac perm_with1 H :=
  lazymatch type of H with
  | @Permutation ?T ?a ?b =>
    lazymatch goal with
    | |- @Permutation _ ?l ?r =>
      let env0 := constr:(@nil (list T)) in
      let env := pcollect l env0 in
      let env := pcollect r env in
      let env := pcollect a env in
      let env := pcollect b env in
      let l' := preify l env in
      let r' := preify r env in
      let a' := preify a env in
      let b' := preify b env in
      first [ exact (@pcheck_lin T env l' r' a' b' H (eq_refl : pcheck (PApp l' b') (PApp r' a') = true))
            | exact (@pcheck_lin T env l' r' b' a' (Permutation_sym H) (eq_refl : pcheck (PApp l' a') (PApp r' b') = true)) ]
    end
  end.

Lemma perm_comb {T} (a b c d : list T) :
  Permutation a b -> Permutation c d -> Permutation (a ++ c) (b ++ d).
Proof. apply Permutation_app. Qed.

Ltac perm1 H1 := perm_with1 H1.
Ltac perm2 H1 H2 :=
  first [ perm_with1 (perm_comb H1 H2) | perm_with1 (perm_comb H1 (Permutation_sym H2)) ].
Ltac perm3 H1 H2 H3 :=
  first [ perm_with1 (perm_comb H1 (perm_comb H2 H3))
        | perm_with1 (perm_comb H1 (perm_comb H2 (Permutation_sym H3)))
        | perm_with1 (perm_comb H1 (perm_comb (Permutation_sym H2) H3))
        | perm_with1 (perm_comb H1 (perm_comb (Permutation_sym H2) (Permutation_sym H3))) ].
Ltac perm4 H1 H2 H3 H4 :=
  first [ perm3 H1 H2 (perm_comb H3 H4) | perm3 H1 H2 (perm_comb H3 (Permutation_sym H4)) ].

Example perm_test (T : Type) (x : T) (a b c d : list T) :
  Permutation (a ++ b) (c ++ d) -> Permutation (x :: b ++ a ++ c) (c ++ d ++ x :: c).
Proof. intros H. perm1 H. Qed.
