(** * A decision procedure for permutations of concatenations

    Used by the proofs about the heap, where the pointers a program owns are a
    list up to permutation. *)
From Coq Require Import List Arith Lia Bool Permutation.
Import ListNotations.

Inductive pexp := PApp (a b : pexp) | PCons (i : nat) (a : pexp) | PAtom (i : nat) | PNil.

Section S.
Context {X : Type}.

Fixpoint pden (env : list (list X)) (e : pexp) : list X :=
  match e with
  | PApp a b => pden env a ++ pden env b
  | PCons i a => nth i env [] ++ pden env a
  | PAtom i => nth i env []
  | PNil => []
  end.

Fixpoint pflat (e : pexp) : list nat :=
  match e with
  | PApp a b => pflat a ++ pflat b
  | PCons i a => i :: pflat a
  | PAtom i => [i]
  | PNil => []
  end.

Definition fden (env : list (list X)) (l : list nat) : list X :=
  flat_map (fun i => nth i env []) l.

Lemma fden_app : forall env a b, fden env (a ++ b) = fden env a ++ fden env b.
Proof.
  intros. unfold fden. induction a; cbn; [reflexivity|]. now rewrite IHa, app_assoc.
Qed.

Lemma pden_flat : forall env e, pden env e = fden env (pflat e).
Proof.
  induction e; cbn [pden pflat].
  - now rewrite fden_app, IHe1, IHe2.
  - now rewrite IHe.
  - cbn. now rewrite app_nil_r.
  - reflexivity.
Qed.

Lemma fden_perm : forall env a b, Permutation a b -> Permutation (fden env a) (fden env b).
Proof.
  intros env a b H. induction H; cbn; eauto using Permutation_app_head, Permutation_trans.
  rewrite !app_assoc. apply Permutation_app_tail, Permutation_app_comm.
Qed.

Definition pcheck (a b : list nat) : bool :=
  forallb (fun i => Nat.eqb (count_occ Nat.eq_dec a i) (count_occ Nat.eq_dec b i)) (a ++ b).

Lemma pcheck_ok : forall a b, pcheck a b = true -> Permutation a b.
Proof.
  intros a b H. apply (Permutation_count_occ Nat.eq_dec). intros x.
  unfold pcheck in H. rewrite forallb_forall in H.
  destruct (in_dec Nat.eq_dec x (a ++ b)) as [I|I].
  - apply H in I. now apply Nat.eqb_eq.
  - rewrite in_app_iff in I.
    rewrite !(proj1 (count_occ_not_In Nat.eq_dec _ _)); auto.
Qed.

Lemma perm_by : forall env e1 e2,
  pcheck (pflat e1) (pflat e2) = true -> Permutation (pden env e1) (pden env e2).
Proof.
  intros. rewrite !pden_flat. now apply fden_perm, pcheck_ok.
Qed.
End S.

Ltac pmem x l :=
  lazymatch l with
  | x :: _ => constr:(true)
  | _ :: ?l' => pmem x l'
  | _ => constr:(false)
  end.

Ltac padd x l :=
  let b := pmem x l in
  lazymatch b with true => l | false => constr:(x :: l) end.

Ltac pidx x l :=
  lazymatch l with
  | x :: _ => constr:(0)
  | _ :: ?l' => let n := pidx x l' in constr:(S n)
  end.

Ltac pcollect X env t :=
  lazymatch t with
  | @app _ ?a ?b => let e := pcollect X env a in pcollect X e b
  | @cons _ ?x ?l => let e := padd (@cons X x (@nil X)) env in pcollect X e l
  | @nil _ => env
  | _ => padd t env
  end.

Ltac pquote X env t :=
  lazymatch t with
  | @app _ ?a ?b => let x := pquote X env a in let y := pquote X env b in constr:(PApp x y)
  | @cons _ ?x ?l =>
      let i := pidx (@cons X x (@nil X)) env in let y := pquote X env l in constr:(PCons i y)
  | @nil _ => constr:(PNil)
  | _ => let i := pidx t env in constr:(PAtom i)
  end.

Ltac perm :=
  cbn [map app]; rewrite ?map_app; cbn [map app];
  lazymatch goal with
  | |- @Permutation ?X ?a ?b =>
      let e0 := constr:(@nil (list X)) in
      let e1 := pcollect X e0 a in
      let env := pcollect X e1 b in
      let qa := pquote X env a in
      let qb := pquote X env b in
      change (Permutation (pden env qa) (pden env qb));
      apply perm_by; vm_compute; reflexivity
  end.

Local Example perm_ex : forall (a b c : list nat) x y,
  Permutation (map S (x :: a) ++ y :: b ++ c ++ []) ((c ++ map S a) ++ S x :: y :: b).
Proof. intros. perm. Qed.
