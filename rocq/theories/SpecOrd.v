(** Specification: the contract of [Ord], sorted sequences, ranges, lexicographic order. *)
From Coq Require Import List NArith Arith Bool Lia Permutation Sorted.
From Verif Require Import Base Spec SpecMap.
Import ListNotations.

(** The contract of [Ord]: a total order on classes of equal values (values may compare equal
    without being identical). *)
Record ord_laws {A : Type} (cmp : A -> A -> comparison) : Prop := {
  ol_sym : forall a b, cmp a b = CompOpp (cmp b a);
  ol_trans : forall a b c, cmp a b = Lt -> cmp b c = Lt -> cmp a c = Lt;
  ol_eq : forall a b c, cmp a b = Eq -> cmp a c = cmp b c
}.

(** The equality an order induces. *)
Definition eq_of {A} (cmp : A -> A -> comparison) (a b : A) : bool :=
  match cmp a b with Eq => true | _ => false end.

(** Strictly ascending by key. *)
Definition sorted {K V} (kcmp : K -> K -> comparison) (l : list (K * V)) : Prop :=
  StronglySorted (fun a b => kcmp (fst a) (fst b) = Lt) l.

(** [Ord for (K, V)] and the lexicographic order of sequences ([Iterator::cmp]). *)
Definition pair_cmp {K V} (kcmp : K -> K -> comparison) (vcmp : V -> V -> comparison) (a b : K * V) : comparison :=
  match kcmp (fst a) (fst b) with Eq => vcmp (snd a) (snd b) | c => c end.
Fixpoint lex {A} (cmp : A -> A -> comparison) (l1 l2 : list A) : comparison :=
  match l1, l2 with
  | [], [] => Eq
  | [], _ :: _ => Lt
  | _ :: _, [] => Gt
  | a :: l1', b :: l2' => match cmp a b with Eq => lex cmp l1' l2' | c => c end
  end.

(** The entries of a finite map in ascending order of key. *)
Fixpoint put_by_key {K V} (kcmp : K -> K -> comparison) (e : K * V) (l : list (K * V)) : list (K * V) :=
  match l with
  | [] => [e]
  | x :: l' => match kcmp (fst e) (fst x) with Lt => e :: l | _ => x :: put_by_key kcmp e l' end
  end.
Definition by_key {K V} (kcmp : K -> K -> comparison) (m : list (K * V)) : list (K * V) :=
  fold_right (put_by_key kcmp) [] m.
