(** Specification of the comparison, hashing and formatting traits of whole collections. *)
From Coq Require Import List NArith Arith Bool Lia.
From Verif Require Import Base Spec SpecMap SpecOrd.
Import ListNotations.

(** Lexicographic comparison where elements may be incomparable. *)
Fixpoint plex {A B} (cmp : A -> B -> option comparison) (l1 : list A) (l2 : list B) : option comparison :=
  match l1, l2 with
  | [], [] => Some Eq
  | [], _ :: _ => Some Lt
  | _ :: _, [] => Some Gt
  | a :: l1', b :: l2' => match cmp a b with Some Eq => plex cmp l1' l2' | c => c end
  end.

(** Element-wise equality of sequences. *)
Fixpoint seq_equal {A B} (eqb : A -> B -> bool) (l1 : list A) (l2 : list B) : Prop :=
  match l1, l2 with
  | [], [] => True
  | a :: l1', b :: l2' => eqb a b = true /\ seq_equal eqb l1' l2'
  | _, _ => False
  end.

(** An equality that is an equivalence. *)
Record equivalence {A} (eqb : A -> A -> bool) : Prop := {
  eqv_refl : forall a, eqb a a = true;
  eqv_sym : forall a b, eqb a b = true -> eqb b a = true;
  eqv_trans : forall a b c, eqb a b = true -> eqb b c = true -> eqb a c = true
}.

(** What is written to a [Hasher]: lengths ([usize] writes) and other data. *)
Inductive htok : Type := HLen (n : nat) | HData (d : N).
Definition feed : Type := list htok.

(** The contract [k1 == k2 -> hash(k1) == hash(k2)]. *)
Definition feed_respects {A} (eqb : A -> A -> bool) (h : A -> feed) : Prop :=
  forall a b, eqb a b = true -> h a = h b.
(** Feeds of elements are self delimiting and tell unequal elements apart. *)
Definition feed_delimits {A} (eqb : A -> A -> bool) (h : A -> feed) : Prop :=
  forall a b r1 r2, h a ++ r1 = h b ++ r2 -> eqb a b = true /\ r1 = r2.

(** The feed of a collection read as a sequence: its length, then its elements in order. *)
Definition seq_feed {A} (h : A -> feed) (l : list A) : feed := HLen (length l) :: concat (map h l).
