(** Specification of formatting and serialisation. *)
From Coq Require Import String List NArith Arith Bool.
From Verif Require Import Base Spec.
Import ListNotations.
Local Open Scope string_scope.

(** An iterator standing at [s] yields [l] and then [None] for ever, with exact size hints. *)
Definition iterates {St A} (next : St -> res (option A * St)) (hint : St -> res nat) (s : St) (l : list A) : Prop :=
  forall k, runs next hint k s = Ok (fwd_spec k l).

(** ** Formatting.  An action writes to a sink of type [W]; it answers [true] for [Ok(())]
    and [false] for [Err(fmt::Error)], and it may panic. *)
Definition action (W : Type) : Type := W -> res (W * bool).

(** Perform actions in order; stop at the first error. *)
Fixpoint until_error {W} (acts : list (action W)) : action W :=
  fun w => match acts with
           | [] => Ok (w, true)
           | a :: acts' => let! (w', ok) := a w in if ok : bool then until_error acts' w' else Ok (w', false)
           end.

(** The groups in order, with [sep] between consecutive groups. *)
Fixpoint separated {X} (sep : X) (groups : list (list X)) : list X :=
  match groups with
  | [] => []
  | [g] => g
  | g :: gs => (g ++ sep :: separated sep gs)%list
  end.

(** The text of a displayed collection. *)
Definition text (open close : string) (items : list string) : string :=
  open ++ String.concat ", " items ++ close.

(** ** Serialisation.  A serializer for sequences or maps with items [I] (map items are
    pairs): begin with an optional length, write items, end with a document [D]. *)
Section Ser.
Context {St D E I : Type}.
Variable ser_begin : option nat -> St + E.
Variable ser_item : I -> St -> St + E.
Variable ser_end : St -> D + E.

Fixpoint ser_items (l : list I) (s : St) : St + E :=
  match l with
  | [] => inl s
  | x :: l' => match ser_item x s with inl s' => ser_items l' s' | inr e => inr e end
  end.
(** The document of a sequence: its exact length is announced, then the items in order. *)
Definition ser_doc (l : list I) : D + E :=
  match ser_begin (Some (length l)) with
  | inl s => match ser_items l s with inl s' => ser_end s' | inr e => inr e end
  | inr e => inr e
  end.
End Ser.

(** ** Deserialisation.  [next] is [SeqAccess::next_element] or [MapAccess::next_entry]. *)
Inductive gives {A I E : Type} (next : A -> option (I * A) + E) : A -> list I -> option E -> Prop :=
| gives_end : forall a, next a = inl None -> gives next a [] None
| gives_err : forall a e, next a = inr e -> gives next a [] (Some e)
| gives_item : forall a x a' l fin, next a = inl (Some (x, a')) -> gives next a' l fin -> gives next a (x :: l) fin.

(** A format carries the items over: what the serializer makes of [l] is read back as items
    related to those of [l] one by one. *)
Definition carries {St D E I A E'} (ser_begin : option nat -> St + E) (ser_item : I -> St -> St + E)
  (ser_end : St -> D + E) (open : D -> A) (next : A -> option (I * A) + E') (same : I -> I -> Prop) : Prop :=
  forall l, exists d l', ser_doc ser_begin ser_item ser_end l = inl d /\
    gives next (open d) l' None /\ Forall2 same l l'.
