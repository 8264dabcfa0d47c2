(** * A collection inside another, on one heap

    What the outer collections of HeapOf.v, HeapOfVec.v have in common: the inner collection is
    any [impl]; its programs run on the heap of the outer one. *)
From Coq Require Import List Arith Lia Bool.
From Verif Require Import Base Spec HeapModel.
Import ListNotations.
Local Open Scope prog_scope.

(** What a user of a collection can call: [C] the contents of its cells, [Coll] its values,
    [Op] its calls.  [i_roots]: the pointers in a value. *)
Record impl (C Coll Op Out : Type) := mkImpl {
  i_kids : C -> list addr;
  i_roots : Coll -> list addr;
  i_new : prog C Coll;
  i_clone : Coll -> prog C Coll;
  i_drop : Coll -> prog C unit;
  i_op : Op -> Coll -> prog C (Coll * Out) }.
Arguments mkImpl {C Coll Op Out}.
Arguments i_kids {C Coll Op Out}.
Arguments i_roots {C Coll Op Out}.
Arguments i_new {C Coll Op Out}.
Arguments i_clone {C Coll Op Out}.
Arguments i_drop {C Coll Op Out}.
Arguments i_op {C Coll Op Out}.

(** The same collection as plain values.  [s_pre]: when a call may be made. *)
Record spec (Val Op Out : Type) := mkSpec {
  s_new : Val;
  s_op : Op -> Val -> Val * Out;
  s_pre : Op -> Val -> Prop }.
Arguments mkSpec {Val Op Out}.
Arguments s_new {Val Op Out}.
Arguments s_op {Val Op Out}.
Arguments s_pre {Val Op Out}.

(** What they show.  [NOuts]: what the calls on the inner version showed; [None]: there was none.
    [NMade]: the same for versions newly made, with what the call returned.  [NSteps]: the same
    for each element an iterator delivered, with the size hint before it. *)
Inductive nout (Out : Type) :=
| NUnit | NBool (b : bool) | NNat (n : nat) | NOuts (o : option (list Out)) | NAll (l : list (list Out))
| NMade (b : bool) (l : list (list Out)) | NSteps (l : list (nat * option (list Out))).
Arguments NUnit {Out}.
Arguments NBool {Out}.
Arguments NNat {Out}.
Arguments NOuts {Out}.
Arguments NAll {Out}.
Arguments NMade {Out}.
Arguments NSteps {Out}.

Section In.
Context {C D E Op Out : Type} (I : impl C E Op Out) (wrap : C -> D) (open : D -> option C).
Notation P := (prog D).

(** A program of the inner collection, on the heap they share: [wrap] makes a cell of the common
    heap of one of the inner collection, [open] tells those cells apart.  A cell of the outer
    collection in its way is a failure. *)
Fixpoint inj {A} (p : prog C A) : P A :=
  match p with
  | Ret x => Ret x
  | Fail => Fail
  | New c k => New (wrap c) (fun a => inj (k a))
  | Reserve k => Reserve (fun a => inj (k a))
  | Clone a k => Clone a (inj k)
  | Read a k => Read a (fun d => match open d with Some c => inj (k c) | None => Fail end)
  | Dec a k => Dec a (fun r => match r with None => inj (k None) | Some d => match open d with Some c => inj (k (Some c)) | None => Fail end end)
  | Take a k => Take a (fun r => match r with None => inj (k None) | Some d => match open d with Some c => inj (k (Some c)) | None => Fail end end)
  | Fill a c k => Fill a (wrap c) (inj k)
  | Unwrap a k => Unwrap a (fun r => match r with None => inj (k None) | Some d => match open d with Some c => inj (k (Some c)) | None => Fail end end)
  | Enter k => Enter (inj k)
  | Leave k => Leave (inj k)
  end.

(** Calls on an inner version, one after the other: a client's, not the crate's. *)
Fixpoint irun (l : list Op) (e : E) : prog C (E * list Out) :=
  match l with
  | [] => Ret (e, [])
  | o :: l' =>
      let* (e, x) := i_op I o e in
      let* (e, xs) := irun l' e in
      Ret (e, x :: xs)
  end.

(** A client, not the crate: a new inner version, and calls on it. *)
Definition make (l : list Op) : P (E * list Out) :=
  let* e := inj (i_new I) in inj (irun l e).

(** Calls on a clone of an element that is dropped afterwards *)
Definition try_out (l : list Op) (o : option E) : P (option (list Out)) :=
  match o with
  | None => Ret None
  | Some e =>
      let* (e, xs) := inj (irun l e) in
      let* _ := inj (i_drop I e) in
      Ret (Some xs)
  end.

End In.

(** ** The inner collection as plain values *)
Section Spec.
Context {V Op Out : Type} (S : spec V Op Out).

Fixpoint vrun (l : list Op) (v : V) : V * list Out :=
  match l with
  | [] => (v, [])
  | o :: l' =>
      let (v, x) := s_op S o v in
      let (v, xs) := vrun l' v in
      (v, x :: xs)
  end.

(** Specification: every call of [l] may be made. *)
Fixpoint vmay (l : list Op) (v : V) : Prop :=
  match l with
  | [] => True
  | o :: l' => s_pre S o v /\ vmay l' (fst (s_op S o v))
  end.

(** Specification: the same if there is a value. *)
Definition opt_may (l : list Op) (o : option V) : Prop :=
  match o with Some v => vmay l v | None => True end.
End Spec.
