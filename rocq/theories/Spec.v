(** Specifications: what the data structures mean, in terms of plain lists. *)
From Coq Require Import List NArith Arith Bool Lia.
Import ListNotations.

(** ** Reading a sequence step by step. *)

(** Expected log of [k] forward steps over a sequence with exact size hints:
    before each step the number of elements left, then the element (or [None] forever). *)
Fixpoint fwd_spec {A} (k : nat) (l : list A) : list (nat * option A) :=
  match k with
  | O => []
  | S k' => (length l, hd_error l) :: fwd_spec k' (tl l)
  end.

(** Last element of a sequence. *)
Fixpoint last_error {A} (l : list A) : option A :=
  match l with
  | [] => None
  | [a] => Some a
  | _ :: l' => last_error l'
  end.

(** Expected log of a double-ended consumption: [false] takes from the front,
    [true] takes from the back. *)
Fixpoint de_spec {A} (ds : list bool) (l : list A) : list (nat * option A) :=
  match ds with
  | [] => []
  | false :: ds' => (length l, hd_error l) :: de_spec ds' (tl l)
  | true :: ds' => (length l, last_error l) :: de_spec ds' (removelast l)
  end.

Lemma last_error_app : forall A (l : list A) a, last_error (l ++ [a]) = Some a.
Proof.
  induction l as [|x l IH]; intros a; [reflexivity|].
  simpl. destruct (l ++ [a]) eqn:E; [destruct l; discriminate|].
  rewrite <- E. apply IH.
Qed.

Lemma last_error_rev : forall A (l : list A), last_error (rev l) = hd_error l.
Proof. destruct l; simpl; [reflexivity|]. apply last_error_app. Qed.

Lemma hd_error_rev : forall A (l : list A), hd_error (rev l) = last_error l.
Proof. intros. rewrite <- last_error_rev. now rewrite rev_involutive. Qed.

Lemma last_error_cons : forall A (a : A) l, l <> [] -> last_error (a :: l) = last_error l.
Proof. destruct l; simpl; congruence. Qed.

Lemma last_error_None : forall A (l : list A), last_error l = None <-> l = [].
Proof.
  intros; split; [|intros ->; reflexivity].
  destruct l using rev_ind; [reflexivity|]. rewrite last_error_app; discriminate.
Qed.

Lemma removelast_snoc : forall A (l : list A) a, removelast (l ++ [a]) = l.
Proof. intros. rewrite removelast_app by discriminate. simpl. apply app_nil_r. Qed.

(** ** Histories over a specification state. *)
Fixpoint exec_s {S O X : Type} (step : O -> S -> S * X) (ops : list O) (s : S)
  : S * list X :=
  match ops with
  | [] => (s, [])
  | o :: ops' =>
      let (s', x) := step o s in
      let (s'', xs) := exec_s step ops' s' in
      (s'', x :: xs)
  end.

(** What an operation on a sequence may return. *)
Inductive obs (T : Type) : Type :=
| OUnit                                  (* nothing *)
| OBool (b : bool)                       (* a boolean *)
| ONat (n : nat)                         (* a length *)
| OElem (o : option T)                   (* an optional element *)
| OSteps (l : list (nat * option T)).    (* size hints and elements of an iteration *)
Arguments OUnit {T}.
Arguments OBool {T} b.
Arguments ONat {T} n.
Arguments OElem {T} o.
Arguments OSteps {T} l.

(** *** List: operations and their meaning on a plain sequence. *)
Inductive list_op (T : Type) : Type :=
| LNew                      (* List::new() *)
| LFromIter (l : list T)    (* from_iter *)
| LPush (v : T)             (* push_front *)
| LPushMut (v : T)          (* push_front_mut *)
| LDrop                     (* drop_first *)
| LDropMut                  (* drop_first_mut *)
| LRev                      (* reverse *)
| LRevMut                   (* reverse_mut *)
| LFirst | LLast | LLen | LIsEmpty
| LIter (k : nat).          (* iter(), then k calls of next *)
Arguments LNew {T}. Arguments LFromIter {T} l. Arguments LPush {T} v. Arguments LPushMut {T} v.
Arguments LDrop {T}. Arguments LDropMut {T}. Arguments LRev {T}. Arguments LRevMut {T}.
Arguments LFirst {T}. Arguments LLast {T}. Arguments LLen {T}. Arguments LIsEmpty {T}.
Arguments LIter {T} k.

Definition is_nil {A} (l : list A) : bool := match l with [] => true | _ => false end.

Definition list_spec {T} (o : list_op T) (s : list T) : list T * obs T :=
  match o with
  | LNew => ([], OUnit)
  | LFromIter l => (l, OUnit)
  | LPush v | LPushMut v => (v :: s, OUnit)
  | LDrop | LDropMut => (tl s, OBool (negb (is_nil s)))
  | LRev | LRevMut => (rev s, OUnit)
  | LFirst => (s, OElem (hd_error s))
  | LLast => (s, OElem (last_error s))
  | LLen => (s, ONat (length s))
  | LIsEmpty => (s, OBool (is_nil s))
  | LIter k => (s, OSteps (fwd_spec k s))
  end.

(** *** Stack: the top is the head of the sequence. *)
Inductive stack_op (T : Type) : Type :=
| SNew | SPush (v : T) | SPushMut (v : T) | SPop | SPopMut
| SPeek | SSize | SIsEmpty | SIter (k : nat).
Arguments SNew {T}. Arguments SPush {T} v. Arguments SPushMut {T} v. Arguments SPop {T}.
Arguments SPopMut {T}. Arguments SPeek {T}. Arguments SSize {T}. Arguments SIsEmpty {T}.
Arguments SIter {T} k.

Definition stack_spec {T} (o : stack_op T) (s : list T) : list T * obs T :=
  match o with
  | SNew => ([], OUnit)
  | SPush v | SPushMut v => (v :: s, OUnit)
  | SPop | SPopMut => (tl s, OBool (negb (is_nil s)))
  | SPeek => (s, OElem (hd_error s))
  | SSize => (s, ONat (length s))
  | SIsEmpty => (s, OBool (is_nil s))
  | SIter k => (s, OSteps (fwd_spec k s))
  end.

(** *** Queue: the oldest element is the head of the sequence. *)
Inductive queue_op (T : Type) : Type :=
| QNew | QFromIter (l : list T) | QEnq (v : T) | QEnqMut (v : T) | QDeq | QDeqMut
| QPeek | QLen | QIsEmpty | QIter (k : nat).
Arguments QNew {T}. Arguments QFromIter {T} l. Arguments QEnq {T} v. Arguments QEnqMut {T} v.
Arguments QDeq {T}. Arguments QDeqMut {T}. Arguments QPeek {T}. Arguments QLen {T}.
Arguments QIsEmpty {T}. Arguments QIter {T} k.

Definition queue_spec {T} (o : queue_op T) (s : list T) : list T * obs T :=
  match o with
  | QNew => ([], OUnit)
  | QFromIter l => (l, OUnit)
  | QEnq v | QEnqMut v => (s ++ [v], OUnit)
  | QDeq | QDeqMut => (tl s, OBool (negb (is_nil s)))
  | QPeek => (s, OElem (hd_error s))
  | QLen => (s, ONat (length s))
  | QIsEmpty => (s, OBool (is_nil s))
  | QIter k => (s, OSteps (fwd_spec k s))
  end.

(** *** Vector: an array. *)
Inductive vec_op (T : Type) : Type :=
| VPush (v : T) | VPushMut (v : T) | VExtend (l : list T)
| VDrop | VDropMut
| VSet (i : N) (v : T) | VSetMut (i : N) (v : T)
| VGetMut (i : N) (f : T -> T)     (* apply f through the reference get_mut returns *)
| VGet (i : N) | VFirst | VLast | VLen | VIsEmpty
| VIter (ds : list bool).          (* iter(), then calls of next (false) / next_back (true) *)
Arguments VPush {T} v. Arguments VPushMut {T} v. Arguments VExtend {T} l.
Arguments VDrop {T}. Arguments VDropMut {T}. Arguments VSet {T} i v. Arguments VSetMut {T} i v.
Arguments VGetMut {T} i f. Arguments VGet {T} i. Arguments VFirst {T}. Arguments VLast {T}.
Arguments VLen {T}. Arguments VIsEmpty {T}. Arguments VIter {T} ds.

(** Replace the element at position [i], if there is one, by [f] of it. *)
Fixpoint map_at {A} (f : A -> A) (i : nat) (l : list A) : list A :=
  match l, i with
  | [], _ => []
  | x :: l', O => f x :: l'
  | x :: l', S i' => x :: map_at f i' l'
  end.

Definition in_range {A} (i : N) (l : list A) : bool := N.ltb i (N.of_nat (length l)).
Definition at_N {A} (l : list A) (i : N) : option A :=
  if in_range i l then nth_error l (N.to_nat i) else None.
Definition map_at_N {A} (f : A -> A) (i : N) (l : list A) : list A :=
  if in_range i l then map_at f (N.to_nat i) l else l.

Definition vec_spec {T} (o : vec_op T) (s : list T) : list T * obs T :=
  match o with
  | VPush v | VPushMut v => (s ++ [v], OUnit)
  | VExtend l => (s ++ l, OUnit)
  | VDrop | VDropMut => (removelast s, OBool (negb (is_nil s)))
  | VSet i v | VSetMut i v => (map_at_N (fun _ => v) i s, OBool (in_range i s))
  | VGetMut i f => (map_at_N f i s, OBool (in_range i s))
  | VGet i => (s, OElem (at_N s i))
  | VFirst => (s, OElem (hd_error s))
  | VLast => (s, OElem (last_error s))
  | VLen => (s, ONat (length s))
  | VIsEmpty => (s, OBool (is_nil s))
  | VIter ds => (s, OSteps (de_spec ds s))
  end.

(** Every sequence along a history has at most [limit] elements. *)
Fixpoint stays_within {S O X : Type} (size : S -> N) (limit : N) (step : O -> S -> S * X)
  (ops : list O) (s : S) : Prop :=
  (size s <= limit)%N /\
  match ops with
  | [] => True
  | o :: ops' => stays_within size limit step ops' (fst (step o s))
  end.

(** ** Sparse array: a partial function on indices below [width]. *)
Inductive sparse_op (A : Type) : Type :=
| SpSet (i : N) (x : A) | SpRemove (i : N) | SpGetMut (i : N) (f : A -> A)
| SpGet (i : N) | SpFirst | SpSize | SpIter | SpClone.
Arguments SpSet {A} i x. Arguments SpRemove {A} i. Arguments SpGetMut {A} i f.
Arguments SpGet {A} i. Arguments SpFirst {A}. Arguments SpSize {A}. Arguments SpIter {A}. Arguments SpClone {A}.
Inductive sparse_obs (A : Type) : Type :=
| SpoUnit | SpoElem (o : option A) | SpoNat (n : nat) | SpoList (l : list A).
Arguments SpoUnit {A}. Arguments SpoElem {A} o. Arguments SpoNat {A} n. Arguments SpoList {A} l.

Definition sparse_index {A} (o : sparse_op A) : N :=
  match o with SpSet i _ | SpRemove i | SpGetMut i _ | SpGet i => i | _ => 0%N end.

Definition upd {A} (s : N -> option A) (i : N) (o : option A) : N -> option A :=
  fun j => if N.eqb j i then o else s j.

(** The values present, in index order, from index [from] on. *)
Fixpoint in_order {A} (s : N -> option A) (from : N) (count : nat) : list A :=
  match count with
  | O => []
  | S c => match s from with Some x => [x] | None => [] end ++ in_order s (from + 1)%N c
  end.

Definition sparse_spec {A} (width : N) (o : sparse_op A) (s : N -> option A)
  : (N -> option A) * sparse_obs A :=
  let all := in_order s 0 (N.to_nat width) in
  match o with
  | SpSet i x => (upd s i (Some x), SpoUnit)
  | SpRemove i => (upd s i None, SpoUnit)
  | SpGetMut i f => (upd s i (option_map f (s i)), SpoElem (s i))
  | SpGet i => (s, SpoElem (s i))
  | SpFirst => (s, SpoElem (hd_error all))
  | SpSize => (s, SpoNat (length all))
  | SpIter => (s, SpoList all)
  | SpClone => (s, SpoUnit)
  end.
