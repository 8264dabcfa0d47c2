(** Model of src/list/mod.rs, src/stack/mod.rs and src/queue/mod.rs at the value level. *)
From Coq Require Import List Arith Bool Lia.
From Verif Require Import Base Spec.
Import ListNotations.

(** ** List *)

(** src/list/mod.rs 107-124.  The chain [Option<SharedPointer<Node>>] with
    [Node {value, next}] is a Coq list (None = nil, node = cons); pointers are
    transparent at this level (sharing is the subject of the heap layer). *)
Record rlist (T : Type) : Type := mkL {
  l_head : list T;
  l_last : option T;
  l_length : nat
}.
Arguments mkL {T} _ _ _.
Arguments l_head {T} _.
Arguments l_last {T} _.
Arguments l_length {T} _.

Section List_.
Context {T : Type}.

(** list/mod.rs 156-158 *)
Definition l_new : rlist T := mkL [] None 0.

(** list/mod.rs 161-163 *)
Definition l_first (l : rlist T) : option T :=
  match l_head l with [] => None | v :: _ => Some v end.

(** list/mod.rs 166-168: reads the cached pointer *)
Definition l_last_elem (l : rlist T) : option T := l_last l.

(** list/mod.rs 177-188 *)
Definition l_drop_first_mut (l : rlist T) : res (rlist T * bool) :=
  match l_head l with
  | [] => Ok (mkL [] (l_last l) (l_length l), false)
  | _ :: next =>
      let! len := csub (l_length l) 1 in
      let last := if len =? 0 then None else l_last l in
      Ok (mkL next last len, true)
  end.

(** list/mod.rs 171-175; cloning (338-345) is the identity on values *)
Definition l_drop_first (l : rlist T) : res (option (rlist T)) :=
  let! (l', b) := l_drop_first_mut l in
  Ok (if b then Some l' else None).

(** list/mod.rs 190-199 *)
Definition l_push_front_ptr_mut (v : T) (l : rlist T) : rlist T :=
  let last := if l_length l =? 0 then Some v else l_last l in
  mkL (v :: l_head l) last (l_length l + 1).

(** list/mod.rs 210-212 *)
Definition l_push_front_mut (v : T) (l : rlist T) : rlist T := l_push_front_ptr_mut v l.

(** list/mod.rs 202-208 *)
Definition l_push_front (v : T) (l : rlist T) : rlist T := l_push_front_mut v l.

(** list/mod.rs 248-258 *)
Definition l_len (l : rlist T) : nat := l_length l.
Definition l_is_empty (l : rlist T) : bool := l_len l =? 0.

(** list/mod.rs 423-463: the iterator is (rest of the chain, remaining length) *)
Definition l_iter : Type := (list T * nat)%type.
Definition l_iter_new (l : rlist T) : l_iter := (l_head l, l_len l).
Definition l_iter_next (it : l_iter) : res (option T * l_iter) :=
  match fst it with
  | [] => Ok (None, it)
  | v :: t => let! n := csub (snd it) 1 in Ok (Some v, (t, n))
  end.
(** list/mod.rs 458-460 *)
Definition l_iter_hint (it : l_iter) : res nat := Ok (snd it).

(** All elements delivered by [iter()].  [for] loops stop at the first [None];
    one call more than [len] is allowed before [Diverge]. *)
Definition l_elems (l : rlist T) : res (list T) :=
  collect l_iter_next (S (l_len l)) (l_iter_new l).

(** list/mod.rs 215-227 *)
Definition l_reverse (l : rlist T) : res (rlist T) :=
  let! vs := l_elems l in
  Ok (fold_left (fun acc v => l_push_front_ptr_mut v acc) vs l_new).

(** list/mod.rs 235-243: the pointer-reversal loop ([make_mut] is the identity on values) *)
Fixpoint l_reverse_loop (prev current : list T) : list T :=
  match current with
  | [] => prev
  | v :: next => l_reverse_loop (v :: prev) next
  end.

(** list/mod.rs 229-246 *)
Definition l_reverse_mut (l : rlist T) : rlist T :=
  let last := match l_head l with [] => None | v :: _ => Some v end in
  mkL (l_reverse_loop [] (l_head l)) last (l_length l).

(** list/mod.rs 276-280: [first_mut], as applying [f] through the returned reference;
    the flag tells whether a reference was returned.  The cached [last] is a separate
    pointer and is NOT touched by the code ([make_mut] splits it off). *)
Definition l_first_mut (f : T -> T) (l : rlist T) : rlist T * bool :=
  match l_head l with
  | [] => (l, false)
  | v :: t => (mkL (f v :: t) (l_last l) (l_length l), true)
  end.

(** list/mod.rs 380-401 *)
Definition l_from_iter (vs : list T) : rlist T :=
  fold_left (fun acc v => l_push_front_mut v acc) (rev vs) l_new.

(** list/mod.rs 14-37: expansion of [list_reverse!], moving argument expressions one by
    one onto the reversed list; the result is the sequence of expressions handed to
    [push_front_mut], in evaluation order. *)
Fixpoint list_reverse_macro (args reversed : list T) : list T :=
  match args with
  | [] => reversed
  | h :: t => list_reverse_macro t (h :: reversed)
  end.

(** list/mod.rs 51-55 *)
Definition l_macro (args : list T) : rlist T :=
  fold_left (fun acc v => l_push_front_mut v acc) (list_reverse_macro args []) l_new.

(** Dispatch of one API call. *)
Definition l_step (o : list_op T) (l : rlist T) : res (rlist T * obs T) :=
  match o with
  | LNew => Ok (l_new, OUnit)
  | LFromIter vs => Ok (l_from_iter vs, OUnit)
  | LPush v => Ok (l_push_front v l, OUnit)
  | LPushMut v => Ok (l_push_front_mut v l, OUnit)
  | LDrop =>
      let! o := l_drop_first l in
      Ok (match o with Some l' => (l', OBool true) | None => (l, OBool false) end)
  | LDropMut => let! (l', b) := l_drop_first_mut l in Ok (l', OBool b)
  | LRev => let! l' := l_reverse l in Ok (l', OUnit)
  | LRevMut => Ok (l_reverse_mut l, OUnit)
  | LFirst => Ok (l, OElem (l_first l))
  | LLast => Ok (l, OElem (l_last_elem l))
  | LLen => Ok (l, ONat (l_len l))
  | LIsEmpty => Ok (l, OBool (l_is_empty l))
  | LIter k => let! r := runs l_iter_next l_iter_hint k (l_iter_new l) in Ok (l, OSteps r)
  end.
End List_.

(** ** Stack: src/stack/mod.rs *)

(** stack/mod.rs 88-93 *)
Record rstack (T : Type) : Type := mkS { s_list : rlist T }.
Arguments mkS {T} _.
Arguments s_list {T} _.

Section Stack_.
Context {T : Type}.

(** stack/mod.rs 118-121 *)
Definition s_new : rstack T := mkS l_new.
(** stack/mod.rs 123-126 *)
Definition s_peek (s : rstack T) : option T := l_first (s_list s).
(** stack/mod.rs 135-137 *)
Definition s_pop_mut (s : rstack T) : res (rstack T * bool) :=
  let! (l, b) := l_drop_first_mut (s_list s) in Ok (mkS l, b).
(** stack/mod.rs 128-133 *)
Definition s_pop (s : rstack T) : res (option (rstack T)) :=
  let! (s', b) := s_pop_mut s in Ok (if b then Some s' else None).
(** stack/mod.rs 148-150 *)
Definition s_push_mut (v : T) (s : rstack T) : rstack T := mkS (l_push_front_mut v (s_list s)).
(** stack/mod.rs 139-146 *)
Definition s_push (v : T) (s : rstack T) : rstack T := s_push_mut v s.
(** stack/mod.rs 152-162 *)
Definition s_size (s : rstack T) : nat := l_len (s_list s).
Definition s_is_empty (s : rstack T) : bool := l_is_empty (s_list s).
(** stack/mod.rs 164-166 *)
Definition s_iter_new (s : rstack T) : l_iter := l_iter_new (s_list s).
(** stack/mod.rs 256-263 *)
Definition s_from_iter (vs : list T) : rstack T := mkS (l_from_iter vs).
(** stack/mod.rs 23-35 *)
Definition s_macro (args : list T) : rstack T :=
  fold_left (fun acc v => s_push_mut v acc) args s_new.

Definition s_step (o : stack_op T) (s : rstack T) : res (rstack T * obs T) :=
  match o with
  | SNew => Ok (s_new, OUnit)
  | SPush v => Ok (s_push v s, OUnit)
  | SPushMut v => Ok (s_push_mut v s, OUnit)
  | SPop =>
      let! o := s_pop s in
      Ok (match o with Some s' => (s', OBool true) | None => (s, OBool false) end)
  | SPopMut => let! (s', b) := s_pop_mut s in Ok (s', OBool b)
  | SPeek => Ok (s, OElem (s_peek s))
  | SSize => Ok (s, ONat (s_size s))
  | SIsEmpty => Ok (s, OBool (s_is_empty s))
  | SIter k => let! r := runs l_iter_next l_iter_hint k (s_iter_new s) in Ok (s, OSteps r)
  end.
End Stack_.

(** ** Queue: src/queue/mod.rs *)

(** queue/mod.rs 96-103 *)
Record rqueue (T : Type) : Type := mkQ { q_in : rlist T; q_out : rlist T }.
Arguments mkQ {T} _ _.
Arguments q_in {T} _.
Arguments q_out {T} _.

Section Queue_.
Context {T : Type}.

(** queue/mod.rs 126-128 *)
Definition q_new : rqueue T := mkQ l_new l_new.
(** queue/mod.rs 131-133 *)
Definition q_peek (q : rqueue T) : option T :=
  if negb (l_is_empty (q_out q)) then l_first (q_out q) else l_last_elem (q_in q).

(** queue/mod.rs 142-155 *)
Definition q_dequeue_mut (q : rqueue T) : res (rqueue T * bool) :=
  if negb (l_is_empty (q_out q)) then
    let! (o, _) := l_drop_first_mut (q_out q) in
    Ok (mkQ (q_in q) o, true)
  else if negb (l_is_empty (q_in q)) then
    (* mem::swap *)
    let i := q_out q in
    let o := q_in q in
    let o := l_reverse_mut o in
    let! (o, _) := l_drop_first_mut o in
    Ok (mkQ i o, true)
  else Ok (q, false).

(** queue/mod.rs 136-140 *)
Definition q_dequeue (q : rqueue T) : res (option (rqueue T)) :=
  let! (q', b) := q_dequeue_mut q in Ok (if b then Some q' else None).

(** queue/mod.rs 166-168 *)
Definition q_enqueue_mut (v : T) (q : rqueue T) : rqueue T :=
  mkQ (l_push_front_mut v (q_in q)) (q_out q).
(** queue/mod.rs 158-164 *)
Definition q_enqueue (v : T) (q : rqueue T) : rqueue T := q_enqueue_mut v q.

(** queue/mod.rs 170-180 *)
Definition q_len (q : rqueue T) : nat := l_len (q_in q) + l_len (q_out q).
Definition q_is_empty (q : rqueue T) : bool := q_len q =? 0.

(** queue/mod.rs 289-296 *)
Definition q_from_iter (vs : list T) : rqueue T := mkQ l_new (l_from_iter vs).

(** queue/mod.rs 27-39 *)
Definition q_macro (args : list T) : rqueue T :=
  fold_left (fun acc v => q_enqueue_mut v acc) args q_new.

(** queue/mod.rs 298-304 *)
Inductive lazy_iter : Type :=
| Uninit (l : rlist T)
| Init (vec : list T) (current : option nat).

(** queue/mod.rs 339-349 *)
Definition lazy_next_init (vec : list T) (current : option nat)
  : res (option T * lazy_iter) :=
  let! v := match current with
            | None => Ok None
            | Some i => (* vec[i], panics out of bounds *)
                match nth_error vec i with Some v => Ok (Some v) | None => Panic end
            end in
  let current' := match current with
                  | Some 0 => None
                  | Some i => Some (i - 1)
                  | None => None
                  end in
  Ok (v, Init vec current').

(** queue/mod.rs 321-351 *)
Definition lazy_next (it : lazy_iter) : res (option T * lazy_iter) :=
  match it with
  | Uninit l =>
      let len := l_len l in
      let! vec := l_elems l in
      lazy_next_init vec (if 0 <? len then Some (len - 1) else None)
  | Init vec current => lazy_next_init vec current
  end.

(** queue/mod.rs 353-361 *)
Definition lazy_hint (it : lazy_iter) : res nat :=
  match it with
  | Uninit l => Ok (l_len l)
  | Init _ (Some i) => Ok (i + 1)
  | Init _ None => Ok 0
  end.

(** queue/mod.rs 182-188.  [core::iter::Chain { a: Option<A>, b: Option<B> }]: the
    first iterator is fused away once it returns [None]; the second is kept. *)
Definition q_iter : Type := (option (@l_iter T) * lazy_iter)%type.
Definition q_iter_new (q : rqueue T) : q_iter :=
  (Some (l_iter_new (q_out q)), Uninit (q_in q)).
Definition q_iter_next (it : q_iter) : res (option T * q_iter) :=
  match it with
  | (Some a, b) =>
      let! (o, a') := l_iter_next a in
      match o with
      | Some v => Ok (Some v, (Some a', b))
      | None => let! (o', b') := lazy_next b in Ok (o', (None, b'))
      end
  | (None, b) => let! (o, b') := lazy_next b in Ok (o, (None, b'))
  end.
(** [size_hint] of [core::iter::Chain]: the sum of the two (list/mod.rs 458-460, queue/mod.rs 353-361) *)
Definition q_iter_hint (it : q_iter) : res nat :=
  match it with
  | (Some a, b) => let! x := l_iter_hint a in let! y := lazy_hint b in Ok (x + y)
  | (None, b) => lazy_hint b
  end.

(** All elements delivered by [iter()], queue/mod.rs 182-188 *)
Definition q_elems (q : rqueue T) : res (list T) :=
  collect q_iter_next (S (q_len q)) (q_iter_new q).

(** One call of a history, dispatched to the functions above. *)
Definition q_step (o : queue_op T) (q : rqueue T) : res (rqueue T * obs T) :=
  match o with
  | QNew => Ok (q_new, OUnit)
  | QFromIter vs => Ok (q_from_iter vs, OUnit)
  | QEnq v => Ok (q_enqueue v q, OUnit)
  | QEnqMut v => Ok (q_enqueue_mut v q, OUnit)
  | QDeq =>
      let! o := q_dequeue q in
      Ok (match o with Some q' => (q', OBool true) | None => (q, OBool false) end)
  | QDeqMut => let! (q', b) := q_dequeue_mut q in Ok (q', OBool b)
  | QPeek => Ok (q, OElem (q_peek q))
  | QLen => Ok (q, ONat (q_len q))
  | QIsEmpty => Ok (q, OBool (q_is_empty q))
  | QIter k => let! r := runs q_iter_next q_iter_hint k (q_iter_new q) in Ok (q, OSteps r)
  end.
End Queue_.
