(** * Collections of collections on the shared heap

    [List<X>], [Stack<X>] and [Queue<X>] where [X] is itself a collection of this crate, such as
    [List<Vector<T>>] or [Queue<HashTrieMap<K, V>>].  In HeapList.v the elements are opaque: to
    drop one does nothing.  Here the cell of an element holds a version of an inner collection,
    that is pointers into the same heap: freeing the cell runs the [Drop] of the inner
    collection, in the middle of what the outer one does, and cloning an element out of the outer
    collection shares the nodes of the inner one.

    The inner collection is any [impl]; [list_of] and [queue_of] make an [impl] of it again, so
    collections nest to any depth. *)
From Coq Require Import List Arith Lia Bool.
From Verif Require Import Base Spec ListModel HeapModel HeapList HeapIn.
Import ListNotations.
Local Open Scope prog_scope.

(** The cells there are: a node of the outer list (list/mod.rs:117-124), the cell of an element
    ([SharedPointer<X>]), and the cells of the inner collections. *)
Inductive ncell (E C : Type) := NN (v : addr) (next : option addr) | NE (e : E) | NI (c : C).
Arguments NN {E C}.
Arguments NE {E C}.
Arguments NI {E C}.

(** Calls on a collection of collections.  [l]: calls made on an inner version. *)
Inductive nop (Op : Type) :=
| NPush (l : list Op)      (** [x = X::new(); x.l(); c = c.push_front(x)] *)
| NPushMut (l : list Op)   (** the same with [push_front_mut] *)
| NCopy (l : list Op)      (** [x = c.first().cloned()]; when there is one [x.l(); c.push_front_mut(x)] *)
| NDrop                    (** [c = c.drop_first()] when that is [Some] *)
| NDropMut
| NRev
| NRevMut
| NFirst (l : list Op)     (** [x = c.first().cloned()]; when there is one [x.l(); drop(x)] *)
| NLast (l : list Op)
| NEach (l : list Op)      (** [for x in c.iter() { y = x.clone(); y.l(); }] *)
| NLen.
Arguments NPush {Op}.
Arguments NPushMut {Op}.
Arguments NCopy {Op}.
Arguments NDrop {Op}.
Arguments NDropMut {Op}.
Arguments NRev {Op}.
Arguments NRevMut {Op}.
Arguments NFirst {Op}.
Arguments NLast {Op}.
Arguments NEach {Op}.
Arguments NLen {Op}.

(** The calls of a client of a queue of collections. *)
Inductive nqop (Op : Type) :=
| NEnq (l : list Op)
| NEnqMut (l : list Op)
| NRequeue (l : list Op)   (** [x = q.peek().cloned()]; when there is one [x.l(); q.enqueue_mut(x)] *)
| NDeq
| NDeqMut
| NPeek (l : list Op)
| NQLen.
Arguments NEnq {Op}.
Arguments NEnqMut {Op}.
Arguments NRequeue {Op}.
Arguments NDeq {Op}.
Arguments NDeqMut {Op}.
Arguments NPeek {Op}.
Arguments NQLen {Op}.

Section Of.
Context {C E Op Out : Type} (I : impl C E Op Out).
Notation D := (ncell E C).
Notation P := (prog D).

(** The contents of the cell of an element are the pointers of the inner version. *)
Definition nkids (d : D) : list addr :=
  match d with NN v nx => v :: opt_list nx | NE e => i_roots I e | NI c => i_kids I c end.
Definition n_isN (d : D) := match d with NN v nx => Some (v, nx) | _ => None end.
Definition n_isE (d : D) := match d with NE e => Some e | _ => None end.
(** Of the model: the cell of an element. *)
Definition n_isI (d : D) := match d with NI c => Some c | _ => None end.
Notation inj := (inj NI n_isI).
Notation make := (make I NI n_isI).
Notation try_out := (try_out I NI n_isI).
Notation irun := (irun I).

(** Drop glue of a pointer of the outer list: as [drop_ptr] (HeapModel.v) for a node; an element
    is dropped by the [Drop] of the inner collection. *)
Fixpoint ndrop (f : nat) (a : addr) : P unit :=
  match f with
  | 0 => Fail
  | S f' =>
      Dec a (fun r =>
        match r with
        | None => Ret tt
        | Some d =>
            Enter (
              let* _ := match d with
                        | NN v nx =>
                            let* _ := ndrop f' v in
                            match nx with Some b => ndrop f' b | None => Ret tt end
                        | NE e => inj (i_drop I e)
                        | NI _ => Fail
                        end in
              Leave (Ret tt))
        end)
  end.

(** [Drop] of an optional pointer, core *)
Definition ndrop_opt (f : nat) (o : option addr) : P unit :=
  match o with None => Ret tt | Some a => ndrop f a end.

(** ** The list functions of HeapList.v with this drop glue; [make_mut] never drops more than a
    pointer it has just cloned, so that [hl_rev_loop] is the one there *)

(** list/mod.rs:190-199 *)
Definition nl_push_ptr (v : addr) (l : hlist) : P hlist :=
  let* last :=
    (if hl_len l =? 0 then
       Clone v (let* _ := ndrop_opt 1 (hl_last l) in Ret (Some v))
     else Ret (hl_last l)) in
  New (NN v (hl_head l)) (fun a => Ret (mkHL (Some a) last (hl_len l + 1))).

(** list/mod.rs:210-212 *)
Definition nl_push (e : E) (l : hlist) : P hlist :=
  New (NE e) (fun v => nl_push_ptr v l).

(** list/mod.rs:177-188 *)
Definition nl_drop_first (l : hlist) : P (hlist * bool) :=
  match hl_head l with
  | None => Ret (l, false)
  | Some a =>
      read_node n_isN a (fun v nx =>
        clone_opt nx
          (match hl_len l with
           | 0 => Fail (* the subtraction underflows *)
           | S n =>
               let* last :=
                 (if n =? 0 then let* _ := ndrop_opt 1 (hl_last l) in Ret None
                  else Ret (hl_last l)) in
               let* _ := ndrop 2 a in
               Ret (mkHL nx last n, true)
           end))
  end.

(** list/mod.rs:229-246 *)
Definition nl_reverse_mut (l : hlist) : P hlist :=
  let* last :=
    match hl_head l with
    | None => let* _ := ndrop_opt 1 (hl_last l) in Ret None
    | Some a => read_node n_isN a (fun v _ => Clone v (let* _ := ndrop_opt 1 (hl_last l) in Ret (Some v)))
    end in
  let* h := hl_rev_loop nkids NN n_isN (hl_len l) None (hl_head l) in
  Ret (mkHL h last (hl_len l)).

(** list/mod.rs:214-227 with [iter_ptr] (423-463); at most [f] iterations *)
Fixpoint nl_rev_ptrs (f : nat) (cur : option addr) (rem : nat) (acc : hlist) : P hlist :=
  match cur with
  | None => Ret acc
  | Some a =>
      match f with
      | 0 => Fail
      | S f' =>
          read_node n_isN a (fun v nx =>
            match rem with
            | 0 => Fail (* size counter of the iterator underflows *)
            | S rem' =>
                Clone v (let* acc' := nl_push_ptr v acc in nl_rev_ptrs f' nx rem' acc')
            end)
      end
  end.

(** list/mod.rs 215-227 *)
Definition nl_reverse (l : hlist) : P hlist :=
  nl_rev_ptrs (hl_len l) (hl_head l) (hl_len l) hl_new.

(** list/mod.rs:338-345 *)
Definition nl_clone : hlist -> P hlist := hl_clone.

(** list/mod.rs:403-421, as [hl_drop_loop]; [fd] nested calls are available when another thread
    drops its pointer to the node between the failed [try_unwrap] and the decrement *)
Fixpoint nl_drop_loop (f fd : nat) (head : option addr) : P unit :=
  match head with
  | None => Ret tt
  | Some a =>
      match f with
      | 0 => Fail
      | S f' =>
          Unwrap a (fun r =>
            match r with
            | Some d =>
                match n_isN d with
                | Some (v, nx) => let* _ := ndrop 1 v in nl_drop_loop f' fd nx
                | None => Fail
                end
            | None => ndrop fd a
            end)
      end
  end.

(** then the drop glue of the fields: [head] is [None] by now *)
Definition nl_drop (l : hlist) : P unit :=
  let* _ := nl_drop_loop (hl_len l) (hl_len l + 1) (hl_head l) in
  ndrop_opt 1 (hl_last l).

(** list/mod.rs:161-163 [first] and [Option::cloned]: the inner version is cloned while only
    borrowed *)
Definition nl_first (l : hlist) : P (option E) :=
  match hl_head l with
  | None => Ret None
  | Some a =>
      read_node n_isN a (fun v _ =>
        read_elem n_isE v (fun e => let* e' := inj (i_clone I e) in Ret (Some e')))
  end.

(** list/mod.rs:166-168 [last] and [Option::cloned] *)
Definition nl_last (l : hlist) : P (option E) :=
  match hl_last l with
  | None => Ret None
  | Some v => read_elem n_isE v (fun e => let* e' := inj (i_clone I e) in Ret (Some e'))
  end.

(** list/mod.rs:256-262, [Iter]: each element is cloned while the list is borrowed.  At most [f]
    iterations. *)
Fixpoint nl_each (l : list Op) (f : nat) (it : hliter) : P (list (list Out)) :=
  match f with
  | 0 => Fail
  | S f' =>
      let* (o, it) := hl_next_ptr n_isN it in
      match o with
      | None => Ret []
      | Some v =>
          read_elem n_isE v (fun e =>
            let* e' := inj (i_clone I e) in
            let* (e', xs) := inj (irun l e') in
            let* _ := inj (i_drop I e') in
            let* r := nl_each l f' it in
            Ret (xs :: r))
      end
  end.

(** One call of a history, dispatched to the functions above. *)
Definition nl_step (o : nop Op) (l : hlist) : P (hlist * nout Out) :=
  match o with
  | NPush p =>
      let* (e, xs) := make p in
      let* n := nl_clone l in
      let* n := nl_push e n in
      let* _ := nl_drop l in Ret (n, NOuts (Some xs))
  | NPushMut p =>
      let* (e, xs) := make p in
      let* l := nl_push e l in Ret (l, NOuts (Some xs))
  | NCopy p =>
      let* o := nl_first l in
      match o with
      | None => Ret (l, NOuts None)
      | Some e =>
          let* (e, xs) := inj (irun p e) in
          let* l := nl_push e l in Ret (l, NOuts (Some xs))
      end
  | NDrop =>
      let* n := nl_clone l in
      let* (n, b) := nl_drop_first n in
      if (b : bool) then let* _ := nl_drop l in Ret (n, NBool true)
      else let* _ := nl_drop n in Ret (l, NBool false)
  | NDropMut => let* (l, b) := nl_drop_first l in Ret (l, NBool b)
  | NRev => let* n := nl_reverse l in let* _ := nl_drop l in Ret (n, NUnit)
  | NRevMut => let* l := nl_reverse_mut l in Ret (l, NUnit)
  | NFirst p => let* o := nl_first l in let* r := try_out p o in Ret (l, NOuts r)
  | NLast p => let* o := nl_last l in let* r := try_out p o in Ret (l, NOuts r)
  | NEach p => let* r := nl_each p (S (hl_len l)) (hl_iter_new l) in Ret (l, NAll r)
  | NLen => Ret (l, NNat (hl_len l))
  end.

(** ** Queue: the functions of HeapList.v over these lists *)

(** queue/mod.rs:130-133 and [Option::cloned] *)
Definition nq_peek (q : hqueue) : P (option E) :=
  if negb (hl_len (hq_out q) =? 0) then nl_first (hq_out q) else nl_last (hq_in q).

(** queue/mod.rs:142-155 *)
Definition nq_dequeue_mut (q : hqueue) : P (hqueue * bool) :=
  if negb (hl_len (hq_out q) =? 0) then
    let* (o, _) := nl_drop_first (hq_out q) in Ret (mkHQ (hq_in q) o, true)
  else if negb (hl_len (hq_in q) =? 0) then
    (* mem::swap *)
    let i := hq_out q in
    let o := hq_in q in
    let* o := nl_reverse_mut o in
    let* (o, _) := nl_drop_first o in
    Ret (mkHQ i o, true)
  else Ret (q, false).

(** queue/mod.rs:166-168 *)
Definition nq_enqueue_mut (e : E) (q : hqueue) : P hqueue :=
  let* i := nl_push e (hq_in q) in Ret (mkHQ i (hq_out q)).

(** queue/mod.rs:248-254 *)
Definition nq_clone (q : hqueue) : P hqueue :=
  let* i := nl_clone (hq_in q) in
  let* o := nl_clone (hq_out q) in
  Ret (mkHQ i o).

(** drop glue: the fields in order *)
Definition nq_drop (q : hqueue) : P unit :=
  let* _ := nl_drop (hq_in q) in nl_drop (hq_out q).

Definition nq_step (o : nqop Op) (q : hqueue) : P (hqueue * nout Out) :=
  match o with
  | NEnq p =>
      let* (e, xs) := make p in
      let* n := nq_clone q in
      let* n := nq_enqueue_mut e n in
      let* _ := nq_drop q in Ret (n, NOuts (Some xs))
  | NEnqMut p =>
      let* (e, xs) := make p in
      let* q := nq_enqueue_mut e q in Ret (q, NOuts (Some xs))
  | NRequeue p =>
      let* o := nq_peek q in
      match o with
      | None => Ret (q, NOuts None)
      | Some e =>
          let* (e, xs) := inj (irun p e) in
          let* q := nq_enqueue_mut e q in Ret (q, NOuts (Some xs))
      end
  | NDeq =>
      let* n := nq_clone q in
      let* (n, b) := nq_dequeue_mut n in
      if (b : bool) then let* _ := nq_drop q in Ret (n, NBool true)
      else let* _ := nq_drop n in Ret (q, NBool false)
  | NDeqMut => let* (q, b) := nq_dequeue_mut q in Ret (q, NBool b)
  | NPeek p => let* o := nq_peek q in let* r := try_out p o in Ret (q, NOuts r)
  | NQLen => Ret (q, NNat (hl_len (hq_in q) + hl_len (hq_out q)))
  end.

(** The pointers of a list, list/mod.rs 107-115. *)
Definition nl_roots (l : hlist) : list addr := opt_list (hl_head l) ++ opt_list (hl_last l).
(** The pointers of a queue, queue/mod.rs 96-103. *)
Definition nq_roots (q : hqueue) : list addr := nl_roots (hq_in q) ++ nl_roots (hq_out q).

(** [List<X>] ([Stack<X>]: stack/mod.rs:118-166, 214-221 only call the list) *)
Definition list_of : impl D hlist (nop Op) (nout Out) :=
  mkImpl nkids nl_roots (Ret hl_new) nl_clone nl_drop nl_step.

(** [Queue<X>] *)
Definition queue_of : impl D hqueue (nqop Op) (nout Out) :=
  mkImpl nkids nq_roots (Ret hq_new) nq_clone nq_drop nq_step.
End Of.

(** ** As plain values: sequences of inner values, each a value of its own *)
Section Spec.
Context {V Op Out : Type} (S : spec V Op Out).
Notation vrun := (vrun S).
Notation vmay := (vmay S).
Notation opt_may := (opt_may S).

(** Specification: one call on a sequence. *)
Definition nl_spec (o : nop Op) (s : list V) : list V * nout Out :=
  match o with
  | NPush l | NPushMut l => let (v, xs) := vrun l (s_new S) in (v :: s, NOuts (Some xs))
  | NCopy l =>
      match s with
      | [] => (s, NOuts None)
      | x :: _ => let (v, xs) := vrun l x in (v :: s, NOuts (Some xs))
      end
  | NDrop | NDropMut => (tl s, NBool (negb (is_nil s)))
  | NRev | NRevMut => (rev s, NUnit)
  | NFirst l => (s, NOuts (option_map (fun x => snd (vrun l x)) (hd_error s)))
  | NLast l => (s, NOuts (option_map (fun x => snd (vrun l x)) (last_error s)))
  | NEach l => (s, NAll (map (fun x => snd (vrun l x)) s))
  | NLen => (s, NNat (length s))
  end.

(** Specification: when a call may be made. *)
Definition nl_pre (o : nop Op) (s : list V) : Prop :=
  match o with
  | NPush l | NPushMut l => vmay l (s_new S)
  | NCopy l | NFirst l => opt_may l (hd_error s)
  | NLast l => opt_may l (last_error s)
  | NEach l => Forall (vmay l) s
  | _ => True
  end.

(** Specification: one call on a queue. *)
Definition nq_spec (o : nqop Op) (s : list V) : list V * nout Out :=
  match o with
  | NEnq l | NEnqMut l => let (v, xs) := vrun l (s_new S) in (s ++ [v], NOuts (Some xs))
  | NRequeue l =>
      match s with
      | [] => (s, NOuts None)
      | x :: _ => let (v, xs) := vrun l x in (s ++ [v], NOuts (Some xs))
      end
  | NDeq | NDeqMut => (tl s, NBool (negb (is_nil s)))
  | NPeek l => (s, NOuts (option_map (fun x => snd (vrun l x)) (hd_error s)))
  | NQLen => (s, NNat (length s))
  end.

(** Specification: when a call may be made. *)
Definition nq_pre (o : nqop Op) (s : list V) : Prop :=
  match o with
  | NEnq l | NEnqMut l => vmay l (s_new S)
  | NRequeue l | NPeek l => opt_may l (hd_error s)
  | _ => True
  end.

(** Specification of a list of collections. *)
Definition list_of_spec : spec (list V) (nop Op) (nout Out) := mkSpec [] nl_spec nl_pre.
(** Specification of a queue of collections. *)
Definition queue_of_spec : spec (list V) (nqop Op) (nout Out) := mkSpec [] nq_spec nq_pre.
End Spec.
