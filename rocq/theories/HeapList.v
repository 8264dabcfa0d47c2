(** * List, Stack and Queue on the shared heap

    The functions of ListModel.v again, this time with the pointers: which
    cells are read, cloned, dropped, allocated and mutated in place, in order.
    The contents type is abstract ([C]), with the two shapes the list uses, so
    that the same functions serve inside the buckets of the hash trie. *)
From Coq Require Import List Arith Lia Bool.
From Verif Require Import Base Spec ListModel HeapModel.
From Verif Require Export HeapDrive.
Import ListNotations.
Local Open Scope prog_scope.

Section HL.
Context {C : Type} (kids : C -> list addr).
(** [E]: what a cell that holds an element contains. *)
Context {E : Type}.
(** list/mod.rs:117-124 [Node {value, next}] and the cell of a value. *)
Context (mkN : addr -> option addr -> C) (isN : C -> option (addr * option addr)).
Context (mkE : E -> C) (isE : C -> option E).
(** How deep an element can be: nested calls its drop glue needs. *)
Context (ef : nat).

(** list/mod.rs:107-115 *)
Record hlist := mkHL { hl_head : option addr; hl_last : option addr; hl_len : nat }.

Definition drop_opt (f : nat) (o : option addr) : prog C unit :=
  match o with None => Ret tt | Some a => drop_ptr kids f a end.

(** list/mod.rs 128-135: [Clone] of an optional pointer *)
Definition clone_opt {A} (o : option addr) (k : prog C A) : prog C A :=
  match o with None => k | Some a => Clone a k end.

(** [Option<SharedPointer<Node>>] dereferenced. *)
Definition read_node {A} (a : addr) (k : addr -> option addr -> prog C A) : prog C A :=
  Read a (fun c => match isN c with Some (v, nx) => k v nx | None => Fail end).
Definition read_elem {A} (a : addr) (k : E -> prog C A) : prog C A :=
  Read a (fun c => match isE c with Some e => k e | None => Fail end).

(** list/mod.rs:155-158 *)
Definition hl_new : hlist := mkHL None None 0.

(** list/mod.rs:190-199 *)
Definition hl_push_ptr (v : addr) (l : hlist) : prog C hlist :=
  let* last :=
    (if hl_len l =? 0 then
       Clone v (let* _ := drop_opt ef (hl_last l) in Ret (Some v))
     else Ret (hl_last l)) in
  New (mkN v (hl_head l)) (fun a => Ret (mkHL (Some a) last (hl_len l + 1))).

(** list/mod.rs:210-212 *)
Definition hl_push (e : E) (l : hlist) : prog C hlist :=
  New (mkE e) (fun v => hl_push_ptr v l).

(** list/mod.rs:177-188.  [h] goes out of scope at the end: its node is freed
    when this list held the only pointer to it; the rest of the chain is not,
    [self.head] now points to it. *)
Definition hl_drop_first (l : hlist) : prog C (hlist * bool) :=
  match hl_head l with
  | None => Ret (l, false)
  | Some a =>
      read_node a (fun v nx =>
        clone_opt nx
          (match hl_len l with
           | 0 => Fail (* the subtraction underflows *)
           | S n =>
               let* last :=
                 (if n =? 0 then let* _ := drop_opt ef (hl_last l) in Ret None
                  else Ret (hl_last l)) in
               let* _ := drop_ptr kids (S (S ef)) a in
               Ret (mkHL nx last n, true)
           end))
  end.

(** list/mod.rs:235-243, the loop of [reverse_mut]; at most [f] iterations *)
Fixpoint hl_rev_loop (f : nat) (prev cur : option addr) : prog C (option addr) :=
  match cur with
  | None => Ret prev
  | Some a =>
      match f with
      | 0 => Fail
      | S f' =>
          let* (a', c) := make_mut kids a in
          match isN c with
          | Some (v, nx) => Fill a' (mkN v prev) (hl_rev_loop f' (Some a') nx)
          | None => Fail
          end
      end
  end.

(** list/mod.rs:229-246 *)
Definition hl_reverse_mut (l : hlist) : prog C hlist :=
  let* last :=
    match hl_head l with
    | None => let* _ := drop_opt ef (hl_last l) in Ret None
    | Some a => read_node a (fun v _ => Clone v (let* _ := drop_opt ef (hl_last l) in Ret (Some v)))
    end in
  let* h := hl_rev_loop (hl_len l) None (hl_head l) in
  Ret (mkHL h last (hl_len l)).

(** list/mod.rs:214-227 with [iter_ptr] (423-463); at most [f] iterations *)
Fixpoint hl_rev_ptrs (f : nat) (cur : option addr) (rem : nat) (acc : hlist) : prog C hlist :=
  match cur with
  | None => Ret acc
  | Some a =>
      match f with
      | 0 => Fail
      | S f' =>
          read_node a (fun v nx =>
            match rem with
            | 0 => Fail (* size counter of the iterator underflows *)
            | S rem' =>
                Clone v (let* acc' := hl_push_ptr v acc in hl_rev_ptrs f' nx rem' acc')
            end)
      end
  end.

(** list/mod.rs 215-227 *)
Definition hl_reverse (l : hlist) : prog C hlist :=
  hl_rev_ptrs (hl_len l) (hl_head l) (hl_len l) hl_new.

(** list/mod.rs:338-345 *)
Definition hl_clone (l : hlist) : prog C hlist :=
  clone_opt (hl_head l) (clone_opt (hl_last l) (Ret l)).

(** list/mod.rs:403-421, the loop of [Drop]: [try_unwrap] the node and go on
    with the next one; when it is shared the pointer is dropped as any other
    pointer.  When another thread drops its pointer between the failed
    [try_unwrap] and the decrement, this is the last pointer after all and the
    rest of the chain is freed by nested calls; [fd] of them are available. *)
Fixpoint hl_drop_loop (f fd : nat) (head : option addr) : prog C unit :=
  match head with
  | None => Ret tt
  | Some a =>
      match f with
      | 0 => Fail
      | S f' =>
          Unwrap a (fun r =>
            match r with
            | Some c =>
                match isN c with
                | Some (v, nx) => let* _ := drop_ptr kids ef v in hl_drop_loop f' fd nx
                | None => Fail
                end
            | None => drop_ptr kids fd a
            end)
      end
  end.

(** then the drop glue of the fields: [head] is [None] by now *)
Definition hl_drop (l : hlist) : prog C unit :=
  let* _ := hl_drop_loop (hl_len l) (hl_len l + ef) (hl_head l) in
  drop_opt ef (hl_last l).

(** list/mod.rs:161-163 *)
Definition hl_first (l : hlist) : prog C (option E) :=
  match hl_head l with
  | None => Ret None
  | Some a => read_node a (fun v _ => read_elem v (fun e => Ret (Some e)))
  end.

(** list/mod.rs:166-168 *)
Definition hl_last_elem (l : hlist) : prog C (option E) :=
  match hl_last l with
  | None => Ret None
  | Some v => read_elem v (fun e => Ret (Some e))
  end.

(** list/mod.rs:276-280: [first_mut], then a write through the reference *)
Definition hl_first_mut (g : E -> E) (l : hlist) : prog C (hlist * bool) :=
  match hl_head l with
  | None => Ret (l, false)
  | Some a =>
      let* (a', c) := make_mut kids a in
      match isN c with
      | Some (v, nx) =>
          let* (v', d) := make_mut kids v in
          match isE d with
          | Some e =>
              Fill v' (mkE (g e)) (Fill a' (mkN v' nx)
                (Ret (mkHL (Some a') (hl_last l) (hl_len l), true)))
          | None => Fail
          end
      | None => Fail
      end
  end.

(** list/mod.rs:380-401 *)
Fixpoint hl_push_all (es : list E) (l : hlist) : prog C hlist :=
  match es with
  | [] => Ret l
  | e :: es' => let* l' := hl_push e l in hl_push_all es' l'
  end.
(** list/mod.rs 380-401 *)
Definition hl_from_iter (es : list E) : prog C hlist := hl_push_all (rev es) hl_new.

(** list/mod.rs:423-430 [IterPtr]: the node that comes next and how many are left *)
Definition hliter : Type := (option addr * nat)%type.

(** list/mod.rs:432-439 *)
Definition hl_iter_new (l : hlist) : hliter := (hl_head l, hl_len l).

(** list/mod.rs:447-456: the pointer to the element, not yet followed.  [Fail]: the
    length underflows, a panic in debug builds. *)
Definition hl_next_ptr (it : hliter) : prog C (option addr * hliter) :=
  match fst it with
  | Some a =>
      read_node a (fun v nx =>
        match snd it with
        | 0 => Fail
        | S rem => Ret (Some v, (nx, rem))
        end)
  | None => Ret (None, it)
  end.

(** list/mod.rs:458-460 *)
Definition hl_hint (it : hliter) : res nat := Ok (snd it).

(** list/mod.rs:260-262 and [core::iter::Map::next]: the pointer is followed *)
Definition hl_next (it : hliter) : prog C (option E * hliter) :=
  let* (o, it) := hl_next_ptr it in
  match o with
  | Some v => read_elem v (fun e => Ret (Some e, it))
  | None => Ret (None, it)
  end.

(** [k] calls of [next] on a new iterator, with the size hint before each *)
Definition hl_runs (k : nat) (l : hlist) : prog C (list (nat * option E)) :=
  pruns hl_next hl_hint k (hl_iter_new l).

End HL.

(** ** Cells of a plain list *)
Inductive lcell (T : Type) := LN (v : addr) (next : option addr) | LE (x : T).
Arguments LN {T}.
Arguments LE {T}.

Section Plain.
Context {T : Type}.

(** Of the model: the pointer, if any. *)
Definition opt_list {X} (o : option X) : list X := match o with Some x => [x] | None => [] end.

(** Elements are opaque: dropping or cloning a [T] does not touch the cells of
    the collection. *)
Definition lkids (c : lcell T) : list addr :=
  match c with LN v nx => v :: opt_list nx | LE _ => [] end.
Definition l_isN (c : lcell T) := match c with LN v nx => Some (v, nx) | LE _ => None end.
Definition l_isE (c : lcell T) := match c with LE x => Some x | LN _ _ => None end.

Notation P := (prog (lcell T)).

(** list/mod.rs 190-213 *)
Definition hlp_push := hl_push lkids LN (@LE T) 1.
(** list/mod.rs 171-188 *)
Definition hlp_drop_first := hl_drop_first lkids l_isN 1.
(** list/mod.rs 215-227 *)
Definition hlp_reverse := hl_reverse lkids LN l_isN 1.
(** list/mod.rs 229-247 *)
Definition hlp_reverse_mut := hl_reverse_mut lkids LN l_isN 1.
(** list/mod.rs 338-348 *)
Definition hlp_clone : hlist -> P hlist := hl_clone.
(** list/mod.rs 403-421 *)
Definition hlp_drop := hl_drop lkids l_isN 1.
(** list/mod.rs 161-163 *)
Definition hlp_first := hl_first l_isN l_isE.
(** list/mod.rs 166-168 *)
Definition hlp_last := hl_last_elem l_isE.
(** list/mod.rs 380-401 *)
Definition hlp_from_iter := hl_from_iter lkids LN (@LE T) 1.
(** list/mod.rs 260-267 *)
Definition hlp_runs := hl_runs l_isN l_isE.

(** One call on a register.  A non-destructive call [x = x.op(..)] clones, works
    on the clone, stores it in the register and drops the old value. *)
Definition hl_step (o : list_op T) (l : hlist) : P (hlist * obs T) :=
  match o with
  | LNew => let* _ := hlp_drop l in Ret (hl_new, OUnit)
  | LFromIter vs => let* l' := hlp_from_iter vs in let* _ := hlp_drop l in Ret (l', OUnit)
  | LPush v =>
      let* n := hlp_clone l in
      let* n := hlp_push v n in
      let* _ := hlp_drop l in Ret (n, OUnit)
  | LPushMut v => let* l := hlp_push v l in Ret (l, OUnit)
  | LDrop =>
      let* n := hlp_clone l in
      let* (n, b) := hlp_drop_first n in
      if (b : bool) then let* _ := hlp_drop l in Ret (n, OBool true)
      else let* _ := hlp_drop n in Ret (l, OBool false)
  | LDropMut => let* (l, b) := hlp_drop_first l in Ret (l, OBool b)
  | LRev => let* n := hlp_reverse l in let* _ := hlp_drop l in Ret (n, OUnit)
  | LRevMut => let* l := hlp_reverse_mut l in Ret (l, OUnit)
  | LFirst => let* x := hlp_first l in Ret (l, OElem x)
  | LLast => let* x := hlp_last l in Ret (l, OElem x)
  | LLen => Ret (l, ONat (hl_len l))
  | LIsEmpty => Ret (l, OBool (hl_len l =? 0))
  | LIter k => let* r := hlp_runs k l in Ret (l, OSteps r)
  end.

(** ** Stack: stack/mod.rs; every function calls the list (118-166, 214-221) *)
Definition hs_step (o : stack_op T) (l : hlist) : P (hlist * obs T) :=
  match o with
  | SNew => let* _ := hlp_drop l in Ret (hl_new, OUnit)
  | SPush v =>
      let* n := hlp_clone l in
      let* n := hlp_push v n in
      let* _ := hlp_drop l in Ret (n, OUnit)
  | SPushMut v => let* l := hlp_push v l in Ret (l, OUnit)
  | SPop =>
      let* n := hlp_clone l in
      let* (n, b) := hlp_drop_first n in
      if (b : bool) then let* _ := hlp_drop l in Ret (n, OBool true)
      else let* _ := hlp_drop n in Ret (l, OBool false)
  | SPopMut => let* (l, b) := hlp_drop_first l in Ret (l, OBool b)
  | SPeek => let* x := hlp_first l in Ret (l, OElem x)
  | SSize => Ret (l, ONat (hl_len l))
  | SIsEmpty => Ret (l, OBool (hl_len l =? 0))
  | SIter k => let* r := hlp_runs k l in Ret (l, OSteps r)
  end.

(** ** Queue: queue/mod.rs:96-103 *)
Record hqueue := mkHQ { hq_in : hlist; hq_out : hlist }.

Definition hq_new : hqueue := mkHQ hl_new hl_new.

(** queue/mod.rs:130-133 *)
Definition hq_peek (q : hqueue) : P (option T) :=
  if negb (hl_len (hq_out q) =? 0) then hlp_first (hq_out q) else hlp_last (hq_in q).

(** queue/mod.rs:142-155 *)
Definition hq_dequeue_mut (q : hqueue) : P (hqueue * bool) :=
  if negb (hl_len (hq_out q) =? 0) then
    let* (o, _) := hlp_drop_first (hq_out q) in Ret (mkHQ (hq_in q) o, true)
  else if negb (hl_len (hq_in q) =? 0) then
    (* mem::swap *)
    let i := hq_out q in
    let o := hq_in q in
    let* o := hlp_reverse_mut o in
    let* (o, _) := hlp_drop_first o in
    Ret (mkHQ i o, true)
  else Ret (q, false).

(** queue/mod.rs:166-168 *)
Definition hq_enqueue_mut (v : T) (q : hqueue) : P hqueue :=
  let* i := hlp_push v (hq_in q) in Ret (mkHQ i (hq_out q)).

(** queue/mod.rs:248-254 *)
Definition hq_clone (q : hqueue) : P hqueue :=
  let* i := hlp_clone (hq_in q) in
  let* o := hlp_clone (hq_out q) in
  Ret (mkHQ i o).

(** drop glue: the fields in order *)
Definition hq_drop (q : hqueue) : P unit :=
  let* _ := hlp_drop (hq_in q) in hlp_drop (hq_out q).

(** queue/mod.rs:298-304: a reference to the list, then pointers to its elements *)
Inductive hlazy : Type :=
| HUninit (l : hlist)
| HInit (vec : list addr) (current : option nat).

(** queue/mod.rs:339-349 *)
Definition hlazy_next_init (vec : list addr) (current : option nat) : P (option addr * hlazy) :=
  let* v := lift (match current with
                  | None => Ok None
                  | Some i => (* vec[i], panics out of bounds *)
                      match nth_error vec i with Some v => Ok (Some v) | None => Panic end
                  end) in
  let current := match current with
                 | Some 0 => None
                 | Some i => Some (i - 1)
                 | None => None
                 end in
  Ret (v, HInit vec current).

(** queue/mod.rs:321-351.  [pcollect] gets fuel for one call more than there are elements. *)
Definition hlazy_next (it : hlazy) : P (option addr * hlazy) :=
  match it with
  | HUninit l =>
      let len := hl_len l in
      let* vec := pcollect (hl_next_ptr l_isN) (S len) (hl_iter_new l) in
      hlazy_next_init vec (if 0 <? len then Some (len - 1) else None)
  | HInit vec current => hlazy_next_init vec current
  end.

(** queue/mod.rs:353-361 *)
Definition hlazy_hint (it : hlazy) : res nat :=
  match it with
  | HUninit l => Ok (hl_len l)
  | HInit _ (Some i) => Ok (i + 1)
  | HInit _ None => Ok 0
  end.

(** queue/mod.rs:186-188, [core::iter::Chain]: see [q_iter] in ListModel.v *)
Definition hqiter : Type := (option hliter * hlazy)%type.
Definition hq_iter_new (q : hqueue) : hqiter :=
  (Some (hl_iter_new (hq_out q)), HUninit (hq_in q)).
Definition hq_next_ptr (it : hqiter) : P (option addr * hqiter) :=
  match it with
  | (Some a, b) =>
      let* (o, a') := hl_next_ptr l_isN a in
      match o with
      | Some v => Ret (Some v, (Some a', b))
      | None => let* (o', b') := hlazy_next b in Ret (o', (None, b'))
      end
  | (None, b) => let* (o, b') := hlazy_next b in Ret (o, (None, b'))
  end.
(** [size_hint] of [core::iter::Chain]: the sum of the two (list/mod.rs 458-460, queue/mod.rs 353-361) *)
Definition hq_hint (it : hqiter) : res nat :=
  match it with
  | (Some a, b) => let! x := hl_hint a in let! y := hlazy_hint b in Ok (x + y)
  | (None, b) => hlazy_hint b
  end.

(** queue/mod.rs:182-184, [core::iter::Map] *)
Definition hq_next (it : hqiter) : P (option T * hqiter) :=
  let* (o, it) := hq_next_ptr it in
  match o with
  | Some v => read_elem l_isE v (fun x => Ret (Some x, it))
  | None => Ret (None, it)
  end.

(** queue/mod.rs 182-184 *)
Definition hq_iter (k : nat) (q : hqueue) : P (list (nat * option T)) :=
  pruns hq_next hq_hint k (hq_iter_new q).

(** One call of a history, dispatched to the functions above. *)
Definition hq_step (o : queue_op T) (q : hqueue) : P (hqueue * obs T) :=
  match o with
  | QNew => let* _ := hq_drop q in Ret (hq_new, OUnit)
  | QFromIter vs =>
      let* l := hlp_from_iter vs in let* _ := hq_drop q in Ret (mkHQ hl_new l, OUnit)
  | QEnq v =>
      let* n := hq_clone q in
      let* n := hq_enqueue_mut v n in
      let* _ := hq_drop q in Ret (n, OUnit)
  | QEnqMut v => let* q := hq_enqueue_mut v q in Ret (q, OUnit)
  | QDeq =>
      let* n := hq_clone q in
      let* (n, b) := hq_dequeue_mut n in
      if (b : bool) then let* _ := hq_drop q in Ret (n, OBool true)
      else let* _ := hq_drop n in Ret (q, OBool false)
  | QDeqMut => let* (q, b) := hq_dequeue_mut q in Ret (q, OBool b)
  | QPeek => let* x := hq_peek q in Ret (q, OElem x)
  | QLen => Ret (q, ONat (hl_len (hq_in q) + hl_len (hq_out q)))
  | QIsEmpty => Ret (q, OBool (hl_len (hq_in q) + hl_len (hq_out q) =? 0))
  | QIter k => let* r := hq_iter k q in Ret (q, OSteps r)
  end.

End Plain.
