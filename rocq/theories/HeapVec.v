(** * Vector on the shared heap

    The functions of VectorModel.v again, with the pointers.  A function that
    takes [&mut Node] in the crate takes here the contents that [make_mut] lent
    (or contents not yet in a cell) and returns the contents it leaves. *)
From Coq Require Import List NArith Arith Lia Bool.
From Coq Require Import ZArith.
From Verif Require Import Base Spec VectorModel HeapModel.
From Verif Require Export HeapDrive.
Import ListNotations.
Local Open Scope prog_scope.

(** ** Cells: vector/mod.rs:106-113, and the cell of an element *)
Inductive vcell (T : Type) := VB (a : list addr) | VL (a : list addr) | VE (x : T).
Arguments VB {T}.
Arguments VL {T}.
Arguments VE {T}.

(** [a[i] = x] *)
Fixpoint put {X} (l : list X) (i : nat) (x : X) : list X :=
  match l, i with
  | [], _ => []
  | _ :: l', 0 => x :: l'
  | y :: l', S i' => y :: put l' i' x
  end.

Section HV.
Variable ubits : N.
Variable dbg : bool.
Context {T : Type}.
Notation P := (prog (vcell T)).

(** The pointers a cell owns, vector/mod.rs 106-115, in the order they are cloned and dropped. *)
Definition vkids (c : vcell T) : list addr :=
  match c with VB a => a | VL a => a | VE _ => [] end.

(** vector/mod.rs:94-102 *)
Record hvec := mkHV { hv_root : addr; hv_bits : N; hv_length : N }.

(** The parts of VectorModel.v that only look at [bits] and [length]: [height],
    [root_max_capacity] (vector/mod.rs:315-326, 378-393). *)
Definition hv_shape (v : hvec) : rvec T := mkV (VLeaf []) (hv_bits v) (hv_length v).
Definition hv_height (v : hvec) : res N := v_height ubits dbg (hv_shape v).

(** vector/mod.rs:175-190 *)
Definition hused (c : vcell T) : nat := length (vkids c).

(** vector/mod.rs:127-137 *)
Fixpoint hvn_get (f : nat) (bits : N) (c : vcell T) (index height : N) : P T :=
  match f with
  | 0 => Fail
  | S f' =>
      let* b := lift (bucket ubits dbg bits index height) in
      match c with
      | VB a =>
          let* p := lift (index_nth a b) in
          let* h := lift (usub ubits dbg height 1) in
          Read p (fun c' => hvn_get f' bits c' index h)
      | VL a =>
          let* _ := lift (debug_assert dbg (height =? 0)%N) in
          let* p := lift (index_nth a b) in
          Read p (fun e => match e with VE x => Ret x | _ => Fail end)
      | VE _ => Fail
      end
  end.

(** vector/mod.rs:139-173 *)
Fixpoint hvn_assoc (f : nat) (bits index : N) (c : vcell T) (value : T) (height : N) : P (vcell T) :=
  match f with
  | 0 => Fail
  | S f' =>
      let* b := lift (bucket ubits dbg bits index height) in
      match c with
      | VL a =>
          let* _ := lift (debug_assert dbg (height =? 0)%N) in
          if (N.of_nat (length a) =? b)%N then
            New (VE value) (fun p => Ret (VL (a ++ [p])))
          else
            New (VE value) (fun p =>
              (* the old pointer is dropped by the assignment *)
              let* old := lift (index_nth a b) in
              let* _ := drop_ptr vkids 1 old in
              Ret (VL (put a (N.to_nat b) p)))
      | VB a =>
          let* _ := lift (debug_assert dbg (0 <? height)%N) in
          match nth_error a (N.to_nat b) with
          | Some p =>
              let* (p', c') := make_mut vkids p in
              let* h := lift (usub ubits dbg height 1) in
              let* c'' := hvn_assoc f' bits index c' value h in
              Fill p' c'' (Ret (VB (put a (N.to_nat b) p')))
          | None =>
              let subtree := if (1 <? height)%N then VB [] else VL [] in
              let* h := lift (usub ubits dbg height 1) in
              let* c' := hvn_assoc f' bits index subtree value h in
              New c' (fun p => Ret (VB (a ++ [p])))
          end
      | VE _ => Fail
      end
  end.

(** vector/mod.rs:197-215; at most [f] levels *)
Fixpoint hvn_drop_last (f : nat) (c : vcell T) : P (vcell T * bool) :=
  match f with
  | 0 => Fail
  | S f' =>
      if hused c =? 0 then match c with VE _ => Fail | _ => Ret (c, true) end
      else
        let* c' :=
          match c with
          | VL a =>
              let* p := lift (unwrap (last_error a)) in
              let* _ := drop_ptr vkids 1 p in
              Ret (VL (removelast a))
          | VB a =>
              let* p := lift (unwrap (last_error a)) in
              let* (p', d) := make_mut vkids p in
              let* (d', e) := hvn_drop_last f' d in
              Fill p' d'
                (if (e : bool) then let* _ := drop_ptr vkids 1 p' in Ret (VB (removelast a))
                 else Ret (VB (removelast a ++ [p'])))
          | VE _ => Fail
          end in
        Ret (c', hused c' =? 0)
  end.

(** vector/mod.rs:222-239, and a write through the reference returned *)
Fixpoint hvn_get_mut (f : nat) (bits : N) (g : T -> T) (c : vcell T) (index height : N) : P (vcell T) :=
  match f with
  | 0 => Fail
  | S f' =>
      let* b := lift (bucket ubits dbg bits index height) in
      match c with
      | VB a =>
          let* h := lift (usub ubits dbg height 1) in
          let* p := lift (index_nth a b) in
          let* (p', d) := make_mut vkids p in
          let* d' := hvn_get_mut f' bits g d index h in
          Fill p' d' (Ret (VB (put a (N.to_nat b) p')))
      | VL a =>
          let* _ := lift (debug_assert dbg (height =? 0)%N) in
          let* p := lift (index_nth a b) in
          let* (p', d) := make_mut vkids p in
          match d with
          | VE x => Fill p' (VE (g x)) (Ret (VL (put a (N.to_nat b) p')))
          | _ => Fail
          end
      | VE _ => Fail
      end
  end.

(** Levels of the tree; the recursions above go down one level at a time. *)
Definition lv (h : N) : nat := S (N.to_nat h).

(** vector/mod.rs:294-299 *)
Definition hv_new (bits : N) : P hvec :=
  if (0 <? bits)%N then New (VL []) (fun p => Ret (mkHV p bits 0)) else Fail.

(** vector/mod.rs:329-337 *)
Definition hv_get (v : hvec) (index : N) : P (option T) :=
  if (hv_length v <=? index)%N then Ret None
  else
    let* h := lift (hv_height v) in
    Read (hv_root v) (fun c =>
      let* x := hvn_get (lv h) (hv_bits v) c index h in Ret (Some x)).

(** vector/mod.rs:301-313 *)
Definition hv_first (v : hvec) : P (option T) := hv_get v 0.
Definition hv_last (v : hvec) : P (option T) :=
  if (hv_length v =? 0)%N then Ret None else hv_get v (hv_length v - 1).

(** vector/mod.rs:361-376 *)
Definition hv_assoc (v : hvec) (index : N) (x : T) : P hvec :=
  let* _ := lift (if dbg then
                    let! c := v_root_max_capacity ubits dbg (hv_shape v) in debug_assert dbg (index <? c)%N
                  else Ok tt) in
  let* h := lift (hv_height v) in
  let* (r, c) := make_mut vkids (hv_root v) in
  let* c' := hvn_assoc (lv h) (hv_bits v) index c x h in
  Fill r c'
    (if (hv_length v <=? index)%N then
       let* len := lift (uadd ubits dbg (hv_length v) 1) in Ret (mkHV r (hv_bits v) len)
     else Ret (mkHV r (hv_bits v) (hv_length v))).

(** vector/mod.rs:346-354 *)
Definition hv_set_mut (v : hvec) (index : N) (x : T) : P (hvec * bool) :=
  if (hv_length v <=? index)%N then Ret (v, false)
  else let* v' := hv_assoc v index x in Ret (v', true).

(** vector/mod.rs:404-422 *)
Definition hv_push_back_mut (v : hvec) (x : T) : P hvec :=
  let* full := lift (v_is_root_full ubits dbg (hv_shape v)) in
  if (full : bool) then
    Clone (hv_root v)
      (New (VB [hv_root v]) (fun r =>
         (* the assignment to [self.root] drops the old pointer; the new root
            holds another *)
         let* _ := drop_ptr vkids 1 (hv_root v) in
         let* len := lift (uadd ubits dbg (hv_length v) 1) in
         hv_assoc (mkHV r (hv_bits v) len) (hv_length v) x))
  else hv_assoc v (hv_length v) x.

(** vector/mod.rs:428-436, 445-464 *)
Definition hv_drop_last_mut (v : hvec) : P (hvec * bool) :=
  if (0 <? hv_length v)%N then
    let* (r, c) := make_mut vkids (hv_root v) in
    let* h := lift (hv_height v) in
    let* (c', _) := hvn_drop_last (lv h) c in
    let* len := lift (usub ubits dbg (hv_length v) 1) in
    match c' with
    | VB [p] =>
        (* [a.pop()], then [self.root = new_root] drops the old root *)
        Fill r (VB [])
          (let* _ := drop_ptr vkids 1 r in Ret (mkHV p (hv_bits v) len, true))
    | _ => Fill r c' (Ret (mkHV r (hv_bits v) len, true))
    end
  else Ret (v, false).

(** vector/mod.rs:494-507, and a write *)
Definition hv_get_mut (v : hvec) (index : N) (g : T -> T) : P (hvec * bool) :=
  if (hv_length v <=? index)%N then Ret (v, false)
  else
    let* h := lift (hv_height v) in
    let* (r, c) := make_mut vkids (hv_root v) in
    let* c' := hvn_get_mut (lv h) (hv_bits v) g c index h in
    Fill r c' (Ret (mkHV r (hv_bits v) (hv_length v), true)).

(** vector/mod.rs:638-647 *)
Fixpoint hv_extend (v : hvec) (xs : list T) : P hvec :=
  match xs with
  | [] => Ret v
  | x :: xs' => let* v' := hv_push_back_mut v x in hv_extend v' xs'
  end.

(** vector/mod.rs:584-590 *)
Definition hv_clone (v : hvec) : P hvec := Clone (hv_root v) (Ret v).

(** Drop glue: the root pointer.  The fuel is the height of the tree plus one
    for the elements. *)
Definition hv_drop (v : hvec) : P unit :=
  let* h := lift (hv_height v) in drop_ptr vkids (S (lv h)) (hv_root v).

(** ** Iterators: a borrowed node is its address, and every look at it is a read.

    vector/mod.rs:662-668 *)
Definition hselem : Type := (addr * Z)%type.

(** vector/mod.rs:674-677; [used] (175-190) looks at the node *)
Definition hse_new (a : addr) (backwards : bool) : P hselem :=
  if backwards then Read a (fun c => Ret (a, (Z.of_nat (hused c) - 1)%Z)) else Ret (a, 0%Z).

(** vector/mod.rs:679-686 *)
Definition hse_current_node (e : hselem) : P addr :=
  Read (fst e) (fun c => match c with VB l => lift (index_z l (snd e)) | _ => Fail end).

(** vector/mod.rs:688-695: the pointer to the element *)
Definition hse_current_elem (e : hselem) : P addr :=
  Read (fst e) (fun c => match c with VL l => lift (index_z l (snd e)) | _ => Fail end).

(** vector/mod.rs:697-708 *)
Definition hse_advance (e : hselem) (backwards : bool) : P (hselem * bool) :=
  if backwards then
    let i := (snd e - 1)%Z in Ret ((fst e, i), (i <? 0)%Z)
  else
    let i := (snd e + 1)%Z in
    Read (fst e) (fun c => Ret ((fst e, i), (Z.of_nat (hused c) <=? i)%Z)).

(** vector/mod.rs:727-741; [f] nested calls.  The top of the stack is the head of the list. *)
Fixpoint hdig (f : nat) (stack : list hselem) (backwards : bool) : P (list hselem) :=
  match f with
  | 0 => Fail
  | S f' =>
      match stack with
      | [] => Fail (* [last().unwrap()] *)
      | e :: _ =>
          Read (fst e) (fun c =>
            match c with
            | VL _ => Ret stack
            | _ =>
                let* n := hse_current_node e in
                let* e' := hse_new n backwards in
                hdig f' (e' :: stack) backwards
            end)
      end
  end.

(** vector/mod.rs:759-771 *)
Fixpoint hit_advance (f : nat) (stack : list hselem) (backwards : bool) : P (list hselem) :=
  match stack with
  | [] => Ret []
  | e :: rest =>
      let* (e', finished) := hse_advance e backwards in
      if (finished : bool) then hit_advance f rest backwards
      else hdig f (e' :: rest) backwards
  end.

(** vector/mod.rs:649-660 *)
Record hviter := mkHVI {
  hvi_vec : hvec;
  hvi_fwd : option (list hselem);
  hvi_bwd : option (list hselem);
  hvi_left : N;
  hvi_right : N
}.

(** vector/mod.rs:715-725 *)
Definition hvi_new (v : hvec) : hviter := mkHVI v None None 0 (hv_length v).

(** How many nested calls of [dig] there may be. *)
Definition hvi_fuel (v : hvec) : nat := match hv_height v with Ok h => lv h | _ => 0 end.

(** vector/mod.rs:743-757 *)
Definition hinit_stack (v : hvec) (backwards : bool) : P (list hselem) :=
  let* h := lift (hv_height v) in
  let* _ := lift (uadd ubits dbg h 1) in
  let* e := hse_new (hv_root v) backwards in
  hdig (hvi_fuel v) [e] backwards.
(** vector/mod.rs 743-757 *)
Definition hvi_init_if_needed (it : hviter) (backwards : bool) : P hviter :=
  if backwards then
    match hvi_bwd it with
    | Some _ => Ret it
    | None => let* s := hinit_stack (hvi_vec it) true in
              Ret (mkHVI (hvi_vec it) (hvi_fwd it) (Some s) (hvi_left it) (hvi_right it))
    end
  else
    match hvi_fwd it with
    | Some _ => Ret it
    | None => let* s := hinit_stack (hvi_vec it) false in
              Ret (mkHVI (hvi_vec it) (Some s) (hvi_bwd it) (hvi_left it) (hvi_right it))
    end.

(** vector/mod.rs:773-776, then the client reads the element it was given a reference to
    (478-491: [iter] maps [iter_ptr] with [borrow]) *)
Definition hit_current (stack : list hselem) : P (option T) :=
  match stack with
  | [] => Ret None
  | e :: _ =>
      let* p := hse_current_elem e in
      Read p (fun c => match c with VE x => Ret (Some x) | _ => Fail end)
  end.

(** vector/mod.rs:778-781 *)
Definition hvi_non_empty (it : hviter) : bool := (hvi_left it <? hvi_right it)%N.

(** vector/mod.rs:783-793, 818-826 *)
Definition hvi_advance_forward (it : hviter) : P hviter :=
  if hvi_non_empty it then
    let* s := lift (unwrap (hvi_fwd it)) in
    let* s' := hit_advance (hvi_fuel (hvi_vec it)) s false in
    let* l := lift (uadd ubits dbg (hvi_left it) 1) in
    Ret (mkHVI (hvi_vec it) (Some s') (hvi_bwd it) l (hvi_right it))
  else Ret it.
(** vector/mod.rs 791-793 *)
Definition hvi_current_forward (it : hviter) : P (option T) :=
  if hvi_non_empty it then let* s := lift (unwrap (hvi_fwd it)) in hit_current s else Ret None.
(** vector/mod.rs 818-826 *)
Definition hvi_next (it : hviter) : P (option T * hviter) :=
  let* it := hvi_init_if_needed it false in
  let* c := hvi_current_forward it in
  let* it := hvi_advance_forward it in
  Ret (c, it).

(** vector/mod.rs:795-809, 839-847 *)
Definition hvi_advance_backward (it : hviter) : P hviter :=
  if hvi_non_empty it then
    let* s := lift (unwrap (hvi_bwd it)) in
    let* s' := hit_advance (hvi_fuel (hvi_vec it)) s true in
    let* r := lift (usub ubits dbg (hvi_right it) 1) in
    Ret (mkHVI (hvi_vec it) (hvi_fwd it) (Some s') (hvi_left it) r)
  else Ret it.
(** vector/mod.rs 803-809 *)
Definition hvi_current_backward (it : hviter) : P (option T) :=
  if hvi_non_empty it then let* s := lift (unwrap (hvi_bwd it)) in hit_current s else Ret None.
(** vector/mod.rs 839-847 *)
Definition hvi_next_back (it : hviter) : P (option T * hviter) :=
  let* it := hvi_init_if_needed it true in
  let* c := hvi_current_backward it in
  let* it := hvi_advance_backward it in
  Ret (c, it).

(** vector/mod.rs:828-832 *)
Definition hvi_size_hint (it : hviter) : res nat :=
  let! n := usub ubits dbg (hvi_right it) (hvi_left it) in Ok (N.to_nat n).

(** vector/mod.rs:478-491: [iter()] and then the calls [ds] *)
Definition hv_iter (v : hvec) (ds : list bool) : P (list (nat * option T)) :=
  pruns2 hvi_next hvi_next_back hvi_size_hint ds (hvi_new v).

(** One call on a register.  [x = x.op(..)] clones, works on the clone, stores
    it and drops the old value; the clone is dropped when the call returns
    [None]. *)
Definition persistently {X} (op : hvec -> P (hvec * X)) (keep : X -> bool) (v : hvec) : P (hvec * X) :=
  let* n := hv_clone v in
  let* (n, x) := op n in
  if keep x then let* _ := hv_drop v in Ret (n, x)
  else let* _ := hv_drop n in Ret (v, x).

(** One call of a history, dispatched to the functions above. *)
Definition hv_step (o : vec_op T) (v : hvec) : P (hvec * obs T) :=
  match o with
  | VPush x =>
      let* (v, _) := persistently (fun n => let* n := hv_push_back_mut n x in Ret (n, tt)) (fun _ => true) v in
      Ret (v, OUnit)
  | VPushMut x => let* v := hv_push_back_mut v x in Ret (v, OUnit)
  | VExtend xs => let* v := hv_extend v xs in Ret (v, OUnit)
  | VDrop => let* (v, b) := persistently hv_drop_last_mut (fun b => b) v in Ret (v, OBool b)
  | VDropMut => let* (v, b) := hv_drop_last_mut v in Ret (v, OBool b)
  | VSet i x => let* (v, b) := persistently (fun n => hv_set_mut n i x) (fun b => b) v in Ret (v, OBool b)
  | VSetMut i x => let* (v, b) := hv_set_mut v i x in Ret (v, OBool b)
  | VGetMut i g => let* (v, b) := hv_get_mut v i g in Ret (v, OBool b)
  | VGet i => let* o := hv_get v i in Ret (v, OElem o)
  | VFirst => let* o := hv_first v in Ret (v, OElem o)
  | VLast => let* o := hv_last v in Ret (v, OElem o)
  | VLen => Ret (v, ONat (N.to_nat (hv_length v)))
  | VIsEmpty => Ret (v, OBool (hv_length v =? 0)%N)
  | VIter ds => let* r := hv_iter v ds in Ret (v, OSteps r)
  end.

End HV.
