(** Model of src/vector/mod.rs at the value level. *)
From Coq Require Import List NArith ZArith Arith Bool Lia.
From Verif Require Import Base Spec.
Import ListNotations.

(** vector/mod.rs 106-113; element pointers are transparent here. *)
Inductive vnode (T : Type) : Type :=
| VBranch (a : list (vnode T))
| VLeaf (a : list T).
Arguments VBranch {T} a.
Arguments VLeaf {T} a.

(** vector/mod.rs 94-102 *)
Record rvec (T : Type) : Type := mkV {
  v_root : vnode T;
  v_bits : N;       (* u8 *)
  v_length : N      (* usize *)
}.
Arguments mkV {T} _ _ _.
Arguments v_root {T} _.
Arguments v_bits {T} _.
Arguments v_length {T} _.

(** [a[i] = f(a[i])], panicking when out of bounds; also the access path of [a[i]] under
    [make_mut]. *)
Fixpoint update_nth {A} (f : A -> res A) (i : nat) (l : list A) : res (list A) :=
  match l, i with
  | [], _ => Panic
  | x :: l', O => let! x' := f x in Ok (x' :: l')
  | x :: l', S i' => let! l'' := update_nth f i' l' in Ok (x :: l'')
  end.

(** Slice indexing [a[i]] *)
Definition index_nth {A} (l : list A) (i : N) : res A := unwrap (nth_error l (N.to_nat i)).

(** [f(a.last_mut().unwrap())], popping the last element when [f] returns true. *)
Definition on_last {A} (f : A -> res (A * bool)) : list A -> res (list A) :=
  fix go (l : list A) : res (list A) :=
    match l with
    | [] => Panic
    | c :: l' =>
        match l' with
        | [] => let! (c', e) := f c in Ok (if e then [] else [c'])
        | _ => let! r := go l' in Ok (c :: r)
        end
    end.

(** [f(a[k])], panicking when out of bounds. *)
Definition at_nth {A B} (f : A -> res B) : list A -> nat -> res B :=
  fix go (l : list A) (k : nat) : res B :=
    match l, k with
    | [], _ => Panic
    | c :: _, O => f c
    | _ :: l', S k' => go l' k'
    end.

Section Vector_.
Variable ubits : N.     (* usize::BITS *)
Variable dbg : bool.    (* overflow checks and debug assertions *)
Context {T : Type}.
Local Open Scope N_scope.

(** vector/mod.rs 254-269 *)
Definition degree (bits : N) : res N := ushl ubits dbg 1 bits.
Definition mask (bits : N) : res N := let! d := degree bits in usub ubits dbg d 1.
Definition bucket (bits index height : N) : res N :=
  let! s := umul ubits dbg height bits in
  let! x := ushr ubits dbg index s in
  let! m := mask bits in
  Ok (N.land x m).

(** vector/mod.rs 175-190 *)
Definition used (n : vnode T) : nat :=
  match n with VBranch a => length a | VLeaf a => length a end.
Definition vn_is_empty (n : vnode T) : bool := Nat.eqb (used n) 0.
Definition vn_is_singleton (n : vnode T) : bool := Nat.eqb (used n) 1.

(** vector/mod.rs 127-137.  Recursion follows [height], which drops by one per level; the
    caller passes enough fuel for that and for the depth of the tree ([v_fuel]). *)
Fixpoint vn_get (fuel : nat) (bits : N) (n : vnode T) (index height : N) : res T :=
  match fuel with
  | O => Diverge
  | S fuel' =>
      let! b := bucket bits index height in
      match n with
      | VBranch a =>
          let! c := index_nth a b in
          let! h := usub ubits dbg height 1 in
          vn_get fuel' bits c index h
      | VLeaf a =>
          let! _ := debug_assert dbg (height =? 0) in
          index_nth a b
      end
  end.

(** vector/mod.rs 139-173 *)
Fixpoint vn_assoc (fuel : nat) (bits index : N) (n : vnode T) (value : T) (height : N)
  : res (vnode T) :=
  match fuel with
  | O => Diverge
  | S fuel' =>
      let! b := bucket bits index height in
      match n with
      | VLeaf a =>
          let! _ := debug_assert dbg (height =? 0) in
          if N.of_nat (length a) =? b then Ok (VLeaf (a ++ [value]))
          else let! a' := update_nth (fun _ => Ok value) (N.to_nat b) a in Ok (VLeaf a')
      | VBranch a =>
          let! _ := debug_assert dbg (0 <? height) in
          match nth_error a (N.to_nat b) with
          | Some _ =>
              let! h := usub ubits dbg height 1 in
              let! a' := update_nth (fun s => vn_assoc fuel' bits index s value h) (N.to_nat b) a in
              Ok (VBranch a')
          | None =>
              let subtree := if 1 <? height then VBranch [] else VLeaf [] in
              let! h := usub ubits dbg height 1 in
              let! s := vn_assoc fuel' bits index subtree value h in
              Ok (VBranch (a ++ [s]))
          end
      end
  end.

(** vector/mod.rs 197-215 *)
Fixpoint vn_drop_last (n : vnode T) : res (vnode T * bool) :=
  if vn_is_empty n then Ok (n, true)
  else
    let! n' :=
      match n with
      | VLeaf a => Ok (VLeaf (removelast a))
      | VBranch a =>
          (* [a.last_mut().unwrap()], then [a.pop()] if the child became empty *)
          let! a' := on_last vn_drop_last a in
          Ok (VBranch a')
      end in
    Ok (n', vn_is_empty n').

(** vector/mod.rs 222-239, as applying [f] through the returned reference *)
Fixpoint vn_get_mut (fuel : nat) (bits : N) (f : T -> T) (n : vnode T) (index height : N)
  : res (vnode T) :=
  match fuel with
  | O => Diverge
  | S fuel' =>
      let! b := bucket bits index height in
      match n with
      | VBranch a =>
          let! h := usub ubits dbg height 1 in
          let! a' := update_nth (fun c => vn_get_mut fuel' bits f c index h) (N.to_nat b) a in
          Ok (VBranch a')
      | VLeaf a =>
          let! _ := debug_assert dbg (height =? 0) in
          let! a' := update_nth (fun v => Ok (f v)) (N.to_nat b) a in
          Ok (VLeaf a')
      end
  end.

(** vector/mod.rs 294-299 *)
Definition v_new_with_bits (bits : N) : res (rvec T) :=
  if 0 <? bits then Ok (mkV (VLeaf []) bits 0) else Panic.

(** vector/mod.rs 14, 289-292 *)
Definition DEFAULT_BITS : N := 5.
Definition v_new : res (rvec T) := v_new_with_bits DEFAULT_BITS.

(** [usize::leading_zeros] *)
Definition leading_zeros (u : N) : N := ubits - N.size u.

(** vector/mod.rs 315-326 *)
Definition v_height (v : rvec T) : res N :=
  if 1 <? v_length v then
    let! u := usub ubits dbg (v_length v) 1 in
    let! c := usub ubits dbg ubits (leading_zeros u) in
    let b := v_bits v in
    (* division by zero cannot be written in Gallina; [b > 0] by construction *)
    usub ubits dbg (c / b + (if 0 <? c mod b then 1 else 0)) 1
  else Ok 0.

(** Depth of the tree, used only as recursion fuel. *)
Fixpoint vdepth (n : vnode T) : nat :=
  match n with
  | VLeaf _ => 0%nat
  | VBranch a => S (fold_right Nat.max 0%nat (map vdepth a))
  end.
(** Of the model: recursion fuel. *)
Definition v_fuel (v : rvec T) (h : N) : nat := (S (N.to_nat h) + vdepth (v_root v))%nat.

(** vector/mod.rs 329-337 *)
Definition v_get (v : rvec T) (index : N) : res (option T) :=
  if v_length v <=? index then Ok None
  else
    let! h := v_height v in
    let! x := vn_get (v_fuel v h) (v_bits v) (v_root v) index h in
    Ok (Some x).

(** vector/mod.rs 301-313 *)
Definition v_first (v : rvec T) : res (option T) := v_get v 0.
Definition v_last (v : rvec T) : res (option T) :=
  if v_length v =? 0 then Ok None else v_get v (v_length v - 1).

(** vector/mod.rs 378-388 *)
Definition v_root_max_capacity (v : rvec T) : res N :=
  let! h := v_height v in
  let! h1 := uadd ubits dbg h 1 in
  let! s := umul ubits dbg (v_bits v) h1 in
  ushl ubits dbg 1 s.

(** vector/mod.rs 390-393 *)
Definition v_is_root_full (v : rvec T) : res bool :=
  let! c := v_root_max_capacity v in Ok (v_length v =? c).

(** vector/mod.rs 361-376; the argument of [debug_assert!] is evaluated only in the debug
    profile *)
Definition v_assoc (v : rvec T) (index : N) (x : T) : res (rvec T) :=
  let! _ := (if dbg then
               let! c := v_root_max_capacity v in debug_assert dbg (index <? c)
             else Ok tt) in
  let! h := v_height v in
  let! root := vn_assoc (v_fuel v h) (v_bits v) index (v_root v) x h in
  if v_length v <=? index then
    let! len := uadd ubits dbg (v_length v) 1 in
    Ok (mkV root (v_bits v) len)
  else Ok (mkV root (v_bits v) (v_length v)).

(** vector/mod.rs 346-354 *)
Definition v_set_mut (v : rvec T) (index : N) (x : T) : res (rvec T * bool) :=
  if v_length v <=? index then Ok (v, false)
  else let! v' := v_assoc v index x in Ok (v', true).

(** vector/mod.rs 339-344 *)
Definition v_set (v : rvec T) (index : N) (x : T) : res (option (rvec T)) :=
  let! (v', b) := v_set_mut v index x in Ok (if b then Some v' else None).

(** vector/mod.rs 404-422 *)
Definition v_push_back_mut (v : rvec T) (x : T) : res (rvec T) :=
  let! full := v_is_root_full v in
  if full then
    let length := v_length v in
    let! len := uadd ubits dbg (v_length v) 1 in
    v_assoc (mkV (VBranch [v_root v]) (v_bits v) len) length x
  else v_assoc v (v_length v) x.

(** vector/mod.rs 395-402 *)
Definition v_push_back (v : rvec T) (x : T) : res (rvec T) := v_push_back_mut v x.

(** vector/mod.rs 428-436: [a.pop()] on a one-element branch *)
Definition v_compress_root (root : vnode T) : option (vnode T) :=
  match root with
  | VLeaf _ => None
  | VBranch a => if vn_is_singleton root then hd_error (rev a) else None
  end.

(** vector/mod.rs 445-464 *)
Definition v_drop_last_mut (v : rvec T) : res (rvec T * bool) :=
  if 0 <? v_length v then
    let! (root, _) := vn_drop_last (v_root v) in
    let! len := usub ubits dbg (v_length v) 1 in
    let root' := match v_compress_root root with Some r => r | None => root end in
    Ok (mkV root' (v_bits v) len, true)
  else Ok (v, false).

(** vector/mod.rs 438-443 *)
Definition v_drop_last (v : rvec T) : res (option (rvec T)) :=
  let! (v', b) := v_drop_last_mut v in Ok (if b then Some v' else None).

(** vector/mod.rs 466-476 *)
Definition v_len (v : rvec T) : N := v_length v.
Definition v_is_empty (v : rvec T) : bool := v_len v =? 0.

(** vector/mod.rs 494-507 *)
Definition v_get_mut (v : rvec T) (index : N) (f : T -> T) : res (rvec T * bool) :=
  if v_length v <=? index then Ok (v, false)
  else
    let! h := v_height v in
    let! root := vn_get_mut (v_fuel v h) (v_bits v) f (v_root v) index h in
    Ok (mkV root (v_bits v) (v_length v), true).

(** vector/mod.rs 510-519: [Index], panics out of bounds *)
Definition v_index (v : rvec T) (index : N) : res T :=
  let! o := v_get v index in unwrap o.

(** vector/mod.rs 521-528: [IndexMut] *)
Definition v_index_mut (v : rvec T) (index : N) (f : T -> T) : res (rvec T) :=
  let! (v', b) := v_get_mut v index f in if b then Ok v' else Panic.

(** vector/mod.rs 638-647 *)
Fixpoint v_extend (v : rvec T) (xs : list T) : res (rvec T) :=
  match xs with
  | [] => Ok v
  | x :: xs' => let! v' := v_push_back_mut v x in v_extend v' xs'
  end.

(** vector/mod.rs 627-636 *)
Definition v_from_iter (xs : list T) : res (rvec T) :=
  let! v := v_new in v_extend v xs.

(** vector/mod.rs 29-40 *)
Definition v_macro (xs : list T) : res (rvec T) :=
  let! v := v_new in v_extend v xs.

(** *** Iterator *)

(** vector/mod.rs 662-668 *)
Definition selem : Type := (vnode T * Z)%type.

(** vector/mod.rs 674-677 *)
Definition se_new (n : vnode T) (backwards : bool) : selem :=
  (n, if backwards then (Z.of_nat (used n) - 1)%Z else 0%Z).

(** [a[index as usize]] with [index : isize]; a negative index wraps to a huge one *)
Definition index_z {A} (a : list A) (i : Z) : res A :=
  if (i <? 0)%Z then Panic else unwrap (nth_error a (Z.to_nat i)).

(** vector/mod.rs 679-686 *)
Definition se_current_node (e : selem) : res (vnode T) :=
  match fst e with VBranch a => index_z a (snd e) | VLeaf _ => Panic end.

(** vector/mod.rs 688-695 *)
Definition se_current_elem (e : selem) : res T :=
  match fst e with VLeaf a => index_z a (snd e) | VBranch _ => Panic end.

(** vector/mod.rs 697-708 *)
Definition se_advance (e : selem) (backwards : bool) : selem * bool :=
  if backwards then
    let i := (snd e - 1)%Z in ((fst e, i), (i <? 0)%Z)
  else
    let i := (snd e + 1)%Z in ((fst e, i), (Z.of_nat (used (fst e)) <=? i)%Z).

(** vector/mod.rs 727-741.  A stack is a list with its top at the head.  [dig_from n i]
    is the list of elements that [dig] pushes when the top of the stack is [(n, i)];
    it is written this way so that recursion follows the tree downwards. *)
Fixpoint dig_from (n : vnode T) (i : Z) (backwards : bool) : res (list selem) :=
  match n with
  | VLeaf _ => Ok []
  | VBranch a =>
      if (i <? 0)%Z then Panic
      else
        at_nth (fun c =>
                  let e := se_new c backwards in
                  let! up := dig_from c (snd e) backwards in
                  Ok (up ++ [e]))
               a (Z.to_nat i)
  end.

(** vector/mod.rs 727-741 *)
Definition dig (stack : list selem) (backwards : bool) : res (list selem) :=
  match stack with
  | [] => Panic    (* [last().unwrap()] *)
  | (n, i) :: _ => let! up := dig_from n i backwards in Ok (up ++ stack)
  end.

(** vector/mod.rs 759-771 *)
Fixpoint it_advance (stack : list selem) (backwards : bool) : res (list selem) :=
  match stack with
  | [] => Ok []
  | e :: rest =>
      let (e', finished) := se_advance e backwards in
      if finished then it_advance rest backwards
      else dig (e' :: rest) backwards
  end.

(** vector/mod.rs 649-660 *)
Record viter : Type := mkVI {
  vi_vec : rvec T;
  vi_fwd : option (list selem);
  vi_bwd : option (list selem);
  vi_left : N;
  vi_right : N
}.

(** vector/mod.rs 715-725 *)
Definition vi_new (v : rvec T) : viter := mkVI v None None 0 (v_len v).

(** vector/mod.rs 743-757; [height()] is evaluated only for a capacity hint, but a panic
    in it would be observable *)
Definition init_stack (v : rvec T) (backwards : bool) : res (list selem) :=
  let! h := v_height v in
  let! _ := uadd ubits dbg h 1 in
  dig [se_new (v_root v) backwards] backwards.
(** vector/mod.rs 743-757 *)
Definition vi_init_if_needed (it : viter) (backwards : bool) : res viter :=
  if backwards then
    match vi_bwd it with
    | Some _ => Ok it
    | None => let! s := init_stack (vi_vec it) true in
              Ok (mkVI (vi_vec it) (vi_fwd it) (Some s) (vi_left it) (vi_right it))
    end
  else
    match vi_fwd it with
    | Some _ => Ok it
    | None => let! s := init_stack (vi_vec it) false in
              Ok (mkVI (vi_vec it) (Some s) (vi_bwd it) (vi_left it) (vi_right it))
    end.

(** vector/mod.rs 773-776 *)
Definition it_current (stack : list selem) : res (option T) :=
  match stack with
  | [] => Ok None
  | e :: _ => let! x := se_current_elem e in Ok (Some x)
  end.

(** vector/mod.rs 778-781 *)
Definition vi_non_empty (it : viter) : bool := vi_left it <? vi_right it.

(** vector/mod.rs 783-793, 818-826 *)
Definition vi_advance_forward (it : viter) : res viter :=
  if vi_non_empty it then
    let! s := unwrap (vi_fwd it) in
    let! s' := it_advance s false in
    let! l := uadd ubits dbg (vi_left it) 1 in
    Ok (mkVI (vi_vec it) (Some s') (vi_bwd it) l (vi_right it))
  else Ok it.
(** vector/mod.rs 791-793 *)
Definition vi_current_forward (it : viter) : res (option T) :=
  if vi_non_empty it then let! s := unwrap (vi_fwd it) in it_current s else Ok None.
(** vector/mod.rs 818-826 *)
Definition vi_next (it : viter) : res (option T * viter) :=
  let! it := vi_init_if_needed it false in
  let! c := vi_current_forward it in
  let! it := vi_advance_forward it in
  Ok (c, it).

(** vector/mod.rs 795-809, 839-847 *)
Definition vi_advance_backward (it : viter) : res viter :=
  if vi_non_empty it then
    let! s := unwrap (vi_bwd it) in
    let! s' := it_advance s true in
    let! r := usub ubits dbg (vi_right it) 1 in
    Ok (mkVI (vi_vec it) (vi_fwd it) (Some s') (vi_left it) r)
  else Ok it.
(** vector/mod.rs 803-809 *)
Definition vi_current_backward (it : viter) : res (option T) :=
  if vi_non_empty it then let! s := unwrap (vi_bwd it) in it_current s else Ok None.
(** vector/mod.rs 839-847 *)
Definition vi_next_back (it : viter) : res (option T * viter) :=
  let! it := vi_init_if_needed it true in
  let! c := vi_current_backward it in
  let! it := vi_advance_backward it in
  Ok (c, it).

(** vector/mod.rs 828-832 *)
Definition vi_size_hint (it : viter) : res nat :=
  let! n := usub ubits dbg (vi_right it) (vi_left it) in Ok (N.to_nat n).

(** All elements delivered by [iter()] going forward. *)
Definition v_elems (v : rvec T) : res (list T) :=
  collect vi_next (S (N.to_nat (v_len v))) (vi_new v).

(** Dispatch of one API call. *)
Definition v_step (o : vec_op T) (v : rvec T) : res (rvec T * obs T) :=
  match o with
  | VPush x => let! v' := v_push_back v x in Ok (v', OUnit)
  | VPushMut x => let! v' := v_push_back_mut v x in Ok (v', OUnit)
  | VExtend xs => let! v' := v_extend v xs in Ok (v', OUnit)
  | VDrop =>
      let! o := v_drop_last v in
      Ok (match o with Some v' => (v', OBool true) | None => (v, OBool false) end)
  | VDropMut => let! (v', b) := v_drop_last_mut v in Ok (v', OBool b)
  | VSet i x =>
      let! o := v_set v i x in
      Ok (match o with Some v' => (v', OBool true) | None => (v, OBool false) end)
  | VSetMut i x => let! (v', b) := v_set_mut v i x in Ok (v', OBool b)
  | VGetMut i f => let! (v', b) := v_get_mut v i f in Ok (v', OBool b)
  | VGet i => let! o := v_get v i in Ok (v, OElem o)
  | VFirst => let! o := v_first v in Ok (v, OElem o)
  | VLast => let! o := v_last v in Ok (v, OElem o)
  | VLen => Ok (v, ONat (N.to_nat (v_len v)))
  | VIsEmpty => Ok (v, OBool (v_is_empty v))
  | VIter ds => let! r := runs2 vi_next vi_next_back vi_size_hint ds (vi_new v) in Ok (v, OSteps r)
  end.
End Vector_.
