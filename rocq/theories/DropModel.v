(** What the collections look like when the [Drop] code of an element panics in the middle of a
    call and the panic is caught.

    A call with [&mut self] takes at most one stored element out (a sequence element, or the
    entry of a key), and gives its pointer up at one definite place of the code.  If that was
    the last pointer, the user's [Drop] runs there.  The functions that do this are written
    again with a flag [boom]: "the element this call takes out has no other owner, and its
    [Drop] panics".  [Thrown s] is the content [s] of the [&mut] argument when the panic leaves
    the call.  The language rules used are those of Rust: an assignment [*p = x] whose drop of
    the old value panics still stores [x]; the locals of the frames that unwind are dropped
    (their elements' [Drop] is taken to return: a second panic while unwinding aborts the
    process); a temporary dies at the end of its statement.

    Calls with [&self] take nothing out for good: they work on a clone, and the receiver still
    owns every element when the clone gives one up, so no [Drop] of an element runs in them. *)
From Coq Require Import List NArith Arith Bool.
From Verif Require Import Base Spec SpecMap ListModel VectorModel SparseModel RBModel HashModel CrashModel.
Import ListNotations.

(** Of the model: how a call whose drop of a value may panic ends. *)
Inductive fall (S A : Type) : Type :=
| Calm (a : A)
| Thrown (s : S).
Arguments Calm {S A} a.
Arguments Thrown {S A} s.

(** Sequencing: [k] says what the whole state is if the part [m] works on is left as thrown. *)
Definition fbind {S S' A B} (m : res (fall S A)) (k : S -> S') (f : A -> res (fall S' B))
  : res (fall S' B) :=
  let! x := m in
  match x with
  | Calm a => f a
  | Thrown s => Ok (Thrown (k s))
  end.

(** The end of a statement that gives up the last pointer to an element: [s] is the state then,
    [a] what is returned if the [Drop] returns. *)
Definition drops {S A} (boom : bool) (s : S) (a : A) : res (fall S A) :=
  Ok (if boom then Thrown s else Calm a).

(** A call that drops no element. *)
Definition calmly {S A} (m : res A) : res (fall S A) := let! a := m in Ok (Calm a).

(** ** List, Stack, Queue *)
Section SeqDrop.
Context {T : Type}.

(** list/mod.rs 177-188: the closure's argument [h], the old head node and with it the element,
    dies when the closure returns, after [head], [length] and [last] have been written.  (For
    the only element, [self.last = None] gives up a second pointer while [h] still holds the
    first.) *)
Definition d_l_drop_first_mut (boom : bool) (l : rlist T) : res (fall (rlist T) (rlist T * bool)) :=
  match l_head l with
  | [] => Ok (Calm (mkL [] (l_last l) (l_length l), false))
  | _ :: next =>
      let! len := csub (l_length l) 1 in
      let last := if len =? 0 then None else l_last l in
      let l' := mkL next last len in
      drops boom l' (l', true)
  end.

(** One call of a history, dispatched to the functions above. *)
Definition d_l_step (boom : bool) (o : list_op T) (l : rlist T) : res (fall (rlist T) (rlist T * obs T)) :=
  match o with
  | LDropMut => fbind (d_l_drop_first_mut boom l) (fun l' => l') (fun '(l', b) => Ok (Calm (l', OBool b)))
  | _ => calmly (l_step o l)
  end.

(** stack/mod.rs 135-137 *)
Definition d_s_pop_mut (boom : bool) (s : rstack T) : res (fall (rstack T) (rstack T * bool)) :=
  fbind (d_l_drop_first_mut boom (s_list s)) mkS (fun '(l, b) => Ok (Calm (mkS l, b))).

Definition d_s_step (boom : bool) (o : stack_op T) (s : rstack T) : res (fall (rstack T) (rstack T * obs T)) :=
  match o with
  | SPopMut => fbind (d_s_pop_mut boom s) (fun s' => s') (fun '(s', b) => Ok (Calm (s', OBool b)))
  | _ => calmly (s_step o s)
  end.

(** queue/mod.rs 142-155 *)
Definition d_q_dequeue_mut (boom : bool) (q : rqueue T) : res (fall (rqueue T) (rqueue T * bool)) :=
  if negb (l_is_empty (q_out q)) then
    fbind (d_l_drop_first_mut boom (q_out q)) (fun o => mkQ (q_in q) o) (fun '(o, _) =>
    Ok (Calm (mkQ (q_in q) o, true)))
  else if negb (l_is_empty (q_in q)) then
    let i := q_out q in
    let o := q_in q in
    let o := l_reverse_mut o in
    fbind (d_l_drop_first_mut boom o) (fun o => mkQ i o) (fun '(o, _) =>
    Ok (Calm (mkQ i o, true)))
  else Ok (Calm (q, false)).

(** One call of a history, dispatched to the functions above. *)
Definition d_q_step (boom : bool) (o : queue_op T) (q : rqueue T) : res (fall (rqueue T) (rqueue T * obs T)) :=
  match o with
  | QDeqMut => fbind (d_q_dequeue_mut boom q) (fun q' => q') (fun '(q', b) => Ok (Calm (q', OBool b)))
  | _ => calmly (q_step o q)
  end.
End SeqDrop.

(** ** Vector *)

(** [update_nth] and [on_last] (VectorModel) with an inner call that may throw. *)
Fixpoint d_update_nth {A} (f : A -> res (fall A A)) (i : nat) (l : list A) : res (fall (list A) (list A)) :=
  match l, i with
  | [], _ => Panic
  | x :: l', O => fbind (f x) (fun x' => x' :: l') (fun x' => Ok (Calm (x' :: l')))
  | x :: l', S i' => fbind (d_update_nth f i' l') (fun r => x :: r) (fun r => Ok (Calm (x :: r)))
  end.
(** vector/mod.rs 197-220: [a.last_mut()] and the call below it *)
Definition d_on_last {A} (f : A -> res (fall A (A * bool))) : list A -> res (fall (list A) (list A)) :=
  fix go (l : list A) : res (fall (list A) (list A)) :=
    match l with
    | [] => Panic
    | c :: l' =>
        match l' with
        | [] => fbind (f c) (fun c' => [c']) (fun '(c', e) => Ok (Calm (if e : bool then [] else [c'])))
        | _ => fbind (go l') (fun r => c :: r) (fun r => Ok (Calm (c :: r)))
        end
    end.

Section VecDrop.
Variable ubits : N.
Variable dbg : bool.
Context {T : Type}.
Local Open Scope N_scope.

(** vector/mod.rs 139-173: [a[b] = SharedPointer::new(value)] drops the old element and stores
    the new one either way *)
Fixpoint d_vn_assoc (boom : bool) (fuel : nat) (bits index : N) (n : vnode T) (value : T) (height : N)
  : res (fall (vnode T) (vnode T)) :=
  match fuel with
  | O => Diverge
  | S fuel' =>
      let! b := bucket ubits dbg bits index height in
      match n with
      | VLeaf a =>
          let! _ := debug_assert dbg (height =? 0) in
          if N.of_nat (length a) =? b then Ok (Calm (VLeaf (a ++ [value])))
          else let! a' := update_nth (fun _ => Ok value) (N.to_nat b) a in
               drops boom (VLeaf a') (VLeaf a')
      | VBranch a =>
          let! _ := debug_assert dbg (0 <? height) in
          match nth_error a (N.to_nat b) with
          | Some _ =>
              let! h := usub ubits dbg height 1 in
              fbind (d_update_nth (fun s => d_vn_assoc boom fuel' bits index s value h) (N.to_nat b) a)
                (fun a' => VBranch a') (fun a' => Ok (Calm (VBranch a')))
          | None =>
              (* [subtree] is a local: thrown, it would be lost and [a] not changed *)
              let subtree := if 1 <? height then VBranch [] else VLeaf [] in
              let! h := usub ubits dbg height 1 in
              fbind (d_vn_assoc boom fuel' bits index subtree value h) (fun _ => n)
                (fun s => Ok (Calm (VBranch (a ++ [s]))))
          end
      end
  end.

(** vector/mod.rs 197-215: [a.pop();] in the leaf drops the element, before any caller looks
    whether something became empty *)
Fixpoint d_vn_drop_last (boom : bool) (n : vnode T) : res (fall (vnode T) (vnode T * bool)) :=
  if vn_is_empty n then Ok (Calm (n, true))
  else
    fbind
      match n with
      | VLeaf a => drops boom (VLeaf (removelast a)) (VLeaf (removelast a))
      | VBranch a =>
          fbind (d_on_last (d_vn_drop_last boom) a) (fun a' => VBranch a') (fun a' => Ok (Calm (VBranch a')))
      end
      (fun n' => n') (fun n' => Ok (Calm (n', vn_is_empty n'))).

(** vector/mod.rs 361-376 *)
Definition d_v_assoc (boom : bool) (v : rvec T) (index : N) (x : T) : res (fall (rvec T) (rvec T)) :=
  let! _ := (if dbg then
               let! c := v_root_max_capacity ubits dbg v in debug_assert dbg (index <? c)
             else Ok tt) in
  let! h := v_height ubits dbg v in
  fbind (d_vn_assoc boom (v_fuel v h) (v_bits v) index (v_root v) x h)
    (fun root => mkV root (v_bits v) (v_length v)) (fun root =>
  if v_length v <=? index then
    let! len := uadd ubits dbg (v_length v) 1 in
    Ok (Calm (mkV root (v_bits v) len))
  else Ok (Calm (mkV root (v_bits v) (v_length v)))).

(** vector/mod.rs 346-354; out of range, it is the argument that is dropped *)
Definition d_v_set_mut (boom : bool) (v : rvec T) (index : N) (x : T) : res (fall (rvec T) (rvec T * bool)) :=
  if v_length v <=? index then drops boom v (v, false)
  else fbind (d_v_assoc boom v index x) (fun v' => v') (fun v' => Ok (Calm (v', true))).

(** vector/mod.rs 445-464: [root.drop_last()] comes before [self.length -= 1] *)
Definition d_v_drop_last_mut (boom : bool) (v : rvec T) : res (fall (rvec T) (rvec T * bool)) :=
  if 0 <? v_length v then
    fbind (d_vn_drop_last boom (v_root v)) (fun root => mkV root (v_bits v) (v_length v)) (fun '(root, _) =>
    let! len := usub ubits dbg (v_length v) 1 in
    let root' := match v_compress_root root with Some r => r | None => root end in
    Ok (Calm (mkV root' (v_bits v) len, true)))
  else Ok (Calm (v, false)).

(** One call of a history, dispatched to the functions above. *)
Definition d_v_step (boom : bool) (o : vec_op T) (v : rvec T) : res (fall (rvec T) (rvec T * obs T)) :=
  match o with
  | VDropMut => fbind (d_v_drop_last_mut boom v) (fun v' => v') (fun '(v', b) => Ok (Calm (v', OBool b)))
  | VSetMut i x => fbind (d_v_set_mut boom v i x) (fun v' => v') (fun '(v', b) => Ok (Calm (v', OBool b)))
  | _ => calmly (v_step ubits dbg o v)
  end.
End VecDrop.

(** ** RedBlackTreeMap *)
Section RBDrop.
Context {K V Q : Type}.
Variable dbg : bool.
Variable kcmp : K -> K -> comparison.
Variable borrow : K -> Q.
Variable qcmp : Q -> Q -> comparison.
Notation tree := (tree K V).
Notation node := (node K V).
Notation rbmap := (rbmap K V).

(** red_black_tree_map/mod.rs 373-425: [node.entry = SharedPointer::new(..)] drops the old
    entry; nothing after it in this frame or its callers is executed *)
Fixpoint d_ins (boom : bool) (t : tree) (k : K) (v : V) (is_root : bool) : res (fall tree (tree * bool)) :=
  match t with
  | Tree e c l r =>
      let node := mkNode e c l r in
      match kcmp k (fst e) with
      | Lt =>
          fbind (d_ins boom l k v false) (fun l' => some (set_left node l')) (fun '(l', is_new_key) =>
          let node := set_left node l' in
          let! node := (if is_new_key : bool then balance node else Ok node) in
          let node := if is_root then set_color node Black else node in
          Ok (Calm (some node, is_new_key)))
      | Eq =>
          let node := set_entry node (k, v) in
          drops boom (some node)
            (some (if is_root then set_color node Black else node), false)
      | Gt =>
          fbind (d_ins boom r k v false) (fun r' => some (set_right node r')) (fun '(r', is_new_key) =>
          let node := set_right node r' in
          let! node := (if is_new_key : bool then balance node else Ok node) in
          let node := if is_root then set_color node Black else node in
          Ok (Calm (some node, is_new_key)))
      end
  | Leaf => Ok (Calm (some (if is_root then new_black (k, v) else new_red (k, v)), true))
  end.

(** red_black_tree_map/mod.rs 432-545.  The old entry of [node] is given up
    - in [crate::utils::replace] (utils/mod.rs 10-18), whose argument [src] holds it after the
      swap, once [node] has the content of the child;
    - at the end of the (R, R) and (B, B) arms when the inner call merged nothing: [swap(l,
      node)] put it into [l_ptr], which nothing takes over.
    When an inner call throws, [l_ptr] and [r_ptr] are locals of the frames that unwind: the
    subtrees they still hold are lost. *)
Definition d_fuse (boom : bool) (n0 : node) : tree -> tree -> res (fall node (node * bool)) :=
  fix fuse (left : tree) : tree -> res (fall node (node * bool)) :=
  fix fuse_right (right : tree) : res (fall node (node * bool)) :=
  match left, right with
  | Leaf, Leaf => Ok (Calm (n0, false))
  | Leaf, Tree re rc rl rr => drops boom (mkNode re rc rl rr) (mkNode re rc rl rr, true)
  | Tree le lc ll lr, Leaf => drops boom (mkNode le lc ll lr) (mkNode le lc ll lr, true)
  | Tree le lc ll lr, Tree re rc rl rr =>
      match lc, rc with
      | Black, Red =>
          let r := mkNode re rc Leaf rr in
          fbind (fuse_right rl) (fun n => n) (fun '(node, _) =>
          let '(node, r) := (r, node) in
          Ok (Calm (set_left node (some r), true)))
      | Red, Black =>
          let l := mkNode le lc ll Leaf in
          fbind (fuse lr right) (fun n => n) (fun '(node, _) =>
          let '(node, l) := (l, node) in
          Ok (Calm (set_right node (some l), true)))
      | Red, Red =>
          let r := mkNode re rc Leaf rr in
          let l := mkNode le lc ll Leaf in
          fbind (fuse lr rl) (fun n => n) (fun '(node, fused) =>
          let node := fuse_red_red l r node fused in
          drops (boom && negb fused) node (node, true))
      | Black, Black =>
          let r := mkNode re rc Leaf rr in
          let l := mkNode le lc ll Leaf in
          fbind (fuse lr rl) (fun n => n) (fun '(node, fused) =>
          let! node := fuse_black_black dbg l r node fused in
          drops (boom && negb fused) node (node, true))
      end
  end.

(** red_black_tree_map/mod.rs 669-755: if nothing was merged, [*node = None] drops the node
    with the old entry, after [is_root] was looked at *)
Fixpoint d_del (boom : bool) (t : tree) (k : Q) (is_root : bool) : res (fall tree (tree * bool)) :=
  match t with
  | Tree e c l r =>
      let node := mkNode e c l r in
      match qcmp k (borrow (fst e)) with
      | Lt =>
          let original_left_color := left_color node in
          fbind (d_del boom l k false) (fun l' => some (set_left node l')) (fun '(l', removed) =>
          let node := set_left node l' in
          let node := set_color node Red in
          let! node := match original_left_color with
                       | Some Black => remove_balance_left dbg node
                       | _ => Ok node
                       end in
          let node := if is_root then set_color node Black else node in
          Ok (Calm (some node, removed)))
      | Eq =>
          let left := n_left node in
          let right := n_right node in
          let node := set_right (set_left node Leaf) Leaf in
          fbind (d_fuse boom node left right) some (fun '(node, fused) =>
          let node := if is_root then set_color node Black else node in
          if negb fused then drops boom Leaf (Leaf, true) else Ok (Calm (some node, true)))
      | Gt =>
          let original_right_color := right_color node in
          fbind (d_del boom r k false) (fun r' => some (set_right node r')) (fun '(r', removed) =>
          let node := set_right node r' in
          let node := set_color node Red in
          let! node := match original_right_color with
                       | Some Black => remove_balance_right dbg node
                       | _ => Ok node
                       end in
          let node := if is_root then set_color node Black else node in
          Ok (Calm (some node, removed)))
      end
  | Leaf => Ok (Calm (Leaf, false))
  end.

(** red_black_tree_map/mod.rs 848-854, 872-887: [size] is written after the call returns *)
Definition d_rb_insert_mut (boom : bool) (m : rbmap) (k : K) (v : V) : res (fall rbmap rbmap) :=
  fbind (d_ins boom (rb_root m) k v true) (rb_with m) (fun '(root, is_new_key) =>
  Ok (Calm (mkRB root (if is_new_key : bool then S (rb_size m) else rb_size m)))).
Definition d_rb_remove_mut (boom : bool) (m : rbmap) (q : Q) : res (fall rbmap (rbmap * bool)) :=
  fbind (d_del boom (rb_root m) q true) (rb_with m) (fun '(root, removed) =>
  let! size := (if removed : bool then csub (rb_size m) 1 else Ok (rb_size m)) in
  Ok (Calm (mkRB root size, removed))).

(** One call of a history, dispatched to the functions above. *)
Definition d_rb_step (boom : bool) (o : map_op K V Q) (m : rbmap) : res (fall rbmap (rbmap * map_obs K V)) :=
  match o with
  | MInsertMut k v => fbind (d_rb_insert_mut boom m k v) (fun m' => m') (fun m' => Ok (Calm (m', MoUnit)))
  | MRemoveMut q => fbind (d_rb_remove_mut boom m q) (fun m' => m') (fun '(m', b) => Ok (Calm (m', MoBool b)))
  | _ => calmly (rb_step dbg kcmp borrow qcmp o m)
  end.
End RBDrop.

(** ** HashTrieMap *)
Section HashDrop.
Variable ubits : N.
Variable dbg : bool.
Context {K V Q : Type}.
Variable keq : K -> K -> bool.
Variable borrow : K -> Q.
Variable qeq : Q -> Q -> bool.
Variable hash : K -> N.
Variable qhash : Q -> N.
Local Open Scope N_scope.
Notation entry := (hentry K V).
Notation bucket := (hbucket K V).
Notation node := (hnode K V).

(** hash_trie_map/mod.rs 558-588.  A single entry is overwritten by an assignment.  In a
    collision the [Option] that [list_remove_first] returns is a temporary of the statement
    [let key_existed = ..]: the old entry is dropped there, and the new one, an argument, is
    lost with the frame. *)
Definition d_b_insert (boom : bool) (e : entry) (b : bucket) : res (fall bucket (bucket * bool)) :=
  match b with
  | BSingle old =>
      if matches_key keq (e_key e) (e_hash e) old then drops boom (BSingle e) (BSingle e, false)
      else Ok (Calm (BCollision (l_push_front_mut e (l_push_front_mut old l_new)), true))
  | BCollision l =>
      let! (l', removed) := list_remove_first l (matches_key keq (e_key e) (e_hash e)) in
      fbind (drops (boom && is_some removed) (BCollision l') tt) (fun b => b) (fun _ =>
      Ok (Calm (BCollision (l_push_front_mut e l'), negb (is_some removed))))
  end.

(** hash_trie_map/mod.rs 593-640; the same temporary in [let removed = ..], before the length
    of the list is looked at.  The entry of a single bucket stays where it is, for the caller
    to overwrite. *)
Definition d_b_remove (boom : bool) (q : Q) (h : N) (b : bucket) : res (fall bucket (option bucket * bool)) :=
  match b with
  | BSingle e => Ok (Calm (if matches borrow qeq q h e then (None, true) else (Some b, false)))
  | BCollision l =>
      let! (l', removed) := list_remove_first l (matches borrow qeq q h) in
      fbind (drops (boom && is_some removed) (BCollision l') tt) (fun b => b) (fun _ =>
      match l_len l' with
      | 0%nat => Panic
      | 1%nat =>
          let! e := unwrap (l_first l') in
          Ok (Calm (Some (BSingle e), is_some removed))
      | _ => Ok (Calm (Some (BCollision l'), is_some removed))
      end)
  end.

(** hash_trie_map/mod.rs 299-355.  [*self = Node::new_empty_branch()] drops a leaf whose entry
    [old_entry] still owns. *)
Fixpoint d_hn_insert (boom : bool) (fuel : nat) (e : entry) (n : node) (depth : nat) (degree : N)
  : res (fall node (node * bool)) :=
  match fuel with
  | O => Diverge
  | S fuel' =>
      match n with
      | HBranch s =>
          let! oi := index_from_hash dbg (e_hash e) depth degree in
          let! index := unwrap oi in
          let! o := sa_get_mut ubits dbg s index in
          match o with
          | Some (c, write) =>
              fbind (d_hn_insert boom fuel' e c (S depth) degree) (fun c' => HBranch (write c'))
                (fun '(c', b) => Ok (Calm (HBranch (write c'), b)))
          | None =>
              let! s' := sa_set ubits dbg s index (HLeaf (BSingle e)) in
              Ok (Calm (HBranch s', true))
          end
      | HLeaf b =>
          let! oi := index_from_hash dbg (e_hash e) depth degree in
          let maximum_depth := negb (is_some oi) in
          let! contains := b_contains_key keq (e_key e) (e_hash e) b in
          if maximum_depth then
            fbind (d_b_insert boom e b) (fun b' => HLeaf b') (fun '(b', new) => Ok (Calm (HLeaf b', new)))
          else if contains then
            fbind (d_b_insert boom e b) (fun b' => HLeaf b') (fun '(b', new) => Ok (Calm (HLeaf b', new)))
          else
            match b with
            | BCollision _ => Panic
            | BSingle old =>
                fbind (d_hn_insert boom fuel' old new_empty_branch depth degree) (fun n' => n') (fun '(n1, _) =>
                fbind (d_hn_insert boom fuel' e n1 depth degree) (fun n' => n') (fun '(n2, _) =>
                Ok (Calm (n2, true))))
            end
      end
  end.

(** hash_trie_map/mod.rs 387-442: [*self = Node::new_empty_branch()] drops the leaf and its
    entry.  The callers, which would take the empty branch out and compress, unwind. *)
Fixpoint d_hn_remove (boom : bool) (fuel : nat) (q : Q) (h : N) (n : node) (depth : nat) (degree : N)
  : res (fall node (node * bool)) :=
  match fuel with
  | O => Diverge
  | S fuel' =>
      match n with
      | HBranch s =>
          let! oi := index_from_hash dbg h depth degree in
          let! index := unwrap oi in
          let! o := sa_get_mut ubits dbg s index in
          match o with
          | None => Ok (Calm (n, false))
          | Some (c, write) =>
              fbind (d_hn_remove boom fuel' q h c (S depth) degree) (fun c' => HBranch (write c'))
                (fun '(c', removed) =>
              let s' := write c' in
              let! empty := hn_is_empty dbg c' in
              match empty, removed with
              | _, false => Ok (Calm (HBranch s', false))
              | false, true => let! n' := hn_compress (HBranch s') in Ok (Calm (n', true))
              | true, true =>
                  let! s2 := sa_remove ubits dbg s' index in
                  let! n' := hn_compress (HBranch s2) in
                  Ok (Calm (n', true))
              end)
          end
      | HLeaf b =>
          fbind (d_b_remove boom q h b) (fun b' => HLeaf b') (fun '(ob, removed) =>
          match ob with
          | None => drops boom new_empty_branch (new_empty_branch, removed)
          | Some b' => Ok (Calm (HLeaf b', removed))
          end)
      end
  end.

Variable fuel : nat.

(** hash_trie_map/mod.rs 794-801, 819-835: [size] is written after the call returns *)
Definition d_hm_insert_mut (boom : bool) (m : hmap K V) (k : K) (v : V) : res (fall (hmap K V) (hmap K V)) :=
  fbind (d_hn_insert boom fuel (mkE k v (hash k)) (hm_root m) 0 (hm_degree m)) (hm_with m) (fun '(root, new) =>
  Ok (Calm (mkHM root (if new : bool then (hm_size m + 1)%nat else hm_size m) (hm_degree m)))).
Definition d_hm_remove_mut (boom : bool) (m : hmap K V) (q : Q) : res (fall (hmap K V) (hmap K V * bool)) :=
  fbind (d_hn_remove boom fuel q (qhash q) (hm_root m) 0 (hm_degree m)) (hm_with m) (fun '(root, removed) =>
  if removed : bool then
    let! size := csub (hm_size m) 1 in Ok (Calm (mkHM root size (hm_degree m), true))
  else Ok (Calm (mkHM root (hm_size m) (hm_degree m), false))).

(** One call of a history, dispatched to the functions above. *)
Definition d_hm_step (boom : bool) (o : map_op K V Q) (m : hmap K V)
  : res (fall (hmap K V) (hmap K V * map_obs K V)) :=
  match o with
  | MInsertMut k v => fbind (d_hm_insert_mut boom m k v) (fun m' => m') (fun m' => Ok (Calm (m', MoUnit)))
  | MRemoveMut q => fbind (d_hm_remove_mut boom m q) (fun m' => m') (fun '(m', b) => Ok (Calm (m', MoBool b)))
  | _ => calmly (hm_step ubits dbg keq borrow qeq hash qhash fuel o m)
  end.
End HashDrop.

(** ** Histories: every panic is caught, and the collection used again. *)
Fixpoint d_exec {M O X} (step : bool -> O -> M -> res (fall M (M * X))) (ops : list (bool * O)) (m : M)
  : res (M * list (option X)) :=
  match ops with
  | [] => Ok (m, [])
  | (boom, o) :: ops' =>
      let! r := step boom o m in
      match r with
      | Calm (m', x) => let! (m'', xs) := d_exec step ops' m' in Ok (m'', Some x :: xs)
      | Thrown m' => let! (m'', xs) := d_exec step ops' m' in Ok (m'', None :: xs)
      end
  end.
