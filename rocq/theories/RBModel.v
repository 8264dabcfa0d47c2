(** Model of src/map/red_black_tree_map/mod.rs: nodes, insertion, removal, the map API and the
    iterators.  Pointers are dropped here ([SharedPointer<Node>] is the node itself); the heap
    layer puts them back.  In-place updates are written as record updates, statement by
    statement. *)
From Coq Require Import List NArith Arith Bool.
From Verif Require Import Base SpecMap.
Import ListNotations.

(** mod.rs 113-117 *)
Inductive color : Type := Red | Black.

Section Model.
Context {K V Q : Type}.
Variable dbg : bool.                        (* debug assertions on? *)
Variable kcmp : K -> K -> comparison.       (* <K as Ord>::cmp *)
Variable borrow : K -> Q.                   (* <K as Borrow<Q>>::borrow *)
Variable qcmp : Q -> Q -> comparison.       (* <Q as Ord>::cmp *)

(** [Option<SharedPointer<Node>>]; the entry is a pair (src/map/entry.rs 1-12). *)
Inductive tree : Type := Leaf | Tree (e : K * V) (c : color) (l r : tree).

(** mod.rs 119-128, one [Node] *)
Record node : Type := mkNode { n_entry : K * V; n_color : color; n_left : tree; n_right : tree }.

Definition some (n : node) : tree := Tree (n_entry n) (n_color n) (n_left n) (n_right n).
(** [as_ref()] / [take()] of the option *)
Definition as_node (t : tree) : option node :=
  match t with Leaf => None | Tree e c l r => Some (mkNode e c l r) end.

(** field assignments *)
Definition set_entry (n : node) (e : K * V) : node := mkNode e (n_color n) (n_left n) (n_right n).
Definition set_color (n : node) (c : color) : node := mkNode (n_entry n) c (n_left n) (n_right n).
Definition set_left (n : node) (t : tree) : node := mkNode (n_entry n) (n_color n) t (n_right n).
Definition set_right (n : node) (t : tree) : node := mkNode (n_entry n) (n_color n) (n_left n) t.

(** mod.rs 149-155 *)
Definition new_red (e : K * V) : node := mkNode e Red Leaf Leaf.
Definition new_black (e : K * V) : node := mkNode e Black Leaf Leaf.

(** mod.rs 161-167 *)
Definition tcolor (t : tree) : option color := match t with Leaf => None | Tree _ c _ _ => Some c end.
Definition left_color (n : node) : option color := tcolor (n_left n).
Definition right_color (n : node) : option color := tcolor (n_right n).
(** [t.as_ref().and_then(|n| n.left_color())] and its mirror image *)
Definition then_left_color (t : tree) : option color :=
  match as_node t with Some n => left_color n | None => None end.
Definition then_right_color (t : tree) : option color :=
  match as_node t with Some n => right_color n | None => None end.

(** mod.rs 169-179; the [and_then] on the child is the call on [Leaf] *)
Fixpoint t_get (t : tree) (key : Q) : option (K * V) :=
  match t with
  | Leaf => None
  | Tree e _ l r =>
      match qcmp key (borrow (fst e)) with
      | Lt => t_get l key
      | Eq => Some e
      | Gt => t_get r key
      end
  end.

(** mod.rs 181-186 *)
Fixpoint t_first (t : tree) : option (K * V) :=
  match t with
  | Leaf => None
  | Tree e _ Leaf _ => Some e
  | Tree _ _ l _ => t_first l
  end.

(** mod.rs 188-193 *)
Fixpoint t_last (t : tree) : option (K * V) :=
  match t with
  | Leaf => None
  | Tree e _ _ Leaf => Some e
  | Tree _ _ _ r => t_last r
  end.

(** mod.rs 267-369 *)
Definition balance (self : node) : res node :=
  match n_color self with
  | Black =>
      let color_l := left_color self in
      let color_l_l := then_left_color (n_left self) in
      let color_l_r := then_right_color (n_left self) in
      let color_r := right_color self in
      let color_r_l := then_left_color (n_right self) in
      let color_r_r := then_right_color (n_right self) in
      match color_l, color_l_l, color_l_r, color_r, color_r_l, color_r_r with
      (* Case 1 *)
      | Some Red, Some Red, _, _, _, _ =>
          let! node_l := unwrap (as_node (n_left self)) in
          let self := set_left self Leaf in
          let! node_l_l := unwrap (as_node (n_left node_l)) in
          let node_l := set_left node_l Leaf in
          let self := set_color self Red in
          let node_l := set_color node_l Black in
          let node_l_l := set_color node_l_l Black in
          (* swap(&mut self.entry, &mut node_l.entry) *)
          let '(self, node_l) := (set_entry self (n_entry node_l), set_entry node_l (n_entry self)) in
          (* swap(&mut node_l.left, &mut node_l.right) *)
          let node_l := set_right (set_left node_l (n_right node_l)) (n_left node_l) in
          (* swap(&mut self.right, &mut node_l.right) *)
          let '(self, node_l) := (set_right self (n_right node_l), set_right node_l (n_right self)) in
          let self := set_left self (some node_l_l) in
          Ok (set_right self (some node_l))
      (* Case 2 *)
      | Some Red, _, Some Red, _, _, _ =>
          let! node_l := unwrap (as_node (n_left self)) in
          let self := set_left self Leaf in
          let! node_l_r := unwrap (as_node (n_right node_l)) in
          let node_l := set_right node_l Leaf in
          let self := set_color self Red in
          let node_l := set_color node_l Black in
          let node_l_r := set_color node_l_r Black in
          (* swap(&mut self.entry, &mut node_l_r.entry) *)
          let '(self, node_l_r) := (set_entry self (n_entry node_l_r), set_entry node_l_r (n_entry self)) in
          (* swap(&mut node_l_r.left, &mut node_l_r.right) *)
          let node_l_r := set_right (set_left node_l_r (n_right node_l_r)) (n_left node_l_r) in
          (* swap(&mut node_l.right, &mut node_l_r.right) *)
          let '(node_l, node_l_r) := (set_right node_l (n_right node_l_r), set_right node_l_r (n_right node_l)) in
          (* swap(&mut self.right, &mut node_l_r.right) *)
          let '(self, node_l_r) := (set_right self (n_right node_l_r), set_right node_l_r (n_right self)) in
          let self := set_right self (some node_l_r) in
          Ok (set_left self (some node_l))
      (* Case 3 *)
      | _, _, _, Some Red, Some Red, _ =>
          let! node_r := unwrap (as_node (n_right self)) in
          let self := set_right self Leaf in
          let! node_r_l := unwrap (as_node (n_left node_r)) in
          let node_r := set_left node_r Leaf in
          let self := set_color self Red in
          let node_r := set_color node_r Black in
          let node_r_l := set_color node_r_l Black in
          (* swap(&mut self.entry, &mut node_r_l.entry) *)
          let '(self, node_r_l) := (set_entry self (n_entry node_r_l), set_entry node_r_l (n_entry self)) in
          (* swap(&mut node_r.left, &mut node_r_l.right) *)
          let '(node_r, node_r_l) := (set_left node_r (n_right node_r_l), set_right node_r_l (n_left node_r)) in
          (* swap(&mut node_r_l.left, &mut node_r_l.right) *)
          let node_r_l := set_right (set_left node_r_l (n_right node_r_l)) (n_left node_r_l) in
          (* swap(&mut self.left, &mut node_r_l.left) *)
          let '(self, node_r_l) := (set_left self (n_left node_r_l), set_left node_r_l (n_left self)) in
          let self := set_left self (some node_r_l) in
          Ok (set_right self (some node_r))
      (* Case 4 *)
      | _, _, _, Some Red, _, Some Red =>
          let! node_r := unwrap (as_node (n_right self)) in
          let self := set_right self Leaf in
          let! node_r_r := unwrap (as_node (n_right node_r)) in
          let node_r := set_right node_r Leaf in
          let self := set_color self Red in
          let node_r := set_color node_r Black in
          let node_r_r := set_color node_r_r Black in
          (* swap(&mut self.entry, &mut node_r.entry) *)
          let '(self, node_r) := (set_entry self (n_entry node_r), set_entry node_r (n_entry self)) in
          (* swap(&mut node_r.left, &mut node_r.right) *)
          let node_r := set_right (set_left node_r (n_right node_r)) (n_left node_r) in
          (* swap(&mut self.left, &mut node_r.left) *)
          let '(self, node_r) := (set_left self (n_left node_r), set_left node_r (n_left self)) in
          let self := set_right self (some node_r_r) in
          Ok (set_left self (some node_r))
      | _, _, _, _, _, _ => Ok self
      end
  | Red => Ok self
  end.

(** mod.rs 373-425: inserts and returns the new option and whether the key is new *)
Fixpoint ins (t : tree) (k : K) (v : V) (is_root : bool) : res (tree * bool) :=
  match t with
  | Tree e c l r =>
      let node := mkNode e c l r in
      let! (node, ret) :=
        match kcmp k (fst e) with
        | Lt =>
            let! (l', is_new_key) := ins l k v false in
            let node := set_left node l' in
            let! node := (if is_new_key : bool then balance node else Ok node) in
            Ok (node, is_new_key)
        | Eq => Ok (set_entry node (k, v), false)
        | Gt =>
            let! (r', is_new_key) := ins r k v false in
            let node := set_right node r' in
            let! node := (if is_new_key : bool then balance node else Ok node) in
            Ok (node, is_new_key)
        end in
      let node := if is_root then set_color node Black else node in
      Ok (some node, ret)
  | Leaf => Ok (some (if is_root then new_black (k, v) else new_red (k, v)), true)
  end.

(** mod.rs 372, 428-429 *)
Definition n_insert (root : tree) (k : K) (v : V) : res (tree * bool) := ins root k v true.

(** mod.rs 547-562 *)
Definition remove_balance (self : node) : res node :=
  match left_color self, right_color self with
  | Some Red, Some Red =>
      let! l := unwrap (as_node (n_left self)) in
      let self := set_left self (some (set_color l Black)) in
      let! r := unwrap (as_node (n_right self)) in
      let self := set_right self (some (set_color r Black)) in
      Ok (set_color self Red)
  | _, _ =>
      let! _ := debug_assert dbg (match n_color self with Black => true | Red => false end) in
      balance self
  end.

(** mod.rs 564-613 *)
Definition remove_balance_left (self : node) : res node :=
  let color_l := left_color self in
  let color_r := right_color self in
  let color_r_l := then_left_color (n_right self) in
  match color_l, color_r, color_r_l with
  | Some Red, _, _ =>
      let! self_l := unwrap (as_node (n_left self)) in
      let self := set_color self Red in
      Ok (set_left self (some (set_color self_l Black)))
  | _, Some Black, _ =>
      let! self_r := unwrap (as_node (n_right self)) in
      let self := set_color self Black in
      let self := set_right self (some (set_color self_r Red)) in
      remove_balance self
  | _, Some Red, Some Black =>
      let! self_r := unwrap (as_node (n_right self)) in
      let! self_r_l := unwrap (as_node (n_left self_r)) in
      let self_r := set_left self_r Leaf in
      let new_r_l := n_right self_r_l in
      let self_r_l := set_right self_r_l Leaf in
      let self_r := set_color self_r Black in
      let self_r := set_left self_r new_r_l in
      let! self_r_r := unwrap (as_node (n_right self_r)) in
      let self_r := set_right self_r (some (set_color self_r_r Red)) in
      let! self_r := remove_balance self_r in
      let self := set_right self (some self_r) in
      let self := set_color self Red in
      (* self_r_l.right = self_r_l.left.take() *)
      let self_r_l := set_left (set_right self_r_l (n_left self_r_l)) Leaf in
      (* self_r_l.left = self.left.take() *)
      let self_r_l := set_left self_r_l (n_left self) in
      let self := set_left self Leaf in
      (* swap(&mut self.entry, &mut self_r_l.entry) *)
      let '(self, self_r_l) := (set_entry self (n_entry self_r_l), set_entry self_r_l (n_entry self)) in
      Ok (set_left self (some self_r_l))
  | _, _, _ => Panic
  end.

(** mod.rs 615-664 *)
Definition remove_balance_right (self : node) : res node :=
  let color_r := right_color self in
  let color_l := left_color self in
  let color_l_r := then_right_color (n_left self) in
  match color_l, color_l_r, color_r with
  | _, _, Some Red =>
      let! self_r := unwrap (as_node (n_right self)) in
      let self := set_color self Red in
      Ok (set_right self (some (set_color self_r Black)))
  | Some Black, _, _ =>
      let! self_l := unwrap (as_node (n_left self)) in
      let self := set_color self Black in
      let self := set_left self (some (set_color self_l Red)) in
      remove_balance self
  | Some Red, Some Black, _ =>
      let! self_l := unwrap (as_node (n_left self)) in
      let! self_l_r := unwrap (as_node (n_right self_l)) in
      let self_l := set_right self_l Leaf in
      let new_l_r := n_left self_l_r in
      let self_l_r := set_left self_l_r Leaf in
      let self_l := set_color self_l Black in
      let self_l := set_right self_l new_l_r in
      let! self_l_l := unwrap (as_node (n_left self_l)) in
      let self_l := set_left self_l (some (set_color self_l_l Red)) in
      let! self_l := remove_balance self_l in
      let self := set_left self (some self_l) in
      let self := set_color self Red in
      (* self_l_r.left = self_l_r.right.take() *)
      let self_l_r := set_right (set_left self_l_r (n_right self_l_r)) Leaf in
      (* self_l_r.right = self.right.take() *)
      let self_l_r := set_right self_l_r (n_right self) in
      let self := set_right self Leaf in
      (* swap(&mut self.entry, &mut self_l_r.entry) *)
      let '(self, self_l_r) := (set_entry self (n_entry self_l_r), set_entry self_l_r (n_entry self)) in
      Ok (set_right self (some self_l_r))
  | _, _, _ => Panic
  end.

(** mod.rs 477-506: the rest of the (R, R) arm, after the recursive call *)
Definition fuse_red_red (l r n : node) (fused : bool) : node :=
  let node := n in
  match n_color node, fused with
  | Red, true =>
      let fl := n_left node in
      let fr := n_right node in
      let node := set_right (set_left node Leaf) Leaf in
      let l := set_right l fl in
      let r := set_left r fr in
      let node := set_left node (some l) in
      set_right node (some r)
  | _, _ =>
      (* swap(l, node) *)
      let '(l, node) := (node, l) in
      let r := if fused then set_left r (some l) else r in
      set_right node (some r)
  end.

(** mod.rs 507-538: the rest of the (B, B) arm *)
Definition fuse_black_black (l r n : node) (fused : bool) : res node :=
  let node := n in
  match n_color node, fused with
  | Red, true =>
      let fl := n_left node in
      let fr := n_right node in
      let node := set_right (set_left node Leaf) Leaf in
      let l := set_right l fl in
      let r := set_left r fr in
      let node := set_left node (some l) in
      Ok (set_right node (some r))
  | _, _ =>
      (* swap(l, node) *)
      let '(l, node) := (node, l) in
      let r := if fused then set_left r (some l) else r in
      let node := set_color node Red in
      let node := set_right node (some r) in
      remove_balance_left node
  end.

(** mod.rs 432-545.  [n0] is the node to be overwritten; every recursive call is made on it
    unchanged.  Returns the new content of the node and [false] if there was nothing to merge. *)
Definition remove_fuse (n0 : node) : tree -> tree -> res (node * bool) :=
  fix fuse (left : tree) : tree -> res (node * bool) :=
  fix fuse_right (right : tree) : res (node * bool) :=
  match left, right with
  | Leaf, Leaf => Ok (n0, false)
  | Leaf, Tree re rc rl rr => Ok (mkNode re rc rl rr, true)
  | Tree le lc ll lr, Leaf => Ok (mkNode le lc ll lr, true)
  | Tree le lc ll lr, Tree re rc rl rr =>
      let! node :=
        match lc, rc with
        | Black, Red =>
            let r := mkNode re rc Leaf rr in
            let! (node, _) := fuse_right rl in
            (* swap(node, r) *)
            let '(node, r) := (r, node) in
            Ok (set_left node (some r))
        | Red, Black =>
            let l := mkNode le lc ll Leaf in
            let! (node, _) := fuse lr right in
            (* swap(node, l) *)
            let '(node, l) := (l, node) in
            Ok (set_right node (some l))
        | Red, Red =>
            let r := mkNode re rc Leaf rr in
            let l := mkNode le lc ll Leaf in
            let! (node, fused) := fuse lr rl in
            Ok (fuse_red_red l r node fused)
        | Black, Black =>
            let r := mkNode re rc Leaf rr in
            let l := mkNode le lc ll Leaf in
            let! (node, fused) := fuse lr rl in
            fuse_black_black l r node fused
        end in
      Ok (node, true)
  end.

(** mod.rs 669-755: [del_left], [del_right] and [del] are mutually recursive in the code; the
    first two are inlined in the third here. *)
Fixpoint del (t : tree) (k : Q) (is_root : bool) : res (tree * bool) :=
  match t with
  | Tree e c l r =>
      let node := mkNode e c l r in
      let! (node, removed, make_node_none) :=
        match qcmp k (borrow (fst e)) with
        | Lt =>
            (* del_left, 674-691 *)
            let original_left_color := left_color node in
            let! (l', removed) := del l k false in
            let node := set_left node l' in
            let node := set_color node Red in
            let! node := match original_left_color with
                         | Some Black => remove_balance_left node
                         | _ => Ok node
                         end in
            Ok (node, removed, false)
        | Eq =>
            let left := n_left node in
            let right := n_right node in
            let node := set_right (set_left node Leaf) Leaf in
            let! (node, fused) := remove_fuse node left right in
            Ok (node, true, negb fused)
        | Gt =>
            (* del_right, 693-711 *)
            let original_right_color := right_color node in
            let! (r', removed) := del r k false in
            let node := set_right node r' in
            let node := set_color node Red in
            let! node := match original_right_color with
                         | Some Black => remove_balance_right node
                         | _ => Ok node
                         end in
            Ok (node, removed, false)
        end in
      let node := if is_root then set_color node Black else node in
      Ok (if make_node_none : bool then Leaf else some node, removed)
  | Leaf => Ok (Leaf, false)
  end.

(** mod.rs 669, 753-754 *)
Definition n_remove (root : tree) (k : Q) : res (tree * bool) := del root k true.

(** mod.rs 764-778, as modification of the value through the returned reference *)
Fixpoint t_get_mut (t : tree) (key : Q) (f : V -> V) : tree * option V :=
  match t with
  | Leaf => (Leaf, None)
  | Tree e c l r =>
      match qcmp key (borrow (fst e)) with
      | Lt => let (l', o) := t_get_mut l key f in (Tree e c l' r, o)
      | Eq => (Tree (fst e, f (snd e)) c l r, Some (snd e))
      | Gt => let (r', o) := t_get_mut r key f in (Tree e c l r', o)
      end
  end.

(** ** The map: mod.rs 103-109 *)
Record rbmap : Type := mkRB { rb_root : tree; rb_size : nat }.

(** 787, 797, 807, 1013 *)
Definition rb_new : rbmap := mkRB Leaf 0.
(** 811-817 *)
Definition rb_get (m : rbmap) (q : Q) : option V := option_map snd (t_get (rb_root m) q).
(** 820-826 *)
Definition rb_get_key_value (m : rbmap) (q : Q) : option (K * V) := t_get (rb_root m) q.
(** 829-836 *)
Definition rb_first (m : rbmap) : option (K * V) := t_first (rb_root m).
Definition rb_last (m : rbmap) : option (K * V) := t_last (rb_root m).
(** 848-854 *)
Definition rb_insert_mut (m : rbmap) (k : K) (v : V) : res rbmap :=
  let! (root, is_new_key) := n_insert (rb_root m) k v in
  Ok (mkRB root (if is_new_key : bool then S (rb_size m) else rb_size m)).
(** 839-846; [clone] copies the struct, 1001-1007 *)
Definition rb_insert (m : rbmap) (k : K) (v : V) : res rbmap := rb_insert_mut m k v.
(** 872-887 *)
Definition rb_remove_mut (m : rbmap) (q : Q) : res (rbmap * bool) :=
  let! (root, removed) := n_remove (rb_root m) q in
  let! size := (if removed : bool then csub (rb_size m) 1 else Ok (rb_size m)) in
  Ok (mkRB root size, removed).
(** 856-870 *)
Definition rb_remove (m : rbmap) (q : Q) : res rbmap :=
  let! (m', removed) := rb_remove_mut m q in
  Ok (if removed : bool then m' else m).
(** 889-896 *)
Definition rb_contains_key (m : rbmap) (q : Q) : bool := is_some (rb_get m q).
(** 915-925 *)
Definition rb_is_empty (m : rbmap) : bool := Nat.eqb (rb_size m) 0.
(** 975-985 *)
Definition rb_get_mut (m : rbmap) (q : Q) (f : V -> V) : rbmap * option V :=
  let (root, o) := t_get_mut (rb_root m) q f in (mkRB root (rb_size m), o).
(** 988-999 *)
Definition rb_index (m : rbmap) (q : Q) : res V := unwrap (rb_get m q).
(** 1118-1131 and the macros 33-72: repeated [insert_mut] *)
Fixpoint rb_extend (m : rbmap) (kvs : list (K * V)) : res rbmap :=
  match kvs with
  | [] => Ok m
  | kv :: kvs => let! m := rb_insert_mut m (fst kv) (snd kv) in rb_extend m kvs
  end.
(** 1118-1131 *)
Definition rb_from_iter (kvs : list (K * V)) : res rbmap := rb_extend rb_new kvs.

(** One call of a history, dispatched to the functions above. *)
Definition rb_step (o : map_op K V Q) (m : rbmap) : res (rbmap * map_obs K V) :=
  match o with
  | MInsert k v => let! m := rb_insert m k v in Ok (m, MoUnit)
  | MInsertMut k v => let! m := rb_insert_mut m k v in Ok (m, MoUnit)
  | MRemove q => let! m := rb_remove m q in Ok (m, MoUnit)
  | MRemoveMut q => let! (m, b) := rb_remove_mut m q in Ok (m, MoBool b)
  | MGetMut q f => let (m, o) := rb_get_mut m q f in Ok (m, MoVal o)
  | MGet q => Ok (m, MoVal (rb_get m q))
  | MGetKeyValue q => Ok (m, MoKV (rb_get_key_value m q))
  | MContains q => Ok (m, MoBool (rb_contains_key m q))
  | MSize => Ok (m, MoNat (rb_size m))
  | MIsEmpty => Ok (m, MoBool (rb_is_empty m))
  | MClone => Ok (m, MoUnit)
  end.

(** ** Iterators *)

(** [core::ops::Bound<&Q>] *)
Inductive bound : Type := Included (q : Q) | Excluded (q : Q) | Unbounded.

(** The comparison operators on [Q] that the code uses, [<=], [<], [>=], [>] and [==]; the
    contract of [Ord] makes them agree with [cmp]. *)
Definition q_le (a b : Q) : bool := match qcmp a b with Gt => false | _ => true end.
Definition q_lt (a b : Q) : bool := match qcmp a b with Lt => true | _ => false end.
Definition q_eqb (a b : Q) : bool := match qcmp a b with Eq => true | _ => false end.

(** [entry.key.borrow() >= v] etc. against the start bound; against the end bound *)
Definition above (s : bound) (k : Q) : bool :=
  match s with Included v => q_le v k | Excluded v => q_lt v k | Unbounded => true end.
Definition below (e : bound) (k : Q) : bool :=
  match e with Included v => q_le k v | Excluded v => q_lt k v | Unbounded => true end.

(** 1145-1156.  The top of the stack is the head of the list.  The [Vec] also has a capacity,
    which only matters for the allocation property (see [Prop_RB]). *)
Record istk : Type := mkStk { s_stack : list tree; s_backwards : bool }.

(** 1212-1215 *)
Definition s_current (s : istk) : option (K * V) :=
  match s_stack s with Tree e _ _ _ :: _ => Some e | _ => None end.

(** 1186-1210 *)
Definition s_clear_if_finished (sb eb : bound) (s : istk) : istk :=
  match s_current s with
  | Some entry =>
      let in_range := if s_backwards s then above sb (borrow (fst entry))
                      else below eb (borrow (fst entry)) in
      if in_range then s else mkStk [] (s_backwards s)
  | None => s
  end.

(** The child on the side still to be visited after a node. *)
Definition far (bw : bool) (n : node) : tree := if bw then n_left n else n_right n.

(** 1217-1231: [dig] pushes the near child of the top, then of that child, and so on.  The
    argument is that child. *)
Fixpoint s_dig (bw : bool) (child : tree) (stack : list tree) : list tree :=
  match child with
  | Leaf => stack
  | Tree _ _ l r => s_dig bw (if bw then r else l) (child :: stack)
  end.

(** 1233-1275 *)
Fixpoint s_dig_towards (bw : bool) (sb eb : bound) (t : tree) (stack : list tree) : list tree :=
  match t with
  | Leaf => stack
  | Tree e _ l r =>
      let in_range := if bw then below eb (borrow (fst e)) else above sb (borrow (fst e)) in
      let stack := if in_range then t :: stack else stack in
      match bw, in_range with
      | false, true => s_dig_towards bw sb eb l stack
      | false, false => s_dig_towards bw sb eb r stack
      | true, true => s_dig_towards bw sb eb r stack
      | true, false => s_dig_towards bw sb eb l stack
      end
  end.

(** 1163-1184 *)
Definition s_new (m : rbmap) (sb eb : bound) (bw : bool) : istk :=
  s_clear_if_finished sb eb (mkStk (s_dig_towards bw sb eb (rb_root m) []) bw).

(** 1277-1291; after the push of the far child, [dig] goes on from it *)
Definition s_advance (sb eb : bound) (s : istk) : istk :=
  match s_stack s with
  | [] => s
  | t :: stack =>
      let stack := match as_node t with
                   | Some n => s_dig (s_backwards s) (far (s_backwards s) n) stack
                   | None => stack
                   end in
      s_clear_if_finished sb eb (mkStk stack (s_backwards s))
  end.

(** 1366-1378 *)
Record riter : Type := mkRI {
  ri_map : rbmap; ri_fwd : option istk; ri_bwd : option istk; ri_start : bound; ri_end : bound }.

(** 1387-1389 *)
Definition ri_new (m : rbmap) (sb eb : bound) : riter := mkRI m None None sb eb.

(** 1391-1405 *)
Definition ri_init (bw : bool) (i : riter) : riter :=
  if bw then
    match ri_bwd i with
    | Some _ => i
    | None => mkRI (ri_map i) (ri_fwd i) (Some (s_new (ri_map i) (ri_start i) (ri_end i) true)) (ri_start i) (ri_end i)
    end
  else
    match ri_fwd i with
    | Some _ => i
    | None => mkRI (ri_map i) (Some (s_new (ri_map i) (ri_start i) (ri_end i) false)) (ri_bwd i) (ri_start i) (ri_end i)
    end.

(** 1407-1417 *)
Definition ri_is_empty (i : riter) : bool :=
  match ri_fwd i, ri_bwd i with
  | Some f, Some b =>
      match s_current f, s_current b with
      | Some lft, Some rgt => match kcmp (fst lft) (fst rgt) with Gt => true | _ => false end
      | _, _ => true
      end
  | _, _ => false
  end.

(** 1419-1424 and 1433-1438 *)
Definition ri_current_forward (i : riter) : res (option (K * V)) :=
  if ri_is_empty i then Ok None else let! f := unwrap (ri_fwd i) in Ok (s_current f).
Definition ri_current_backward (i : riter) : res (option (K * V)) :=
  if ri_is_empty i then Ok None else let! b := unwrap (ri_bwd i) in Ok (s_current b).

(** 1426-1431 and 1440-1445 *)
Definition ri_advance_forward (i : riter) : res riter :=
  let! f := unwrap (ri_fwd i) in
  Ok (mkRI (ri_map i) (Some (s_advance (ri_start i) (ri_end i) f)) (ri_bwd i) (ri_start i) (ri_end i)).
Definition ri_advance_backward (i : riter) : res riter :=
  let! b := unwrap (ri_bwd i) in
  Ok (mkRI (ri_map i) (ri_fwd i) (Some (s_advance (ri_start i) (ri_end i) b)) (ri_start i) (ri_end i)).

(** 1457-1465 *)
Definition ri_next (i : riter) : res (option (K * V) * riter) :=
  let i := ri_init false i in
  let! current := ri_current_forward i in
  let! i := ri_advance_forward i in
  Ok (current, i).
(** 1475-1483 *)
Definition ri_next_back (i : riter) : res (option (K * V) * riter) :=
  let i := ri_init true i in
  let! current := ri_current_backward i in
  let! i := ri_advance_backward i in
  Ok (current, i).

(** 944-966 *)
Definition rb_range (m : rbmap) (sb eb : bound) : res riter :=
  match sb, eb with
  | Excluded s, Excluded e =>
      if q_eqb s e then Panic else if q_lt e s then Panic else Ok (ri_new m sb eb)
  | Included s, Included e | Included s, Excluded e | Excluded s, Included e =>
      if q_lt e s then Panic else Ok (ri_new m sb eb)
  | _, _ => Ok (ri_new m sb eb)
  end.
End Model.

Arguments Leaf {K V}. Arguments Tree {K V} e c l r.
Arguments tree K V : clear implicits. Arguments node K V : clear implicits.
Arguments rbmap K V : clear implicits. Arguments istk K V : clear implicits.
Arguments bound Q : clear implicits. Arguments riter K V Q : clear implicits.
Arguments Included {Q} q. Arguments Excluded {Q} q. Arguments Unbounded {Q}.

Section Iter.
Context {K V : Type}.
Variable kcmp : K -> K -> comparison.

(** ** The full iterator: 1307-1364.  Its range is [..], queried through the key itself. *)
Record rbiter : Type := mkIt { it_range : riter K V K; it_size : nat }.
(** 1322-1324 *)
Definition it_new (m : rbmap K V) : rbiter := mkIt (ri_new m Unbounded Unbounded) (rb_size m).
(** 1334-1341 *)
Definition it_next (i : rbiter) : res (option (K * V) * rbiter) :=
  if Nat.ltb 0 (it_size i) then
    let! size := csub (it_size i) 1 in
    let! (o, r) := ri_next kcmp (fun k => k) kcmp (it_range i) in
    Ok (o, mkIt r size)
  else Ok (None, i).
(** 1353-1360 *)
Definition it_next_back (i : rbiter) : res (option (K * V) * rbiter) :=
  if Nat.ltb 0 (it_size i) then
    let! size := csub (it_size i) 1 in
    let! (o, r) := ri_next_back kcmp (fun k => k) kcmp (it_range i) in
    Ok (o, mkIt r size)
  else Ok (None, i).
(** 1343-1345 *)
Definition it_hint (i : rbiter) : res nat := Ok (it_size i).

(** 927-942: draining [iter()], [keys()], [values()] *)
Definition rb_entries (m : rbmap K V) : res (list (K * V)) := collect it_next (S (rb_size m)) (it_new m).
Definition rb_keys (m : rbmap K V) : res (list K) := let! l := rb_entries m in Ok (map fst l).
Definition rb_values (m : rbmap K V) : res (list V) := let! l := rb_entries m in Ok (map snd l).
End Iter.
Arguments rbiter K V : clear implicits.

(** 1294-1304, on words of [ubits] bits *)
Section Height.
Variable ubits : N.
Variable dbg : bool.
Local Open Scope N_scope.
(** [usize::leading_zeros], core *)
Definition leading_zeros (n : N) : N := ubits - N.size n.
(** 1294-1300 *)
Definition lg_floor (size : N) : res N :=
  let! _ := debug_assert dbg (0 <? size) in
  let! c := usub ubits dbg ubits (leading_zeros size) in
  usub ubits dbg c 1.
(** 1302-1304 *)
Definition conservative_height (size : N) : res N :=
  if 0 <? size then
    let! s1 := uadd ubits dbg size 1 in
    let! lg := lg_floor s1 in
    umul ubits dbg 2 lg
  else Ok 0.
End Height.
