(** What the maps look like when user code panics in the middle of a call and the panic is
    caught: the key's [Ord::cmp], [Eq::eq], [Hash::hash] and [Clone::clone] may unwind.  The
    functions of red_black_tree_map/mod.rs and hash_trie_map/mod.rs that call them are written
    again, statement by statement, with a counter [n] of the user calls that still return; the
    call made when the counter is 0 unwinds, and the outcome [Unwound s] is the content [s] of
    the [&mut] argument at that moment.  Panics in [Drop] are modelled in
    [DropModel]. *)
From Coq Require Import List NArith Arith Bool.
From Verif Require Import Base Spec SpecMap ListModel SparseModel RBModel HashModel.
Import ListNotations.

(** Outcome of a call: [Done] with the counter left, or [Unwound] with the state left behind.
    Panics of the library's own are [Panic] of [res], as elsewhere. *)
Inductive crash (S A : Type) : Type :=
| Done (left : nat) (a : A)
| Unwound (s : S).
Arguments Done {S A} left a.
Arguments Unwound {S A} s.

(** Sequencing: [m] works on a part of the state, [k] says what the whole state is if [m]
    unwinds. *)
Definition cbind {S S' A B} (m : res (crash S A)) (k : S -> S') (f : nat -> A -> res (crash S' B))
  : res (crash S' B) :=
  let! x := m in
  match x with
  | Done n a => f n a
  | Unwound s => Ok (Unwound (k s))
  end.

(** One call of user code that would return. *)
Definition ucall {S A} (n : nat) (s : S) (f : nat -> res (crash S A)) : res (crash S A) :=
  match n with
  | O => Ok (Unwound s)
  | Datatypes.S n' => f n'
  end.

(** ** RedBlackTreeMap *)
Section RBCrash.
Context {K V Q : Type}.
Variable dbg : bool.
Variable kcmp : K -> K -> comparison.
Variable borrow : K -> Q.
Variable qcmp : Q -> Q -> comparison.
Notation tree := (tree K V).
Notation rbmap := (rbmap K V).

(** red_black_tree_map/mod.rs 169-179 *)
Fixpoint c_t_get (n : nat) (t : tree) (key : Q) {struct t} : res (crash unit (option (K * V))) :=
  match t with
  | Leaf => Ok (Done n None)
  | Tree e _ l r =>
      ucall n tt (fun n =>
      match qcmp key (borrow (fst e)) with
      | Lt => c_t_get n l key
      | Eq => Ok (Done n (Some e))
      | Gt => c_t_get n r key
      end)
  end.

(** red_black_tree_map/mod.rs 373-425 *)
Fixpoint c_ins (n : nat) (t : tree) (k : K) (v : V) (is_root : bool) {struct t} : res (crash tree (tree * bool)) :=
  match t with
  | Tree e c l r =>
      let node := mkNode e c l r in
      ucall n t (fun n =>
      match kcmp k (fst e) with
      | Lt =>
          cbind (c_ins n l k v false) (fun l' => some (set_left node l')) (fun n '(l', is_new_key) =>
          let node := set_left node l' in
          let! node := (if is_new_key : bool then balance node else Ok node) in
          let node := if is_root then set_color node Black else node in
          Ok (Done n (some node, is_new_key)))
      | Eq =>
          let node := set_entry node (k, v) in
          let node := if is_root then set_color node Black else node in
          Ok (Done n (some node, false))
      | Gt =>
          cbind (c_ins n r k v false) (fun r' => some (set_right node r')) (fun n '(r', is_new_key) =>
          let node := set_right node r' in
          let! node := (if is_new_key : bool then balance node else Ok node) in
          let node := if is_root then set_color node Black else node in
          Ok (Done n (some node, is_new_key)))
      end)
  | Leaf => Ok (Done n (some (if is_root then new_black (k, v) else new_red (k, v)), true))
  end.

(** red_black_tree_map/mod.rs 669-755 *)
Fixpoint c_del (n : nat) (t : tree) (k : Q) (is_root : bool) {struct t} : res (crash tree (tree * bool)) :=
  match t with
  | Tree e c l r =>
      let node := mkNode e c l r in
      ucall n t (fun n =>
      match qcmp k (borrow (fst e)) with
      | Lt =>
          let original_left_color := left_color node in
          cbind (c_del n l k false) (fun l' => some (set_left node l')) (fun n '(l', removed) =>
          let node := set_left node l' in
          let node := set_color node Red in
          let! node := match original_left_color with
                       | Some Black => remove_balance_left dbg node
                       | _ => Ok node
                       end in
          let node := if is_root then set_color node Black else node in
          Ok (Done n (some node, removed)))
      | Eq =>
          let left := n_left node in
          let right := n_right node in
          let node := set_right (set_left node Leaf) Leaf in
          let! (node, fused) := remove_fuse dbg node left right in
          let node := if is_root then set_color node Black else node in
          Ok (Done n (if negb fused : bool then Leaf else some node, true))
      | Gt =>
          let original_right_color := right_color node in
          cbind (c_del n r k false) (fun r' => some (set_right node r')) (fun n '(r', removed) =>
          let node := set_right node r' in
          let node := set_color node Red in
          let! node := match original_right_color with
                       | Some Black => remove_balance_right dbg node
                       | _ => Ok node
                       end in
          let node := if is_root then set_color node Black else node in
          Ok (Done n (some node, removed)))
      end)
  | Leaf => Ok (Done n (Leaf, false))
  end.

(** red_black_tree_map/mod.rs 764-778.  [shared]: the entry found has other owners, so
    [make_mut] clones its key and its value (map/entry.rs 1-12). *)
Fixpoint c_t_get_mut (n : nat) (shared : bool) (t : tree) (key : Q) (f : V -> V) {struct t}
  : res (crash tree (tree * option V)) :=
  match t with
  | Leaf => Ok (Done n (Leaf, None))
  | Tree e c l r =>
      ucall n t (fun n =>
      match qcmp key (borrow (fst e)) with
      | Lt =>
          cbind (c_t_get_mut n shared l key f) (fun l' => Tree e c l' r) (fun n '(l', o) =>
          Ok (Done n (Tree e c l' r, o)))
      | Eq =>
          let found n := Ok (Done n (Tree (fst e, f (snd e)) c l r, Some (snd e))) in
          if shared then ucall n t (fun n => ucall n t found) else found n
      | Gt =>
          cbind (c_t_get_mut n shared r key f) (fun r' => Tree e c l r') (fun n '(r', o) =>
          Ok (Done n (Tree e c l r', o)))
      end)
  end.

(** Of the model: the map after an unwound write of its root, red_black_tree_map/mod.rs 848-854, 872-887: [size] is not yet written. *)
Definition rb_with (m : rbmap) (t : tree) : rbmap := mkRB t (rb_size m).

(** red_black_tree_map/mod.rs 848-854, 872-887, 975-985 *)
Definition c_rb_insert_mut (n : nat) (m : rbmap) (k : K) (v : V) : res (crash rbmap rbmap) :=
  cbind (c_ins n (rb_root m) k v true) (rb_with m) (fun n '(root, is_new_key) =>
  Ok (Done n (mkRB root (if is_new_key : bool then S (rb_size m) else rb_size m)))).
Definition c_rb_remove_mut (n : nat) (m : rbmap) (q : Q) : res (crash rbmap (rbmap * bool)) :=
  cbind (c_del n (rb_root m) q true) (rb_with m) (fun n '(root, removed) =>
  let! size := (if removed : bool then csub (rb_size m) 1 else Ok (rb_size m)) in
  Ok (Done n (mkRB root size, removed))).
(** red_black_tree_map/mod.rs 975-985 *)
Definition c_rb_get_mut (n : nat) (shared : bool) (m : rbmap) (q : Q) (f : V -> V)
  : res (crash rbmap (rbmap * option V)) :=
  cbind (c_t_get_mut n shared (rb_root m) q f) (rb_with m) (fun n '(root, o) =>
  Ok (Done n (mkRB root (rb_size m), o))).
(** 811-826, 889-896 *)
Definition c_rb_find (n : nat) (m : rbmap) (q : Q) : res (crash rbmap (option (K * V))) :=
  cbind (c_t_get n (rb_root m) q) (fun _ => m) (fun n o => Ok (Done n o)).

(** One API call.  [insert] and [remove] (839-846, 856-870) work on a clone, which the
    unwinding drops: the receiver is behind a shared reference. *)
Definition c_rb_step (n : nat) (shared : bool) (o : map_op K V Q) (m : rbmap)
  : res (crash rbmap (rbmap * map_obs K V)) :=
  match o with
  | MInsert k v => cbind (c_rb_insert_mut n m k v) (fun _ => m) (fun n m' => Ok (Done n (m', MoUnit)))
  | MInsertMut k v => cbind (c_rb_insert_mut n m k v) (fun m' => m') (fun n m' => Ok (Done n (m', MoUnit)))
  | MRemove q => cbind (c_rb_remove_mut n m q) (fun _ => m) (fun n '(m', removed) =>
                 Ok (Done n (if removed : bool then m' else m, MoUnit)))
  | MRemoveMut q => cbind (c_rb_remove_mut n m q) (fun m' => m') (fun n '(m', b) => Ok (Done n (m', MoBool b)))
  | MGetMut q f => cbind (c_rb_get_mut n shared m q f) (fun m' => m') (fun n '(m', o) => Ok (Done n (m', MoVal o)))
  | MGet q => cbind (c_rb_find n m q) (fun m' => m') (fun n o => Ok (Done n (m, MoVal (option_map snd o))))
  | MGetKeyValue q => cbind (c_rb_find n m q) (fun m' => m') (fun n o => Ok (Done n (m, MoKV o)))
  | MContains q => cbind (c_rb_find n m q) (fun m' => m') (fun n o => Ok (Done n (m, MoBool (is_some o))))
  | MSize => Ok (Done n (m, MoNat (rb_size m)))
  | MIsEmpty => Ok (Done n (m, MoBool (rb_is_empty m)))
  | MClone => Ok (Done n (m, MoUnit))
  end.
End RBCrash.

(** ** HashTrieMap *)

(** A test of an entry calls the user's [Eq] if [pre] says so (equal hashes); its result is
    that of [p] (hash_trie_map/mod.rs 675-682). *)
Section Lists.
Context {T : Type}.
Variables pre p : T -> bool.

(** Of the model: one evaluation of the test above, which may call user code. *)
Definition ask {S A} (n : nat) (s : S) (e : T) (f : nat -> bool -> res (crash S A)) : res (crash S A) :=
  if pre e then ucall n s (fun n => f n (p e)) else f n false.

(** [entries.iter().find(..)] *)
Fixpoint c_find (n : nat) (l : list T) {struct l} : res (crash unit (option T)) :=
  match l with
  | [] => Ok (Done n None)
  | e :: l' => ask n tt e (fun n b => if b : bool then Ok (Done n (Some e)) else c_find n l')
  end.

(** hash_trie_map/mod.rs 480-492.  The first entry is taken off the list before it is tested;
    [before_needle] and the entry are locals, lost when the test unwinds. *)
Fixpoint c_lrf_loop (fuel n : nat) (before : list T) (remaining : rlist T)
  : res (crash (rlist T) (rlist T * list T * option T)) :=
  match fuel with
  | O => Diverge
  | S fuel' =>
      if l_is_empty remaining then Ok (Done n (remaining, before, None))
      else
        let! e := unwrap (l_first remaining) in
        let! (remaining', _) := l_drop_first_mut remaining in
        ask n remaining' e (fun n b =>
        if b : bool then Ok (Done n (remaining', before, Some e))
        else c_lrf_loop fuel' n (e :: before) remaining')
  end.

(** hash_trie_map/mod.rs 472-501 *)
Definition c_list_remove_first (n : nat) (l : rlist T) : res (crash (rlist T) (rlist T * option T)) :=
  cbind (c_lrf_loop (S (l_len l)) n [] l) (fun l' => l') (fun n '(remaining, before, removed) =>
  Ok (Done n (fold_left (fun acc e => l_push_front_mut e acc) before remaining, removed))).
End Lists.

Section HashCrash.
Variable ubits : N.
Variable dbg : bool.
Context {K V Q : Type}.
Variable keq : K -> K -> bool.
Variable borrow : K -> Q.
Variable qeq : Q -> Q -> bool.
Variable hash : K -> N.
Variable qhash : Q -> N.
Local Open Scope N_scope.
Notation entry := (hentry K V).
Notation bucket := (hbucket K V).
Notation node := (hnode K V).

(** hash_trie_map/mod.rs 676-682: the comparison of the hashes, which calls no user code *)
Definition same_hash (h : N) (e : entry) : bool := e_hash e =? h.

(** hash_trie_map/mod.rs 508-518 *)
Definition c_b_find (n : nat) (h : N) (m : entry -> bool) (b : bucket) : res (crash unit (option entry)) :=
  match b with
  | BSingle e => ask (same_hash h) m n tt e (fun n b => Ok (Done n (if b : bool then Some e else None)))
  | BCollision l => let! es := l_elems l in c_find (same_hash h) m n es
  end.

(** hash_trie_map/mod.rs 520-541 and [value_mut] (691-693), which clones key and value if the
    entry is [shared] *)
Definition c_b_get_mut (n : nat) (shared : bool) (q : Q) (h : N) (f : V -> V) (b : bucket)
  : res (crash bucket (bucket * option V)) :=
  let value_mut n (b' : bucket) (r : bucket * option V) :=
    if shared then ucall n b' (fun n => ucall n b' (fun n => Ok (Done n r))) else Ok (Done n r) in
  match b with
  | BSingle e =>
      ask (same_hash h) (matches borrow qeq q h) n b e (fun n m =>
      if m : bool then value_mut n b (BSingle (e_write f e), Some (e_val e)) else Ok (Done n (b, None)))
  | BCollision l =>
      cbind (c_list_remove_first (same_hash h) (matches borrow qeq q h) n l) (fun l' => BCollision l')
        (fun n '(l', removed) =>
      match removed with
      | None => Ok (Done n (BCollision l', None))
      | Some e =>
          let l2 := l_push_front_mut e l' in
          value_mut n (BCollision l2) (BCollision (fst (l_first_mut (e_write f) l2)), option_map e_val (l_first l2))
      end)
  end.

(** hash_trie_map/mod.rs 558-588 *)
Definition c_b_insert (n : nat) (e : entry) (b : bucket) : res (crash bucket (bucket * bool)) :=
  let m := matches_key keq (e_key e) (e_hash e) in
  match b with
  | BSingle old =>
      ask (same_hash (e_hash e)) m n b old (fun n x =>
      if x : bool then Ok (Done n (BSingle e, false))
      else Ok (Done n (BCollision (l_push_front_mut e (l_push_front_mut old l_new)), true)))
  | BCollision l =>
      cbind (c_list_remove_first (same_hash (e_hash e)) m n l) (fun l' => BCollision l') (fun n '(l', removed) =>
      Ok (Done n (BCollision (l_push_front_mut e l'), negb (is_some removed))))
  end.

(** hash_trie_map/mod.rs 593-640.  [bucket.take()] empties a local of the caller (the node is
    not changed by it), so on unwinding the bucket itself is what remains. *)
Definition c_b_remove (n : nat) (q : Q) (h : N) (b : bucket) : res (crash bucket (option bucket * bool)) :=
  match b with
  | BSingle e =>
      ask (same_hash h) (matches borrow qeq q h) n b e (fun n m =>
      if m : bool then Ok (Done n (None, true)) else Ok (Done n (Some b, false)))
  | BCollision l =>
      cbind (c_list_remove_first (same_hash h) (matches borrow qeq q h) n l) (fun l' => BCollision l')
        (fun n '(l', removed) =>
      match l_len l' with
      | 0%nat => Panic
      | 1%nat =>
          let! e := unwrap (l_first l') in
          Ok (Done n (Some (BSingle e), is_some removed))
      | _ => Ok (Done n (Some (BCollision l'), is_some removed))
      end)
  end.

(** hash_trie_map/mod.rs 250-272 *)
Fixpoint c_hn_get (fuel n : nat) (q : Q) (h : N) (nd : node) (depth : nat) (degree : N)
  : res (crash unit (option entry)) :=
  match fuel with
  | O => Diverge
  | S fuel' =>
      match nd with
      | HBranch s =>
          let! oi := index_from_hash dbg h depth degree in
          let! index := unwrap oi in
          let! o := sa_get ubits dbg s index in
          match o with
          | None => Ok (Done n None)
          | Some c => c_hn_get fuel' n q h c (S depth) degree
          end
      | HLeaf b => c_b_find n h (matches borrow qeq q h) b
      end
  end.

(** hash_trie_map/mod.rs 274-297 *)
Fixpoint c_hn_get_mut (fuel n : nat) (shared : bool) (q : Q) (h : N) (f : V -> V) (nd : node) (depth : nat)
  (degree : N) : res (crash node (node * option V)) :=
  match fuel with
  | O => Diverge
  | S fuel' =>
      match nd with
      | HBranch s =>
          let! oi := index_from_hash dbg h depth degree in
          let! index := unwrap oi in
          let! o := sa_get_mut ubits dbg s index in
          match o with
          | None => Ok (Done n (nd, None))
          | Some (c, write) =>
              cbind (c_hn_get_mut fuel' n shared q h f c (S depth) degree) (fun c' => HBranch (write c'))
                (fun n '(c', r) => Ok (Done n (HBranch (write c'), r)))
          end
      | HLeaf b =>
          cbind (c_b_get_mut n shared q h f b) (fun b' => HLeaf b') (fun n '(b', r) => Ok (Done n (HLeaf b', r)))
      end
  end.

(** hash_trie_map/mod.rs 299-355 *)
Fixpoint c_hn_insert (fuel n : nat) (e : entry) (nd : node) (depth : nat) (degree : N)
  : res (crash node (node * bool)) :=
  match fuel with
  | O => Diverge
  | S fuel' =>
      match nd with
      | HBranch s =>
          let! oi := index_from_hash dbg (e_hash e) depth degree in
          let! index := unwrap oi in
          let! o := sa_get_mut ubits dbg s index in
          match o with
          | Some (c, write) =>
              cbind (c_hn_insert fuel' n e c (S depth) degree) (fun c' => HBranch (write c'))
                (fun n '(c', b) => Ok (Done n (HBranch (write c'), b)))
          | None =>
              let! s' := sa_set ubits dbg s index (HLeaf (BSingle e)) in
              Ok (Done n (HBranch s', true))
          end
      | HLeaf b =>
          let! oi := index_from_hash dbg (e_hash e) depth degree in
          let maximum_depth := negb (is_some oi) in
          cbind (c_b_find n (e_hash e) (matches_key keq (e_key e) (e_hash e)) b) (fun _ => nd) (fun n o =>
          let contains := is_some o in
          if maximum_depth then
            cbind (c_b_insert n e b) (fun b' => HLeaf b') (fun n '(b', new) => Ok (Done n (HLeaf b', new)))
          else if contains then
            cbind (c_b_insert n e b) (fun b' => HLeaf b') (fun n '(b', new) => Ok (Done n (HLeaf b', new)))
          else
            match b with
            | BCollision _ => Panic
            | BSingle old =>
                (* [*self = Node::new_empty_branch()], then both insertions into [self] *)
                cbind (c_hn_insert fuel' n old new_empty_branch depth degree) (fun n' => n') (fun n '(n1, _) =>
                cbind (c_hn_insert fuel' n e n1 depth degree) (fun n' => n') (fun n '(n2, _) =>
                Ok (Done n (n2, true))))
            end)
      end
  end.

(** hash_trie_map/mod.rs 387-442 *)
Fixpoint c_hn_remove (fuel n : nat) (q : Q) (h : N) (nd : node) (depth : nat) (degree : N)
  : res (crash node (node * bool)) :=
  match fuel with
  | O => Diverge
  | S fuel' =>
      match nd with
      | HBranch s =>
          let! oi := index_from_hash dbg h depth degree in
          let! index := unwrap oi in
          let! o := sa_get_mut ubits dbg s index in
          match o with
          | None => Ok (Done n (nd, false))
          | Some (c, write) =>
              cbind (c_hn_remove fuel' n q h c (S depth) degree) (fun c' => HBranch (write c'))
                (fun n '(c', removed) =>
              let s' := write c' in
              let! empty := hn_is_empty dbg c' in
              match empty, removed with
              | _, false => Ok (Done n (HBranch s', false))
              | false, true => let! n' := hn_compress (HBranch s') in Ok (Done n (n', true))
              | true, true =>
                  let! s2 := sa_remove ubits dbg s' index in
                  let! n' := hn_compress (HBranch s2) in
                  Ok (Done n (n', true))
              end)
          end
      | HLeaf b =>
          cbind (c_b_remove n q h b) (fun b' => HLeaf b') (fun n '(ob, removed) =>
          Ok (Done n (match ob with None => new_empty_branch | Some b' => HLeaf b' end, removed)))
      end
  end.

(** ** The map.  The key is hashed first; the hasher is user code too. *)
Variable fuel : nat.
Definition hm_with (m : hmap K V) (root : node) : hmap K V := mkHM root (hm_size m) (hm_degree m).

(** hash_trie_map/mod.rs 764-784, 838-844 *)
Definition c_hm_find (n : nat) (m : hmap K V) (q : Q) : res (crash (hmap K V) (option entry)) :=
  ucall n m (fun n =>
  cbind (c_hn_get fuel n q (qhash q) (hm_root m) 0 (hm_degree m)) (fun _ => m) (fun n o => Ok (Done n o))).
(** hash_trie_map/mod.rs 794-801 *)
Definition c_hm_insert_mut (n : nat) (m : hmap K V) (k : K) (v : V) : res (crash (hmap K V) (hmap K V)) :=
  ucall n m (fun n =>
  cbind (c_hn_insert fuel n (mkE k v (hash k)) (hm_root m) 0 (hm_degree m)) (hm_with m) (fun n '(root, new) =>
  Ok (Done n (mkHM root (if new : bool then (hm_size m + 1)%nat else hm_size m) (hm_degree m))))).
(** hash_trie_map/mod.rs 819-835 *)
Definition c_hm_remove_mut (n : nat) (m : hmap K V) (q : Q) : res (crash (hmap K V) (hmap K V * bool)) :=
  ucall n m (fun n =>
  cbind (c_hn_remove fuel n q (qhash q) (hm_root m) 0 (hm_degree m)) (hm_with m) (fun n '(root, removed) =>
  if removed : bool then
    let! size := csub (hm_size m) 1 in Ok (Done n (mkHM root size (hm_degree m), true))
  else Ok (Done n (mkHM root (hm_size m) (hm_degree m), false)))).
(** hash_trie_map/mod.rs 900-911 *)
Definition c_hm_get_mut (n : nat) (shared : bool) (m : hmap K V) (q : Q) (f : V -> V)
  : res (crash (hmap K V) (hmap K V * option V)) :=
  ucall n m (fun n =>
  cbind (c_hn_get_mut fuel n shared q (qhash q) f (hm_root m) 0 (hm_degree m)) (hm_with m) (fun n '(root, r) =>
  Ok (Done n (mkHM root (hm_size m) (hm_degree m), r)))).

(** One API call; [insert] and [remove] (786-792, 804-817) work on a clone. *)
Definition c_hm_step (n : nat) (shared : bool) (o : map_op K V Q) (m : hmap K V)
  : res (crash (hmap K V) (hmap K V * map_obs K V)) :=
  match o with
  | MInsert k v => cbind (c_hm_insert_mut n m k v) (fun _ => m) (fun n m' => Ok (Done n (m', MoUnit)))
  | MInsertMut k v => cbind (c_hm_insert_mut n m k v) (fun m' => m') (fun n m' => Ok (Done n (m', MoUnit)))
  | MRemove q => cbind (c_hm_remove_mut n m q) (fun _ => m) (fun n '(m', removed) =>
                 Ok (Done n (if removed : bool then m' else m, MoUnit)))
  | MRemoveMut q => cbind (c_hm_remove_mut n m q) (fun m' => m') (fun n '(m', b) => Ok (Done n (m', MoBool b)))
  | MGetMut q f => cbind (c_hm_get_mut n shared m q f) (fun m' => m') (fun n '(m', r) => Ok (Done n (m', MoVal r)))
  | MGet q => cbind (c_hm_find n m q) (fun m' => m') (fun n o => Ok (Done n (m, MoVal (option_map e_val o))))
  | MGetKeyValue q => cbind (c_hm_find n m q) (fun m' => m') (fun n o =>
                      Ok (Done n (m, MoKV (option_map (fun e => (e_key e, e_val e)) o))))
  | MContains q => cbind (c_hm_find n m q) (fun m' => m') (fun n o => Ok (Done n (m, MoBool (is_some o))))
  | MSize => Ok (Done n (m, MoNat (hm_len m)))
  | MIsEmpty => Ok (Done n (m, MoBool (hm_is_empty m)))
  | MClone => Ok (Done n (m, MoUnit))
  end.
End HashCrash.

(** ** Histories in which some calls unwind.  Each call comes with the number of user calls
    that return and whether [get_mut] finds a shared entry; an unwound call gives no answer,
    and the history goes on with what it left behind. *)
Section Hist.
Context {M O X : Type}.
Variable c_step : nat -> bool -> O -> M -> res (crash M (M * X)).

(** The final state, and for each call its answer, or [None] if it unwound. *)
Fixpoint c_exec (ops : list (nat * bool * O)) (m : M) : res (M * list (option X)) :=
  match ops with
  | [] => Ok (m, [])
  | (n, shared, o) :: r =>
      let! x := c_step n shared o m in
      let '(m', a) := match x with
                      | Done _ (m', a) => (m', Some a)
                      | Unwound m' => (m', None)
                      end in
      let! (m'', l) := c_exec r m' in
      Ok (m'', a :: l)
  end.
End Hist.
