(** The maps with user code that keeps no law.  The key's [Ord::cmp], [Eq::eq], [Hash::hash],
    [Borrow::borrow] and the entry's [Clone::clone] are functions of a world [W] that they read
    and change (interior mutability, statics, random numbers), may answer anything at any call,
    and may panic.  The functions of red_black_tree_map/mod.rs and hash_trie_map/mod.rs that
    call them are written again, statement by statement, with the world passed along.  As in
    CrashModel.v the outcome of a call is [Gave a], or [Torn s] if user code panicked, with the
    content [s] of the [&mut] argument at that moment.  User code in [Drop] is not modelled. *)
From Coq Require Import List NArith Arith Bool.
From Verif Require Import Base Spec SpecMap ListModel SparseModel RBModel HashModel.
Import ListNotations.

(** Of the model: how a call into user code ends, see above. *)
Inductive uout (S A : Type) : Type :=
| Gave (a : A)
| Torn (s : S).
Arguments Gave {S A} a.
Arguments Torn {S A} s.

(** Sequencing: [m] works on a part of the state, [k] says what the whole state is if user code
    panics in [m]. *)
Definition wbind {W S S' A B} (m : res (W * uout S A)) (k : S -> S') (f : W -> A -> res (W * uout S' B))
  : res (W * uout S' B) :=
  let! (w, x) := m in
  match x with
  | Gave a => f w a
  | Torn s => Ok (w, Torn (k s))
  end.

(** One call of user code, [None] being a panic; the state is [s] at that moment. *)
Definition wcall {W X S A} (r : W * option X) (s : S) (f : W -> X -> res (W * uout S A)) : res (W * uout S A) :=
  match r with
  | (w, Some x) => f w x
  | (w, None) => Ok (w, Torn s)
  end.

(** ** RedBlackTreeMap *)

(** The user code that a red-black map calls: comparing the key of an insertion with a key of
    the map (mod.rs 383), comparing the key of a search with a borrowed key of the map (174,
    725, 769), cloning an entry that has other owners (map/entry.rs 1-12). *)
Record ord_code (W K V Q : Type) : Type := mkOrd {
  oc_key : W -> K -> K -> W * option comparison;
  oc_query : W -> Q -> K -> W * option comparison;
  oc_clone : W -> K * V -> W * option (K * V)
}.
Arguments oc_key {W K V Q}.
Arguments oc_query {W K V Q}.
Arguments oc_clone {W K V Q}.

Section RBLawless.
Context {W K V Q : Type}.
Variable dbg : bool.
Variable U : ord_code W K V Q.
Notation tree := (tree K V).
Notation rbmap := (rbmap K V).

(** red_black_tree_map/mod.rs 169-179 *)
Fixpoint w_t_get (w : W) (t : tree) (key : Q) {struct t} : res (W * uout unit (option (K * V))) :=
  match t with
  | Leaf => Ok (w, Gave None)
  | Tree e _ l r =>
      wcall (oc_query U w key (fst e)) tt (fun w c =>
      match c with
      | Lt => w_t_get w l key
      | Eq => Ok (w, Gave (Some e))
      | Gt => w_t_get w r key
      end)
  end.

(** red_black_tree_map/mod.rs 373-425 *)
Fixpoint w_ins (w : W) (t : tree) (k : K) (v : V) (is_root : bool) {struct t} : res (W * uout tree (tree * bool)) :=
  match t with
  | Tree e c l r =>
      let node := mkNode e c l r in
      wcall (oc_key U w k (fst e)) t (fun w o =>
      match o with
      | Lt =>
          wbind (w_ins w l k v false) (fun l' => some (set_left node l')) (fun w '(l', is_new_key) =>
          let node := set_left node l' in
          let! node := (if is_new_key : bool then balance node else Ok node) in
          let node := if is_root then set_color node Black else node in
          Ok (w, Gave (some node, is_new_key)))
      | Eq =>
          let node := set_entry node (k, v) in
          let node := if is_root then set_color node Black else node in
          Ok (w, Gave (some node, false))
      | Gt =>
          wbind (w_ins w r k v false) (fun r' => some (set_right node r')) (fun w '(r', is_new_key) =>
          let node := set_right node r' in
          let! node := (if is_new_key : bool then balance node else Ok node) in
          let node := if is_root then set_color node Black else node in
          Ok (w, Gave (some node, is_new_key)))
      end)
  | Leaf => Ok (w, Gave (some (if is_root then new_black (k, v) else new_red (k, v)), true))
  end.

(** red_black_tree_map/mod.rs 669-755 *)
Fixpoint w_del (w : W) (t : tree) (k : Q) (is_root : bool) {struct t} : res (W * uout tree (tree * bool)) :=
  match t with
  | Tree e c l r =>
      let node := mkNode e c l r in
      wcall (oc_query U w k (fst e)) t (fun w o =>
      match o with
      | Lt =>
          let original_left_color := left_color node in
          wbind (w_del w l k false) (fun l' => some (set_left node l')) (fun w '(l', removed) =>
          let node := set_left node l' in
          let node := set_color node Red in
          let! node := match original_left_color with
                       | Some Black => remove_balance_left dbg node
                       | _ => Ok node
                       end in
          let node := if is_root then set_color node Black else node in
          Ok (w, Gave (some node, removed)))
      | Eq =>
          let left := n_left node in
          let right := n_right node in
          let node := set_right (set_left node Leaf) Leaf in
          let! (node, fused) := remove_fuse dbg node left right in
          let node := if is_root then set_color node Black else node in
          Ok (w, Gave (if negb fused : bool then Leaf else some node, true))
      | Gt =>
          let original_right_color := right_color node in
          wbind (w_del w r k false) (fun r' => some (set_right node r')) (fun w '(r', removed) =>
          let node := set_right node r' in
          let node := set_color node Red in
          let! node := match original_right_color with
                       | Some Black => remove_balance_right dbg node
                       | _ => Ok node
                       end in
          let node := if is_root then set_color node Black else node in
          Ok (w, Gave (some node, removed)))
      end)
  | Leaf => Ok (w, Gave (Leaf, false))
  end.

(** red_black_tree_map/mod.rs 764-778.  [shared]: the entry found has other owners, so
    [make_mut] puts a clone in its place. *)
Fixpoint w_t_get_mut (w : W) (shared : bool) (t : tree) (key : Q) (f : V -> V) {struct t}
  : res (W * uout tree (tree * option V)) :=
  match t with
  | Leaf => Ok (w, Gave (Leaf, None))
  | Tree e c l r =>
      wcall (oc_query U w key (fst e)) t (fun w o =>
      match o with
      | Lt =>
          wbind (w_t_get_mut w shared l key f) (fun l' => Tree e c l' r) (fun w '(l', x) =>
          Ok (w, Gave (Tree e c l' r, x)))
      | Eq =>
          wcall (if shared then oc_clone U w e else (w, Some e)) t (fun w e =>
          Ok (w, Gave (Tree (fst e, f (snd e)) c l r, Some (snd e))))
      | Gt =>
          wbind (w_t_get_mut w shared r key f) (fun r' => Tree e c l r') (fun w '(r', x) =>
          Ok (w, Gave (Tree e c l r', x)))
      end)
  end.

(** Of the model: the map after an unwound write of its root, red_black_tree_map/mod.rs 848-854, 872-887: [size] is not yet written. *)
Definition rb_put (m : rbmap) (t : tree) : rbmap := mkRB t (rb_size m).

(** red_black_tree_map/mod.rs 848-854, 872-887, 975-985 *)
Definition w_rb_insert_mut (w : W) (m : rbmap) (k : K) (v : V) : res (W * uout rbmap rbmap) :=
  wbind (w_ins w (rb_root m) k v true) (rb_put m) (fun w '(root, is_new_key) =>
  Ok (w, Gave (mkRB root (if is_new_key : bool then S (rb_size m) else rb_size m)))).
Definition w_rb_remove_mut (w : W) (m : rbmap) (q : Q) : res (W * uout rbmap (rbmap * bool)) :=
  wbind (w_del w (rb_root m) q true) (rb_put m) (fun w '(root, removed) =>
  let! size := (if removed : bool then csub (rb_size m) 1 else Ok (rb_size m)) in
  Ok (w, Gave (mkRB root size, removed))).
(** red_black_tree_map/mod.rs 975-985 *)
Definition w_rb_get_mut (w : W) (shared : bool) (m : rbmap) (q : Q) (f : V -> V)
  : res (W * uout rbmap (rbmap * option V)) :=
  wbind (w_t_get_mut w shared (rb_root m) q f) (rb_put m) (fun w '(root, o) =>
  Ok (w, Gave (mkRB root (rb_size m), o))).
(** 811-826, 889-896 *)
Definition w_rb_find (w : W) (m : rbmap) (q : Q) : res (W * uout rbmap (option (K * V))) :=
  wbind (w_t_get w (rb_root m) q) (fun _ => m) (fun w o => Ok (w, Gave o)).

(** One API call.  [insert] and [remove] (839-846, 856-870) work on a clone, which the
    unwinding drops: the receiver is behind a shared reference. *)
Definition w_rb_step (w : W) (shared : bool) (o : map_op K V Q) (m : rbmap)
  : res (W * uout rbmap (rbmap * map_obs K V)) :=
  match o with
  | MInsert k v => wbind (w_rb_insert_mut w m k v) (fun _ => m) (fun w m' => Ok (w, Gave (m', MoUnit)))
  | MInsertMut k v => wbind (w_rb_insert_mut w m k v) (fun m' => m') (fun w m' => Ok (w, Gave (m', MoUnit)))
  | MRemove q => wbind (w_rb_remove_mut w m q) (fun _ => m) (fun w '(m', removed) =>
                 Ok (w, Gave (if removed : bool then m' else m, MoUnit)))
  | MRemoveMut q => wbind (w_rb_remove_mut w m q) (fun m' => m') (fun w '(m', b) => Ok (w, Gave (m', MoBool b)))
  | MGetMut q f => wbind (w_rb_get_mut w shared m q f) (fun m' => m') (fun w '(m', o) => Ok (w, Gave (m', MoVal o)))
  | MGet q => wbind (w_rb_find w m q) (fun m' => m') (fun w o => Ok (w, Gave (m, MoVal (option_map snd o))))
  | MGetKeyValue q => wbind (w_rb_find w m q) (fun m' => m') (fun w o => Ok (w, Gave (m, MoKV o)))
  | MContains q => wbind (w_rb_find w m q) (fun m' => m') (fun w o => Ok (w, Gave (m, MoBool (is_some o))))
  | MSize => Ok (w, Gave (m, MoNat (rb_size m)))
  | MIsEmpty => Ok (w, Gave (m, MoBool (rb_is_empty m)))
  | MClone => Ok (w, Gave (m, MoUnit))
  end.
End RBLawless.

(** ** HashTrieMap *)

(** The user code that a hash map calls: hashing a key (mod.rs 661-665) and the key of a search
    (768, 779, 825, 905), comparing a key of the map with the key of an insertion and, borrowed,
    with the key of a search (675-682), cloning an entry that has other owners. *)
Record hash_code (W K V Q : Type) : Type := mkHash {
  hc_hash : W -> K -> W * option N;
  hc_query_hash : W -> Q -> W * option N;
  hc_key : W -> K -> K -> W * option bool;
  hc_query : W -> K -> Q -> W * option bool;
  hc_clone : W -> K * V -> W * option (K * V)
}.
Arguments hc_hash {W K V Q}.
Arguments hc_query_hash {W K V Q}.
Arguments hc_key {W K V Q}.
Arguments hc_query {W K V Q}.
Arguments hc_clone {W K V Q}.

Section Lists.
Context {W T : Type}.
Variable test : W -> T -> W * option bool.    (* [predicate] *)

(** [entries.iter().find(..)] *)
Fixpoint w_find (w : W) (l : list T) {struct l} : res (W * uout unit (option T)) :=
  match l with
  | [] => Ok (w, Gave None)
  | e :: l' => wcall (test w e) tt (fun w b => if b : bool then Ok (w, Gave (Some e)) else w_find w l')
  end.

(** hash_trie_map/mod.rs 480-492 *)
Fixpoint w_lrf_loop (fuel : nat) (w : W) (before : list T) (remaining : rlist T)
  : res (W * uout (rlist T) (rlist T * list T * option T)) :=
  match fuel with
  | O => Diverge
  | S fuel' =>
      if l_is_empty remaining then Ok (w, Gave (remaining, before, None))
      else
        let! e := unwrap (l_first remaining) in
        let! (remaining', _) := l_drop_first_mut remaining in
        wcall (test w e) remaining' (fun w b =>
        if b : bool then Ok (w, Gave (remaining', before, Some e))
        else w_lrf_loop fuel' w (e :: before) remaining')
  end.

(** hash_trie_map/mod.rs 472-501 *)
Definition w_list_remove_first (w : W) (l : rlist T) : res (W * uout (rlist T) (rlist T * option T)) :=
  wbind (w_lrf_loop (S (l_len l)) w [] l) (fun l' => l') (fun w '(remaining, before, removed) =>
  Ok (w, Gave (fold_left (fun acc e => l_push_front_mut e acc) before remaining, removed))).
End Lists.

Section HashLawless.
Variable ubits : N.
Variable dbg : bool.
Context {W K V Q : Type}.
Variable U : hash_code W K V Q.
Local Open Scope N_scope.
Notation entry := (hentry K V).
Notation bucket := (hbucket K V).
Notation node := (hnode K V).

(** hash_trie_map/mod.rs 675-682: the keys are only compared when the hashes agree *)
Definition w_matches (q : Q) (h : N) (w : W) (e : entry) : W * option bool :=
  if e_hash e =? h then hc_query U w (e_key e) q else (w, Some false).
Definition w_matches_key (k : K) (h : N) (w : W) (e : entry) : W * option bool :=
  if e_hash e =? h then hc_key U w (e_key e) k else (w, Some false).

(** hash_trie_map/mod.rs 508-518 *)
Definition w_b_find (w : W) (test : W -> entry -> W * option bool) (b : bucket) : res (W * uout unit (option entry)) :=
  match b with
  | BSingle e => wcall (test w e) tt (fun w b => Ok (w, Gave (if b : bool then Some e else None)))
  | BCollision l => let! es := l_elems l in w_find test w es
  end.

(** hash_trie_map/mod.rs 691-693: [value_mut] of an entry, [shared] or not, and a write; the
    hash is not computed again *)
Definition w_value_mut (w : W) (shared : bool) (f : V -> V) (e : entry) (b : bucket)
  (k : entry -> bucket) : res (W * uout bucket (bucket * option V)) :=
  wcall (if shared then hc_clone U w (e_key e, e_val e) else (w, Some (e_key e, e_val e))) b (fun w x =>
  Ok (w, Gave (k (mkE (fst x) (f (snd x)) (e_hash e)), Some (snd x)))).

(** hash_trie_map/mod.rs 520-541 and a write through the reference *)
Definition w_b_get_mut (w : W) (shared : bool) (q : Q) (h : N) (f : V -> V) (b : bucket)
  : res (W * uout bucket (bucket * option V)) :=
  match b with
  | BSingle e =>
      wcall (w_matches q h w e) b (fun w m =>
      if m : bool then w_value_mut w shared f e b (fun e => BSingle e) else Ok (w, Gave (b, None)))
  | BCollision l =>
      wbind (w_list_remove_first (w_matches q h) w l) (fun l' => BCollision l') (fun w '(l', removed) =>
      match removed with
      | None => Ok (w, Gave (BCollision l', None))
      | Some e =>
          let l2 := l_push_front_mut e l' in
          w_value_mut w shared f e (BCollision l2) (fun e => BCollision (fst (l_first_mut (fun _ => e) l2)))
      end)
  end.

(** hash_trie_map/mod.rs 558-588 *)
Definition w_b_insert (w : W) (e : entry) (b : bucket) : res (W * uout bucket (bucket * bool)) :=
  match b with
  | BSingle old =>
      wcall (w_matches_key (e_key e) (e_hash e) w old) b (fun w x =>
      if x : bool then Ok (w, Gave (BSingle e, false))
      else Ok (w, Gave (BCollision (l_push_front_mut e (l_push_front_mut old l_new)), true)))
  | BCollision l =>
      wbind (w_list_remove_first (w_matches_key (e_key e) (e_hash e)) w l) (fun l' => BCollision l')
        (fun w '(l', removed) => Ok (w, Gave (BCollision (l_push_front_mut e l'), negb (is_some removed))))
  end.

(** hash_trie_map/mod.rs 593-640 *)
Definition w_b_remove (w : W) (q : Q) (h : N) (b : bucket) : res (W * uout bucket (option bucket * bool)) :=
  match b with
  | BSingle e =>
      wcall (w_matches q h w e) b (fun w m =>
      if m : bool then Ok (w, Gave (None, true)) else Ok (w, Gave (Some b, false)))
  | BCollision l =>
      wbind (w_list_remove_first (w_matches q h) w l) (fun l' => BCollision l') (fun w '(l', removed) =>
      match l_len l' with
      | 0%nat => Panic
      | 1%nat =>
          let! e := unwrap (l_first l') in
          Ok (w, Gave (Some (BSingle e), is_some removed))
      | _ => Ok (w, Gave (Some (BCollision l'), is_some removed))
      end)
  end.

(** hash_trie_map/mod.rs 250-272 *)
Fixpoint w_hn_get (fuel : nat) (w : W) (q : Q) (h : N) (nd : node) (depth : nat) (degree : N)
  : res (W * uout unit (option entry)) :=
  match fuel with
  | O => Diverge
  | S fuel' =>
      match nd with
      | HBranch s =>
          let! oi := index_from_hash dbg h depth degree in
          let! index := unwrap oi in
          let! o := sa_get ubits dbg s index in
          match o with
          | None => Ok (w, Gave None)
          | Some c => w_hn_get fuel' w q h c (S depth) degree
          end
      | HLeaf b => w_b_find w (w_matches q h) b
      end
  end.

(** hash_trie_map/mod.rs 274-297 *)
Fixpoint w_hn_get_mut (fuel : nat) (w : W) (shared : bool) (q : Q) (h : N) (f : V -> V) (nd : node) (depth : nat)
  (degree : N) : res (W * uout node (node * option V)) :=
  match fuel with
  | O => Diverge
  | S fuel' =>
      match nd with
      | HBranch s =>
          let! oi := index_from_hash dbg h depth degree in
          let! index := unwrap oi in
          let! o := sa_get_mut ubits dbg s index in
          match o with
          | None => Ok (w, Gave (nd, None))
          | Some (c, write) =>
              wbind (w_hn_get_mut fuel' w shared q h f c (S depth) degree) (fun c' => HBranch (write c'))
                (fun w '(c', r) => Ok (w, Gave (HBranch (write c'), r)))
          end
      | HLeaf b =>
          wbind (w_b_get_mut w shared q h f b) (fun b' => HLeaf b') (fun w '(b', r) => Ok (w, Gave (HLeaf b', r)))
      end
  end.

(** hash_trie_map/mod.rs 299-355 *)
Fixpoint w_hn_insert (fuel : nat) (w : W) (e : entry) (nd : node) (depth : nat) (degree : N)
  : res (W * uout node (node * bool)) :=
  match fuel with
  | O => Diverge
  | S fuel' =>
      match nd with
      | HBranch s =>
          let! oi := index_from_hash dbg (e_hash e) depth degree in
          let! index := unwrap oi in
          let! o := sa_get_mut ubits dbg s index in
          match o with
          | Some (c, write) =>
              wbind (w_hn_insert fuel' w e c (S depth) degree) (fun c' => HBranch (write c'))
                (fun w '(c', b) => Ok (w, Gave (HBranch (write c'), b)))
          | None =>
              let! s' := sa_set ubits dbg s index (HLeaf (BSingle e)) in
              Ok (w, Gave (HBranch s', true))
          end
      | HLeaf b =>
          let! oi := index_from_hash dbg (e_hash e) depth degree in
          let maximum_depth := negb (is_some oi) in
          wbind (w_b_find w (w_matches_key (e_key e) (e_hash e)) b) (fun _ => nd) (fun w o =>
          let contains := is_some o in
          if maximum_depth then
            wbind (w_b_insert w e b) (fun b' => HLeaf b') (fun w '(b', new) => Ok (w, Gave (HLeaf b', new)))
          else if contains then
            wbind (w_b_insert w e b) (fun b' => HLeaf b') (fun w '(b', new) => Ok (w, Gave (HLeaf b', new)))
          else
            match b with
            | BCollision _ => Panic
            | BSingle old =>
                wbind (w_hn_insert fuel' w old new_empty_branch depth degree) (fun n' => n') (fun w '(n1, _) =>
                wbind (w_hn_insert fuel' w e n1 depth degree) (fun n' => n') (fun w '(n2, _) =>
                Ok (w, Gave (n2, true))))
            end)
      end
  end.

(** hash_trie_map/mod.rs 387-442 *)
Fixpoint w_hn_remove (fuel : nat) (w : W) (q : Q) (h : N) (nd : node) (depth : nat) (degree : N)
  : res (W * uout node (node * bool)) :=
  match fuel with
  | O => Diverge
  | S fuel' =>
      match nd with
      | HBranch s =>
          let! oi := index_from_hash dbg h depth degree in
          let! index := unwrap oi in
          let! o := sa_get_mut ubits dbg s index in
          match o with
          | None => Ok (w, Gave (nd, false))
          | Some (c, write) =>
              wbind (w_hn_remove fuel' w q h c (S depth) degree) (fun c' => HBranch (write c'))
                (fun w '(c', removed) =>
              let s' := write c' in
              let! empty := hn_is_empty dbg c' in
              match empty, removed with
              | _, false => Ok (w, Gave (HBranch s', false))
              | false, true => let! n' := hn_compress (HBranch s') in Ok (w, Gave (n', true))
              | true, true =>
                  let! s2 := sa_remove ubits dbg s' index in
                  let! n' := hn_compress (HBranch s2) in
                  Ok (w, Gave (n', true))
              end)
          end
      | HLeaf b =>
          wbind (w_b_remove w q h b) (fun b' => HLeaf b') (fun w '(ob, removed) =>
          Ok (w, Gave (match ob with None => new_empty_branch | Some b' => HLeaf b' end, removed)))
      end
  end.

(** ** The map; the key is hashed first *)
Variable fuel : nat.
Definition hm_put (m : hmap K V) (root : node) : hmap K V := mkHM root (hm_size m) (hm_degree m).

(** hash_trie_map/mod.rs 764-784, 838-844 *)
Definition w_hm_find (w : W) (m : hmap K V) (q : Q) : res (W * uout (hmap K V) (option entry)) :=
  wcall (hc_query_hash U w q) m (fun w h =>
  wbind (w_hn_get fuel w q h (hm_root m) 0 (hm_degree m)) (fun _ => m) (fun w o => Ok (w, Gave o))).
(** hash_trie_map/mod.rs 794-801 *)
Definition w_hm_insert_mut (w : W) (m : hmap K V) (k : K) (v : V) : res (W * uout (hmap K V) (hmap K V)) :=
  wcall (hc_hash U w k) m (fun w h =>
  wbind (w_hn_insert fuel w (mkE k v h) (hm_root m) 0 (hm_degree m)) (hm_put m) (fun w '(root, new) =>
  Ok (w, Gave (mkHM root (if new : bool then (hm_size m + 1)%nat else hm_size m) (hm_degree m))))).
(** hash_trie_map/mod.rs 819-835 *)
Definition w_hm_remove_mut (w : W) (m : hmap K V) (q : Q) : res (W * uout (hmap K V) (hmap K V * bool)) :=
  wcall (hc_query_hash U w q) m (fun w h =>
  wbind (w_hn_remove fuel w q h (hm_root m) 0 (hm_degree m)) (hm_put m) (fun w '(root, removed) =>
  if removed : bool then
    let! size := csub (hm_size m) 1 in Ok (w, Gave (mkHM root size (hm_degree m), true))
  else Ok (w, Gave (mkHM root (hm_size m) (hm_degree m), false)))).
(** hash_trie_map/mod.rs 900-911 *)
Definition w_hm_get_mut (w : W) (shared : bool) (m : hmap K V) (q : Q) (f : V -> V)
  : res (W * uout (hmap K V) (hmap K V * option V)) :=
  wcall (hc_query_hash U w q) m (fun w h =>
  wbind (w_hn_get_mut fuel w shared q h f (hm_root m) 0 (hm_degree m)) (hm_put m) (fun w '(root, r) =>
  Ok (w, Gave (mkHM root (hm_size m) (hm_degree m), r)))).

(** One API call; [insert] and [remove] (786-792, 804-817) work on a clone. *)
Definition w_hm_step (w : W) (shared : bool) (o : map_op K V Q) (m : hmap K V)
  : res (W * uout (hmap K V) (hmap K V * map_obs K V)) :=
  match o with
  | MInsert k v => wbind (w_hm_insert_mut w m k v) (fun _ => m) (fun w m' => Ok (w, Gave (m', MoUnit)))
  | MInsertMut k v => wbind (w_hm_insert_mut w m k v) (fun m' => m') (fun w m' => Ok (w, Gave (m', MoUnit)))
  | MRemove q => wbind (w_hm_remove_mut w m q) (fun _ => m) (fun w '(m', removed) =>
                 Ok (w, Gave (if removed : bool then m' else m, MoUnit)))
  | MRemoveMut q => wbind (w_hm_remove_mut w m q) (fun m' => m') (fun w '(m', b) => Ok (w, Gave (m', MoBool b)))
  | MGetMut q f => wbind (w_hm_get_mut w shared m q f) (fun m' => m') (fun w '(m', r) => Ok (w, Gave (m', MoVal r)))
  | MGet q => wbind (w_hm_find w m q) (fun m' => m') (fun w o => Ok (w, Gave (m, MoVal (option_map e_val o))))
  | MGetKeyValue q => wbind (w_hm_find w m q) (fun m' => m') (fun w o =>
                      Ok (w, Gave (m, MoKV (option_map (fun e => (e_key e, e_val e)) o))))
  | MContains q => wbind (w_hm_find w m q) (fun m' => m') (fun w o => Ok (w, Gave (m, MoBool (is_some o))))
  | MSize => Ok (w, Gave (m, MoNat (hm_len m)))
  | MIsEmpty => Ok (w, Gave (m, MoBool (hm_is_empty m)))
  | MClone => Ok (w, Gave (m, MoUnit))
  end.
End HashLawless.

(** ** Iterators of RedBlackTreeMap *)

(** The user code that they call: whether a key is past the start of the range, whether it is
    before the end (mod.rs 1191-1204, 1246-1258: [start_bound()], [end_bound()], [borrow()] and
    the comparison operator, none of which need give the same answer twice), and
    [left.key > right.key] (1411). *)
Record range_code (W K : Type) : Type := mkRange {
  rg_start : W -> K -> W * option bool;
  rg_end : W -> K -> W * option bool;
  rg_gt : W -> K -> K -> W * option bool
}.
Arguments rg_start {W K}.
Arguments rg_end {W K}.
Arguments rg_gt {W K}.

(** The range [..] of [iter()]: [Unbounded], and no comparison. *)
Definition full_range {W K} (gt : W -> K -> K -> W * option bool) : range_code W K :=
  mkRange _ _ (fun w _ => (w, Some true)) (fun w _ => (w, Some true)) gt.

Section IterLawless.
Context {W K V : Type}.
Variable R : range_code W K.
Notation tree := (tree K V).
Notation entry := (prod K V).

(** red_black_tree_map/mod.rs 1233-1275; on a panic the new stack is lost *)
Fixpoint w_dig_towards (w : W) (bw : bool) (t : tree) (stack : list tree) : W * option (list tree) :=
  match t with
  | Leaf => (w, Some stack)
  | Tree e _ l r =>
      match (if bw then rg_end R w (fst e) else rg_start R w (fst e)) with
      | (w, None) => (w, None)
      | (w, Some in_range) =>
          let stack := if in_range then t :: stack else stack in
          match bw, in_range with
          | false, true => w_dig_towards w bw l stack
          | false, false => w_dig_towards w bw r stack
          | true, true => w_dig_towards w bw r stack
          | true, false => w_dig_towards w bw l stack
          end
      end
  end.

(** red_black_tree_map/mod.rs 1186-1210 *)
Definition w_clear_if_finished (w : W) (s : istk K V) : W * uout (istk K V) (istk K V) :=
  match s_current s with
  | Some entry =>
      match (if s_backwards s then rg_start R w (fst entry) else rg_end R w (fst entry)) with
      | (w, None) => (w, Torn s)
      | (w, Some in_range) => (w, Gave (if in_range then s else mkStk [] (s_backwards s)))
      end
  | None => (w, Gave s)
  end.

(** red_black_tree_map/mod.rs 1163-1184 *)
Definition w_s_new (w : W) (m : rbmap K V) (bw : bool) : W * option (istk K V) :=
  match w_dig_towards w bw (rb_root m) [] with
  | (w, None) => (w, None)
  | (w, Some st) =>
      match w_clear_if_finished w (mkStk st bw) with
      | (w, Gave s) => (w, Some s)
      | (w, Torn _) => (w, None)
      end
  end.

(** red_black_tree_map/mod.rs 1277-1291 *)
Definition w_s_advance (w : W) (s : istk K V) : W * uout (istk K V) (istk K V) :=
  match s_stack s with
  | [] => (w, Gave s)
  | t :: stack =>
      let stack := match as_node t with
                   | Some n => s_dig (s_backwards s) (far (s_backwards s) n) stack
                   | None => stack
                   end in
      w_clear_if_finished w (mkStk stack (s_backwards s))
  end.

(** red_black_tree_map/mod.rs 1366-1378, without the range, which is in [R] *)
Record witer : Type := mkWI { wi_map : rbmap K V; wi_fwd : option (istk K V); wi_bwd : option (istk K V) }.
Definition wi_new (m : rbmap K V) : witer := mkWI m None None.

(** [stack_forward] or [stack_backward] *)
Definition wi_stack (bw : bool) (i : witer) : option (istk K V) := if bw then wi_bwd i else wi_fwd i.
Definition wi_put (bw : bool) (i : witer) (s : istk K V) : witer :=
  if bw then mkWI (wi_map i) (wi_fwd i) (Some s) else mkWI (wi_map i) (Some s) (wi_bwd i).

(** red_black_tree_map/mod.rs 1391-1405 *)
Definition wi_init (bw : bool) (w : W) (i : witer) : W * option witer :=
  match wi_stack bw i with
  | Some _ => (w, Some i)
  | None => match w_s_new w (wi_map i) bw with
            | (w, Some s) => (w, Some (wi_put bw i s))
            | (w, None) => (w, None)
            end
  end.

(** red_black_tree_map/mod.rs 1407-1417 *)
Definition wi_is_empty (w : W) (i : witer) : W * option bool :=
  match wi_fwd i, wi_bwd i with
  | Some f, Some b =>
      match s_current f, s_current b with
      | Some lft, Some rgt => rg_gt R w (fst lft) (fst rgt)
      | _, _ => (w, Some true)
      end
  | _, _ => (w, Some false)
  end.

(** [next] (red_black_tree_map/mod.rs 1457-1465, with 1419-1431) and [next_back] (1475-1483,
    with 1433-1445) *)
Definition wi_step (bw : bool) (w : W) (i : witer) : res (W * uout witer (witer * option entry)) :=
  wcall (wi_init bw w i) i (fun w i =>
  wcall (wi_is_empty w i) i (fun w e =>
  let! current := (if e : bool then Ok None else let! s := unwrap (wi_stack bw i) in Ok (s_current s)) in
  let! s := unwrap (wi_stack bw i) in
  match w_s_advance w s with
  | (w, Gave s') => Ok (w, Gave (wi_put bw i s', current))
  | (w, Torn s') => Ok (w, Torn (wi_put bw i s'))
  end)).

(** The iterator of the whole map: red_black_tree_map/mod.rs 1322-1360 *)
Definition wt_new (m : rbmap K V) : witer * nat := (wi_new m, rb_size m).
Definition wt_step (bw : bool) (w : W) (i : witer * nat) : res (W * uout (witer * nat) (witer * nat * option entry)) :=
  if Nat.ltb 0 (snd i) then
    let! size := csub (snd i) 1 in
    wbind (wi_step bw w (fst i)) (fun r => (r, size)) (fun w '(r, o) => Ok (w, Gave ((r, size), o)))
  else Ok (w, Gave (i, None)).
End IterLawless.
Arguments witer K V : clear implicits.

(** Calls of [next] ([false]) and [next_back] ([true]); a call in which user code panicked gives
    [None], and the iterator is used on. *)
Fixpoint w_iterate {W I X} (step : bool -> W -> I -> res (W * uout I (I * option X))) (ds : list bool) (w : W) (i : I)
  : res (W * I * list (option (option X))) :=
  match ds with
  | [] => Ok (w, i, [])
  | bw :: ds =>
      let! (w', x) := step bw w i in
      let '(i', a) := match x with
                      | Gave (i', a) => (i', Some a)
                      | Torn i' => (i', None)
                      end in
      let! (w'', i'', l) := w_iterate step ds w' i' in
      Ok (w'', i'', a :: l)
  end.

(** ** Histories.  Each call comes with whether [get_mut] finds a shared entry; a call in which
    user code panicked gives no answer, and the history goes on with what it left behind. *)
Section Hist.
Context {W M O X : Type}.
Variable w_step : W -> bool -> O -> M -> res (W * uout M (M * X)).

(** A history of calls, see above. *)
Fixpoint w_exec (ops : list (bool * O)) (w : W) (m : M) : res (W * M * list (option X)) :=
  match ops with
  | [] => Ok (w, m, [])
  | (shared, o) :: r =>
      let! (w', x) := w_step w shared o m in
      let '(m', a) := match x with
                      | Gave (m', a) => (m', Some a)
                      | Torn m' => (m', None)
                      end in
      let! (w'', m'', l) := w_exec r w' m' in
      Ok (w'', m'', a :: l)
  end.
End Hist.
