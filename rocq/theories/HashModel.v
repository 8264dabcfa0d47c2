(** Model of src/map/hash_trie_map/mod.rs at the value level. *)
From Coq Require Import List NArith Arith Bool Lia.
From Verif Require Import Base Spec SpecMap ListModel SparseModel.
Import ListNotations.

(** hash_trie_map/mod.rs 200-208 and map/entry.rs; pointers are transparent here *)
Record hentry (K V : Type) : Type := mkE { e_key : K; e_val : V; e_hash : N }.
Arguments mkE {K V} _ _ _.
Arguments e_key {K V} _.
Arguments e_val {K V} _.
Arguments e_hash {K V} _.

(** hash_trie_map/mod.rs 192-198 *)
Inductive hbucket (K V : Type) : Type :=
| BSingle (e : hentry K V)
| BCollision (l : rlist (hentry K V)).
Arguments BSingle {K V} e.
Arguments BCollision {K V} l.

(** hash_trie_map/mod.rs 183-190 *)
Inductive hnode (K V : Type) : Type :=
| HBranch (s : sarr (hnode K V))
| HLeaf (b : hbucket K V).
Arguments HBranch {K V} s.
Arguments HLeaf {K V} b.

(** hash_trie_map/mod.rs 116-125; the hasher is a parameter of each operation *)
Record hmap (K V : Type) : Type := mkHM {
  hm_root : hnode K V;
  hm_size : nat;
  hm_degree : N          (* u8 *)
}.
Arguments mkHM {K V} _ _ _.
Arguments hm_root {K V} _.
Arguments hm_size {K V} _.
Arguments hm_degree {K V} _.

(** [u8::is_power_of_two], [u8::trailing_zeros] *)
Fixpoint pos_tz (p : positive) : N :=
  match p with xO q => (1 + pos_tz q)%N | _ => 0%N end.
Definition trailing_zeros (n : N) : N := match n with N0 => 8%N | Npos p => pos_tz p end.
Definition is_power_of_two (n : N) : bool := Nat.eqb (count_ones n) 1.

(** The loop of hash_trie_map/mod.rs 480-492; [before] is the [before_needle] vector with its
    last element first. *)
Fixpoint lrf_loop {T} (fuel : nat) (p : T -> bool) (before : list T) (remaining : rlist T)
  : res (rlist T * list T * option T) :=
  match fuel with
  | O => Diverge
  | S fuel' =>
      if l_is_empty remaining then Ok (remaining, before, None)
      else
        let! e := unwrap (l_first remaining) in
        let! (remaining', _) := l_drop_first_mut remaining in
        if p e then Ok (remaining', before, Some e)
        else lrf_loop fuel' p (e :: before) remaining'
  end.

(** hash_trie_map/mod.rs 472-501 *)
Definition list_remove_first {T} (l : rlist T) (p : T -> bool) : res (rlist T * option T) :=
  let! (remaining, before, removed) := lrf_loop (S (l_len l)) p [] l in
  Ok (fold_left (fun acc e => l_push_front_mut e acc) before remaining, removed).

Section Hash_.
Variable ubits : N.      (* usize::BITS *)
Variable dbg : bool.
Context {K V Q : Type}.
Variable keq : K -> K -> bool.      (* K: Eq *)
Variable borrow : K -> Q.           (* K: Borrow<Q> *)
Variable qeq : Q -> Q -> bool.      (* Q: Eq *)
Variable hash : K -> N.             (* the map's hasher on K *)
Variable qhash : Q -> N.            (* the map's hasher on Q *)
Local Open Scope N_scope.

Notation entry := (hentry K V).
Notation bucket := (hbucket K V).
Notation node := (hnode K V).

(** hash_trie_map/mod.rs 210-234.  [size_of::<HashValue>() * 8 = 64].  The casts of [depth] to
    u32 and of the index to usize do not truncate: depth is at most 65 and the index is below
    the degree. *)
Definition index_from_hash (h : N) (depth : nat) (degree : N) : res (option N) :=
  let! _ := debug_assert dbg (is_power_of_two degree) in
  let! shift := umul 32 dbg (N.of_nat depth) (trailing_zeros degree) in
  if shift <? 64 then
    let! mask := usub 64 dbg degree 1 in
    Ok (Some (N.land (N.shiftr h shift) mask))
  else Ok None.

(** hash_trie_map/mod.rs 675-682, for a key of type Q and for a key of type K *)
Definition matches (q : Q) (h : N) (e : entry) : bool :=
  (e_hash e =? h) && qeq (borrow (e_key e)) q.
Definition matches_key (k : K) (h : N) (e : entry) : bool :=
  (e_hash e =? h) && keq (e_key e) k.

(** hash_trie_map/mod.rs 508-518 *)
Definition b_find (m : entry -> bool) (b : bucket) : res (option entry) :=
  match b with
  | BSingle e => Ok (if m e then Some e else None)
  | BCollision l => let! es := l_elems l in Ok (find m es)
  end.
(** hash_trie_map/mod.rs 508-518 *)
Definition b_get (q : Q) (h : N) (b : bucket) : res (option entry) := b_find (matches q h) b.

(** hash_trie_map/mod.rs 544-550 (for a key of type K) *)
Definition b_contains_key (k : K) (h : N) (b : bucket) : res bool :=
  let! o := b_find (matches_key k h) b in Ok (is_some o).

(** hash_trie_map/mod.rs 520-541 followed by [value_mut] (691-693) and the caller writing [f]
    of the old value; the old value is returned *)
Definition e_write (f : V -> V) (e : entry) : entry := mkE (e_key e) (f (e_val e)) (e_hash e).
Definition b_get_mut (q : Q) (h : N) (f : V -> V) (b : bucket) : res (bucket * option V) :=
  match b with
  | BSingle e =>
      if matches q h e then Ok (BSingle (e_write f e), Some (e_val e)) else Ok (b, None)
  | BCollision l =>
      let! (l', removed) := list_remove_first l (matches q h) in
      match removed with
      | None => Ok (BCollision l', None)
      | Some e =>
          let l2 := l_push_front_mut e l' in
          Ok (BCollision (fst (l_first_mut (e_write f) l2)), option_map e_val (l_first l2))
      end
  end.

(** hash_trie_map/mod.rs 558-588 *)
Definition b_insert (e : entry) (b : bucket) : res (bucket * bool) :=
  match b with
  | BSingle old =>
      if matches_key (e_key e) (e_hash e) old then Ok (BSingle e, false)
      else Ok (BCollision (l_push_front_mut e (l_push_front_mut old l_new)), true)
  | BCollision l =>
      let! (l', removed) := list_remove_first l (matches_key (e_key e) (e_hash e)) in
      Ok (BCollision (l_push_front_mut e l'), negb (is_some removed))
  end.

(** hash_trie_map/mod.rs 593-640; [None] is a bucket that became empty *)
Definition b_remove (q : Q) (h : N) (b : bucket) : res (option bucket * bool) :=
  match b with
  | BSingle e => if matches q h e then Ok (None, true) else Ok (Some b, false)
  | BCollision l =>
      let! (l', removed) := list_remove_first l (matches q h) in
      match l_len l' with
      | 0%nat => Panic
      | 1%nat =>
          let! e := unwrap (l_first l') in
          Ok (Some (BSingle e), is_some removed)
      | _ => Ok (Some (BCollision l'), is_some removed)
      end
  end.

(** hash_trie_map/mod.rs 246-248 *)
Definition new_empty_branch : node := HBranch sa_new.

(** hash_trie_map/mod.rs 250-272.  [fuel] bounds the depth of recursion. *)
Fixpoint hn_get (fuel : nat) (q : Q) (h : N) (n : node) (depth : nat) (degree : N)
  : res (option entry) :=
  match fuel with
  | O => Diverge
  | S fuel' =>
      match n with
      | HBranch s =>
          let! oi := index_from_hash h depth degree in
          let! index := unwrap oi in
          let! o := sa_get ubits dbg s index in
          match o with
          | None => Ok None
          | Some c => hn_get fuel' q h c (S depth) degree
          end
      | HLeaf b => b_get q h b
      end
  end.

(** hash_trie_map/mod.rs 274-297 *)
Fixpoint hn_get_mut (fuel : nat) (q : Q) (h : N) (f : V -> V) (n : node) (depth : nat) (degree : N)
  : res (node * option V) :=
  match fuel with
  | O => Diverge
  | S fuel' =>
      match n with
      | HBranch s =>
          let! oi := index_from_hash h depth degree in
          let! index := unwrap oi in
          let! o := sa_get_mut ubits dbg s index in
          match o with
          | None => Ok (n, None)
          | Some (c, write) =>
              let! (c', r) := hn_get_mut fuel' q h f c (S depth) degree in
              Ok (HBranch (write c'), r)
          end
      | HLeaf b => let! (b', r) := b_get_mut q h f b in Ok (HLeaf b', r)
      end
  end.

(** hash_trie_map/mod.rs 299-355 *)
Fixpoint hn_insert (fuel : nat) (e : entry) (n : node) (depth : nat) (degree : N)
  : res (node * bool) :=
  match fuel with
  | O => Diverge
  | S fuel' =>
      match n with
      | HBranch s =>
          let! oi := index_from_hash (e_hash e) depth degree in
          let! index := unwrap oi in
          let! o := sa_get_mut ubits dbg s index in
          match o with
          | Some (c, write) =>
              let! (c', b) := hn_insert fuel' e c (S depth) degree in
              Ok (HBranch (write c'), b)
          | None =>
              let! s' := sa_set ubits dbg s index (HLeaf (BSingle e)) in
              Ok (HBranch s', true)
          end
      | HLeaf b =>
          let! oi := index_from_hash (e_hash e) depth degree in
          let maximum_depth := negb (is_some oi) in
          let! contains := b_contains_key (e_key e) (e_hash e) b in
          if maximum_depth then
            let! (b', new) := b_insert e b in Ok (HLeaf b', new)
          else if contains then
            let! (b', new) := b_insert e b in Ok (HLeaf b', new)
          else
            match b with
            | BCollision _ => Panic
            | BSingle old =>
                let! (n1, _) := hn_insert fuel' old new_empty_branch depth degree in
                let! (n2, _) := hn_insert fuel' e n1 depth degree in
                Ok (n2, true)
            end
      end
  end.

(** hash_trie_map/mod.rs 357-385 *)
Definition hn_compress (n : node) : res node :=
  match n with
  | HBranch s =>
      match sa_size s with
      | 1%nat =>
          let! sub := unwrap (sa_first s) in
          match sub with
          | HLeaf (BSingle _) =>
              match snd (sa_pop s) with Some n' => Ok n' | None => Ok n end
          | _ => Ok n
          end
      | _ => Ok n
      end
  | HLeaf _ => Ok n
  end.

(** hash_trie_map/mod.rs 444-453 *)
Definition hn_is_empty (n : node) : res bool :=
  match n with
  | HBranch s => Ok (Nat.eqb (sa_size s) 0)
  | HLeaf (BSingle _) => Ok false
  | HLeaf (BCollision l) =>
      let! _ := debug_assert dbg (Nat.leb 2 (l_len l)) in Ok false
  end.

(** hash_trie_map/mod.rs 387-442 *)
Fixpoint hn_remove (fuel : nat) (q : Q) (h : N) (n : node) (depth : nat) (degree : N)
  : res (node * bool) :=
  match fuel with
  | O => Diverge
  | S fuel' =>
      match n with
      | HBranch s =>
          let! oi := index_from_hash h depth degree in
          let! index := unwrap oi in
          let! o := sa_get_mut ubits dbg s index in
          match o with
          | None => Ok (n, false)
          | Some (c, write) =>
              let! (c', removed) := hn_remove fuel' q h c (S depth) degree in
              let s' := write c' in
              let! empty := hn_is_empty c' in
              match empty, removed with
              | _, false => Ok (HBranch s', false)
              | false, true => let! n' := hn_compress (HBranch s') in Ok (n', true)
              | true, true =>
                  let! s2 := sa_remove ubits dbg s' index in
                  let! n' := hn_compress (HBranch s2) in
                  Ok (n', true)
              end
          end
      | HLeaf b =>
          let! (ob, removed) := b_remove q h b in
          Ok (match ob with None => new_empty_branch | Some b' => HLeaf b' end, removed)
      end
  end.

(** ** The map *)
Variable fuel : nat.    (* call depth available to the recursive functions *)

(** hash_trie_map/mod.rs 31 *)
Definition DEFAULT_DEGREE : N := ubits.

(** hash_trie_map/mod.rs 746-761 *)
Definition hm_new_with_degree (degree : N) : res (hmap K V) :=
  if negb (is_power_of_two degree) then Panic
  else if negb (degree <=? DEFAULT_DEGREE) then Panic
  else Ok (mkHM new_empty_branch 0 degree).

(** hash_trie_map/mod.rs 706-713, 742-744 *)
Definition hm_new : res (hmap K V) := hm_new_with_degree DEFAULT_DEGREE.

(** hash_trie_map/mod.rs 764-784 *)
Definition hm_find (m : hmap K V) (q : Q) : res (option entry) :=
  hn_get fuel q (qhash q) (hm_root m) 0 (hm_degree m).
Definition hm_get (m : hmap K V) (q : Q) : res (option V) :=
  let! o := hm_find m q in Ok (option_map e_val o).
(** hash_trie_map/mod.rs 775-784 *)
Definition hm_get_key_value (m : hmap K V) (q : Q) : res (option (K * V)) :=
  let! o := hm_find m q in Ok (option_map (fun e => (e_key e, e_val e)) o).

(** hash_trie_map/mod.rs 794-801 and 661-665 *)
Definition hm_insert_mut (m : hmap K V) (k : K) (v : V) : res (hmap K V) :=
  let! (root, new) := hn_insert fuel (mkE k v (hash k)) (hm_root m) 0 (hm_degree m) in
  Ok (mkHM root (if new then (hm_size m + 1)%nat else hm_size m) (hm_degree m)).

(** hash_trie_map/mod.rs 786-792; clone (928-942) is the identity on values *)
Definition hm_insert (m : hmap K V) (k : K) (v : V) : res (hmap K V) := hm_insert_mut m k v.

(** hash_trie_map/mod.rs 819-835 *)
Definition hm_remove_mut (m : hmap K V) (q : Q) : res (hmap K V * bool) :=
  let! (root, removed) := hn_remove fuel q (qhash q) (hm_root m) 0 (hm_degree m) in
  if removed then
    let! size := csub (hm_size m) 1 in Ok (mkHM root size (hm_degree m), true)
  else Ok (mkHM root (hm_size m) (hm_degree m), false).

(** hash_trie_map/mod.rs 804-817 *)
Definition hm_remove (m : hmap K V) (q : Q) : res (hmap K V) :=
  let! (m', removed) := hm_remove_mut m q in Ok (if removed then m' else m).

(** hash_trie_map/mod.rs 838-844 *)
Definition hm_contains_key (m : hmap K V) (q : Q) : res bool :=
  let! o := hm_get m q in Ok (is_some o).

(** hash_trie_map/mod.rs 862-873 *)
Definition hm_len (m : hmap K V) : nat := hm_size m.
Definition hm_is_empty (m : hmap K V) : bool := Nat.eqb (hm_size m) 0.

(** hash_trie_map/mod.rs 900-911 *)
Definition hm_get_mut (m : hmap K V) (q : Q) (f : V -> V) : res (hmap K V * option V) :=
  let! (root, r) := hn_get_mut fuel q (qhash q) f (hm_root m) 0 (hm_degree m) in
  Ok (mkHM root (hm_size m) (hm_degree m), r).

(** hash_trie_map/mod.rs 914-926 *)
Definition hm_index (m : hmap K V) (q : Q) : res V :=
  let! o := hm_get m q in unwrap o.

(** hash_trie_map/mod.rs 1020-1035 *)
Fixpoint hm_extend (m : hmap K V) (kvs : list (K * V)) : res (hmap K V) :=
  match kvs with
  | [] => Ok m
  | (k, v) :: r => let! m' := hm_insert_mut m k v in hm_extend m' r
  end.
(** hash_trie_map/mod.rs 1020-1035 *)
Definition hm_from_iter (kvs : list (K * V)) : res (hmap K V) :=
  let! m := hm_new in hm_extend m kvs.

(** hash_trie_map/mod.rs 46-58: [ht_map!] *)
Definition hm_macro (kvs : list (K * V)) : res (hmap K V) :=
  let! m := hm_new in hm_extend m kvs.

(** Dispatch of one API call. *)
Definition hm_step (o : map_op K V Q) (m : hmap K V) : res (hmap K V * map_obs K V) :=
  match o with
  | MInsert k v => let! m' := hm_insert m k v in Ok (m', MoUnit)
  | MInsertMut k v => let! m' := hm_insert_mut m k v in Ok (m', MoUnit)
  | MRemove q => let! m' := hm_remove m q in Ok (m', MoUnit)
  | MRemoveMut q => let! (m', b) := hm_remove_mut m q in Ok (m', MoBool b)
  | MGetMut q f => let! (m', r) := hm_get_mut m q f in Ok (m', MoVal r)
  | MGet q => let! o := hm_get m q in Ok (m, MoVal o)
  | MGetKeyValue q => let! o := hm_get_key_value m q in Ok (m, MoKV o)
  | MContains q => let! b := hm_contains_key m q in Ok (m, MoBool b)
  | MSize => Ok (m, MoNat (hm_len m))
  | MIsEmpty => Ok (m, MoBool (hm_is_empty m))
  | MClone => Ok (m, MoUnit)
  end.

(** ** Iteration *)

(** hash_trie_map/mod.rs 1051-1061.  A slice iterator is the list of nodes left, the list
    iterator is that of List, [iter::Once] is an option. *)
Inductive istack : Type :=
| ISBranch (l : list node)
| ISColl (it : @l_iter entry)
| ISSingle (o : option entry).

(** hash_trie_map/mod.rs 1067-1079 *)
Definition is_new (n : node) : istack :=
  match n with
  | HBranch s => ISBranch (sa_iter s)
  | HLeaf (BCollision l) => ISColl (l_iter_new l)
  | HLeaf (BSingle e) => ISSingle (Some e)
  end.

(** hash_trie_map/mod.rs 1081-1095; [inl] is the next entry, [inr] the next stack element *)
Definition is_next (el : istack) : res (option (entry + istack) * istack) :=
  match el with
  | ISBranch [] => Ok (None, el)
  | ISBranch (n :: l) =>
      Ok (Some (match n with
                | HLeaf (BSingle e) => inl e
                | _ => inr (is_new n)
                end), ISBranch l)
  | ISColl it =>
      let! (o, it') := l_iter_next it in
      Ok (option_map inl o, ISColl it')
  | ISSingle None => Ok (None, el)
  | ISSingle (Some e) => Ok (Some (inl e), ISSingle None)
  end.

(** hash_trie_map/mod.rs 1041-1048; the stack has its top at the head *)
Definition hiter : Type := (list istack * nat)%type.

(** hash_trie_map/mod.rs 1103-1111 *)
Definition hi_new (m : hmap K V) : hiter :=
  (if Nat.ltb 0 (hm_size m) then [is_new (hm_root m)] else [], hm_size m).

(** hash_trie_map/mod.rs 1121-1137: the [while let] loop, at most [n] rounds *)
Fixpoint hi_loop (n : nat) (it : hiter) : res (option (K * V) * hiter) :=
  match n with
  | O => Diverge
  | S n' =>
      match it with
      | ([], size) => Ok (None, it)
      | (el :: stack, size) =>
          let! (r, el') := is_next el in
          match r with
          | Some (inl e) => let! size' := csub size 1 in Ok (Some (e_key e, e_val e), (el' :: stack, size'))
          | Some (inr new) => hi_loop n' (new :: el' :: stack, size)
          | None => hi_loop n' (stack, size)
          end
      end
  end.

(** An upper bound on the number of rounds: every round consumes a stack element or a node. *)
Fixpoint n_weight (n : node) : nat :=
  match n with
  | HBranch s => (2 + fold_right plus 0 (map n_weight (sa_array s)))%nat
  | HLeaf _ => 2%nat
  end.
(** Of the model: fuel, see above. *)
Definition el_weight (el : istack) : nat :=
  match el with
  | ISBranch l => S (fold_right plus 0%nat (map n_weight l))
  | _ => 1%nat
  end.
(** Of the model: fuel, see above. *)
Definition st_weight (st : list istack) : nat := fold_right plus 0%nat (map el_weight st).

(** hash_trie_map/mod.rs 1118-1135 *)
Definition hi_next (it : hiter) : res (option (K * V) * hiter) :=
  hi_loop (S (st_weight (fst it))) it.

(** hash_trie_map/mod.rs 1139-1142 *)
Definition hi_hint (it : hiter) : res nat := Ok (snd it).

(** All entries delivered by [iter()]. *)
Definition hm_entries (m : hmap K V) : res (list (K * V)) :=
  collect hi_next (S (hm_size m)) (hi_new m).

(** hash_trie_map/mod.rs 885-891 *)
Definition hm_keys (m : hmap K V) : res (list K) :=
  let! l := hm_entries m in Ok (map fst l).
Definition hm_values (m : hmap K V) : res (list V) :=
  let! l := hm_entries m in Ok (map snd l).
End Hash_.
