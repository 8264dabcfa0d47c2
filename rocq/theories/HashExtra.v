(** Model of HashTrieMap equality, HashTrieSet and parallel iteration. *)
From Coq Require Import List NArith Arith Bool Lia.
From Verif Require Import Base Spec SpecMap ListModel SparseModel HashModel.
Import ListNotations.

(** [Iterator::all] with a predicate that may panic; stops at the first [false]. *)
Fixpoint all_m {A} (p : A -> res bool) (l : list A) : res bool :=
  match l with
  | [] => Ok true
  | a :: l' => let! b := p a in if b then all_m p l' else Ok false
  end.

Section Eq.
Variable ubits : N.
Variable dbg : bool.
Context {K V : Type}.
Variable keq : K -> K -> bool.
Variable fuel : nat.

(** hash_trie_map/mod.rs 955-970.  [same] is the outcome of [ptr_eq] (850-861): whether both
    roots are the same allocation.  [hash2] is the hasher of [other].  [all] runs over the
    iterator as it goes; here the entries are collected first, which is the same because
    iteration has no effects. *)
Definition hm_eq (veq : V -> V -> bool) (hash2 : K -> N) (same : bool) (m other : hmap K V) : res bool :=
  if same then Ok true
  else if negb (Nat.eqb (hm_len m) (hm_len other)) then Ok false
  else
    let! es := hm_entries m in
    all_m (fun kv =>
      let! o := hm_get ubits dbg (fun k => k) keq hash2 fuel other (fst kv) in
      Ok (match o with Some v => veq (snd kv) v | None => false end)) es.
End Eq.

(** ** HashTrieSet: set/hash_trie_set/mod.rs 92-100, a map to unit *)
Section HSet.
Variable ubits : N.
Variable dbg : bool.
Context {T Q : Type}.
Variable teq : T -> T -> bool.
Variable borrow : T -> Q.
Variable qeq : Q -> Q -> bool.
Variable hash : T -> N.
Variable qhash : Q -> N.
Variable fuel : nat.

(** hash_trie_set/mod.rs 92-100 *)
Definition hset : Type := hmap T unit.

(** hash_trie_set/mod.rs 104-157 *)
Definition hs_new_with_degree (degree : N) : res hset := hm_new_with_degree ubits degree.
Definition hs_new : res hset := hm_new ubits.
(** hash_trie_set/mod.rs 159-166 *)
Definition hs_insert (s : hset) (t : T) : res hset := hm_insert ubits dbg teq hash fuel s t tt.
Definition hs_insert_mut (s : hset) (t : T) : res hset := hm_insert_mut ubits dbg teq hash fuel s t tt.
(** hash_trie_set/mod.rs 168-183 *)
Definition hs_remove (s : hset) (q : Q) : res hset := hm_remove ubits dbg borrow qeq qhash fuel s q.
Definition hs_remove_mut (s : hset) (q : Q) : res (hset * bool) := hm_remove_mut ubits dbg borrow qeq qhash fuel s q.
(** hash_trie_set/mod.rs 185-192 *)
Definition hs_get (s : hset) (q : Q) : res (option T) :=
  let! o := hm_get_key_value ubits dbg borrow qeq qhash fuel s q in Ok (option_map fst o).
(** hash_trie_set/mod.rs 194-201 *)
Definition hs_contains (s : hset) (q : Q) : res bool := hm_contains_key ubits dbg borrow qeq qhash fuel s q.
(** hash_trie_set/mod.rs 233-250 *)
Definition hs_size (s : hset) : nat := hm_len s.
Definition hs_is_empty (s : hset) : bool := Nat.eqb (hs_size s) 0.
Definition hs_elems (s : hset) : res (list T) := hm_keys s.
(** hash_trie_set/mod.rs 330-346 and the macro 26-38 *)
Fixpoint hs_extend (s : hset) (ts : list T) : res hset :=
  match ts with
  | [] => Ok s
  | t :: r => let! s' := hs_insert_mut s t in hs_extend s' r
  end.
(** hash_trie_set/mod.rs 330-346 *)
Definition hs_from_iter (ts : list T) : res hset := let! s := hs_new in hs_extend s ts.

(** One call of a history, dispatched to the functions above. *)
Definition hs_step (o : set_op T Q) (s : hset) : res (hset * set_obs T) :=
  match o with
  | SetInsert t => let! s' := hs_insert s t in Ok (s', SetoUnit)
  | SetInsertMut t => let! s' := hs_insert_mut s t in Ok (s', SetoUnit)
  | SetRemove q => let! s' := hs_remove s q in Ok (s', SetoUnit)
  | SetRemoveMut q => let! (s', b) := hs_remove_mut s q in Ok (s', SetoBool b)
  | SetGet q => let! o := hs_get s q in Ok (s, SetoElem o)
  | SetContains q => let! b := hs_contains s q in Ok (s, SetoBool b)
  | SetSize => Ok (s, SetoNat (hs_size s))
  | SetIsEmpty => Ok (s, SetoBool (hs_is_empty s))
  | SetClone => Ok (s, SetoUnit)
  end.
End HSet.
Arguments hset T : clear implicits.

(** Relations between two sets; [hash2] is the hasher of [other], which may be of a different
    type; elements of one set are looked up in the other. *)
Section HSetRel.
Variable ubits : N.
Variable dbg : bool.
Context {T : Type}.
Variable teq : T -> T -> bool.
Variable fuel : nat.

(** hash_trie_set/mod.rs 203-206 *)
Definition hs_is_disjoint (hash2 : T -> N) (s other : hset T) : res bool :=
  let! ts := hs_elems s in
  all_m (fun t => let! b := hs_contains ubits dbg (fun k => k) teq hash2 fuel other t in Ok (negb b)) ts.
(** hash_trie_set/mod.rs 219-226; [same] as in [hm_eq] *)
Definition hs_is_subset (hash2 : T -> N) (same : bool) (s other : hset T) : res bool :=
  if same then Ok true
  else if negb (Nat.leb (hs_size s) (hs_size other)) then Ok false
  else
    let! ts := hs_elems s in
    all_m (fun t => hs_contains ubits dbg (fun k => k) teq hash2 fuel other t) ts.
(** hash_trie_set/mod.rs 228-231; [hash1] is the hasher of [s] *)
Definition hs_is_superset (hash1 : T -> N) (same : bool) (s other : hset T) : res bool :=
  hs_is_subset hash1 same other s.
(** hash_trie_set/mod.rs 273-284 *)
Definition hs_eq (hash2 : T -> N) (same : bool) (s other : hset T) : res bool :=
  hm_eq ubits dbg teq fuel (fun _ _ : unit => true) hash2 same s other.
End HSetRel.

(** ** Parallel iteration: map/hash_trie_map/rayon.rs *)
Section Rayon.
Context {K V : Type}.
Notation node := (hnode K V).

(** rayon.rs 60-71 *)
Inductive producer : Type :=
| PBranch (l : list node)
| PLeaf (b : hbucket K V).

(** rayon.rs 81-96: [from_nodes] and [from_node], mutually recursive in the source *)
Fixpoint p_from_node (n : node) : producer :=
  match n with
  | HBranch s =>
      match sa_array s with
      | [c] => p_from_node c
      | l => PBranch l
      end
  | HLeaf b => PLeaf b
  end.
(** rayon.rs 81-96 *)
Definition p_from_nodes (l : list node) : producer :=
  match l with [c] => p_from_node c | _ => PBranch l end.

(** rayon.rs 77-79 *)
Definition p_new (m : hmap K V) : producer := p_from_node (hm_root m).

Section Fold.
Variable F : Type.
Variable consume : F -> K * V -> F.
Variable full : F -> bool.

(** the loops [for x in .. { folder = ..; if folder.full() { break } }] *)
Definition fold_until {A} (g : A -> F -> res F) : list A -> F -> res F :=
  fix go (l : list A) (f : F) : res F :=
    match l with
    | [] => Ok f
    | a :: l' => let! f' := g a f in if full f' then Ok f' else go l' f'
    end.

(** rayon.rs 112-126 and 143-154: the body for a bucket (the same in both functions) *)
Definition fold_bucket (b : hbucket K V) (f : F) : res F :=
  match b with
  | BSingle e => Ok (consume f (e_key e, e_val e))
  | BCollision l =>
      let! es := l_elems l in
      fold_until (fun e f => Ok (consume f (e_key e, e_val e))) es f
  end.

(** rayon.rs 130-157 *)
Fixpoint fold_all_entries (n : node) (f : F) : res F :=
  match n with
  | HBranch s => fold_until fold_all_entries (sa_array s) f
  | HLeaf b => fold_bucket b f
  end.

(** rayon.rs 98-128 and 177-182 *)
Definition p_fold_with (p : producer) (f : F) : res F :=
  match p with
  | PBranch l => fold_until fold_all_entries l f
  | PLeaf b => fold_bucket b f
  end.
End Fold.

(** rayon.rs 167-175 *)
Definition p_split (p : producer) : producer * option producer :=
  match p with
  | PBranch l =>
      if Nat.ltb 1 (length l) then
        let k := Nat.div (length l) 2 in
        (p_from_nodes (firstn k l), Some (p_from_nodes (skipn k l)))
      else (p, None)
  | PLeaf _ => (p, None)
  end.

(** rayon.rs 49-56 with rayon's [bridge_unindexed]: whether to split is decided by the
    schedule; results of the leaves are listed from left to right.  A folder is represented
    by the list of what it consumed and its [full] answer by a function of that list. *)
Fixpoint p_drive (t : schedule (K * V)) (p : producer) : res (list (list (K * V))) :=
  let fold full := let! r := p_fold_with _ (fun log x => log ++ [x]) full p [] in Ok [r] in
  match t with
  | SFold full => fold full
  | SSkip => Ok [[]]
  | SSplit t1 t2 full =>
      match p_split p with
      | (l, Some r) =>
          let! o1 := p_drive t1 l in
          let! o2 := p_drive t2 r in
          Ok (o1 ++ o2)
      | (_, None) => fold full
      end
  end.
End Rayon.
