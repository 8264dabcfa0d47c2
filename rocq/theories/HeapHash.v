(** * HashTrieMap on the shared heap

    The functions of HashModel.v again, with the pointers.  A function that
    takes [&mut Node] in the crate takes here the contents that [make_mut] lent
    (or contents not yet in a cell) and returns the contents it leaves. *)
From Coq Require Import List NArith Arith Lia Bool.
From Verif Require Import Base Spec SpecMap ListModel SparseModel HashModel HeapModel HeapList HeapVec.
Import ListNotations.
Local Open Scope prog_scope.

(** ** Cells

    hash_trie_map/mod.rs:183-190 [Node], with the buckets (192-199) inline:
    [TB] a branch, [TS] a leaf with one entry, [TC] a leaf with a list of
    entries.  [TLN] and [TLE] are the nodes and elements of those lists
    (list/mod.rs:117-124), [TE] an entry (map/entry.rs:1-5).  An [EntryWithHash]
    (201-208) is a pointer to an entry and a hash. *)
Definition hewh : Type := (addr * N)%type.
Inductive tcell (K V : Type) :=
| TB (s : sarr addr)
| TS (e : hewh)
| TC (l : hlist)
| TLN (v : addr) (next : option addr)
| TLE (e : hewh)
| TE (e : K * V).
Arguments TB {K V}.
Arguments TS {K V}.
Arguments TC {K V}.
Arguments TLN {K V}.
Arguments TLE {K V}.
Arguments TE {K V}.

Section HT.
Variable ubits : N.
Variable dbg : bool.
Context {K V Q : Type}.
Variable keq : K -> K -> bool.
Variable borrow : K -> Q.
Variable qeq : Q -> Q -> bool.
Variable hash : K -> N.
Variable qhash : Q -> N.
Notation P := (prog (tcell K V)).

(** The pointers a cell owns, hash_trie_map/mod.rs 183-208, in the order they are cloned and dropped. *)
Definition tkids (c : tcell K V) : list addr :=
  match c with
  | TB s => sa_array s
  | TS e => [fst e]
  | TC l => opt_list (hl_head l) ++ opt_list (hl_last l)
  | TLN v nx => v :: opt_list nx
  | TLE e => [fst e]
  | TE _ => []
  end.
(** Of the model: a cell of a list node. *)
Definition t_isN (c : tcell K V) := match c with TLN v nx => Some (v, nx) | _ => None end.
(** Of the model: a cell of a list element. *)
Definition t_isE (c : tcell K V) := match c with TLE e => Some e | _ => None end.

(** The list of a bucket: an element is two cells deep. *)
Definition tl_push := hl_push tkids TLN TLE 2.
Definition tl_drop_first := hl_drop_first tkids t_isN 2.
Definition tl_drop := hl_drop tkids t_isN 2.
Definition tl_first := hl_first t_isN t_isE.

(** ** Drop glue

    The contents of a node go away: the pointers of a branch are dropped, a
    list is dropped by its own [Drop] (list/mod.rs:403-421).  [f] nested calls
    are available. *)
Definition tglue (dn : addr -> P unit) (c : tcell K V) : P unit :=
  match c with
  | TB s => each dn (sa_array s)
  | TS e => drop_ptr tkids 1 (fst e)
  | TC l => tl_drop l
  | _ => Fail
  end.

(** [Drop] of a pointer to a node *)
Fixpoint tdrop (f : nat) (a : addr) : P unit :=
  match f with
  | 0 => Fail
  | S f' =>
      Dec a (fun r =>
        match r with
        | None => Ret tt
        | Some c => Enter (let* _ := tglue (tdrop f') c in Leave (Ret tt))
        end)
  end.

(** [SharedPointer::make_mut] of a pointer to a node: as [make_mut] of
    HeapModel.v, but with the drop glue of a node; [Clone for Node] is 456-467,
    643-654, 696-704 with list/mod.rs:338-345 and sparse_array_usize/mod.rs:94-105. *)
Definition tmake_mut (a : addr) : P (addr * tcell K V) :=
  Take a (fun r =>
    match r with
    | Some c => Ret (a, c)
    | None =>
        Read a (fun c =>
          clone_all (tkids c)
            (Reserve (fun a' => let* _ := tdrop 2 a in Ret (a', c))))
    end).

(** hash_trie_map/mod.rs:667-673 *)
Definition read_entry {A} (e : hewh) (k : K * V -> P A) : P A :=
  Read (fst e) (fun c => match c with TE kv => k kv | _ => Fail end).

(** hash_trie_map/mod.rs:675-682; the key is only read when the hashes agree *)
Definition tmatches (same : K -> bool) (h : N) (e : hewh) : P bool :=
  if (snd e =? h)%N then read_entry e (fun kv => Ret (same (fst kv))) else Ret false.

(** The loop of hash_trie_map/mod.rs:480-492; [before] is the [before_needle]
    vector with its last element first.  The clone of an entry (696-704) is one
    more pointer to its cell. *)
Fixpoint tlrf_loop (f : nat) (p : hewh -> P bool) (before : list hewh) (remaining : hlist)
  : P (hlist * list hewh * option hewh) :=
  match f with
  | 0 => Fail
  | S f' =>
      if hl_len remaining =? 0 then Ret (remaining, before, None)
      else
        let* o := tl_first remaining in
        match o with
        | None => Fail
        | Some e =>
            Clone (fst e)
              (let* (remaining', _) := tl_drop_first remaining in
               let* b := p e in
               if (b : bool) then Ret (remaining', before, Some e)
               else tlrf_loop f' p (e :: before) remaining')
        end
  end.

(** hash_trie_map/mod.rs:495-497 *)
Fixpoint tpush_back (before : list hewh) (l : hlist) : P hlist :=
  match before with
  | [] => Ret l
  | e :: before' => let* l' := tl_push e l in tpush_back before' l'
  end.

(** hash_trie_map/mod.rs:472-501 *)
Definition tlist_remove_first (l : hlist) (p : hewh -> P bool) : P (hlist * option hewh) :=
  let* (remaining, before, removed) := tlrf_loop (S (hl_len l)) p [] l in
  let* l' := tpush_back before remaining in
  Ret (l', removed).

(** [entries.iter().find(..)] (516) with the list iterator (list/mod.rs:423-463);
    the iterator delivers at most [rem] elements *)
Fixpoint tfind_loop (p : hewh -> P bool) (rem : nat) (cur : option addr) : P (option hewh) :=
  match cur with
  | None => Ret None
  | Some a =>
      match rem with
      | 0 => Fail (* size counter of the iterator underflows *)
      | S rem' =>
          read_node t_isN a (fun v nx => read_elem t_isE v (fun e =>
            let* b := p e in
            if (b : bool) then Ret (Some e) else tfind_loop p rem' nx))
      end
  end.

(** hash_trie_map/mod.rs:508-518 *)
Definition tb_find (p : hewh -> P bool) (c : tcell K V) : P (option hewh) :=
  match c with
  | TS e => let* b := p e in Ret (if (b : bool) then Some e else None)
  | TC l => tfind_loop p (hl_len l) (hl_head l)
  | _ => Fail
  end.

(** hash_trie_map/mod.rs:520-541, then [value_mut] (691-693) and a write through
    the reference; the old value is returned.  In a list the entry is taken out
    and put back in front, and the mutable reference is to the first element
    (list/mod.rs:276-280): the node, the element and the entry are made unique
    one after the other. *)
Definition tb_get_mut (p : hewh -> P bool) (g : V -> V) (c : tcell K V) : P (tcell K V * option V) :=
  match c with
  | TS e =>
      let* b := p e in
      if (b : bool) then
        let* (a, x) := make_mut tkids (fst e) in
        match x with
        | TE (k, v) => Fill a (TE (k, g v)) (Ret (TS (a, snd e), Some v))
        | _ => Fail
        end
      else Ret (c, None)
  | TC l =>
      let* (l', removed) := tlist_remove_first l p in
      match removed with
      | None => Ret (TC l', None)
      | Some e =>
          let* l2 := tl_push e l' in
          match hl_head l2 with
          | None => Ret (TC l2, None)
          | Some a =>
              let* (a', n) := make_mut tkids a in
              match n with
              | TLN v nx =>
                  let* (v', d) := make_mut tkids v in
                  match d with
                  | TLE e' =>
                      let* (p', x) := make_mut tkids (fst e') in
                      match x with
                      | TE (k, w) =>
                          Fill p' (TE (k, g w)) (Fill v' (TLE (p', snd e')) (Fill a' (TLN v' nx)
                            (Ret (TC (mkHL (Some a') (hl_last l2) (hl_len l2)), Some w))))
                      | _ => Fail
                      end
                  | _ => Fail
                  end
              | _ => Fail
              end
          end
      end
  | _ => Fail
  end.

(** An [Option<EntryWithHash>] that is only tested goes away. *)
Definition drop_removed (o : option hewh) : P unit :=
  match o with None => Ret tt | Some e => drop_ptr tkids 1 (fst e) end.

(** hash_trie_map/mod.rs:558-588 *)
Definition tb_insert (p : hewh -> P bool) (e : hewh) (c : tcell K V) : P (tcell K V * bool) :=
  match c with
  | TS old =>
      let* b := p old in
      if (b : bool) then
        (* the assignment drops the old entry *)
        let* _ := drop_ptr tkids 1 (fst old) in Ret (TS e, false)
      else
        Clone (fst old)
          (let* l := tl_push old hl_new in
           let* l := tl_push e l in
           let* _ := drop_ptr tkids 1 (fst old) in
           Ret (TC l, true))
  | TC l =>
      let* (l', removed) := tlist_remove_first l p in
      let* _ := drop_removed removed in
      let* l2 := tl_push e l' in
      Ret (TC l2, negb (is_some removed))
  | _ => Fail
  end.

(** hash_trie_map/mod.rs:593-640; [None] is a bucket that became empty.  Its
    contents are still there and go away in the caller. *)
Definition tb_remove (p : hewh -> P bool) (c : tcell K V) : P (option (tcell K V) * bool) :=
  match c with
  | TS e => let* b := p e in Ret (if (b : bool) then None else Some c, b)
  | TC l =>
      let* (l', removed) := tlist_remove_first l p in
      let* _ := drop_removed removed in
      match hl_len l' with
      | 0 => Fail
      | 1 =>
          let* o := tl_first l' in
          match o with
          | None => Fail
          | Some e => Clone (fst e) (let* _ := tl_drop l' in Ret (Some (TS e), is_some removed))
          end
      | _ => Ret (Some (TC l'), is_some removed)
      end
  | _ => Fail
  end.

(** ** Nodes *)

(** hash_trie_map/mod.rs:250-272 *)
Fixpoint tn_get (f : nat) (q : Q) (h : N) (c : tcell K V) (depth : nat) (degree : N) : P (option hewh) :=
  match f with
  | 0 => Fail
  | S f' =>
      match c with
      | TB s =>
          let* oi := lift (index_from_hash dbg h depth degree) in
          let* index := lift (unwrap oi) in
          let* o := lift (sa_get ubits dbg s index) in
          match o with
          | None => Ret None
          | Some p => Read p (fun d => tn_get f' q h d (S depth) degree)
          end
      | _ => tb_find (tmatches (fun k => qeq (borrow k) q) h) c
      end
  end.

(** hash_trie_map/mod.rs:274-297 *)
Fixpoint tn_get_mut (f : nat) (q : Q) (h : N) (g : V -> V) (c : tcell K V) (depth : nat) (degree : N)
  : P (tcell K V * option V) :=
  match f with
  | 0 => Fail
  | S f' =>
      match c with
      | TB s =>
          let* oi := lift (index_from_hash dbg h depth degree) in
          let* index := lift (unwrap oi) in
          let* o := lift (sa_get_mut ubits dbg s index) in
          match o with
          | None => Ret (c, None)
          | Some (p, write) =>
              let* (p', d) := tmake_mut p in
              let* (d', r) := tn_get_mut f' q h g d (S depth) degree in
              Fill p' d' (Ret (TB (write p'), r))
          end
      | _ => tb_get_mut (tmatches (fun k => qeq (borrow k) q) h) g c
      end
  end.

(** hash_trie_map/mod.rs:299-355.  Simplified: the key of the entry to insert is
    carried along instead of being read from its cell for each comparison. *)
Fixpoint tn_insert (f : nat) (k : K) (e : hewh) (c : tcell K V) (depth : nat) (degree : N)
  : P (tcell K V * bool) :=
  match f with
  | 0 => Fail
  | S f' =>
      match c with
      | TB s =>
          let* oi := lift (index_from_hash dbg (snd e) depth degree) in
          let* index := lift (unwrap oi) in
          let* o := lift (sa_get_mut ubits dbg s index) in
          match o with
          | Some (p, write) =>
              let* (p', d) := tmake_mut p in
              let* (d', b) := tn_insert f' k e d (S depth) degree in
              Fill p' d' (Ret (TB (write p'), b))
          | None =>
              New (TS e) (fun p =>
                let* s' := lift (sa_set ubits dbg s index p) in Ret (TB s', true))
          end
      | _ =>
          let matching := tmatches (fun k' => keq k' k) (snd e) in
          let* oi := lift (index_from_hash dbg (snd e) depth degree) in
          let maximum_depth := negb (is_some oi) in
          let* found := tb_find matching c in
          if maximum_depth then tb_insert matching e c
          else if is_some found then tb_insert matching e c
          else
            match c with
            | TS old =>
                Clone (fst old)
                  (* the assignment drops the bucket *)
                  (let* _ := drop_ptr tkids 1 (fst old) in
                   read_entry old (fun kv =>
                     let* (c1, _) := tn_insert f' (fst kv) old (TB sa_new) depth degree in
                     let* (c2, _) := tn_insert f' k e c1 depth degree in
                     Ret (c2, true)))
            | _ => Fail
            end
      end
  end.

(** hash_trie_map/mod.rs:357-385 with utils/mod.rs:9-17: the contents of the only
    child and the emptied branch are swapped, and the child's cell, which now
    holds the emptied branch, goes away *)
Definition tn_compress (c : tcell K V) : P (tcell K V) :=
  match c with
  | TB s =>
      match sa_size s with
      | 1 =>
          let* p := lift (unwrap (sa_first s)) in
          Read p (fun d =>
            match d with
            | TS _ =>
                match sa_pop s with
                | (s', Some p) =>
                    let* (p', d') := tmake_mut p in
                    match d' with
                    | TS _ => Fill p' (TB s') (let* _ := tdrop 1 p' in Ret d')
                    | _ => Fail (* it is what was read above *)
                    end
                | (s', None) => Ret (TB s')
                end
            | _ => Ret c
            end)
      | _ => Ret c
      end
  | _ => Ret c
  end.

(** hash_trie_map/mod.rs:444-453 *)
Definition tn_is_empty (c : tcell K V) : P bool :=
  match c with
  | TB s => Ret (sa_size s =? 0)
  | TS _ => Ret false
  | TC l => let* _ := lift (debug_assert dbg (2 <=? hl_len l)) in Ret false
  | _ => Fail
  end.

(** hash_trie_map/mod.rs:387-442 *)
Fixpoint tn_remove (f : nat) (q : Q) (h : N) (c : tcell K V) (depth : nat) (degree : N)
  : P (tcell K V * bool) :=
  match f with
  | 0 => Fail
  | S f' =>
      match c with
      | TB s =>
          let* oi := lift (index_from_hash dbg h depth degree) in
          let* index := lift (unwrap oi) in
          let* o := lift (sa_get_mut ubits dbg s index) in
          match o with
          | None => Ret (c, false)
          | Some (p, write) =>
              let* (p', d) := tmake_mut p in
              let* (d', removed) := tn_remove f' q h d (S depth) degree in
              let* empty := tn_is_empty d' in
              Fill p' d'
                (let s' := write p' in
                 match (empty : bool), (removed : bool) with
                 | _, false => Ret (TB s', false)
                 | false, true => let* c' := tn_compress (TB s') in Ret (c', true)
                 | true, true =>
                     let* s2 := lift (sa_remove ubits dbg s' index) in
                     (* the pointer taken out of the array goes away *)
                     let* _ := tdrop 1 p' in
                     let* c' := tn_compress (TB s2) in Ret (c', true)
                 end)
          end
      | _ =>
          let* (oc, removed) := tb_remove (tmatches (fun k => qeq (borrow k) q) h) c in
          match oc with
          | Some c' => Ret (c', removed)
          | None =>
              (* the assignment drops the bucket *)
              let* _ := tglue (fun _ => Fail) c in Ret (TB sa_new, removed)
          end
      end
  end.

(** ** The map *)
Variable fuel : nat.    (* call depth available to the recursive functions *)

(** hash_trie_map/mod.rs:116-125; the hasher is a parameter of each operation *)
Record hht := mkHH { hh_root : addr; hh_size : nat; hh_degree : N }.

(** hash_trie_map/mod.rs:746-761 *)
Definition hh_new (degree : N) : P hht :=
  let* m := lift (@hm_new_with_degree ubits K V degree) in
  New (TB sa_new) (fun a => Ret (mkHH a (hm_size m) (hm_degree m))).

(** hash_trie_map/mod.rs:928-942 *)
Definition hh_clone (m : hht) : P hht := Clone (hh_root m) (Ret m).

(** Drop glue of the root pointer: one nested call for each digit of a 64-bit hash in
    base [degree], and one for the root; a trie with more levels would fail *)
Definition hh_levels (m : hht) : nat := N.to_nat ((64 + N.log2 (hh_degree m) - 1) / N.log2 (hh_degree m)).
Definition hh_drop (m : hht) : P unit := tdrop (S (hh_levels m)) (hh_root m).

(** hash_trie_map/mod.rs:794-801, 661-665 *)
Definition hh_insert_mut (m : hht) (k : K) (v : V) : P hht :=
  New (TE (k, v)) (fun p =>
    let* (r, c) := tmake_mut (hh_root m) in
    let* (c', new) := tn_insert fuel k (p, hash k) c 0 (hh_degree m) in
    Fill r c' (Ret (mkHH r (if (new : bool) then hh_size m + 1 else hh_size m) (hh_degree m)))).

(** hash_trie_map/mod.rs:786-792 *)
Definition hh_insert (m : hht) (k : K) (v : V) : P hht :=
  let* n := hh_clone m in hh_insert_mut n k v.

(** hash_trie_map/mod.rs:819-835 *)
Definition hh_remove_mut (m : hht) (q : Q) : P (hht * bool) :=
  let* (r, c) := tmake_mut (hh_root m) in
  let* (c', removed) := tn_remove fuel q (qhash q) c 0 (hh_degree m) in
  Fill r c'
    (if (removed : bool) then
       let* size := lift (csub (hh_size m) 1) in Ret (mkHH r size (hh_degree m), true)
     else Ret (mkHH r (hh_size m) (hh_degree m), false)).

(** hash_trie_map/mod.rs:804-817 *)
Definition hh_remove (m : hht) (q : Q) : P hht :=
  let* n := hh_clone m in
  let* (n', b) := hh_remove_mut n q in
  if (b : bool) then Ret n'
  else
    let* c := hh_clone m in
    let* _ := hh_drop n' in
    Ret c.

(** hash_trie_map/mod.rs:900-911, and a write through the reference *)
Definition hh_get_mut (m : hht) (q : Q) (g : V -> V) : P (hht * option V) :=
  let* (r, c) := tmake_mut (hh_root m) in
  let* (c', x) := tn_get_mut fuel q (qhash q) g c 0 (hh_degree m) in
  Fill r c' (Ret (mkHH r (hh_size m) (hh_degree m), x)).

(** hash_trie_map/mod.rs:764-784 *)
Definition hh_get (m : hht) (q : Q) : P (option (K * V)) :=
  Read (hh_root m) (fun c =>
    let* o := tn_get fuel q (qhash q) c 0 (hh_degree m) in
    match o with
    | None => Ret None
    | Some e => read_entry e (fun kv => Ret (Some kv))
    end).

(** hash_trie_map/mod.rs:1051-1061.  [HISBranch a i n] is the slice iterator over the children
    of the branch at [a]: the place it has reached and the place where it ends.  [iter::Once] of
    a pointer to an entry is an option. *)
Inductive hitstk : Type :=
| HISBranch (a : addr) (i n : nat)
| HISColl (it : hliter)
| HISSingle (o : option addr).

(** hash_trie_map/mod.rs:1067-1079 *)
Definition his_new (a : addr) : P hitstk :=
  Read a (fun c =>
    match c with
    | TB s => Ret (HISBranch a 0 (length (sa_array s)))
    | TC l => Ret (HISColl (hl_iter_new l))
    | TS e => Ret (HISSingle (Some (fst e)))
    | _ => Fail
    end).

(** hash_trie_map/mod.rs:1083-1095; [inl] is a pointer to the next entry, [inr] the next stack
    element *)
Definition his_next (el : hitstk) : P (option (addr + hitstk) * hitstk) :=
  match el with
  | HISBranch a i n =>
      if i <? n then
        Read a (fun c =>
          match c with
          | TB s =>
              match nth_error (sa_array s) i with
              | Some child =>
                  Read child (fun c' =>
                    match c' with
                    | TB _ | TC _ => let* new := his_new child in Ret (Some (inr new), HISBranch a (S i) n)
                    | TS e => Ret (Some (inl (fst e)), HISBranch a (S i) n)
                    | _ => Fail
                    end)
              | None => Fail
              end
          | _ => Fail
          end)
      else Ret (None, el)
  | HISColl it =>
      let* (o, it') := hl_next_ptr t_isN it in
      match o with
      | Some v => read_elem t_isE v (fun e => Ret (Some (inl (fst e)), HISColl it'))
      | None => Ret (None, HISColl it')
      end
  | HISSingle None => Ret (None, el)
  | HISSingle (Some e) => Ret (Some (inl e), HISSingle None)
  end.

(** hash_trie_map/mod.rs:1041-1048; the stack has its top at the head *)
Definition hhiter : Type := (list hitstk * nat)%type.

(** hash_trie_map/mod.rs:1103-1111 *)
Definition hhi_new (m : hht) : P hhiter :=
  if 0 <? hh_size m then let* el := his_new (hh_root m) in Ret ([el], hh_size m) else Ret ([], hh_size m).

(** hash_trie_map/mod.rs:1121-1137: the [while let] loop, at most [n] rounds.  One call of
    [next] pops every level at most once and then pushes every level at most once. *)
Fixpoint hhi_loop (n : nat) (it : hhiter) : P (option addr * hhiter) :=
  match n with
  | 0 => Fail
  | S n' =>
      match it with
      | ([], size) => Ret (None, it)
      | (el :: stack, size) =>
          let* (r, el') := his_next el in
          match r with
          | Some (inl e) => let* size' := lift (csub size 1) in Ret (Some e, (el' :: stack, size'))
          | Some (inr new) => hhi_loop n' (new :: el' :: stack, size)
          | None => hhi_loop n' (stack, size)
          end
      end
  end.
(** hash_trie_map/mod.rs 1118-1135 *)
Definition hhi_next_ptr (it : hhiter) : P (option addr * hhiter) := hhi_loop (2 * fuel) it.

(** hash_trie_map/mod.rs:1139-1142 *)
Definition hhi_hint (it : hhiter) : res nat := Ok (snd it).

(** hash_trie_map/mod.rs:875-877 and [core::iter::Map::next]: the entry is read *)
Definition hhi_next (it : hhiter) : P (option (K * V) * hhiter) :=
  let* (o, it') := hhi_next_ptr it in
  match o with
  | Some e => Read e (fun c => match c with TE kv => Ret (Some kv, it') | _ => Fail end)
  | None => Ret (None, it')
  end.

(** [k] calls of [next], and all of them *)
Definition hh_iter (k : nat) (m : hht) : P (list (nat * option (K * V))) :=
  let* it := hhi_new m in pruns hhi_next hhi_hint k it.
Definition hh_entries (m : hht) : P (list (K * V)) :=
  let* it := hhi_new m in pcollect hhi_next (S (hh_size m)) it.

(** One call on a register.  A non-destructive call [x = x.op(..)] works on a
    clone, stores it in the register and drops the old value.  The order of
    iteration is not specified, so what a client sees of an iteration is given
    by two calls: [TSteps k], the size hint before each of [k] calls of [next]
    and whether there was an entry; and [TCount p], how many of the entries
    delivered satisfy [p]. *)
Inductive ht_call := TOp (o : map_op K V Q) | TSteps (k : nat) | TCount (p : K * V -> bool).
Inductive ht_result := TObs (o : map_obs K V) | THints (l : list (nat * bool)) | TNum (n : nat).

Definition hh_step (o : ht_call) (m : hht) : P (hht * ht_result) :=
  match o with
  | TOp (MInsert k v) =>
      let* n := hh_insert m k v in let* _ := hh_drop m in Ret (n, TObs MoUnit)
  | TOp (MInsertMut k v) => let* n := hh_insert_mut m k v in Ret (n, TObs MoUnit)
  | TOp (MRemove q) => let* n := hh_remove m q in let* _ := hh_drop m in Ret (n, TObs MoUnit)
  | TOp (MRemoveMut q) => let* (n, b) := hh_remove_mut m q in Ret (n, TObs (MoBool b))
  | TOp (MGetMut q f) => let* (n, x) := hh_get_mut m q f in Ret (n, TObs (MoVal x))
  | TOp (MGet q) => let* o := hh_get m q in Ret (m, TObs (MoVal (option_map snd o)))
  | TOp (MGetKeyValue q) => let* o := hh_get m q in Ret (m, TObs (MoKV o))
  | TOp (MContains q) => let* o := hh_get m q in Ret (m, TObs (MoBool (is_some o)))
  | TOp MSize => Ret (m, TObs (MoNat (hh_size m)))
  | TOp MIsEmpty => Ret (m, TObs (MoBool (hh_size m =? 0)))
  | TOp MClone => let* c := hh_clone m in let* _ := hh_drop c in Ret (m, TObs MoUnit)
  | TSteps k =>
      let* r := hh_iter k m in Ret (m, THints (map (fun x => (fst x, is_some (snd x))) r))
  | TCount p => let* l := hh_entries m in Ret (m, TNum (length (filter p l)))
  end.
End HT.
Arguments ht_call K V Q : clear implicits.
Arguments ht_result K V : clear implicits.
