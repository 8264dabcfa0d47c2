(** * HashTrieMap on the shared heap when user code panics

    The functions of hash_trie_map/mod.rs that call the key's [Hash::hash] and [Eq::eq], and
    [make_mut] on an entry, which calls [Clone::clone] of the key and of the value when the entry
    is shared, written once more on the heap of HeapModel.v.  As in CrashModel.v a counter [n] says
    how many user calls still return; the call made when it is 0 unwinds.  What unwinding does to
    the heap is what the frames left behind do: a node behind [&mut] stays with the contents it has
    at that moment (its pointer is [Fill]ed), locals are dropped: the entry to be inserted, the
    entries that [list_remove_first] holds, a clone of the map.  User code that panics in [Drop] is
    not modelled.

    Contents left by unwinding come with a flag which is not in the crate: it is set when the
    unwinding went through [list_remove_first], which then has lost entries (C43). *)
From Coq Require Import List NArith Arith Lia Bool.
From Verif Require Import Base Spec SpecMap ListModel SparseModel HashModel CrashModel HeapModel HeapList HeapVec HeapHash.
Import ListNotations.
Local Open Scope prog_scope.

Section XT.
Variable ubits : N.
Variable dbg : bool.
Context {K V Q : Type}.
Variable keq : K -> K -> bool.
Variable borrow : K -> Q.
Variable qeq : Q -> Q -> bool.
Variable hash : K -> N.
Variable qhash : Q -> N.
Notation C := (tcell K V).
Notation P := (prog C).
Notation left := (C * bool)%type.

(** One call of user code: CrashModel.v's [ucall], with what the unwinding does. *)
Definition tucall {S A} (n : nat) (unwind : P (crash S A)) (f : nat -> P (crash S A)) : P (crash S A) :=
  match n with
  | O => unwind
  | Datatypes.S n' => f n'
  end.

(** hash_trie_map/mod.rs:675-682; [None] if the comparison unwinds *)
Definition xmatches (same : K -> bool) (h : N) (n : nat) (e : hewh) : P (option (nat * bool)) :=
  if (snd e =? h)%N then
    read_entry e (fun kv => Ret (match n with O => None | S n' => Some (n', same (fst kv)) end))
  else Ret (Some (n, false)).

(** The loop of hash_trie_map/mod.rs:480-492; when the test unwinds the entry and the
    [before_needle] vector are dropped *)
Fixpoint xlrf_loop (f : nat) (p : nat -> hewh -> P (option (nat * bool))) (n : nat) (before : list hewh) (remaining : hlist)
  : P (crash hlist (hlist * list hewh * option hewh)) :=
  match f with
  | 0 => Fail
  | S f' =>
      if hl_len remaining =? 0 then Ret (Done n (remaining, before, None))
      else
        let* o := tl_first remaining in
        match o with
        | None => Fail
        | Some e =>
            Clone (fst e)
              (let* (remaining', _) := tl_drop_first remaining in
               let* r := p n e in
               match r with
               | None =>
                   let* _ := drop_ptr tkids 1 (fst e) in
                   let* _ := each (drop_ptr tkids 1) (rev (map fst before)) in
                   Ret (Unwound remaining')
               | Some (n, b) =>
                   if (b : bool) then Ret (Done n (remaining', before, Some e))
                   else xlrf_loop f' p n (e :: before) remaining'
               end)
        end
  end.

(** hash_trie_map/mod.rs:472-501 *)
Definition xlist_remove_first (n : nat) (l : hlist) (p : nat -> hewh -> P (option (nat * bool)))
  : P (crash hlist (hlist * option hewh)) :=
  let* r := xlrf_loop (S (hl_len l)) p n [] l in
  match r with
  | Unwound l' => Ret (Unwound l')
  | Done n (remaining, before, removed) =>
      let* l' := tpush_back before remaining in
      Ret (Done n (l', removed))
  end.

(** hash_trie_map/mod.rs:516 with list/mod.rs:423-463 *)
Fixpoint xfind_loop (p : nat -> hewh -> P (option (nat * bool))) (n rem : nat) (cur : option addr)
  : P (crash unit (option hewh)) :=
  match cur with
  | None => Ret (Done n None)
  | Some a =>
      match rem with
      | 0 => Fail (* size counter of the iterator underflows *)
      | S rem' =>
          read_node t_isN a (fun v nx => read_elem t_isE v (fun e =>
            let* r := p n e in
            match r with
            | None => Ret (Unwound tt)
            | Some (n, b) => if (b : bool) then Ret (Done n (Some e)) else xfind_loop p n rem' nx
            end))
      end
  end.

(** hash_trie_map/mod.rs:508-518 *)
Definition xbk_find (p : nat -> hewh -> P (option (nat * bool))) (n : nat) (c : C) : P (crash unit (option hewh)) :=
  match c with
  | TS e =>
      let* r := p n e in
      match r with
      | None => Ret (Unwound tt)
      | Some (n, b) => Ret (Done n (if (b : bool) then Some e else None))
      end
  | TC l => xfind_loop p n (hl_len l) (hl_head l)
  | _ => Fail
  end.

(** [value_mut] (691-693): [make_mut] on an entry (map/entry.rs 1-12, [derive(Clone)]).  If the
    entry is shared its key and its value are cloned before anything changes.  Memory that std
    reserves for the copy and gives back when the clone unwinds does not show. *)
Definition xtentry_mut (n : nat) (a : addr) : P (crash unit (addr * C)) :=
  Take a (fun r =>
    match r with
    | Some c => Ret (Done n (a, c))
    | None =>
        Read a (fun c =>
          tucall n (Ret (Unwound tt)) (fun n => tucall n (Ret (Unwound tt)) (fun n =>
            clone_all (tkids c)
              (Reserve (fun a' => let* _ := drop_ptr tkids 2 a in Ret (Done n (a', c)))))))
    end).

(** hash_trie_map/mod.rs:520-541, then [value_mut] and a write through the reference *)
Definition xbk_get_mut (p : nat -> hewh -> P (option (nat * bool))) (g : V -> V) (n : nat) (c : C)
  : P (crash left (C * option V)) :=
  match c with
  | TS e =>
      let* r := p n e in
      match r with
      | None => Ret (Unwound (c, false))
      | Some (n, b) =>
          if (b : bool) then
            let* r := xtentry_mut n (fst e) in
            match r with
            | Unwound _ => Ret (Unwound (c, false))
            | Done n (a, TE (k, v)) => Fill a (TE (k, g v)) (Ret (Done n (TS (a, snd e), Some v)))
            | Done _ _ => Fail
            end
          else Ret (Done n (c, None))
      end
  | TC l =>
      let* r := xlist_remove_first n l p in
      match r with
      | Unwound l' => Ret (Unwound (TC l', true))
      | Done n (l', None) => Ret (Done n (TC l', None))
      | Done n (l', Some e) =>
          let* l2 := tl_push e l' in
          match hl_head l2 with
          | None => Ret (Done n (TC l2, None))
          | Some a =>
              let* (a', nd) := make_mut tkids a in
              match nd with
              | TLN v nx =>
                  let* (v', d) := make_mut tkids v in
                  match d with
                  | TLE e' =>
                      let l3 := TC (mkHL (Some a') (hl_last l2) (hl_len l2)) in
                      let* r := xtentry_mut n (fst e') in
                      match r with
                      | Unwound _ => Fill v' (TLE e') (Fill a' (TLN v' nx) (Ret (Unwound (l3, false))))
                      | Done n (p', TE (k, w)) =>
                          Fill p' (TE (k, g w)) (Fill v' (TLE (p', snd e')) (Fill a' (TLN v' nx)
                            (Ret (Done n (l3, Some w)))))
                      | Done _ _ => Fail
                      end
                  | _ => Fail
                  end
              | _ => Fail
              end
          end
      end
  | _ => Fail
  end.

(** hash_trie_map/mod.rs:558-588; the entry to be inserted is dropped when a test unwinds *)
Definition xbk_insert (p : nat -> hewh -> P (option (nat * bool))) (n : nat) (e : hewh) (c : C) : P (crash left (C * bool)) :=
  match c with
  | TS old =>
      let* r := p n old in
      match r with
      | None => let* _ := drop_ptr tkids 1 (fst e) in Ret (Unwound (c, false))
      | Some (n, b) =>
          if (b : bool) then
            let* _ := drop_ptr tkids 1 (fst old) in Ret (Done n (TS e, false))
          else
            Clone (fst old)
              (let* l := tl_push old hl_new in
               let* l := tl_push e l in
               let* _ := drop_ptr tkids 1 (fst old) in
               Ret (Done n (TC l, true)))
      end
  | TC l =>
      let* r := xlist_remove_first n l p in
      match r with
      | Unwound l' => let* _ := drop_ptr tkids 1 (fst e) in Ret (Unwound (TC l', true))
      | Done n (l', removed) =>
          let* _ := drop_removed removed in
          let* l2 := tl_push e l' in
          Ret (Done n (TC l2, negb (is_some removed)))
      end
  | _ => Fail
  end.

(** hash_trie_map/mod.rs:593-640.  The [unreachable!()] of 621-623 unwinds like a panic of user code;
    only a version that has lost entries gets there. *)
Definition xbk_remove (p : nat -> hewh -> P (option (nat * bool))) (n : nat) (c : C)
  : P (crash left (option C * bool)) :=
  match c with
  | TS e =>
      let* r := p n e in
      match r with
      | None => Ret (Unwound (c, false))
      | Some (n, b) => Ret (Done n (if (b : bool) then None else Some c, b))
      end
  | TC l =>
      let* r := xlist_remove_first n l p in
      match r with
      | Unwound l' => Ret (Unwound (TC l', true))
      | Done n (l', removed) =>
          let* _ := drop_removed removed in
          match hl_len l' with
          | 0 => Ret (Unwound (TC l', true))
          | 1 =>
              let* o := tl_first l' in
              match o with
              | None => Fail
              | Some e => Clone (fst e) (let* _ := tl_drop l' in Ret (Done n (Some (TS e), is_some removed)))
              end
          | _ => Ret (Done n (Some (TC l'), is_some removed))
          end
      end
  | _ => Fail
  end.

(** ** Nodes *)

(** hash_trie_map/mod.rs:250-272 *)
Fixpoint xn_get (f n : nat) (q : Q) (h : N) (c : C) (depth : nat) (degree : N) : P (crash unit (option hewh)) :=
  match f with
  | 0 => Fail
  | S f' =>
      match c with
      | TB s =>
          let* oi := lift (index_from_hash dbg h depth degree) in
          let* index := lift (unwrap oi) in
          let* o := lift (sa_get ubits dbg s index) in
          match o with
          | None => Ret (Done n None)
          | Some p => Read p (fun d => xn_get f' n q h d (S depth) degree)
          end
      | _ => xbk_find (xmatches (fun k => qeq (borrow k) q) h) n c
      end
  end.

(** hash_trie_map/mod.rs:274-297 *)
Fixpoint xn_get_mut (f n : nat) (q : Q) (h : N) (g : V -> V) (c : C) (depth : nat) (degree : N)
  : P (crash left (C * option V)) :=
  match f with
  | 0 => Fail
  | S f' =>
      match c with
      | TB s =>
          let* oi := lift (index_from_hash dbg h depth degree) in
          let* index := lift (unwrap oi) in
          let* o := lift (sa_get_mut ubits dbg s index) in
          match o with
          | None => Ret (Done n (c, None))
          | Some (p, write) =>
              let* (p', d) := tmake_mut p in
              let* r := xn_get_mut f' n q h g d (S depth) degree in
              match r with
              | Unwound (d', lost) => Fill p' d' (Ret (Unwound (TB (write p'), lost)))
              | Done n (d', r) => Fill p' d' (Ret (Done n (TB (write p'), r)))
              end
          end
      | _ => xbk_get_mut (xmatches (fun k => qeq (borrow k) q) h) g n c
      end
  end.

(** hash_trie_map/mod.rs:299-355, simplified as [tn_insert] of HeapHash.v *)
Fixpoint xn_insert (f n : nat) (k : K) (e : hewh) (c : C) (depth : nat) (degree : N)
  : P (crash left (C * bool)) :=
  match f with
  | 0 => Fail
  | S f' =>
      match c with
      | TB s =>
          let* oi := lift (index_from_hash dbg (snd e) depth degree) in
          let* index := lift (unwrap oi) in
          let* o := lift (sa_get_mut ubits dbg s index) in
          match o with
          | Some (p, write) =>
              let* (p', d) := tmake_mut p in
              let* r := xn_insert f' n k e d (S depth) degree in
              match r with
              | Unwound (d', lost) => Fill p' d' (Ret (Unwound (TB (write p'), lost)))
              | Done n (d', b) => Fill p' d' (Ret (Done n (TB (write p'), b)))
              end
          | None =>
              New (TS e) (fun p =>
                let* s' := lift (sa_set ubits dbg s index p) in Ret (Done n (TB s', true)))
          end
      | _ =>
          let matching := xmatches (fun k' => keq k' k) (snd e) in
          let* oi := lift (index_from_hash dbg (snd e) depth degree) in
          let maximum_depth := negb (is_some oi) in
          let* r := xbk_find matching n c in
          match r with
          | Unwound _ => let* _ := drop_ptr tkids 1 (fst e) in Ret (Unwound (c, false))
          | Done n found =>
              if maximum_depth then xbk_insert matching n e c
              else if is_some found then xbk_insert matching n e c
              else
                match c with
                | TS old =>
                    Clone (fst old)
                      (let* _ := drop_ptr tkids 1 (fst old) in
                       read_entry old (fun kv =>
                         let* r := xn_insert f' n (fst kv) old (TB sa_new) depth degree in
                         match r with
                         | Unwound l => let* _ := drop_ptr tkids 1 (fst e) in Ret (Unwound l)
                         | Done n (c1, _) =>
                             let* r := xn_insert f' n k e c1 depth degree in
                             match r with
                             | Unwound l => Ret (Unwound l)
                             | Done n (c2, _) => Ret (Done n (c2, true))
                             end
                         end))
                | _ => Fail
                end
          end
      end
  end.

(** hash_trie_map/mod.rs:387-442 *)
Fixpoint xn_remove (f n : nat) (q : Q) (h : N) (c : C) (depth : nat) (degree : N)
  : P (crash left (C * bool)) :=
  match f with
  | 0 => Fail
  | S f' =>
      match c with
      | TB s =>
          let* oi := lift (index_from_hash dbg h depth degree) in
          let* index := lift (unwrap oi) in
          let* o := lift (sa_get_mut ubits dbg s index) in
          match o with
          | None => Ret (Done n (c, false))
          | Some (p, write) =>
              let* (p', d) := tmake_mut p in
              let* r := xn_remove f' n q h d (S depth) degree in
              match r with
              | Unwound (d', lost) => Fill p' d' (Ret (Unwound (TB (write p'), lost)))
              | Done n (d', removed) =>
                  let* empty := tn_is_empty dbg d' in
                  Fill p' d'
                    (let s' := write p' in
                     match (empty : bool), (removed : bool) with
                     | _, false => Ret (Done n (TB s', false))
                     | false, true => let* c' := tn_compress (TB s') in Ret (Done n (c', true))
                     | true, true =>
                         let* s2 := lift (sa_remove ubits dbg s' index) in
                         let* _ := tdrop 1 p' in
                         let* c' := tn_compress (TB s2) in Ret (Done n (c', true))
                     end)
              end
          end
      | _ =>
          let* r := xbk_remove (xmatches (fun k => qeq (borrow k) q) h) n c in
          match r with
          | Unwound l => Ret (Unwound l)
          | Done n (Some c', removed) => Ret (Done n (c', removed))
          | Done n (None, removed) =>
              let* _ := tglue (fun _ => Fail) c in Ret (Done n (TB sa_new, removed))
          end
      end
  end.

(** ** The map.  The key is hashed first. *)
Variable fuel : nat.    (* call depth available to the recursive functions *)

(** hash_trie_map/mod.rs:794-801, 661-665 *)
Definition xh_insert_mut (n : nat) (m : hht) (k : K) (v : V) : P (crash (hht * bool) hht) :=
  tucall n (Ret (Unwound (m, false))) (fun n =>
  New (TE (k, v)) (fun p =>
    let* (r, c) := tmake_mut (hh_root m) in
    let* x := xn_insert fuel n k (p, hash k) c 0 (hh_degree m) in
    match x with
    | Unwound (c', lost) => Fill r c' (Ret (Unwound (mkHH r (hh_size m) (hh_degree m), lost)))
    | Done n (c', new) =>
        Fill r c' (Ret (Done n (mkHH r (if (new : bool) then hh_size m + 1 else hh_size m) (hh_degree m))))
    end)).

(** hash_trie_map/mod.rs:819-835 *)
Definition xh_remove_mut (n : nat) (m : hht) (q : Q) : P (crash (hht * bool) (hht * bool)) :=
  tucall n (Ret (Unwound (m, false))) (fun n =>
  let* (r, c) := tmake_mut (hh_root m) in
  let* x := xn_remove fuel n q (qhash q) c 0 (hh_degree m) in
  match x with
  | Unwound (c', lost) => Fill r c' (Ret (Unwound (mkHH r (hh_size m) (hh_degree m), lost)))
  | Done n (c', removed) =>
      Fill r c'
        (if (removed : bool) then
           let* size := lift (csub (hh_size m) 1) in Ret (Done n (mkHH r size (hh_degree m), true))
         else Ret (Done n (mkHH r (hh_size m) (hh_degree m), false)))
  end).

(** hash_trie_map/mod.rs:900-911, and a write through the reference *)
Definition xh_get_mut (n : nat) (m : hht) (q : Q) (g : V -> V) : P (crash (hht * bool) (hht * option V)) :=
  tucall n (Ret (Unwound (m, false))) (fun n =>
  let* (r, c) := tmake_mut (hh_root m) in
  let* x := xn_get_mut fuel n q (qhash q) g c 0 (hh_degree m) in
  match x with
  | Unwound (c', lost) => Fill r c' (Ret (Unwound (mkHH r (hh_size m) (hh_degree m), lost)))
  | Done n (c', v) => Fill r c' (Ret (Done n (mkHH r (hh_size m) (hh_degree m), v)))
  end).

(** hash_trie_map/mod.rs:764-784 *)
Definition xh_get (n : nat) (m : hht) (q : Q) : P (crash unit (option (K * V))) :=
  tucall n (Ret (Unwound tt)) (fun n =>
  Read (hh_root m) (fun c =>
    let* r := xn_get fuel n q (qhash q) c 0 (hh_degree m) in
    match r with
    | Unwound _ => Ret (Unwound tt)
    | Done n None => Ret (Done n None)
    | Done n (Some e) => read_entry e (fun kv => Ret (Done n (Some kv)))
    end)).

(** hash_trie_map/mod.rs:786-792: the clone is a local, dropped when the insertion unwinds; the
    receiver stays.  Otherwise the old value is dropped. *)
Definition xh_insert (n : nat) (m : hht) (k : K) (v : V) : P (crash (hht * bool) hht) :=
  let* c := hh_clone m in
  let* r := xh_insert_mut n c k v in
  match r with
  | Unwound (c, _) => let* _ := hh_drop c in Ret (Unwound (m, false))
  | Done n c => let* _ := hh_drop m in Ret (Done n c)
  end.

(** hash_trie_map/mod.rs:804-817 *)
Definition xh_remove (n : nat) (m : hht) (q : Q) : P (crash (hht * bool) hht) :=
  let* c := hh_clone m in
  let* r := xh_remove_mut n c q in
  match r with
  | Unwound (c, _) => let* _ := hh_drop c in Ret (Unwound (m, false))
  | Done n (c, removed) =>
      if (removed : bool) then let* _ := hh_drop m in Ret (Done n c)
      else
        let* c' := hh_clone m in
        let* _ := hh_drop c in
        let* _ := hh_drop m in
        Ret (Done n c')
  end.

(** What a client sees of a call: [None] if it unwound.  A version comes with the flag. *)
Definition tseen {A} (p : P (crash (hht * bool) A)) (f : A -> hht * map_obs K V) : P (hht * bool * option (map_obs K V)) :=
  let* r := p in
  match r with
  | Unwound m => Ret (m, None)
  | Done _ a => Ret (fst (f a), false, Some (snd (f a)))
  end.
Definition tread_seen (m : hht * bool) (p : P (crash unit (option (K * V)))) (f : option (K * V) -> map_obs K V)
  : P (hht * bool * option (map_obs K V)) :=
  let* r := p in
  match r with
  | Unwound _ => Ret (m, None)
  | Done _ x => Ret (m, Some (f x))
  end.

(** One API call, the [n]-th user call of which (from 0) unwinds.  A version that has lost entries
    is only read, cloned and dropped from then on: calls that would change it are skipped.  (HeapAfterModel.v
    has a client without that restriction.) *)
Definition xh_step (no : nat * map_op K V Q) (m : hht * bool) : P (hht * bool * option (map_obs K V)) :=
  let '(n, o) := no in
  match o with
  | MGet q => tread_seen m (xh_get n (fst m) q) (fun x => MoVal (option_map snd x))
  | MGetKeyValue q => tread_seen m (xh_get n (fst m) q) (fun x => MoKV x)
  | MContains q => tread_seen m (xh_get n (fst m) q) (fun x => MoBool (is_some x))
  | MSize => Ret (m, Some (MoNat (hh_size (fst m))))
  | MIsEmpty => Ret (m, Some (MoBool (hh_size (fst m) =? 0)))
  | MClone => let* c := hh_clone (fst m) in let* _ := hh_drop c in Ret (m, Some MoUnit)
  | MInsert k v => if snd m then Ret (m, None) else tseen (xh_insert n (fst m) k v) (fun m => (m, MoUnit))
  | MInsertMut k v => if snd m then Ret (m, None) else tseen (xh_insert_mut n (fst m) k v) (fun m => (m, MoUnit))
  | MRemove q => if snd m then Ret (m, None) else tseen (xh_remove n (fst m) q) (fun m => (m, MoUnit))
  | MRemoveMut q => if snd m then Ret (m, None) else tseen (xh_remove_mut n (fst m) q) (fun '(m, b) => (m, MoBool b))
  | MGetMut q g => if snd m then Ret (m, None) else tseen (xh_get_mut n (fst m) q g) (fun '(m, x) => (m, MoVal x))
  end.

(** A version and its clone carry the same flag. *)
Definition xh_new (degree : N) : P (hht * bool) := let* m := @hh_new ubits K V degree in Ret (m, false).
Definition xh_clone (m : hht * bool) : P (hht * bool) := let* c := hh_clone (fst m) in Ret (c, snd m).
Definition xh_drop (m : hht * bool) : P unit := hh_drop (fst m).
End XT.
