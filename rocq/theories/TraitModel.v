(** Model of the comparison, hashing, formatting and serialisation traits of the collections
    (comparison and hashing of the red-black trees are in RBExtra.v, equality of the hash
    tries in HashExtra.v). *)
From Coq Require Import String List NArith Arith Bool.
From Verif Require Import Base Spec SpecMap SpecOrd SpecTrait SpecSerde IterStd ListModel VectorModel SparseModel HashModel
  HashExtra RBModel RBExtra.
Import ListNotations.
Local Open Scope string_scope.

(** [for e in self { e.hash(state) }] with the length first *)
Definition hash_loop {St A} (next : St -> res (option A * St)) (h : A -> feed) (len : nat) (s : St) : res feed :=
  let! es := collect next (S len) s in
  Ok (HLen len :: List.concat (map h es)).

(** ** List: list/mod.rs *)
Section List_.
Context {T : Type}.
(** 297-299 *)
Definition l_eq (teq : T -> T -> bool) (l other : rlist T) : res bool :=
  if Nat.eqb (l_length l) (l_length other)
  then iter_eq l_iter_next l_iter_next teq (S (l_len l)) (l_iter_new l) (l_iter_new other)
  else Ok false.
(** 309-311 *)
Definition l_partial_cmp (c : T -> T -> option comparison) (l other : rlist T) : res (option comparison) :=
  iter_partial_cmp l_iter_next l_iter_next c (S (l_len l)) (l_iter_new l) (l_iter_new other).
(** 318-320 *)
Definition l_cmp (c : T -> T -> comparison) (l other : rlist T) : res comparison :=
  iter_cmp l_iter_next l_iter_next c (S (l_len l)) (l_iter_new l) (l_iter_new other).
(** 327-335 *)
Definition l_hash (h : T -> feed) (l : rlist T) : res feed :=
  hash_loop l_iter_next h (l_len l) (l_iter_new l).
End List_.

(** ** Stack: stack/mod.rs, everything forwarded to the list *)
Section Stack_.
Context {T : Type}.
(** 183-185 *)
Definition s_eq (teq : T -> T -> bool) (s other : rstack T) : res bool := l_eq teq (s_list s) (s_list other).
(** 195-197 *)
Definition s_partial_cmp (c : T -> T -> option comparison) (s other : rstack T) : res (option comparison) :=
  l_partial_cmp c (s_list s) (s_list other).
(** 204-206 *)
Definition s_cmp (c : T -> T -> comparison) (s other : rstack T) : res comparison := l_cmp c (s_list s) (s_list other).
(** 213-215 *)
Definition s_hash (h : T -> feed) (s : rstack T) : res feed := l_hash h (s_list s).
End Stack_.

(** ** Queue: queue/mod.rs *)
Section Queue_.
Context {T : Type}.
(** 205-207 *)
Definition q_eq (teq : T -> T -> bool) (q other : rqueue T) : res bool :=
  if Nat.eqb (q_len q) (q_len other)
  then iter_eq q_iter_next q_iter_next teq (S (q_len q)) (q_iter_new q) (q_iter_new other)
  else Ok false.
(** 217-219 *)
Definition q_partial_cmp (c : T -> T -> option comparison) (q other : rqueue T) : res (option comparison) :=
  iter_partial_cmp q_iter_next q_iter_next c (S (q_len q)) (q_iter_new q) (q_iter_new other).
(** 226-228 *)
Definition q_cmp (c : T -> T -> comparison) (q other : rqueue T) : res comparison :=
  iter_cmp q_iter_next q_iter_next c (S (q_len q)) (q_iter_new q) (q_iter_new other).
(** 235-244 *)
Definition q_hash (h : T -> feed) (q : rqueue T) : res feed :=
  hash_loop q_iter_next h (q_len q) (q_iter_new q).
End Queue_.

(** ** Vector: vector/mod.rs; the element types may differ *)
Section Vector_.
Variable ubits : N.
Variable dbg : bool.
Context {T U : Type}.
Notation next := (vi_next ubits dbg).
Notation size v := (N.to_nat (v_len v)).
(** 544-546 *)
Definition v_eq (teq : T -> U -> bool) (v : rvec T) (other : rvec U) : res bool :=
  if N.eqb (v_length v) (v_length other)
  then iter_eq next next teq (S (size v)) (vi_new v) (vi_new other)
  else Ok false.
(** 556-558 *)
Definition v_partial_cmp (c : T -> U -> option comparison) (v : rvec T) (other : rvec U) : res (option comparison) :=
  iter_partial_cmp next next c (S (size v)) (vi_new v) (vi_new other).
(** 565-567 *)
Definition v_cmp (c : T -> T -> comparison) (v other : rvec T) : res comparison :=
  iter_cmp next next c (S (size v)) (vi_new v) (vi_new other).
(** 574-582 *)
Definition v_hash (h : T -> feed) (v : rvec T) : res feed := hash_loop next h (size v) (vi_new v).
End Vector_.

(** ** The iterator of HashTrieSet: [keys] of the map, core::iter::Map
    (hash_trie_set/mod.rs 246-248, hash_trie_map/mod.rs 884-886) *)
Definition hk_next {K V} (i : @hiter K V) : res (option K * @hiter K V) :=
  let! (o, i) := hi_next i in Ok (option_map fst o, i).

(** ** Display *)
Section Fmt.
Context {W : Type}.
Variable write_str : string -> action W.

(** The loop common to all implementations, and what follows it.  [first] is the local flag;
    [?] leaves at the first error. *)
Fixpoint fmt_loop {St A} (next : St -> res (option A * St)) (item : A -> action W) (close : string)
  (fuel : nat) (s : St) (first : bool) (w : W) : res (W * bool) :=
  match fuel with
  | O => Diverge
  | S fuel =>
      let! (o, s) := next s in
      match o with
      | None => write_str close w
      | Some v =>
          let! (w, ok) := (if negb first then write_str ", " w else Ok (w, true)) in
          if ok : bool then
            let! (w, ok) := item v w in
            if ok : bool then fmt_loop next item close fuel s false w else Ok (w, false)
          else Ok (w, false)
      end
  end.
(** The body common to the [fmt]s: the opening text, the loop, the closing text. *)
Definition fmt_with {St A} (next : St -> res (option A * St)) (item : A -> action W) (open close : string)
  (len : nat) (s : St) : action W := fun w =>
  let! (w, ok) := write_str open w in
  if ok : bool then fmt_loop next item close (S len) s true w else Ok (w, false).

(** [k.fmt(fmt)?; fmt.write_str(": ")?; v.fmt(fmt)?] *)
Definition fmt_entry {K V} (kfmt : K -> action W) (vfmt : V -> action W) (kv : K * V) : action W := fun w =>
  let! (w, ok) := kfmt (fst kv) w in
  if ok : bool then
    let! (w, ok) := write_str ": " w in
    if ok : bool then vfmt (snd kv) w else Ok (w, false)
  else Ok (w, false).

(** list/mod.rs 351-365 *)
Definition l_fmt {T} (tfmt : T -> action W) (l : rlist T) : action W :=
  fmt_with l_iter_next tfmt "[" "]" (l_len l) (l_iter_new l).
(** stack/mod.rs 231-245 *)
Definition s_fmt {T} (tfmt : T -> action W) (s : rstack T) : action W :=
  fmt_with l_iter_next tfmt "Stack(" ")" (s_size s) (s_iter_new s).
(** queue/mod.rs 260-274 *)
Definition q_fmt {T} (tfmt : T -> action W) (q : rqueue T) : action W :=
  fmt_with q_iter_next tfmt "Queue(" ")" (q_len q) (q_iter_new q).
(** vector/mod.rs 598-612 *)
Definition v_fmt {T} (ubits : N) (dbg : bool) (tfmt : T -> action W) (v : rvec T) : action W :=
  fmt_with (vi_next ubits dbg) tfmt "[" "]" (N.to_nat (v_len v)) (vi_new v).
(** hash_trie_map/mod.rs 987-1003 *)
Definition hm_fmt {K V} (kfmt : K -> action W) (vfmt : V -> action W) (m : hmap K V) : action W :=
  fmt_with hi_next (fmt_entry kfmt vfmt) "{" "}" (hm_size m) (hi_new m).
(** hash_trie_set/mod.rs 299-313 *)
Definition hs_fmt {T} (tfmt : T -> action W) (s : hset T) : action W :=
  fmt_with hk_next tfmt "{" "}" (hs_size s) (hi_new s).
(** red_black_tree_map/mod.rs 1085-1101 *)
Definition rb_fmt {K V} (kcmp : K -> K -> comparison) (kfmt : K -> action W) (vfmt : V -> action W) (m : rbmap K V) : action W :=
  fmt_with (it_next kcmp) (fmt_entry kfmt vfmt) "{" "}" (rb_size m) (it_new m).
(** red_black_tree_set/mod.rs 359-373 *)
Definition rs_fmt {T} (tcmp : T -> T -> comparison) (tfmt : T -> action W) (s : rset T) : action W :=
  fmt_with (si_next tcmp) tfmt "{" "}" (rs_size s) (it_new s).
End Fmt.

(** ** Serialize: all collections call [collect_seq] or [collect_map] of the serializer.
    These are serde's provided methods (modelled from their source): the length announced is
    the iterator's size hint when lower and upper bound agree (they always do here), then
    every item is serialised, stopping at the first error, then the end is written.  For maps
    the item is the entry. *)
Section Ser.
Context {St D E : Type}.
Variable ser_begin : option nat -> St + E.
Variable ser_end : St -> D + E.

(** The loop of [collect_seq] and [collect_map], serde. *)
Fixpoint ser_loop {I It} (ser_item : I -> St -> St + E) (next : It -> res (option I * It)) (fuel : nat) (i : It) (s : St) : res (St + E) :=
  match fuel with
  | O => Diverge
  | S fuel =>
      let! (o, i) := next i in
      match o with
      | None => Ok (inl s)
      | Some x => match ser_item x s with
                  | inl s => ser_loop ser_item next fuel i s
                  | inr e => Ok (inr e)
                  end
      end
  end.
(** [collect_seq] and [collect_map], serde: the length from [size_hint], the loop, [end]. *)
Definition collect_ser {I It} (ser_item : I -> St -> St + E) (next : It -> res (option I * It)) (hint : It -> res nat) (len : nat) (i : It)
  : res (D + E) :=
  let! h := hint i in
  match ser_begin (Some h) with
  | inr e => Ok (inr e)
  | inl s =>
      let! r := ser_loop ser_item next (S len) i s in
      Ok (match r with inl s => ser_end s | inr e => inr e end)
  end.

(** list/mod.rs 478-480 *)
Definition l_serialize {T} (it : T -> St -> St + E) (l : rlist T) : res (D + E) := collect_ser it l_iter_next l_iter_hint (l_len l) (l_iter_new l).
(** stack/mod.rs 280-282 *)
Definition s_serialize {T} (it : T -> St -> St + E) (s : rstack T) : res (D + E) := l_serialize it (s_list s).
(** queue/mod.rs 377-379 *)
Definition q_serialize {T} (it : T -> St -> St + E) (q : rqueue T) : res (D + E) := collect_ser it q_iter_next q_iter_hint (q_len q) (q_iter_new q).
(** vector/mod.rs 865-867 *)
Definition v_serialize {T} (ubits : N) (dbg : bool) (it : T -> St -> St + E) (v : rvec T) : res (D + E) :=
  collect_ser it (vi_next ubits dbg) (vi_size_hint ubits dbg) (N.to_nat (v_len v)) (vi_new v).
(** hash_trie_map/mod.rs 1159-1161 *)
Definition hm_serialize {K V} (it : K * V -> St -> St + E) (m : hmap K V) : res (D + E) := collect_ser it hi_next hi_hint (hm_size m) (hi_new m).
(** hash_trie_set/mod.rs 361-363 *)
Definition hs_serialize {T} (it : T -> St -> St + E) (s : hset T) : res (D + E) := collect_ser it hk_next hi_hint (hs_size s) (hi_new s).
(** red_black_tree_map/mod.rs 1500-1502 *)
Definition rb_serialize {K V} (kcmp : K -> K -> comparison) (it : K * V -> St -> St + E) (m : rbmap K V) : res (D + E) :=
  collect_ser it (it_next kcmp) it_hint (rb_size m) (it_new m).
(** red_black_tree_set/mod.rs 419-421 *)
Definition rs_serialize {T} (tcmp : T -> T -> comparison) (it : T -> St -> St + E) (s : rset T) : res (D + E) :=
  collect_ser it (si_next tcmp) it_hint (rs_size s) (it_new s).
End Ser.

(** ** Deserialize: the visitors.  [next] is [next_element] / [next_entry]; [Diverge] when it
    yields [fuel] items without ending. *)
Section De.
Context {A I E : Type}.
Variable next : A -> option (I * A) + E.

(** [while let Some(x) = access.next()? { c = add(c, x) }] *)
Fixpoint visit_loop {C} (add : C -> I -> res C) (fuel : nat) (a : A) (c : C) : res (C + E) :=
  match fuel with
  | O => Diverge
  | S fuel =>
      match next a with
      | inr e => Ok (inr e)
      | inl None => Ok (inl c)
      | inl (Some (x, a)) => let! c := add c x in visit_loop add fuel a c
      end
  end.
End De.

(** [Vec::with_capacity(n)] panics when the buffer would exceed isize::MAX bytes; [esize] is
    the size of an element in bytes. *)
Definition vec_with_capacity (ubits esize n : N) : res unit :=
  if (2 ^ (ubits - 1) - 1 <? n * esize)%N then Panic else Ok tt.

Section DeSeq.
Context {A T E : Type}.
Variable next : A -> option (T * A) + E.

(** list/mod.rs 510-532.  [size_hint] is what the access announces: nothing ties it to the
    number of elements.  The Vec is a Coq list; growing it is assumed to succeed. *)
Definition l_visit (ubits esize : N) (size_hint : A -> option N) (fuel : nat) (a : A) : res (rlist T + E) :=
  let! _ := match size_hint a with Some capacity => vec_with_capacity ubits esize capacity | None => Ok tt end in
  let! r := visit_loop next (fun vec x => Ok (vec ++ [x])%list) fuel a [] in
  match r with
  | inr e => Ok (inr e)
  | inl vec => Ok (inl (fold_left (fun acc v => l_push_front_mut v acc) (rev vec) l_new))
  end.
(** stack/mod.rs 290-292 *)
Definition s_visit ubits esize size_hint fuel a : res (rstack T + E) :=
  let! r := l_visit ubits esize size_hint fuel a in
  Ok (match r with inl list => inl (mkS list) | inr e => inr e end).
(** queue/mod.rs 387-390 *)
Definition q_visit ubits esize size_hint fuel a : res (rqueue T + E) :=
  let! r := l_visit ubits esize size_hint fuel a in
  Ok (match r with inl list => inl (mkQ l_new list) | inr e => inr e end).
(** vector/mod.rs 897-909 *)
Definition v_visit ubits dbg (fuel : nat) (a : A) : res (rvec T + E) :=
  let! v := v_new in visit_loop next (v_push_back_mut ubits dbg) fuel a v.
(** hash_trie_set/mod.rs 401-412; the hasher is a new one *)
Definition hs_visit ubits dbg teq hash depth (fuel : nat) (a : A) : res (hset T + E) :=
  let! s := hs_new ubits in visit_loop next (hs_insert_mut ubits dbg teq hash depth) fuel a s.
(** red_black_tree_set/mod.rs 455-466 *)
Definition rs_visit tcmp (fuel : nat) (a : A) : res (rset T + E) :=
  visit_loop next (rs_insert_mut tcmp) fuel a rs_new.
End DeSeq.

Section DeMap.
Context {A K V E : Type}.
Variable next : A -> option ((K * V) * A) + E.
(** hash_trie_map/mod.rs 1204-1216; the hasher is a new one *)
Definition hm_visit ubits dbg keq hash depth (fuel : nat) (a : A) : res (hmap K V + E) :=
  let! m := hm_new ubits in
  visit_loop next (fun m kv => hm_insert_mut ubits dbg keq hash depth m (fst kv) (snd kv)) fuel a m.
(** red_black_tree_map/mod.rs 1541-1553 *)
Definition rb_visit kcmp (fuel : nat) (a : A) : res (rbmap K V + E) :=
  visit_loop next (fun m kv => rb_insert_mut kcmp m (fst kv) (snd kv)) fuel a rb_new.
End DeMap.
