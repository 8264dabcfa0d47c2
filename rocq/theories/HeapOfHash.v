(** * HashTrieMap whose values are collections, on the shared heap

    [HashTrieMap<K, X>] where [X] is itself a collection of this crate: HeapHash.v hosting an inner
    collection (HeapHost.v).  Keys are plain. *)
From Coq Require Import List NArith Arith Lia Bool.
From Verif Require Import Base Spec SpecMap SparseModel HashModel HeapModel HeapList HeapHash HeapIn HeapHost HeapOfMap.
Import ListNotations.
Local Open Scope prog_scope.

(** The value in a cell: that of an entry (src/map/entry.rs 1-12) *)
Definition t_elem {K T} (c : tcell K T) : option T := match c with TE e => Some (snd e) | _ => None end.
Definition t_put {K T} (c : tcell K T) (x : T) : tcell K T := match c with TE e => TE (fst e, x) | _ => c end.

(** The calls that the maps have in common, and those of this one.  As in HeapHash.v the order of
    iteration is not specified; what a client sees of it is [NHSteps k], the size hint before each of
    [k] calls of [next] and whether there was an entry, and [NHCount l p], for how many of the entries
    delivered the key and what the calls [l] on a clone of the value show satisfy [p]. *)
Inductive nhop (K Q Op Out : Type) :=
| NHMap (o : nmop K Q Op)
| NHSteps (k : nat)
| NHCount (l : list Op) (p : K * list Out -> bool).
Arguments NHMap {K Q Op Out}.
Arguments NHSteps {K Q Op Out}.
Arguments NHCount {K Q Op Out}.
Inductive nhout (K Out : Type) :=
| NHOut (o : nmout K Out)
| NHHints (l : list (nat * bool))
| NHNum (n : nat).
Arguments NHOut {K Out}.
Arguments NHHints {K Out}.
Arguments NHNum {K Out}.

Section Of.
Variable ubits : N.
Variable dbg : bool.
Context {K Q : Type}.
Variable keq : K -> K -> bool.
Variable borrow : K -> Q.
Variable qeq : Q -> Q -> bool.
Variable hash : K -> N.
Variable qhash : Q -> N.
Variable fuel : nat.

(** The calls that the maps have in common *)
Definition ht_step {T} (o : map_op K T Q) (m : hht) : prog (tcell K T) (hht * map_obs K T) :=
  let* (m, r) := hh_step ubits dbg keq borrow qeq hash qhash fuel (TOp o) m in
  match r with TObs x => Ret (m, x) | _ => Fail end.

Context {C E Op Out : Type} (I : impl C E Op Out).
Notation B := (tcell K E).
Notation D := (dcell B C).
Notation P := (prog D).
Notation calls := (calls I t_elem).
Notation node_mut := (HeapHost.node_mut I t_elem tmake_mut).
Notation cell_mut := (HeapHost.node_mut I t_elem (make_mut tkids)).
Notation update := (update I t_elem tkids t_put).

(** hash_trie_map/mod.rs:520-541 and [value_mut] (691-693), and calls through the reference: as
    [tb_get_mut] *)
Definition wtb_get_mut (p : hewh -> prog B bool) (l : list Op) (c : B) : P (B * option (list Out)) :=
  match c with
  | TS e =>
      let* b := calls (p e) [] in
      if (b : bool) then let* (a, xs) := update l (fst e) in Ret (TS (a, snd e), Some xs)
      else Ret (c, None)
  | TC L =>
      let* (L', removed) := calls (tlist_remove_first L p) [] in
      match removed with
      | None => Ret (TC L', None)
      | Some e =>
          let* L2 := calls (tl_push e L') [] in
          match hl_head L2 with
          | None => Ret (TC L2, None)
          | Some a =>
              let* (a', n) := cell_mut a in
              match n with
              | TLN v nx =>
                  let* (v', d) := cell_mut v in
                  match d with
                  | TLE e' =>
                      let* (p', xs) := update l (fst e') in
                      Fill v' (DO (TLE (p', snd e'))) (Fill a' (DO (TLN v' nx))
                        (Ret (TC (mkHL (Some a') (hl_last L2) (hl_len L2)), Some xs)))
                  | _ => Fail
                  end
              | _ => Fail
              end
          end
      end
  | _ => Fail
  end.

(** hash_trie_map/mod.rs:274-297 *)
Fixpoint wtn_get_mut (f : nat) (q : Q) (h : N) (l : list Op) (c : B) (depth : nat) (degree : N) : P (B * option (list Out)) :=
  match f with
  | 0 => Fail
  | S f' =>
      match c with
      | TB s =>
          let* oi := lift (index_from_hash dbg h depth degree) in
          let* index := lift (unwrap oi) in
          let* o := lift (sa_get_mut ubits dbg s index) in
          match o with
          | None => Ret (c, None)
          | Some (p, write) =>
              let* (p', d) := node_mut p in
              let* (d', r) := wtn_get_mut f' q h l d (S depth) degree in
              Fill p' (DO d') (Ret (TB (write p'), r))
          end
      | _ => wtb_get_mut (tmatches (fun k => qeq (borrow k) q) h) l c
      end
  end.

(** hash_trie_map/mod.rs:900-911 *)
Definition wh_get_mut (m : hht) (q : Q) (l : list Op) : P (hht * option (list Out)) :=
  let* (r, c) := node_mut (hh_root m) in
  let* (c', x) := wtn_get_mut fuel q (qhash q) l c 0 (hh_degree m) in
  Fill r (DO c') (Ret (mkHH r (hh_size m) (hh_degree m), x)).

Definition seen (x : K * option (list Out)) : option (K * list Out) := option_map (pair (fst x)) (snd x).

Definition wh_step (o : nhop K Q Op Out) (m : hht) : P (hht * nhout K Out) :=
  match o with
  | NHMap o => let* (m, r) := wm_step I t_elem ht_step wh_get_mut o m in Ret (m, NHOut r)
  | NHSteps k =>
      let* (m, o) := calls (hh_step ubits dbg keq borrow qeq hash qhash fuel (TSteps k) m) [] in
      match o with THints hs => Ret (m, NHHints hs) | _ => Fail end
  | NHCount l p =>
      let* es := calls (hh_entries fuel m) [] in
      let* rs := peeks I l (map (fun e => (fst e, Some (snd e))) es) in
      Ret (m, NHNum (length (filter (fun x => match seen x with Some y => p y | None => false end) rs)))
  end.

(** As a collection again *)
Definition hash_map_of (degree : N) : impl D hht (nhop K Q Op Out) (nhout K Out) :=
  mkImpl (dkids I t_elem tkids) (fun m => [hh_root m]) (calls (hh_new ubits degree) []) (fun m => calls (hh_clone m) [])
    (fun m => calls (hh_drop m) []) wh_step.
End Of.

(** ** The same as plain values *)
Section Spec.
Context {V Op Out K Q : Type} (S : spec V Op Out).
Variable keq : K -> K -> bool.
Variable borrow : K -> Q.
Variable qeq : Q -> Q -> bool.

Definition wh_val (o : nhop K Q Op Out) (m : fmap K V) : fmap K V * nhout K Out :=
  match o with
  | NHMap o => (fst (wm_val S keq borrow qeq o m), NHOut (snd (wm_val S keq borrow qeq o m)))
  | NHSteps k => (m, NHHints (map (fun i => (length m - i, i <? length m)) (List.seq 0 k)))
  | NHCount l p => (m, NHNum (length (filter (fun kv => p (fst kv, snd (vrun S l (snd kv)))) m)))
  end.

Definition wh_pre (o : nhop K Q Op Out) (m : fmap K V) : Prop :=
  match o with
  | NHMap o => wm_pre S borrow qeq o m
  | NHSteps _ => True
  | NHCount l _ => Forall (fun kv => vmay S l (snd kv)) m
  end.

Definition hash_map_of_spec : spec (fmap K V) (nhop K Q Op Out) (nhout K Out) := mkSpec [] wh_val wh_pre.
End Spec.
