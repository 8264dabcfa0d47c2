(** HashTrieMap calls that unwind, continued past the loss of entries (src/map/hash_trie_map/mod.rs).

    The functions of CrashModel.v describe calls on maps that still are as a history of completed
    calls leaves them.  A caught panic may leave a collision bucket with one entry or none; then
    [remove] can reach its own [unreachable!()] (621-623), a panic like one of user code.  Here that
    panic unwinds as well, with the map left as it is then.  Only the removals differ: lookups,
    insertions and [get_mut] have no such panic, and their functions of CrashModel.v are used. *)
From Coq Require Import List NArith Arith Bool Lia.
From Verif Require Import Base Spec SpecMap SpecOrd ListModel SparseModel HashModel CrashModel.
Import ListNotations.

Section HashAfter.
Variable ubits : N.
Variable dbg : bool.
Context {K V Q : Type}.
Variable keq : K -> K -> bool.
Variable borrow : K -> Q.
Variable qeq : Q -> Q -> bool.
Variable hash : K -> N.
Variable qhash : Q -> N.
Local Open Scope N_scope.
Notation entry := (hentry K V).
Notation bucket := (hbucket K V).
Notation node := (hnode K V).

(** hash_trie_map/mod.rs 593-640.  When [unreachable!()] unwinds, the list has been emptied. *)
Definition a_b_remove (n : nat) (q : Q) (h : N) (b : bucket) : res (crash bucket (option bucket * bool)) :=
  match b with
  | BSingle e =>
      ask (same_hash h) (matches borrow qeq q h) n b e (fun n m =>
      if m : bool then Ok (Done n (None, true)) else Ok (Done n (Some b, false)))
  | BCollision l =>
      cbind (c_list_remove_first (same_hash h) (matches borrow qeq q h) n l) (fun l' => BCollision l')
        (fun n '(l', removed) =>
      match l_len l' with
      | 0%nat => Ok (Unwound (BCollision l'))
      | 1%nat =>
          let! e := unwrap (l_first l') in
          Ok (Done n (Some (BSingle e), is_some removed))
      | _ => Ok (Done n (Some (BCollision l'), is_some removed))
      end)
  end.

(** hash_trie_map/mod.rs 387-442 *)
Fixpoint a_hn_remove (fuel n : nat) (q : Q) (h : N) (nd : node) (depth : nat) (degree : N)
  : res (crash node (node * bool)) :=
  match fuel with
  | O => Diverge
  | S fuel' =>
      match nd with
      | HBranch s =>
          let! oi := index_from_hash dbg h depth degree in
          let! index := unwrap oi in
          let! o := sa_get_mut ubits dbg s index in
          match o with
          | None => Ok (Done n (nd, false))
          | Some (c, write) =>
              cbind (a_hn_remove fuel' n q h c (S depth) degree) (fun c' => HBranch (write c'))
                (fun n '(c', removed) =>
              let s' := write c' in
              let! empty := hn_is_empty dbg c' in
              match empty, removed with
              | _, false => Ok (Done n (HBranch s', false))
              | false, true => let! n' := hn_compress (HBranch s') in Ok (Done n (n', true))
              | true, true =>
                  let! s2 := sa_remove ubits dbg s' index in
                  let! n' := hn_compress (HBranch s2) in
                  Ok (Done n (n', true))
              end)
          end
      | HLeaf b =>
          cbind (a_b_remove n q h b) (fun b' => HLeaf b') (fun n '(ob, removed) =>
          Ok (Done n (match ob with None => new_empty_branch | Some b' => HLeaf b' end, removed)))
      end
  end.

Variable fuel : nat.

(** hash_trie_map/mod.rs 819-835 *)
Definition a_hm_remove_mut (n : nat) (m : hmap K V) (q : Q) : res (crash (hmap K V) (hmap K V * bool)) :=
  ucall n m (fun n =>
  cbind (a_hn_remove fuel n q (qhash q) (hm_root m) 0 (hm_degree m)) (hm_with m) (fun n '(root, removed) =>
  if removed : bool then
    let! size := csub (hm_size m) 1 in Ok (Done n (mkHM root size (hm_degree m), true))
  else Ok (Done n (mkHM root (hm_size m) (hm_degree m), false)))).

(** One API call; [insert] and [remove] (786-792, 804-817) work on a clone. *)
Definition a_hm_step (n : nat) (shared : bool) (o : map_op K V Q) (m : hmap K V)
  : res (crash (hmap K V) (hmap K V * map_obs K V)) :=
  match o with
  | MRemove q => cbind (a_hm_remove_mut n m q) (fun _ => m) (fun n '(m', removed) =>
                 Ok (Done n (if removed : bool then m' else m, MoUnit)))
  | MRemoveMut q => cbind (a_hm_remove_mut n m q) (fun m' => m') (fun n '(m', b) => Ok (Done n (m', MoBool b)))
  | _ => c_hm_step ubits dbg keq borrow qeq hash qhash fuel n shared o m
  end.
End HashAfter.
