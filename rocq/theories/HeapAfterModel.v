(** * HashTrieMap on the shared heap, continued past the loss of entries

    The client of HeapCrashHash.v, but a version that has lost entries to a caught panic can be
    changed like any other.  The functions are those of HeapCrashHash.v; the flag they return, which
    is not in the crate, is dropped.  A removal that reaches the [unreachable!()] of
    hash_trie_map/mod.rs:621-623 unwinds ([xbk_remove]). *)
From Coq Require Import List NArith Arith Lia Bool.
From Verif Require Import Base Spec SpecMap ListModel SparseModel HashModel CrashModel HeapModel HeapList HeapVec HeapHash HeapCrashHash.
Import ListNotations.
Local Open Scope prog_scope.

Section YT.
Variable ubits : N.
Variable dbg : bool.
Context {K V Q : Type}.
Variable keq : K -> K -> bool.
Variable borrow : K -> Q.
Variable qeq : Q -> Q -> bool.
Variable hash : K -> N.
Variable qhash : Q -> N.
Variable fuel : nat.    (* call depth available to the recursive functions *)
Notation P := (prog (tcell K V)).

(** What a client sees of a call that may change its map ([yseen]) or only reads it ([yread]): the map
    and the answer, [None] if the call unwound. *)
Definition yseen {A} (p : P (crash (hht * bool) A)) (f : A -> hht * map_obs K V) : P (hht * option (map_obs K V)) :=
  let* r := p in
  match r with
  | Unwound m => Ret (fst m, None)
  | Done _ a => Ret (fst (f a), Some (snd (f a)))
  end.
(** A call that only reads: the map stays as it is. *)
Definition yread (m : hht) (p : P (crash unit (option (K * V)))) (f : option (K * V) -> map_obs K V)
  : P (hht * option (map_obs K V)) :=
  let* r := p in
  match r with
  | Unwound _ => Ret (m, None)
  | Done _ x => Ret (m, Some (f x))
  end.

(** One API call (hash_trie_map/mod.rs:762-911), the [n]-th user call of which (from 0) unwinds. *)
Definition yh_step (no : nat * map_op K V Q) (m : hht) : P (hht * option (map_obs K V)) :=
  let '(n, o) := no in
  match o with
  | MGet q => yread m (xh_get ubits dbg borrow qeq qhash fuel n m q) (fun x => MoVal (option_map snd x))
  | MGetKeyValue q => yread m (xh_get ubits dbg borrow qeq qhash fuel n m q) (fun x => MoKV x)
  | MContains q => yread m (xh_get ubits dbg borrow qeq qhash fuel n m q) (fun x => MoBool (is_some x))
  | MSize => Ret (m, Some (MoNat (hh_size m)))
  | MIsEmpty => Ret (m, Some (MoBool (hh_size m =? 0)))
  | MClone => let* c := hh_clone m in let* _ := hh_drop c in Ret (m, Some MoUnit)
  | MInsert k v => yseen (xh_insert ubits dbg keq hash fuel n m k v) (fun m => (m, MoUnit))
  | MInsertMut k v => yseen (xh_insert_mut ubits dbg keq hash fuel n m k v) (fun m => (m, MoUnit))
  | MRemove q => yseen (xh_remove ubits dbg borrow qeq qhash fuel n m q) (fun m => (m, MoUnit))
  | MRemoveMut q => yseen (xh_remove_mut ubits dbg borrow qeq qhash fuel n m q) (fun '(m, b) => (m, MoBool b))
  | MGetMut q g => yseen (xh_get_mut ubits dbg borrow qeq qhash fuel n m q g) (fun '(m, x) => (m, MoVal x))
  end.
End YT.
