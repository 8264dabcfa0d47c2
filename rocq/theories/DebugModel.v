(** * The derived [Debug] of all collections

    Every collection, and every type it is made of, derives [Debug]. *)
From Coq Require Import String List NArith Arith Bool.
From Verif Require Import Base SpecSerde ListModel VectorModel SparseModel HashModel HashExtra RBModel RBExtra.
Import ListNotations.
Local Open Scope string_scope.
Local Open Scope list_scope.

(** What is written: fixed text, an integer, or what the [Debug] of a part that the user supplies writes. *)
Inductive piece (X : Type) : Type := Str (s : string) | Num (n : N) | User (x : X).
Arguments Str {X}.
Arguments Num {X}.
Arguments User {X}.

(** A call of [Debug::fmt] together with the calls it makes, as [#[derive(Debug)]] expands to:
    [DOne] of a unit variant ([f.write_str]), an integer or a part of the user's;
    [DStruct] of a struct with named fields ([f.debug_struct]);
    [DTuple] of a variant with arguments ([f.debug_tuple]);
    [DSeq] of a [Vec] ([f.debug_list]).
    The [Debug] of a [SharedPointer] is that of what it points to (archery); it forwards and is not
    counted as a call here. *)
Inductive dcall (X : Type) : Type :=
| DOne (p : piece X)
| DStruct (name : string) (fields : list (string * dcall X))
| DTuple (name : string) (args : list (dcall X))
| DSeq (items : list (dcall X)).
Arguments DOne {X}.
Arguments DStruct {X}.
Arguments DTuple {X}.
Arguments DSeq {X}.

(** What [{:?}] writes, by core::fmt::builders ([DebugStruct], [DebugTuple], [DebugList], without the
    alternate flag): the opening is written with the first part, the closing if there was a part;
    a list always has its brackets. *)
Fixpoint written {X} (d : dcall X) : list (piece X) :=
  match d with
  | DOne p => [p]
  | DStruct name fields =>
      Str name ::
      (fix go first l :=
         match l with
         | [] => if first : bool then [] else [Str " }"]
         | (n, d) :: l' => Str (if first then " { " else ", ") :: Str n :: Str ": " :: written d ++ go false l'
         end) true fields
  | DTuple name args =>
      Str name ::
      (fix go first l :=
         match l with
         | [] => if first : bool then [] else [Str ")"]
         | d :: l' => Str (if first then "(" else ", ") :: written d ++ go false l'
         end) true args
  | DSeq items =>
      Str "[" ::
      (fix go first l :=
         match l with
         | [] => [Str "]"]
         | d :: l' => (if first : bool then [] else [Str ", "]) ++ written d ++ go false l'
         end) true items
  end.

(** The same with a sink that may fail: [emit] passes a piece on to the formatter.  The builders keep the
    result so far and go on with [and_then]; so nothing is written, and no [Debug] of the user's is called,
    after the first error. *)
Definition and_then {W} (a b : action W) : action W := fun w =>
  let! (w, ok) := a w in if ok : bool then b w else Ok (w, false).
Fixpoint fmt_into {X W} (emit : piece X -> action W) (d : dcall X) : action W :=
  match d with
  | DOne p => emit p
  | DStruct name fields =>
      and_then (emit (Str name))
        ((fix go first l :=
           match l with
           | [] => if first : bool then (fun w => Ok (w, true)) else emit (Str " }")
           | (n, d) :: l' =>
               and_then (emit (Str (if first then " { " else ", ")))
                 (and_then (emit (Str n)) (and_then (emit (Str ": ")) (and_then (fmt_into emit d) (go false l'))))
           end) true fields)
  | DTuple name args =>
      and_then (emit (Str name))
        ((fix go first l :=
           match l with
           | [] => if first : bool then (fun w => Ok (w, true)) else emit (Str ")")
           | d :: l' => and_then (emit (Str (if first then "(" else ", "))) (and_then (fmt_into emit d) (go false l'))
           end) true args)
  | DSeq items =>
      and_then (emit (Str "["))
        ((fix go first l :=
           match l with
           | [] => emit (Str "]")
           | d :: l' => and_then (if first : bool then (fun w => Ok (w, true)) else emit (Str ", ")) (and_then (fmt_into emit d) (go false l'))
           end) true items)
  end.

(** How many calls of [Debug::fmt] are active at once, at most: this call, and the deepest it makes. *)
Fixpoint nesting {X} (d : dcall X) : nat :=
  match d with
  | DOne _ => 1
  | DStruct _ fields => S (list_max (map (fun f => nesting (snd f)) fields))
  | DTuple _ args => S (list_max (map nesting args))
  | DSeq items => S (list_max (map nesting items))
  end.

Section Debug.
Context {X : Type}.
Notation call := (dcall X).

(** [Debug] of an integer, core *)
Definition d_num (n : N) : call := DOne (Num n).
(** [derive(Debug)] of a unit variant: [write_str] of its name, core *)
Definition d_unit (name : string) : call := DOne (Str name).
(** [Option] of core *)
Definition d_none : call := d_unit "None".
Definition d_some (d : call) : call := DTuple "Some" [d].

Section Seq.
Context {T : Type}.
Variable tdebug : T -> call.

(** list/mod.rs 117-124, and the [Option] around it *)
Fixpoint debug_chain (s : list T) : call :=
  match s with
  | [] => d_none
  | v :: next => d_some (DStruct "Node" [("value", tdebug v); ("next", debug_chain next)])
  end.
(** list/mod.rs 107-115 *)
Definition debug_list (l : rlist T) : call :=
  DStruct "List"
    [("head", debug_chain (l_head l));
     ("last", match l_last l with Some v => d_some (tdebug v) | None => d_none end);
     ("length", d_num (N.of_nat (l_length l)))].
(** stack/mod.rs 90-96 *)
Definition debug_stack (s : rstack T) : call := DStruct "Stack" [("list", debug_list (s_list s))].
(** queue/mod.rs 96-103 *)
Definition debug_queue (q : rqueue T) : call :=
  DStruct "Queue" [("in_list", debug_list (q_in q)); ("out_list", debug_list (q_out q))].

(** vector/mod.rs 106-113 *)
Fixpoint debug_vnode (n : vnode T) : call :=
  match n with
  | VBranch a => DTuple "Branch" [DSeq (map debug_vnode a)]
  | VLeaf a => DTuple "Leaf" [DSeq (map tdebug a)]
  end.
(** vector/mod.rs 94-102 *)
Definition debug_vector (v : rvec T) : call :=
  DStruct "Vector" [("root", debug_vnode (v_root v)); ("bits", d_num (v_bits v)); ("length", d_num (v_length v))].
End Seq.

Section Map.
Context {K V : Type}.
Variable kdebug : K -> call.
Variable vdebug : V -> call.

(** map/entry.rs 1-5 *)
Definition debug_entry (e : K * V) : call := DStruct "Entry" [("key", kdebug (fst e)); ("value", vdebug (snd e))].

(** red_black_tree_map/mod.rs 113-117 *)
Definition debug_color (c : color) : call := d_unit (match c with Red => "Red" | Black => "Black" end).
(** red_black_tree_map/mod.rs 119-128, and the [Option] around it *)
Fixpoint debug_tree (t : tree K V) : call :=
  match t with
  | Leaf => d_none
  | Tree e c l r =>
      d_some (DStruct "Node" [("entry", debug_entry e); ("color", debug_color c); ("left", debug_tree l); ("right", debug_tree r)])
  end.
(** red_black_tree_map/mod.rs 102-109 *)
Definition debug_rb_map (m : rbmap K V) : call :=
  DStruct "RedBlackTreeMap" [("root", debug_tree (rb_root m)); ("size", d_num (N.of_nat (rb_size m)))].

(** hash_trie_map/mod.rs 201-208 *)
Definition debug_hentry (e : hentry K V) : call :=
  DStruct "EntryWithHash" [("entry", debug_entry (e_key e, e_val e)); ("key_hash", d_num (e_hash e))].
(** hash_trie_map/mod.rs 192-199 *)
Definition debug_bucket (b : hbucket K V) : call :=
  match b with
  | BSingle e => DTuple "Single" [debug_hentry e]
  | BCollision l => DTuple "Collision" [debug_list debug_hentry l]
  end.
(** hash_trie_map/mod.rs 183-190, sparse_array_usize/mod.rs 7-11 *)
Fixpoint debug_hnode (n : hnode K V) : call :=
  match n with
  | HBranch s =>
      DTuple "Branch"
        [DStruct "SparseArrayUsize" [("bitmap", d_num (sa_bitmap s)); ("array", DSeq (map debug_hnode (sa_array s)))]]
  | HLeaf b => DTuple "Leaf" [debug_bucket b]
  end.
(** hash_trie_map/mod.rs 116-125; [hasher] is the call for the hasher builder *)
Definition debug_hash_map (hasher : call) (m : hmap K V) : call :=
  DStruct "HashTrieMap"
    [("root", debug_hnode (hm_root m)); ("size", d_num (N.of_nat (hm_size m))); ("degree", d_num (hm_degree m));
     ("hasher_builder", hasher)].
End Map.

(** [()] of core *)
Definition debug_void (u : unit) : call := d_unit "()".
(** red_black_tree_set/mod.rs 93-100 *)
Definition debug_rb_set {T} (tdebug : T -> call) (s : rset T) : call :=
  DStruct "RedBlackTreeSet" [("map", debug_rb_map tdebug debug_void s)].
(** hash_trie_set/mod.rs 92-100 *)
Definition debug_hash_set {T} (tdebug : T -> call) (hasher : call) (s : hset T) : call :=
  DStruct "HashTrieSet" [("map", debug_hash_map tdebug debug_void hasher s)].
End Debug.
