(** Model of src/map/hash_trie_map/sparse_array_usize/mod.rs. *)
From Coq Require Import List NArith Arith Bool Lia.
From Verif Require Import Base Spec.
Import ListNotations.

(** sparse_array_usize/mod.rs 7-11 *)
Record sarr (A : Type) : Type := mkSA {
  sa_bitmap : N;        (* usize *)
  sa_array : list A
}.
Arguments mkSA {A} _ _.
Arguments sa_bitmap {A} _.
Arguments sa_array {A} _.

(** [usize::count_ones] *)
Fixpoint pos_count_ones (p : positive) : nat :=
  match p with
  | xH => 1
  | xO q => pos_count_ones q
  | xI q => S (pos_count_ones q)
  end.
(** [usize::count_ones], core; used in sparse_array_usize/mod.rs 26, 86 *)
Definition count_ones (n : N) : nat :=
  match n with N0 => 0 | Npos p => pos_count_ones p end.

(** [Vec::insert], panics when [i > len] *)
Fixpoint vec_insert {A} (i : nat) (x : A) (l : list A) : res (list A) :=
  match i, l with
  | O, _ => Ok (x :: l)
  | S _, [] => Panic
  | S i', y :: l' => let! r := vec_insert i' x l' in Ok (y :: r)
  end.

(** [Vec::remove], panics when [i >= len] *)
Fixpoint vec_remove {A} (i : nat) (l : list A) : res (list A) :=
  match l, i with
  | [], _ => Panic
  | _ :: l', O => Ok l'
  | y :: l', S i' => let! r := vec_remove i' l' in Ok (y :: r)
  end.

(** [a[i] = x], panics when [i >= len] *)
Fixpoint vec_store {A} (i : nat) (x : A) (l : list A) : res (list A) :=
  match l, i with
  | [], _ => Panic
  | _ :: l', O => Ok (x :: l')
  | y :: l', S i' => let! r := vec_store i' x l' in Ok (y :: r)
  end.

Section Sparse.
Variable ubits : N.
Variable dbg : bool.
Context {A : Type}.
Local Open Scope N_scope.

(** sparse_array_usize/mod.rs 22-27 *)
Definition rank (bitmap virtual_index : N) : res nat :=
  let! one := ushl ubits dbg 1 virtual_index in
  let! mask := usub ubits dbg one 1 in
  Ok (count_ones (N.land bitmap mask)).

(** sparse_array_usize/mod.rs 13-19 *)
Definition map_index (bitmap virtual_index : N) : res (option nat) :=
  let! one := ushl ubits dbg 1 virtual_index in
  if N.land bitmap one =? 0 then Ok None
  else let! r := rank bitmap virtual_index in Ok (Some r).

(** sparse_array_usize/mod.rs 30-32 *)
Definition sa_new : sarr A := mkSA 0 [].

(** sparse_array_usize/mod.rs 34-39 *)
Definition sa_get (s : sarr A) (index : N) : res (option A) :=
  let! _ := debug_assert dbg (index <? ubits) in
  let! o := map_index (sa_bitmap s) index in
  match o with
  | None => Ok None
  | Some i => let! x := unwrap (nth_error (sa_array s) i) in Ok (Some x)
  end.

(** sparse_array_usize/mod.rs 41-46.  The mutable reference is modelled as the value it
    points to together with the function that writes a new value through it. *)
Definition sa_get_mut (s : sarr A) (index : N) : res (option (A * (A -> sarr A))) :=
  let! _ := debug_assert dbg (index <? ubits) in
  let! o := map_index (sa_bitmap s) index in
  match o with
  | None => Ok None
  | Some i =>
      let! x := unwrap (nth_error (sa_array s) i) in
      Ok (Some (x, fun x' => mkSA (sa_bitmap s) (map_at (fun _ => x') i (sa_array s))))
  end.

(** sparse_array_usize/mod.rs 48-56 *)
Definition sa_first (s : sarr A) : option A := hd_error (sa_array s).
Definition sa_pop (s : sarr A) : sarr A * option A :=
  (mkSA (sa_bitmap s) (removelast (sa_array s)), last_error (sa_array s)).

(** sparse_array_usize/mod.rs 58-61 *)
Definition sa_as_slice (s : sarr A) : list A := sa_array s.

(** sparse_array_usize/mod.rs 63-75 *)
Definition sa_set (s : sarr A) (index : N) (value : A) : res (sarr A) :=
  let! _ := debug_assert dbg (index <? ubits) in
  let! o := map_index (sa_bitmap s) index in
  match o with
  | Some i => let! a := vec_store i value (sa_array s) in Ok (mkSA (sa_bitmap s) a)
  | None =>
      let! i := rank (sa_bitmap s) index in
      let! one := ushl ubits dbg 1 index in
      let! a := vec_insert i value (sa_array s) in
      Ok (mkSA (N.lor (sa_bitmap s) one) a)
  end.

(** sparse_array_usize/mod.rs 77-82 *)
Definition sa_remove (s : sarr A) (index : N) : res (sarr A) :=
  let! o := map_index (sa_bitmap s) index in
  match o with
  | None => Ok s
  | Some i =>
      let! one := ushl ubits dbg 1 index in
      let! a := vec_remove i (sa_array s) in
      Ok (mkSA (N.lxor (sa_bitmap s) one) a)
  end.

(** sparse_array_usize/mod.rs 84-87 *)
Definition sa_size (s : sarr A) : nat := count_ones (sa_bitmap s).

(** sparse_array_usize/mod.rs 89-91 *)
Definition sa_iter (s : sarr A) : list A := sa_array s.

(** sparse_array_usize/mod.rs 94-105; the capacity is not modelled *)
Definition sa_clone (s : sarr A) : sarr A := mkSA (sa_bitmap s) (sa_array s).

(** Dispatch of one call. *)
Definition sa_step (o : sparse_op A) (s : sarr A) : res (sarr A * sparse_obs A) :=
  match o with
  | SpSet i x => let! s' := sa_set s i x in Ok (s', SpoUnit)
  | SpRemove i => let! s' := sa_remove s i in Ok (s', SpoUnit)
  | SpGetMut i f =>
      let! o := sa_get_mut s i in
      Ok (match o with None => (s, SpoElem None) | Some (x, w) => (w (f x), SpoElem (Some x)) end)
  | SpGet i => let! o := sa_get s i in Ok (s, SpoElem o)
  | SpFirst => Ok (s, SpoElem (sa_first s))
  | SpSize => Ok (s, SpoNat (sa_size s))
  | SpIter => Ok (s, SpoList (sa_iter s))
  | SpClone => Ok (sa_clone s, SpoUnit)
  end.
End Sparse.
