(** Specification of maps: association lists read as finite maps, with keys up to [==]. *)
From Coq Require Import List NArith Arith Bool Lia Permutation.
From Verif Require Import Base Spec.
Import ListNotations.

(** The contract of [Eq] and [Borrow<Q>]: the equality of the borrowed form is an equivalence
    and the key's own equality agrees with it.  Keys may be equal without being identical. *)
Record key_laws {K Q : Type} (keq : K -> K -> bool) (borrow : K -> Q) (qeq : Q -> Q -> bool) : Prop := {
  kl_refl : forall a, qeq a a = true;
  kl_sym : forall a b, qeq a b = true -> qeq b a = true;
  kl_trans : forall a b c, qeq a b = true -> qeq b c = true -> qeq a c = true;
  kl_borrow : forall a b, keq a b = qeq (borrow a) (borrow b)
}.

(** The contract of [Hash]: equal keys have equal hashes, through the borrowed form too; a
    hash is a u64. *)
Record hash_laws {K Q : Type} (borrow : K -> Q) (qeq : Q -> Q -> bool)
  (hash : K -> N) (qhash : Q -> N) : Prop := {
  hl_borrow : forall k, hash k = qhash (borrow k);
  hl_eq : forall a b, qeq a b = true -> qhash a = qhash b;
  hl_range : forall q, (qhash q < 2 ^ 64)%N
}.

Section Map.
Context {K V Q : Type}.
Variable keq : K -> K -> bool.
Variable borrow : K -> Q.
Variable qeq : Q -> Q -> bool.

Definition fmap : Type := list (K * V).

(** No two entries with equal keys. *)
Definition unique_keys (m : fmap) : Prop :=
  ForallOrdPairs (fun a b => keq (fst a) (fst b) = false) m.

Definition fm_find (q : Q) (m : fmap) : option (K * V) :=
  find (fun kv => qeq (borrow (fst kv)) q) m.
Definition fm_insert (k : K) (v : V) (m : fmap) : fmap :=
  (k, v) :: filter (fun kv => negb (keq (fst kv) k)) m.
Definition fm_remove (q : Q) (m : fmap) : fmap :=
  filter (fun kv => negb (qeq (borrow (fst kv)) q)) m.
Definition fm_modify (q : Q) (f : V -> V) (m : fmap) : fmap :=
  map (fun kv => if qeq (borrow (fst kv)) q then (fst kv, f (snd kv)) else kv) m.

Inductive map_op : Type :=
| MInsert (k : K) (v : V) | MInsertMut (k : K) (v : V)
| MRemove (q : Q) | MRemoveMut (q : Q)
| MGetMut (q : Q) (f : V -> V)    (* write [f] of the old value through the reference *)
| MGet (q : Q) | MGetKeyValue (q : Q) | MContains (q : Q)
| MSize | MIsEmpty | MClone.

Inductive map_obs : Type :=
| MoUnit | MoBool (b : bool) | MoNat (n : nat) | MoVal (o : option V) | MoKV (o : option (K * V)).

Definition is_some {A} (o : option A) : bool := match o with Some _ => true | None => false end.

Definition map_spec (o : map_op) (m : fmap) : fmap * map_obs :=
  match o with
  | MInsert k v | MInsertMut k v => (fm_insert k v m, MoUnit)
  | MRemove q => (fm_remove q m, MoUnit)
  | MRemoveMut q => (fm_remove q m, MoBool (is_some (fm_find q m)))
  | MGetMut q f => (fm_modify q f m, MoVal (option_map snd (fm_find q m)))
  | MGet q => (m, MoVal (option_map snd (fm_find q m)))
  | MGetKeyValue q => (m, MoKV (fm_find q m))
  | MContains q => (m, MoBool (is_some (fm_find q m)))
  | MSize => (m, MoNat (length m))
  | MIsEmpty => (m, MoBool (is_nil m))
  | MClone => (m, MoUnit)
  end.
End Map.
Arguments MInsert {K V Q} k v. Arguments MInsertMut {K V Q} k v.
Arguments MRemove {K V Q} q. Arguments MRemoveMut {K V Q} q. Arguments MGetMut {K V Q} q f.
Arguments MGet {K V Q} q. Arguments MGetKeyValue {K V Q} q. Arguments MContains {K V Q} q.
Arguments MSize {K V Q}. Arguments MIsEmpty {K V Q}. Arguments MClone {K V Q}.
Arguments MoUnit {K V}. Arguments MoBool {K V} b. Arguments MoNat {K V} n.
Arguments MoVal {K V} o. Arguments MoKV {K V} o.
Arguments map_op K V Q : clear implicits.
Arguments map_obs K V : clear implicits.
Arguments fmap K V : clear implicits.

(** ** Sets: lists without equal elements. *)
Section Set_.
Context {T Q : Type}.
Variable teq : T -> T -> bool.
Variable borrow : T -> Q.
Variable qeq : Q -> Q -> bool.

Definition set_find (q : Q) (s : list T) : option T := find (fun t => qeq (borrow t) q) s.

Inductive set_op : Type :=
| SetInsert (t : T) | SetInsertMut (t : T) | SetRemove (q : Q) | SetRemoveMut (q : Q)
| SetGet (q : Q) | SetContains (q : Q) | SetSize | SetIsEmpty | SetClone.
Inductive set_obs : Type :=
| SetoUnit | SetoBool (b : bool) | SetoNat (n : nat) | SetoElem (o : option T).

Definition set_spec (o : set_op) (s : list T) : list T * set_obs :=
  match o with
  | SetInsert t | SetInsertMut t => (t :: filter (fun x => negb (teq x t)) s, SetoUnit)
  | SetRemove q => (filter (fun x => negb (qeq (borrow x) q)) s, SetoUnit)
  | SetRemoveMut q => (filter (fun x => negb (qeq (borrow x) q)) s, SetoBool (is_some (set_find q s)))
  | SetGet q => (s, SetoElem (set_find q s))
  | SetContains q => (s, SetoBool (is_some (set_find q s)))
  | SetSize => (s, SetoNat (length s))
  | SetIsEmpty => (s, SetoBool (is_nil s))
  | SetClone => (s, SetoUnit)
  end.

(** Membership up to [==], and the set relations. *)
Definition has (s : list T) (x : T) : Prop := exists y, In y s /\ teq x y = true.
Definition subset (s1 s2 : list T) : Prop := forall x, has s1 x -> has s2 x.
Definition disjoint (s1 s2 : list T) : Prop := forall x, ~ (has s1 x /\ has s2 x).
Definition set_equal (s1 s2 : list T) : Prop := forall x, has s1 x <-> has s2 x.
End Set_.
Arguments SetInsert {T Q} t. Arguments SetInsertMut {T Q} t. Arguments SetRemove {T Q} q.
Arguments SetRemoveMut {T Q} q. Arguments SetGet {T Q} q. Arguments SetContains {T Q} q.
Arguments SetSize {T Q}. Arguments SetIsEmpty {T Q}. Arguments SetClone {T Q}.
Arguments SetoUnit {T}. Arguments SetoBool {T} b. Arguments SetoNat {T} n. Arguments SetoElem {T} o.
Arguments set_op T Q : clear implicits.
Arguments set_obs T : clear implicits.

(** ** Equality of maps as finite functions: every key is bound in both or in neither, and
    to equal values. *)
Definition fm_equal {K V} (keq : K -> K -> bool) (veq : V -> V -> bool) (m1 m2 : fmap K V) : Prop :=
  forall k, match find (fun x => keq (fst x) k) m1, find (fun x => keq (fst x) k) m2 with
            | Some a, Some c => veq (snd a) (snd c) = true
            | None, None => True
            | _, _ => False
            end.

(** ** Parallel iteration.  A schedule is a tree of split decisions.  At a leaf a folder
    processes a share; the folder's [full] answer is an arbitrary function of what it has
    consumed so far.  [SSkip]: the consumer was already full, nothing is consumed.  At
    [SSplit] the producer may decline to split, and then the third component folds. *)
Inductive schedule (A : Type) : Type :=
| SFold (full : list A -> bool)
| SSkip
| SSplit (l r : schedule A) (full : list A -> bool).
Arguments SFold {A} full. Arguments SSkip {A}. Arguments SSplit {A} l r full.

(** Consume until full (checked after each element). *)
Fixpoint until_full {A} (full : list A -> bool) (log l : list A) : list A :=
  match l with
  | [] => log
  | a :: l' => if full (log ++ [a]) then log ++ [a] else until_full full (log ++ [a]) l'
  end.

(** [delivers t l outs]: running schedule [t] over the sequence [l] hands the folders the
    consecutive shares of [l], each folder keeping the prefix of its share up to fullness. *)
Fixpoint delivers {A} (t : schedule A) (l : list A) (outs : list (list A)) : Prop :=
  match t with
  | SFold full => outs = [until_full full [] l]
  | SSkip => outs = [[]]
  | SSplit t1 t2 full =>
      outs = [until_full full [] l] \/
      exists l1 l2 o1 o2, l = l1 ++ l2 /\ outs = o1 ++ o2 /\ delivers t1 l1 o1 /\ delivers t2 l2 o2
  end.

(** No folder is ever full. *)
Fixpoint never_full {A} (t : schedule A) : Prop :=
  match t with
  | SFold full => forall l, full l = false
  | SSkip => False
  | SSplit t1 t2 full => never_full t1 /\ never_full t2 /\ forall l, full l = false
  end.
