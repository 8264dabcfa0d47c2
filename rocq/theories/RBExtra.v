(** Model of RedBlackTreeMap equality, ordering and hashing, and of RedBlackTreeSet
    (src/set/red_black_tree_set/mod.rs). *)
From Coq Require Import List NArith Arith Bool.
From Verif Require Import Base Spec SpecMap SpecOrd SpecTrait IterStd RBModel.
Import ListNotations.

Section Eq.
Context {K V : Type}.
Variable kcmp : K -> K -> comparison.

(** red_black_tree_map/mod.rs 1027-1033.  [same] is the outcome of [ptr_eq] (898-913): whether
    both roots are the same allocation, or both absent. *)
Definition rb_eq (veq : V -> V -> bool) (same : bool) (m other : rbmap K V) : res bool :=
  if same then Ok true
  else if negb (Nat.eqb (rb_size m) (rb_size other)) then Ok false
  else iter_all (it_next kcmp)
         (fun kv => Ok (match rb_get (fun k => k) kcmp other (fst kv) with Some v => veq (snd kv) v | None => false end))
         (S (rb_size m)) (it_new m).

(** 1049-1051; [PartialOrd] of pairs compares the keys, then the values *)
Definition rb_partial_cmp (vcmp : V -> V -> option comparison) (m other : rbmap K V) : res (option comparison) :=
  iter_partial_cmp (it_next kcmp) (it_next kcmp)
    (fun a b => match kcmp (fst a) (fst b) with Eq => vcmp (snd a) (snd b) | c => Some c end)
    (S (rb_size m)) (it_new m) (it_new other).
(** 1058-1060 *)
Definition rb_cmp (vcmp : V -> V -> comparison) (m other : rbmap K V) : res comparison :=
  iter_cmp (it_next kcmp) (it_next kcmp) (pair_cmp kcmp vcmp) (S (rb_size m)) (it_new m) (it_new other).

(** 1067-1076; the tuple of references hashes its first component, then its second *)
Definition rb_hash (hk : K -> feed) (hv : V -> feed) (m : rbmap K V) : res feed :=
  let! es := rb_entries kcmp m in
  Ok (HLen (rb_size m) :: concat (map (fun e => hk (fst e) ++ hv (snd e)) es)).
End Eq.

(** ** The set: red_black_tree_set/mod.rs 94-100, a map to unit *)
Section RSet.
Context {T Q : Type}.
Variable dbg : bool.
Variable tcmp : T -> T -> comparison.
Variable borrow : T -> Q.
Variable qcmp : Q -> Q -> comparison.

(** red_black_tree_set/mod.rs 94-100 *)
Definition rset : Type := rbmap T unit.

(** 104-131 *)
Definition rs_new : rset := rb_new.
(** 134-141 *)
Definition rs_insert (s : rset) (t : T) : res rset := rb_insert tcmp s t tt.
Definition rs_insert_mut (s : rset) (t : T) : res rset := rb_insert_mut tcmp s t tt.
(** 143-158 *)
Definition rs_remove (s : rset) (q : Q) : res rset := rb_remove dbg borrow qcmp s q.
Definition rs_remove_mut (s : rset) (q : Q) : res (rset * bool) := rb_remove_mut dbg borrow qcmp s q.
(** 160-167 *)
Definition rs_get (s : rset) (q : Q) : option T := option_map fst (rb_get_key_value borrow qcmp s q).
(** 169-176 *)
Definition rs_contains (s : rset) (q : Q) : bool := rb_contains_key borrow qcmp s q.
(** 178-186 *)
Definition rs_first (s : rset) : option T := option_map fst (rb_first s).
Definition rs_last (s : rset) : option T := option_map fst (rb_last s).
(** 255-265 *)
Definition rs_size (s : rset) : nat := rb_size s.
Definition rs_is_empty (s : rset) : bool := Nat.eqb (rs_size s) 0.

(** 267-269: [iter] is [keys] of the map *)
Definition si_next (i : rbiter T unit) : res (option T * rbiter T unit) :=
  let! (o, i) := it_next tcmp i in Ok (option_map fst o, i).
Definition si_next_back (i : rbiter T unit) : res (option T * rbiter T unit) :=
  let! (o, i) := it_next_back tcmp i in Ok (option_map fst o, i).
(** 271-278: [range] of the map, without the unit *)
Definition sr_next (i : riter T unit Q) : res (option T * riter T unit Q) :=
  let! (o, i) := ri_next tcmp borrow qcmp i in Ok (option_map fst o, i).
Definition sr_next_back (i : riter T unit Q) : res (option T * riter T unit Q) :=
  let! (o, i) := ri_next_back tcmp borrow qcmp i in Ok (option_map fst o, i).
(** 271-278 *)
Definition rs_range (s : rset) (sb eb : bound Q) : res (riter T unit Q) := rb_range qcmp s sb eb.

(** 390-404 and the macros 28-61 *)
Fixpoint rs_extend (s : rset) (ts : list T) : res rset :=
  match ts with
  | [] => Ok s
  | t :: r => let! s := rs_insert_mut s t in rs_extend s r
  end.
(** 390-404 *)
Definition rs_from_iter (ts : list T) : res rset := rs_extend rs_new ts.

(** One call of a history, dispatched to the functions above. *)
Definition rs_step (o : set_op T Q) (s : rset) : res (rset * set_obs T) :=
  match o with
  | SetInsert t => let! s := rs_insert s t in Ok (s, SetoUnit)
  | SetInsertMut t => let! s := rs_insert_mut s t in Ok (s, SetoUnit)
  | SetRemove q => let! s := rs_remove s q in Ok (s, SetoUnit)
  | SetRemoveMut q => let! (s, b) := rs_remove_mut s q in Ok (s, SetoBool b)
  | SetGet q => Ok (s, SetoElem (rs_get s q))
  | SetContains q => Ok (s, SetoBool (rs_contains s q))
  | SetSize => Ok (s, SetoNat (rs_size s))
  | SetIsEmpty => Ok (s, SetoBool (rs_is_empty s))
  | SetClone => Ok (s, SetoUnit)
  end.

(** The loop 200-206.  [fuel] bounds the number of rounds. *)
Fixpoint disjoint_loop (fuel : nat) (v_opt u_opt : option T) (self_it other_it : rbiter T unit) : res bool :=
  match fuel with
  | O => Diverge
  | S fuel =>
      match v_opt, u_opt with
      | Some v, Some u =>
          match tcmp v u with
          | Lt => let! (v_opt, self_it) := si_next self_it in disjoint_loop fuel v_opt u_opt self_it other_it
          | Eq => Ok false
          | Gt => let! (u_opt, other_it) := si_next other_it in disjoint_loop fuel v_opt u_opt self_it other_it
          end
      | _, _ => Ok true
      end
  end.
(** 188-208 *)
Definition rs_is_disjoint (s other : rset) : res bool :=
  let self_it := it_new s in
  let other_it := it_new other in
  let! (v_opt, self_it) := si_next self_it in
  let! (u_opt, other_it) := si_next other_it in
  disjoint_loop (S (rs_size s + rs_size other)) v_opt u_opt self_it other_it.

(** The inner loop 232-241: [None] is [return false], [Some] the iterator after [break] *)
Fixpoint subset_seek (fuel : nat) (v : T) (other_it : rbiter T unit) : res (option (rbiter T unit)) :=
  match fuel with
  | O => Diverge
  | S fuel =>
      let! (o, other_it) := si_next other_it in
      match o with
      | Some u => match tcmp u v with
                  | Lt => subset_seek fuel v other_it
                  | Eq => Ok (Some other_it)
                  | Gt => Ok None
                  end
      | None => Ok None
      end
  end.
(** The outer loop 231-242 *)
Fixpoint subset_loop (fuel fuel' : nat) (self_it other_it : rbiter T unit) : res bool :=
  match fuel with
  | O => Diverge
  | S fuel =>
      let! (o, self_it) := si_next self_it in
      match o with
      | None => Ok true
      | Some v =>
          let! r := subset_seek fuel' v other_it in
          match r with
          | None => Ok false
          | Some other_it => subset_loop fuel fuel' self_it other_it
          end
      end
  end.
(** 218-245; [same] as in [rb_eq] *)
Definition rs_is_subset (same : bool) (s other : rset) : res bool :=
  if same then Ok true
  else if Nat.ltb (rs_size other) (rs_size s) then Ok false
  else subset_loop (S (rs_size s)) (S (rs_size other)) (it_new s) (it_new other).
(** 247-253 *)
Definition rs_is_superset (same : bool) (s other : rset) : res bool := rs_is_subset same other s.

(** 307-309 *)
Definition rs_eq (same : bool) (s other : rset) : res bool := rb_eq tcmp (fun _ _ => true) same s other.
(** 324-326 (elements are [Ord], so comparable) and 333-335 *)
Definition rs_partial_cmp (s other : rset) : res (option comparison) :=
  iter_partial_cmp si_next si_next (fun a b => Some (tcmp a b)) (S (rs_size s)) (it_new s) (it_new other).
Definition rs_cmp (s other : rset) : res comparison :=
  iter_cmp si_next si_next tcmp (S (rs_size s)) (it_new s) (it_new other).
(** 342-351 *)
Definition rs_elems (s : rset) : res (list T) := collect si_next (S (rs_size s)) (it_new s).
Definition rs_hash (h : T -> feed) (s : rset) : res feed :=
  let! ts := rs_elems s in
  Ok (HLen (rs_size s) :: concat (map h ts)).
End RSet.
Arguments rset T : clear implicits.
