(** Specification of a map whose user code keeps no law: what one call may do to the list of
    entries, and what it may answer. *)
From Coq Require Import List Bool Permutation.
From Verif Require Import Base Spec SpecMap.
Import ListNotations.

Section Lists.
Context {A : Type}.
(** [l'] is [l] with [x] put in somewhere; with one [y] replaced by [x]; with one [y] taken out. *)
Definition one_more (x : A) (l l' : list A) : Prop := exists a b, l = a ++ b /\ l' = a ++ x :: b.
Definition one_swapped (y x : A) (l l' : list A) : Prop := exists a b, l = a ++ y :: b /\ l' = a ++ x :: b.
Definition one_less (y : A) (l l' : list A) : Prop := exists a b, l = a ++ y :: b /\ l' = a ++ b.
End Lists.

(** What a call heard from the user's comparisons: no key was said to be equal, the key [k] of
    the map was said to be equal, user code panicked. *)
Inductive heard (K : Type) : Type :=
| Nothing
| Match (k : K)
| Thrown.
Arguments Nothing {K}.
Arguments Match {K} k.
Arguments Thrown {K}.

(** The questions of one call, in order: the key of the map that was compared and the answer,
    [None] being a panic.  The call stops at the first "equal" and at a panic. *)
Definition unequal {K} (p : K * option comparison) : Prop := snd p = Some Lt \/ snd p = Some Gt.
Definition said {K} (log : list (K * option comparison)) (h : heard K) : Prop :=
  match h with
  | Nothing => Forall unequal log
  | Match k => exists l, log = l ++ [(k, Some Eq)] /\ Forall unequal l
  | Thrown => exists l k, log = l ++ [(k, None)] /\ Forall unequal l
  end.

Section Loose.
Context {K V Q : Type}.
(** [copy e e']: cloning [e] may give [e']. *)
Variable copy : K * V -> K * V -> Prop.

Definition asks (o : map_op K V Q) : Prop :=
  match o with MSize | MIsEmpty | MClone => False | _ => True end.

(** One call with its answer; [None]: user code panicked.  [shared]: the entry that [get_mut]
    hands out has other owners, so that it is cloned. *)
Inductive loose (shared : bool) : map_op K V Q -> heard K -> list (K * V) -> option (map_obs K V) -> list (K * V) -> Prop :=
| lo_thrown : forall o es, asks o -> loose shared o Thrown es None es
| lo_add : forall o k v es es', o = MInsert k v \/ o = MInsertMut k v ->
    one_more (k, v) es es' -> loose shared o Nothing es (Some MoUnit) es'
| lo_replace : forall o k v k0 v0 es es', o = MInsert k v \/ o = MInsertMut k v ->
    one_swapped (k0, v0) (k, v) es es' -> loose shared o (Match k0) es (Some MoUnit) es'
| lo_removed : forall q k0 v0 es es', one_less (k0, v0) es es' ->
    loose shared (MRemove q) (Match k0) es (Some MoUnit) es'
| lo_removed_mut : forall q k0 v0 es es', one_less (k0, v0) es es' ->
    loose shared (MRemoveMut q) (Match k0) es (Some (MoBool true)) es'
| lo_kept : forall q es, loose shared (MRemove q) Nothing es (Some MoUnit) es
| lo_kept_mut : forall q es, loose shared (MRemoveMut q) Nothing es (Some (MoBool false)) es
| lo_written : forall q f k0 v0 e' es es', (if shared then copy (k0, v0) e' else e' = (k0, v0)) ->
    one_swapped (k0, v0) (fst e', f (snd e')) es es' ->
    loose shared (MGetMut q f) (Match k0) es (Some (MoVal (Some (snd e')))) es'
| lo_no_clone : forall q f k0 v0 es, shared = true -> In (k0, v0) es ->
    loose shared (MGetMut q f) (Match k0) es None es
| lo_not_written : forall q f es, loose shared (MGetMut q f) Nothing es (Some (MoVal None)) es
| lo_get : forall q k0 v0 es, In (k0, v0) es -> loose shared (MGet q) (Match k0) es (Some (MoVal (Some v0))) es
| lo_get_none : forall q es, loose shared (MGet q) Nothing es (Some (MoVal None)) es
| lo_kv : forall q k0 v0 es, In (k0, v0) es ->
    loose shared (MGetKeyValue q) (Match k0) es (Some (MoKV (Some (k0, v0)))) es
| lo_kv_none : forall q es, loose shared (MGetKeyValue q) Nothing es (Some (MoKV None)) es
| lo_contains : forall q k0 v0 es, In (k0, v0) es ->
    loose shared (MContains q) (Match k0) es (Some (MoBool true)) es
| lo_contains_not : forall q es, loose shared (MContains q) Nothing es (Some (MoBool false)) es
| lo_size : forall es, loose shared MSize Nothing es (Some (MoNat (length es))) es
| lo_is_empty : forall es, loose shared MIsEmpty Nothing es (Some (MoBool (is_nil es))) es
| lo_clone : forall es, loose shared MClone Nothing es (Some MoUnit) es.

(** Histories; [same]: which lists of entries are told apart. *)
Variable same : list (K * V) -> list (K * V) -> Prop.
Inductive loose_hist : list (bool * map_op K V Q) -> list (K * V) -> list (option (map_obs K V)) -> list (K * V) -> Prop :=
| lh_done : forall es es', same es es' -> loose_hist [] es [] es'
| lh_call : forall shared o ops h es es0 a es1 l es2, same es es0 -> loose shared o h es0 a es1 ->
    loose_hist ops es1 l es2 -> loose_hist ((shared, o) :: ops) es (a :: l) es2.
End Loose.

(** ** Iteration *)
(** [l'] is [l] with some items left out. *)
Inductive thinned {A} : list A -> list A -> Prop :=
| th_nil : thinned [] []
| th_keep : forall x l' l, thinned l' l -> thinned (x :: l') (x :: l)
| th_drop : forall x l' l, thinned l' l -> thinned l' (x :: l).

(** The items that the calls in direction [d] gave, in the order of the calls. *)
Fixpoint items {A} (d : bool) (ds : list bool) (outs : list (option (option A))) : list A :=
  match ds, outs with
  | b :: ds, o :: outs =>
      match o with
      | Some (Some x) => if Bool.eqb b d then x :: items d ds outs else items d ds outs
      | _ => items d ds outs
      end
  | _, _ => []
  end.
