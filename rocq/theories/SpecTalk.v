(** Conversations with user code: what a call asks, what it is answered, and what it makes of
    it. *)
From Coq Require Import List NArith Arith Bool.
From Verif Require Import Base.
Import ListNotations.

(** User code [ask] is asked one question after the other; [None] is a panic. *)
Inductive talk {W X A : Type} (ask : W -> X -> W * option A) : W -> list (X * option A) -> W -> Prop :=
| talk_nil : forall w, talk ask w [] w
| talk_cons : forall w x a w1 l w2, ask w x = (w1, a) -> talk ask w1 l w2 -> talk ask w ((x, a) :: l) w2.

(** The last question got the answer [a]. *)
Definition ended {X A} (l : list (X * A)) (a : A) : Prop := exists l' x, l = l' ++ [(x, a)].

(** How often the answer was [c]. *)
Definition heard {X} (c : comparison) (l : list (X * option comparison)) : nat :=
  length (filter (fun q => match snd q, c with
                           | Some Lt, Lt | Some Eq, Eq | Some Gt, Gt => true
                           | _, _ => false
                           end) l).

(** ** Two sequences compared item by item *)
Section Items.
Context {A B R : Type}.
Variable equal : R -> bool.
Variable ends : comparison -> R.
(** Question number [i] is about the items number [i]; all but the last are answered "equal". *)
Definition in_step (l1 : list A) (l2 : list B) (l : list ((A * B) * option R)) : Prop :=
  forall i a b r, nth_error l i = Some ((a, b), r) ->
    nth_error l1 i = Some a /\ nth_error l2 i = Some b /\
    (S i < length l -> exists x, r = Some x /\ equal x = true).
(** [None]: user code panicked. *)
Definition verdict (l1 : list A) (l2 : list B) (l : list ((A * B) * option R)) (o : option R) : Prop :=
  match o with
  | None => ended l None
  | Some r =>
      ended l (Some r) /\ equal r = false \/
      r = ends (length l1 ?= length l2) /\ length l = Nat.min (length l1) (length l2) /\
        forall q, In q l -> exists x, snd q = Some x /\ equal x = true
  end.
End Items.

(** ** [is_disjoint] and [is_subset] of ordered sets *)
Section Sets.
Context {T : Type}.
(** Every question is about the items that are next: the first [k] items of a side are behind
    after [k] answers that moved it on.  After "equal" or a panic no question follows. *)
Definition side_by_side (s o : list T) (l : list ((T * T) * option comparison)) : Prop :=
  forall i v u a, nth_error l i = Some ((v, u), a) ->
    nth_error s (heard Lt (firstn i l)) = Some v /\ nth_error o (heard Gt (firstn i l)) = Some u /\
    (S i < length l -> a = Some Lt \/ a = Some Gt).
Definition disjoint_verdict (s o : list T) (l : list ((T * T) * option comparison)) (x : option bool) : Prop :=
  match x with
  | None => ended l None
  | Some false => ended l (Some Eq)
  | Some true => heard Eq l = 0 /\ ~ ended l None /\ (heard Lt l = length s \/ heard Gt l = length o)
  end.
(** Question number [i] is about item number [i] of [o] and the first item of [s] not found
    yet.  After "greater" or a panic no question follows. *)
Definition sweeping (s o : list T) (l : list ((T * T) * option comparison)) : Prop :=
  forall i u v a, nth_error l i = Some ((u, v), a) ->
    nth_error o i = Some u /\ nth_error s (heard Eq (firstn i l)) = Some v /\
    (S i < length l -> a = Some Lt \/ a = Some Eq).
Definition subset_verdict (s o : list T) (l : list ((T * T) * option comparison)) (x : option bool) : Prop :=
  match x with
  | None => ended l None
  | Some false => ended l (Some Gt) \/ length l = length o /\ heard Eq l < length s /\ heard Gt l = 0 /\ ~ ended l None
  | Some true => heard Eq l = length s /\ heard Gt l = 0 /\ ~ ended l None
  end.
End Sets.

(** ** [Iterator::all]: [P a l r] -- about item [a] there was the conversation [l] with the
    outcome [r], [None] being a panic.  It ends at the first outcome that is not [true]. *)
Inductive for_each {A X : Type} (P : A -> list X -> option bool -> Prop) : list A -> list X -> option bool -> Prop :=
| fe_all : for_each P [] [] (Some true)
| fe_next : forall a l c c' r, P a c (Some true) -> for_each P l c' r -> for_each P (a :: l) (c ++ c') r
| fe_stop : forall a l c r, P a c r -> r <> Some true -> for_each P (a :: l) c r.

(** ** Looking up a key in an ordered map *)
Inductive ord_call (K V : Type) : Type :=
| OCmp (k k' : K)          (* [k.cmp(k')], [k'] in the map *)
| OVal (v v' : V).         (* [v == v'] *)
Arguments OCmp {K V}.
Arguments OVal {K V}.
Inductive ord_answer : Type :=
| AOrd (c : comparison)
| ABool (b : bool).

Section OrdLook.
Context {K V : Type}.
Notation conv := (list (ord_call K V * option ord_answer)).
(** Keys of the map that [k] turned out to be different from. *)
Definition differs (es : list (K * V)) (k : K) (q : ord_call K V * option ord_answer) : Prop :=
  exists k' c, In k' (map fst es) /\ q = (OCmp k k', Some (AOrd c)) /\ c <> Eq.
(** The conversation of [get] with at most [n] questions, and what it found; [None]: user code
    panicked. *)
Inductive ord_look (n : nat) (es : list (K * V)) (k : K) : conv -> option (option (K * V)) -> Prop :=
| ol_absent : forall l, Forall (differs es k) l -> length l <= n -> ord_look n es k l (Some None)
| ol_found : forall l k' v', Forall (differs es k) l -> In (k', v') es -> S (length l) <= n ->
    ord_look n es k (l ++ [(OCmp k k', Some (AOrd Eq))]) (Some (Some (k', v')))
| ol_panic : forall l k', Forall (differs es k) l -> In k' (map fst es) -> S (length l) <= n ->
    ord_look n es k (l ++ [(OCmp k k', None)]) None.
(** The same entry is in the other map: a lookup, and if it finds something one comparison of
    values. *)
Inductive ord_same (n : nat) (es : list (K * V)) (e : K * V) : conv -> option bool -> Prop :=
| os_absent : forall l, ord_look n es (fst e) l (Some None) -> ord_same n es e l (Some false)
| os_panic : forall l, ord_look n es (fst e) l None -> ord_same n es e l None
| os_value : forall l k' v' b, ord_look n es (fst e) l (Some (Some (k', v'))) ->
    ord_same n es e (l ++ [(OVal (snd e) v', option_map ABool b)]) b.
End OrdLook.

(** ** Looking up a key in a hash map *)
Inductive hash_call (K V : Type) : Type :=
| HHash (k : K)            (* hashing [k] *)
| HKey (k' k : K)          (* [k' == k], [k'] in the map *)
| HVal (v v' : V).         (* [v == v'] *)
Arguments HHash {K V}.
Arguments HKey {K V}.
Arguments HVal {K V}.
Inductive hash_answer : Type :=
| HNum (h : N)
| HBool (b : bool).

Section HashLook.
Context {K V : Type}.
Notation conv := (list (hash_call K V * option hash_answer)).
(** The entries come with the hashes that were stored when they were inserted: [k] is hashed
    once, and compared in turn with the keys that have that hash until one is equal. *)
Definition no (k : K) (e : (K * V) * N) : hash_call K V * option hash_answer := (HKey (fst (fst e)) k, Some (HBool false)).
Inductive hash_look (es : list ((K * V) * N)) (k : K) : conv -> option (option (K * V)) -> Prop :=
| hl_unhashed : hash_look es k [(HHash k, None)] None
| hl_absent : forall h, hash_look es k
    ((HHash k, Some (HNum h)) :: map (no k) (filter (fun e => N.eqb (snd e) h) es)) (Some None)
| hl_found : forall h l e l', filter (fun e => N.eqb (snd e) h) es = l ++ e :: l' -> hash_look es k
    ((HHash k, Some (HNum h)) :: map (no k) l ++ [(HKey (fst (fst e)) k, Some (HBool true))]) (Some (Some (fst e)))
| hl_panic : forall h l e l', filter (fun e => N.eqb (snd e) h) es = l ++ e :: l' -> hash_look es k
    ((HHash k, Some (HNum h)) :: map (no k) l ++ [(HKey (fst (fst e)) k, None)]) None.
Inductive hash_same (es : list ((K * V) * N)) (e : K * V) : conv -> option bool -> Prop :=
| hs_absent : forall l, hash_look es (fst e) l (Some None) -> hash_same es e l (Some false)
| hs_panic : forall l, hash_look es (fst e) l None -> hash_same es e l None
| hs_value : forall l k' v' b, hash_look es (fst e) l (Some (Some (k', v'))) ->
    hash_same es e (l ++ [(HVal (snd e) v', option_map HBool b)]) b.
(** [contains], the answer being used as it is ([yes]) or negated *)
Definition hash_has (yes : bool) (es : list ((K * V) * N)) (e : K * V) (l : conv) (r : option bool) : Prop :=
  exists o, hash_look es (fst e) l o /\
    r = option_map (fun x : option (K * V) => Bool.eqb yes match x with Some _ => true | None => false end) o.
End HashLook.
