(** What an iterator of an ordered map may ask user code. *)
From Coq Require Import List NArith Arith Bool.
From Verif Require Import Base SpecTalk.
Import ListNotations.

Inductive range_call (K : Type) : Type :=
| RStart (k : K)       (* is [k] past the start of the range *)
| REnd (k : K)         (* is [k] before its end *)
| RGt (k k' : K).      (* [k > k'] *)
Arguments RStart {K}.
Arguments REnd {K}.
Arguments RGt {K}.

Section Range.
Context {K : Type}.
Notation conv := (list (range_call K * option bool)).

(** The bound that calls in this direction start from, and the one they run into. *)
Definition near (backwards : bool) (k : K) : range_call K := if backwards then REnd k else RStart k.
Definition beyond (backwards : bool) (k : K) : range_call K := if backwards then RStart k else REnd k.

(** Every question is [f k] for one of the keys. *)
Definition about (f : K -> range_call K) (keys : list K) (l : conv) : Prop :=
  forall q, In q l -> exists k, In k keys /\ fst q = f k.
Definition order_of (keys : list K) (l : conv) : Prop :=
  forall q, In q l -> exists k k', In k keys /\ In k' keys /\ fst q = RGt k k'.
(** User code panicked: that is the last that is asked. *)
Definition answered (l : conv) : Prop := forall q, In q l -> snd q <> None.
Definition broken_off (l : conv) : Prop := exists l' x, l = l' ++ [(x, None)] /\ answered l'.

(** One call of [next] or [next_back].  The first search of the bound in the call's direction
    costs at most [n] questions about that bound and one about the other; then, or if the search
    was made before, at most one [>] and one question about the other bound.  There is no [>] as
    long as no call came from the other end. *)
Definition asks (n : nat) (keys : list K) (backwards again alone : bool) (l : conv) (panicked : bool) : Prop :=
  (exists s c g e, l = s ++ c ++ g ++ e /\
     about (near backwards) keys s /\ length s <= (if again then 0 else n) /\
     about (beyond backwards) keys c /\ length c <= (if again then 0 else 1) /\
     order_of keys g /\ length g <= (if alone then 0 else 1) /\
     about (beyond backwards) keys e /\ length e <= 1) /\
  (if panicked then broken_off l else answered l).

(** Among the calls so far there was one from this end that user code did not stop. *)
Definition been_here {A} (backwards : bool) (ds : list bool) (outs : list (option A)) : Prop :=
  exists j a, nth_error ds j = Some backwards /\ nth_error outs j = Some (Some a).
Definition stopped {A} (outs : list (option A)) : nat :=
  length (filter (fun o => match o with None => true | Some _ => false end) outs).
End Range.
