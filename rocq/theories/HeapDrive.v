(** * Driving an iterator on the shared heap

    The drivers of Base.v ([collect], [runs], [runs2]) for iterators whose every step is a
    heap program: the reads of one call of [next] happen when that call is made, and those
    of the next call later, so other threads run in between. *)
From Coq Require Import List Arith Lia Bool.
From Verif Require Import Base HeapModel.
Import ListNotations.
Local Open Scope prog_scope.

(** A computation of the value-level models as a program: a panic fails. *)
Definition lift {C A} (r : res A) : prog C A := match r with Ok x => Ret x | _ => Fail end.

Section D.
Context {C St A : Type}.

(** [k] calls of [next], with the size hint before each *)
Fixpoint pruns (next : St -> prog C (option A * St)) (hint : St -> res nat) (k : nat) (s : St)
  : prog C (list (nat * option A)) :=
  match k with
  | 0 => Ret []
  | S k' =>
      let* h := lift (hint s) in
      let* (o, s') := next s in
      let* r := pruns next hint k' s' in
      Ret ((h, o) :: r)
  end.

(** calls from either end: [false] is [next], [true] is [next_back] *)
Fixpoint pruns2 (next next_back : St -> prog C (option A * St)) (hint : St -> res nat)
  (ds : list bool) (s : St) : prog C (list (nat * option A)) :=
  match ds with
  | [] => Ret []
  | d :: ds' =>
      let* h := lift (hint s) in
      let* (o, s') := (if d then next_back s else next s) in
      let* r := pruns2 next next_back hint ds' s' in
      Ret ((h, o) :: r)
  end.

(** everything the iterator delivers, at most [fuel] calls *)
Fixpoint pcollect (next : St -> prog C (option A * St)) (fuel : nat) (s : St) : prog C (list A) :=
  match fuel with
  | 0 => Fail
  | S fuel' =>
      let* (o, s') := next s in
      match o with
      | None => Ret []
      | Some a => let* r := pcollect next fuel' s' in Ret (a :: r)
      end
  end.
End D.
