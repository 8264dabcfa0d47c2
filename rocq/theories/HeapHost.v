(** * Vectors and maps that hold collections, on one heap

    The programs of HeapVec.v, HeapRB.v and HeapHash.v store elements, or values, that are opaque:
    to drop one does nothing.  [host p] is such a program [p] with elements that are versions of
    an inner collection (an [impl], HeapIn.v) whose cells are on the same heap.  It differs from
    [p] where the crate's generic code calls what belongs to the type of the elements: when the
    cell of an element is freed the [Drop] of the inner collection runs.  It also keeps track of
    the elements that were passed to [p] by value: an element moves into the first cell made for
    it, cannot be moved twice, and is dropped at the end of the call when it was not stored. *)
From Coq Require Import List Arith Lia Bool.
From Verif Require Import Base Spec HeapModel HeapIn.
Import ListNotations.
Local Open Scope prog_scope.

(** The cells there are: those of the outer collection, and those of the inner ones. *)
Inductive dcell (B C : Type) := DO (b : B) | DI (c : C).
Arguments DO {B C}.
Arguments DI {B C}.

(** [elem b]: the element in the cell [b], if it is one that holds an element; [bkids]: the
    pointers of the outer collection in a cell. *)
Section Host.
Context {B C E Op Out : Type} (I : impl C E Op Out) (elem : B -> option E) (bkids : B -> list addr).
Notation D := (dcell B C).
Notation P := (prog D).

(** The pointers of the outer collection in a cell, see above. *)
Definition dkids (d : D) : list addr :=
  match d with
  | DO b => match elem b with Some e => i_roots I e | None => bkids b end
  | DI c => i_kids I c
  end.
(** Of the model: a cell of the inner collection. *)
Definition d_isI (d : D) : option C := match d with DI c => Some c | DO _ => None end.
Notation inj := (inj DI d_isI).
Notation try_out := (try_out I DI d_isI).

(** [fl]: the elements that were passed by value and have not been stored.  A cell of an inner
    collection in the way of the outer one is a failure; so is to borrow, or to move out, an
    element by the functions that are the same for all types of elements. *)
Fixpoint host {A} (p : prog B A) (fl : list E) : P (A * list E) :=
  match p with
  | Ret x => Ret (x, fl)
  | Fail => Fail
  | New b k =>
      match elem b, fl with
      | None, _ => New (DO b) (fun a => host (k a) fl)
      | Some _, _ :: fl' => New (DO b) (fun a => host (k a) fl')
      | Some _, [] => Fail
      end
  | Reserve k => Reserve (fun a => host (k a) fl)
  | Clone a k => Clone a (host k fl)
  | Read a k => Read a (fun d => match d with DO b => host (k b) fl | DI _ => Fail end)
  | Dec a k =>
      Dec a (fun r =>
        match r with
        | None => host (k None) fl
        | Some (DO b) =>
            let* _ := match elem b with Some e => inj (i_drop I e) | None => Ret tt end in
            host (k (Some b)) fl
        | Some (DI _) => Fail
        end)
  | Take a k =>
      Take a (fun r =>
        match r with
        | None => host (k None) fl
        | Some (DO b) => match elem b with None => host (k (Some b)) fl | Some _ => Fail end
        | Some (DI _) => Fail
        end)
  | Fill a b k => match elem b with None => Fill a (DO b) (host k fl) | Some _ => Fail end
  | Unwrap a k =>
      Unwrap a (fun r =>
        match r with
        | None => host (k None) fl
        | Some (DO b) => match elem b with None => host (k (Some b)) fl | Some _ => Fail end
        | Some (DI _) => Fail
        end)
  | Enter k => Enter (host k fl)
  | Leave k => Leave (host k fl)
  end.

(** Elements that were not stored are dropped. *)
Fixpoint drop_left (fl : list E) : P unit :=
  match fl with
  | [] => Ret tt
  | e :: fl' => let* _ := inj (i_drop I e) in drop_left fl'
  end.

(** A call with the elements [fl] as arguments *)
Definition calls {A} (p : prog B A) (fl : list E) : P A :=
  let* (x, rest) := host p fl in
  let* _ := drop_left rest in
  Ret x.

(** New elements: [X::new()] and calls on it *)
Fixpoint makes (ls : list (list Op)) : P (list E * list (list Out)) :=
  match ls with
  | [] => Ret ([], [])
  | l :: ls' =>
      let* (e, xs) := make I DI d_isI l in
      let* (es, xss) := makes ls' in
      Ret (e :: es, xs :: xss)
  end.

(** What a client does with the references it was given: [x = r.clone(); x.l(); drop(x)] *)
Definition peek (l : list Op) (o : option E) : P (option (list Out)) :=
  match o with
  | None => Ret None
  | Some e => let* e := inj (i_clone I e) in try_out l (Some e)
  end.

(** A client, not the crate: see above, for every reference given. *)
Fixpoint peeks {X} (l : list Op) (os : list (X * option E)) : P (list (X * option (list Out))) :=
  match os with
  | [] => Ret []
  | (n, o) :: os' =>
      let* r := peek l o in
      let* rs := peeks l os' in
      Ret ((n, r) :: rs)
  end.

(** *** A mutable reference to an element, and calls through it *)

(** [SharedPointer::make_mut] of the pointer to a node of the outer collection *)
Definition node_mut (mk : addr -> prog B (addr * B)) (a : addr) : P (addr * B) :=
  calls (let* (a', b) := mk a in match elem b with None => Ret (a', b) | Some _ => Fail end) [].

(** [SharedPointer::make_mut] of the pointer to an element: as [make_mut] (HeapModel.v); when the
    pointer is not the only one the inner version is cloned, and the old pointer is dropped. *)
Definition elem_mut (a : addr) : P (addr * B * E) :=
  Take a (fun r =>
    match r with
    | Some (DO b) => match elem b with Some e => Ret (a, b, e) | None => Fail end
    | Some (DI _) => Fail
    | None =>
        Read a (fun d =>
          match d with
          | DO b =>
              match elem b with
              | Some e =>
                  let* e' := inj (i_clone I e) in
                  Reserve (fun a' => let* _ := calls (drop_ptr bkids 1 a) [] in Ret (a', b, e'))
              | None => Fail
              end
          | DI _ => Fail
          end)
    end).

(** [put b e]: the cell [b] with the element [e] *)
Definition update (put : B -> E -> B) (l : list Op) (a : addr) : P (addr * list Out) :=
  let* (a', b, e) := elem_mut a in
  let* (e', xs) := inj (irun I l e) in
  Fill a' (DO (put b e')) (Ret (a', xs)).

End Host.
