(** * The shared heap: reference counted cells, and programs that use them

    rpds stores every node and every element behind a [SharedPointer]
    ([Rc] for the default kind, [triomphe::Arc] for the [Sync] collections;
    archery 1.2.2, which is not in the sandbox).  The value-level models of the
    other files forget about the pointers.  This file models them: a heap of
    cells with reference counts, and programs built from the primitive pointer
    operations the crate uses.  Every primitive is atomic and the threads of a
    configuration interleave at primitives.

    Simplifications, in addition to those of the value-level models:
    - memory is sequentially consistent (the acquire/release orderings inside
      [triomphe::Arc] are trusted to give that for data reached through the
      pointer);
    - reference counts do not overflow;
    - allocation never fails;
    - an address is never used twice (a freed cell stays free). *)
From Coq Require Import List Arith Lia Bool.
Import ListNotations.

Definition addr := nat.

Section Heap.
Context {C : Type}.

(** A cell: its count and its contents, or a cell whose contents are mutably
    borrowed by the thread that owns the only pointer to it: this is the state
    between [make_mut] and the end of the [&mut] it returns. *)
Inductive cell := Full (rc : nat) (c : C) | Hole.

(** [None]: deallocated. *)
Definition heap := list (option cell).

Definition get (h : heap) (a : addr) : option cell :=
  match nth_error h a with Some (Some x) => Some x | _ => None end.

(** Of the model: writes the cell at an address. *)
Fixpoint set (h : heap) (a : addr) (x : option cell) : heap :=
  match h, a with
  | [], _ => []
  | _ :: h', 0 => x :: h'
  | y :: h', S a' => y :: set h' a' x
  end.

(** ** Programs

    One constructor for each pointer operation the crate performs.
    - [New c]: [SharedPointer::new].
    - [Reserve]: the allocation made by [make_mut] for its copy; the copy is
      born mutably borrowed.
    - [Clone a]: [SharedPointer::clone], an increment.
    - [Read a]: a read through [Deref].
    - [Dec a]: the decrement in [Drop for Rc/Arc]; when it was the last
      pointer the cell is freed and its contents are handed to the program,
      which must drop them.
    - [Take a]: the uniqueness test of [make_mut]; on success the contents are
      lent to the program until [Fill].
    - [Fill a c]: the end of that borrow, with the contents the program left.
    - [Unwrap a]: [SharedPointer::try_unwrap]; on success the cell is freed
      and the contents move to the program.
    - [Enter]/[Leave]: a call of drop glue starts/ends (only to measure the
      depth of the stack).
    - [Fail]: a panic, or a loop of the model that ran out of fuel. *)
Inductive prog (A : Type) : Type :=
| Ret (x : A)
| Fail
| New (c : C) (k : addr -> prog A)
| Reserve (k : addr -> prog A)
| Clone (a : addr) (k : prog A)
| Read (a : addr) (k : C -> prog A)
| Dec (a : addr) (k : option C -> prog A)
| Take (a : addr) (k : option C -> prog A)
| Fill (a : addr) (c : C) (k : prog A)
| Unwrap (a : addr) (k : option C -> prog A)
| Enter (k : prog A)
| Leave (k : prog A).

(** Of the model: sequencing of programs. *)
Fixpoint pbind {A B} (p : prog A) (f : A -> prog B) : prog B :=
  match p with
  | Ret _ x => f x
  | Fail _ => Fail B
  | New _ c k => New B c (fun a => pbind (k a) f)
  | Reserve _ k => Reserve B (fun a => pbind (k a) f)
  | Clone _ a k => Clone B a (pbind k f)
  | Read _ a k => Read B a (fun c => pbind (k c) f)
  | Dec _ a k => Dec B a (fun r => pbind (k r) f)
  | Take _ a k => Take B a (fun r => pbind (k r) f)
  | Fill _ a c k => Fill B a c (pbind k f)
  | Unwrap _ a k => Unwrap B a (fun r => pbind (k r) f)
  | Enter _ k => Enter B (pbind k f)
  | Leave _ k => Leave B (pbind k f)
  end.

(** ** One atomic step of one thread *)
Inductive outcome (A : Type) : Type :=
| Stop (x : A)
| Crash
| Step (h : heap) (p : prog A).

(** Of the model: see above; the counts are those of [archery]. *)
Definition pstep {A} (h : heap) (p : prog A) : outcome A :=
  match p with
  | Ret _ x => Stop A x
  | Fail _ => Crash A
  | New _ c k => Step A (h ++ [Some (Full 1 c)]) (k (length h))
  | Reserve _ k => Step A (h ++ [Some Hole]) (k (length h))
  | Clone _ a k =>
      match get h a with
      | Some (Full n c) => Step A (set h a (Some (Full (S n) c))) k
      | _ => Crash A
      end
  | Read _ a k =>
      match get h a with
      | Some (Full _ c) => Step A h (k c)
      | _ => Crash A
      end
  | Dec _ a k =>
      match get h a with
      | Some (Full 0 _) => Crash A
      | Some (Full 1 c) => Step A (set h a None) (k (Some c))
      | Some (Full (S n) c) => Step A (set h a (Some (Full n c))) (k None)
      | _ => Crash A
      end
  | Take _ a k =>
      match get h a with
      | Some (Full 1 c) => Step A (set h a (Some Hole)) (k (Some c))
      | Some (Full _ _) => Step A h (k None)
      | _ => Crash A
      end
  | Fill _ a c k =>
      match get h a with
      | Some Hole => Step A (set h a (Some (Full 1 c))) k
      | _ => Crash A
      end
  | Unwrap _ a k =>
      match get h a with
      | Some (Full 1 c) => Step A (set h a None) (k (Some c))
      | Some (Full _ _) => Step A h (k None)
      | _ => Crash A
      end
  | Enter _ k => Step A h k
  | Leave _ k => Step A h k
  end.

(** ** One thread alone *)
Fixpoint run {A} (h : heap) (p : prog A) {struct p} : option (heap * A) :=
  match p with
  | Ret _ x => Some (h, x)
  | Fail _ => None
  | New _ c k => run (h ++ [Some (Full 1 c)]) (k (length h))
  | Reserve _ k => run (h ++ [Some Hole]) (k (length h))
  | Clone _ a k =>
      match get h a with
      | Some (Full n c) => run (set h a (Some (Full (S n) c))) k
      | _ => None
      end
  | Read _ a k =>
      match get h a with
      | Some (Full _ c) => run h (k c)
      | _ => None
      end
  | Dec _ a k =>
      match get h a with
      | Some (Full 0 _) => None
      | Some (Full 1 c) => run (set h a None) (k (Some c))
      | Some (Full (S n) c) => run (set h a (Some (Full n c))) (k None)
      | _ => None
      end
  | Take _ a k =>
      match get h a with
      | Some (Full 1 c) => run (set h a (Some Hole)) (k (Some c))
      | Some (Full _ _) => run h (k None)
      | _ => None
      end
  | Fill _ a c k =>
      match get h a with
      | Some Hole => run (set h a (Some (Full 1 c))) k
      | _ => None
      end
  | Unwrap _ a k =>
      match get h a with
      | Some (Full 1 c) => run (set h a None) (k (Some c))
      | Some (Full _ _) => run h (k None)
      | _ => None
      end
  | Enter _ k => run h k
  | Leave _ k => run h k
  end.

(** ** Threads, under any schedule

    A schedule is the list of the threads that make the successive steps.  A
    thread that crashes becomes [Fail]; one that has finished makes no more
    steps. *)
Fixpoint upd {X} (l : list X) (i : nat) (x : X) : list X :=
  match l, i with
  | [], _ => []
  | _ :: l', 0 => x :: l'
  | y :: l', S i' => y :: upd l' i' x
  end.

(** Of the model: one step of thread [i]. *)
Definition cstep {A} (i : nat) (cf : heap * list (prog A)) : heap * list (prog A) :=
  let (h, ps) := cf in
  match nth_error ps i with
  | Some p =>
      match pstep h p with
      | Stop _ _ => cf
      | Crash _ => (h, upd ps i (Fail A))
      | Step _ h' p' => (h', upd ps i p')
      end
  | None => cf
  end.

(** Of the model: a schedule. *)
Fixpoint exec {A} (sched : list nat) (cf : heap * list (prog A)) : heap * list (prog A) :=
  match sched with
  | [] => cf
  | i :: s => exec s (cstep i cf)
  end.

(** ** Derived operations

    [kids] lists the shared pointers held in the contents of a cell, in the
    order they are cloned and dropped. *)
Context (kids : C -> list addr).

Fixpoint clone_all {A} (l : list addr) (k : prog A) : prog A :=
  match l with
  | [] => k
  | a :: l' => Clone A a (clone_all l' k)
  end.

(** Of the model: [p] on every pointer, in order. *)
Definition each (p : addr -> prog unit) : list addr -> prog unit :=
  fix all (l : list addr) : prog unit :=
    match l with
    | [] => Ret unit tt
    | b :: l' => pbind (p b) (fun _ => all l')
    end.

(** [Drop for Rc/Arc]: decrement; when last, run the drop glue of the contents,
    which drops the pointers in it.  The fuel is the number of nested calls
    available. *)
Fixpoint drop_ptr (f : nat) (a : addr) : prog unit :=
  match f with
  | 0 => Fail unit
  | S f' =>
      Dec unit a (fun r =>
        match r with
        | None => Ret unit tt
        | Some c =>
            Enter unit
              (pbind (each (drop_ptr f') (kids c))
                     (fun _ => Leave unit (Ret unit tt)))
        end)
  end.

(** Of the model: drops every pointer, in order. *)
Definition drop_all (f : nat) : list addr -> prog unit := each (drop_ptr f).

(** [SharedPointer::make_mut] (archery; [Rc::make_mut], [triomphe::Arc::make_mut]):
    when the pointer is the only one, borrow the contents in place.  Otherwise
    clone the contents, which clones the pointers in it, allocate a new cell
    for the clone, and drop the old pointer.  Returns the pointer and the
    contents lent.  Two nested calls suffice for the drop: the pointers in the
    contents have just been cloned. *)
Definition make_mut (a : addr) : prog (addr * C) :=
  Take _ a (fun r =>
    match r with
    | Some c => Ret _ (a, c)
    | None =>
        Read _ a (fun c =>
          clone_all (kids c)
            (Reserve _ (fun a' =>
               pbind (drop_ptr 2 a) (fun _ => Ret _ (a', c)))))
    end).

End Heap.

Arguments cell C : clear implicits.
Arguments heap C : clear implicits.
Arguments prog C A : clear implicits.
Arguments outcome C A : clear implicits.
Arguments Ret {C A}.
Arguments Fail {C A}.
Arguments New {C A}.
Arguments Reserve {C A}.
Arguments Clone {C A}.
Arguments Read {C A}.
Arguments Dec {C A}.
Arguments Take {C A}.
Arguments Fill {C A}.
Arguments Unwrap {C A}.
Arguments Enter {C A}.
Arguments Leave {C A}.
Arguments Stop {C A}.
Arguments Crash {C A}.
Arguments Step {C A}.

Declare Scope prog_scope.
Delimit Scope prog_scope with prog.
Notation "'let*' x := p 'in' q" :=
  (pbind p (fun x => q)) (at level 200, x pattern, p at level 100, q at level 200) : prog_scope.
