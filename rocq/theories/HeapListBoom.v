(** * Dropping a List one of whose elements panics when it is dropped

    The programs of HeapList.v for the [Drop] of a list, in the case that the [Drop] of an
    element unwinds.  What unwinding runs is drop glue, so these are heap programs as well.
    A second panic while unwinding aborts the process and is not modelled. *)
From Coq Require Import List Arith Lia Bool.
From Verif Require Import Base HeapModel HeapList.
Import ListNotations.
Local Open Scope prog_scope.

Section Boom.
Context {T : Type}.
Notation P := (prog (lcell T)).

(** list/mod.rs:408-420, the loop of [Drop]; the [j]-th element the loop frees
    (from 0) panics when it is dropped.  By then [head] holds the
    rest of the chain ([head = node.next.take()] comes before the end of the scope of [node]),
    and unwinding drops [head] as any other pointer. *)
Fixpoint hl_boom_loop (j f fd : nat) (head : option addr) : P unit :=
  match head with
  | None => Ret tt
  | Some a =>
      match f with
      | 0 => Fail
      | S f' =>
          Unwrap a (fun r =>
            match r with
            | Some c =>
                match l_isN c with
                | Some (v, nx) =>
                    Dec v (fun r =>
                      match r with
                      | Some _ =>
                          Enter (Leave
                            match j with
                            | 0 => drop_opt lkids fd nx
                            | S j' => hl_boom_loop j' f' fd nx
                            end)
                      | None => hl_boom_loop j f' fd nx
                      end)
                | None => Fail
                end
            | None => drop_ptr lkids fd a
            end)
      end
  end.

(** list/mod.rs:403-421; the fields are dropped also when [drop] itself unwinds *)
Definition hlp_drop_boom (j : nat) (l : hlist) : P unit :=
  let* _ := hl_boom_loop j (hl_len l) (hl_len l + 1) (hl_head l) in
  drop_opt lkids 1 (hl_last l).
End Boom.
