(** * Dropping a whole version while the [Drop] of user values panics

    The drop programs of HeapList.v, HeapVec.v, HeapRB.v and HeapHash.v again, with panics.  A panic in a
    destructor unwinds, and unwinding goes on dropping what is left; a second panic while unwinding aborts
    the process (the rules of the language for drop glue, and of [std::panic]). *)
From Coq Require Import List NArith Arith Bool.
From Verif Require Import Base SparseModel HeapModel HeapClient HeapList HeapVec HeapRB HeapHash.
Import ListNotations.
Local Open Scope prog_scope.

(** [Went u]: all was dropped, and the thread is unwinding or not; [Aborted]: the process ended there. *)
Inductive outcome := Went (u : bool) | Aborted.

(** [n] user values are dropped whose [Drop] panics, the thread unwinding already or not. *)
Fixpoint hit (n : nat) (u : bool) : outcome :=
  match n with
  | 0 => Went u
  | S n' => if u then Aborted else hit n' true
  end.

Section Glue.
Context {C : Type} (kids : C -> list addr).
(** How many user values right in a cell panic when they are dropped. *)
Context (booms : C -> nat).
Notation P := (prog C).

Definition onward (o : outcome) (k : bool -> P outcome) : P outcome :=
  match o with Went u => k u | Aborted => Ret Aborted end.

(** The pointers of a node, each also when an earlier one has panicked *)
Fixpoint each_throw (d : addr -> bool -> P outcome) (l : list addr) (u : bool) : P outcome :=
  match l with
  | [] => Ret (Went u)
  | a :: l' => let* o := d a u in onward o (each_throw d l')
  end.

(** As [drop_ptr] of HeapModel.v.  The memory of the cell is released also when its contents unwind. *)
Fixpoint throw_ptr (f : nat) (a : addr) (u : bool) : P outcome :=
  match f with
  | 0 => Fail
  | S f' =>
      Dec a (fun r =>
        match r with
        | None => Ret (Went u)
        | Some c =>
            Enter (onward (hit (booms c) u) (fun u =>
              let* o := each_throw (throw_ptr f') (kids c) u in
              onward o (fun u => Leave (Ret (Went u)))))
        end)
  end.
(** [Drop] of an optional pointer, core *)
Definition throw_opt (f : nat) (o : option addr) (u : bool) : P outcome :=
  match o with None => Ret (Went u) | Some a => throw_ptr f a u end.

(** list/mod.rs:408-420, as [hl_drop_loop] of HeapList.v.  When the element of a node panics the loop
    unwinds: [head] holds the rest of the chain by then ([head = node.next.take()] comes before [node] goes
    out of scope) and is dropped as any other pointer.  A loop that runs while the thread unwinds already
    is not left by a panic, as the panic aborts. *)
Context (isN : C -> option (addr * option addr)) (ef : nat).
Fixpoint throw_loop (f fd : nat) (head : option addr) (u : bool) : P outcome :=
  match head with
  | None => Ret (Went u)
  | Some a =>
      match f with
      | 0 => Fail
      | S f' =>
          Unwrap a (fun r =>
            match r with
            | Some c =>
                match isN c with
                | Some (v, nx) =>
                    let* o := throw_ptr ef v u in
                    onward o (fun u' =>
                      if eqb u u' then throw_loop f' fd nx u' else throw_opt fd nx u')
                | None => Fail
                end
            | None => throw_ptr fd a u
            end)
      end
  end.
(** list/mod.rs:403-421; the fields are dropped also when [drop] itself unwinds *)
Definition throw_list (l : hlist) (u : bool) : P outcome :=
  let* o := throw_loop (hl_len l) (hl_len l + ef) (hl_head l) u in
  onward o (throw_opt ef (hl_last l)).
End Glue.

(** Of the model. *)
Definition b2n (b : bool) : nat := if b then 1 else 0.

(** ** The collections: which elements, keys and values panic is given by a predicate *)
Section Lists.
Context {T : Type} (tb : T -> bool).
Definition l_booms (c : lcell T) : nat := match c with LE x => b2n (tb x) | LN _ _ => 0 end.
(** list/mod.rs:403-421; a Stack (stack/mod.rs:90-96) is a List *)
Definition hlp_throw (l : hlist) (u : bool) : prog (lcell T) outcome := throw_list lkids l_booms l_isN 1 l u.
(** queue/mod.rs:96-103: drop glue, the fields in order *)
Definition hq_throw (q : hqueue) (u : bool) : prog (lcell T) outcome :=
  let* o := hlp_throw (hq_in q) u in onward o (hlp_throw (hq_out q)).
End Lists.

Section Vec.
Context (ubits : N) (dbg : bool) {T : Type} (tb : T -> bool).
(** Of the model: how many values with a panicking [Drop] a cell holds. *)
Definition v_booms (c : vcell T) : nat := match c with VE x => b2n (tb x) | _ => 0 end.
(** vector/mod.rs:94-113: drop glue *)
Definition hv_throw (v : hvec) (u : bool) : prog (vcell T) outcome :=
  let* h := lift (hv_height (T := T) ubits dbg v) in throw_ptr vkids v_booms (S (lv h)) (hv_root v) u.
End Vec.

Section Maps.
Context {K V : Type} (kb : K -> bool) (vb : V -> bool).
(** map/entry.rs:1-5: the key, then the value *)
Definition e_booms (e : K * V) : nat := b2n (kb (fst e)) + b2n (vb (snd e)).

Definition r_booms (c : rcell K V) : nat := match c with RE e => e_booms e | RN _ => 0 end.
(** red_black_tree_map/mod.rs:102-128: drop glue *)
Definition hb_throw (m : hrb) (u : bool) : prog (rcell K V) outcome :=
  throw_opt rkids r_booms (S (hb_levels m)) (hb_root m) u.

Definition t_booms (c : tcell K V) : nat := match c with TE e => e_booms e | _ => 0 end.
(** hash_trie_map/mod.rs:183-208: drop glue, in which the list of a bucket is dropped by its own [Drop];
    as [tglue] and [tdrop] of HeapHash.v *)
Definition throw_node (dn : addr -> bool -> prog (tcell K V) outcome) (c : tcell K V) (u : bool) : prog (tcell K V) outcome :=
  match c with
  | TB s => each_throw dn (sa_array s) u
  | TS e => throw_ptr tkids t_booms 1 (fst e) u
  | TC l => throw_list tkids t_booms t_isN 2 l u
  | _ => Fail
  end.
(** As [tdrop] of HeapHash.v. *)
Fixpoint tthrow (f : nat) (a : addr) (u : bool) : prog (tcell K V) outcome :=
  match f with
  | 0 => Fail
  | S f' =>
      Dec a (fun r =>
        match r with
        | None => Ret (Went u)
        | Some c =>
            Enter (let* o := throw_node (tthrow f') c u in
                   onward o (fun u => Leave (Ret (Went u))))
        end)
  end.
(** Drop glue of the map, hash_trie_map/mod.rs 117-125. *)
Definition hh_throw (m : hht) (u : bool) : prog (tcell K V) outcome := tthrow (S (hh_levels m)) (hh_root m) u.
End Maps.

(** ** A client that catches the panics

    The client of HeapClient.v; each of its drops is inside [catch_unwind], so that the thread does not
    unwind when the next command starts.  [None]: the process has aborted.  The list of Booleans says of
    each drop whether it panicked. *)
Section Client.
Context {C Coll Op Out : Type}.
Context (hnew : prog C Coll) (hclone : Coll -> prog C Coll) (hthrow : Coll -> bool -> prog C outcome)
        (hop : Op -> Coll -> prog C (Coll * Out)).

(** A client, not the crate: see above. *)
Fixpoint tclient (l : list (cmd Op)) (rs : list (option Coll)) : prog C (option (list (option Coll) * list Out * list bool)) :=
  match l with
  | [] => Ret (Some (rs, [], []))
  | CNew :: l' => let* c := hnew in tclient l' (rs ++ [Some c])
  | CClone i :: l' =>
      match nth_error rs i with
      | Some (Some c) => let* c' := hclone c in tclient l' (rs ++ [Some c'])
      | _ => tclient l' rs
      end
  | COp i o :: l' =>
      match nth_error rs i with
      | Some (Some c) =>
          let* (c', x) := hop o c in
          let* r := tclient l' (upd rs i (Some c')) in
          Ret (match r with Some (rs', xs, bs) => Some (rs', x :: xs, bs) | None => None end)
      | _ => tclient l' rs
      end
  | CDrop i :: l' =>
      match nth_error rs i with
      | Some (Some c) =>
          let* o := hthrow c false in
          match o with
          | Aborted => Ret None
          | Went u =>
              let* r := tclient l' (upd rs i None) in
              Ret (match r with Some (rs', xs, bs) => Some (rs', xs, u :: bs) | None => None end)
          end
      | _ => tclient l' rs
      end
  end.
End Client.
