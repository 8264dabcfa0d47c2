(** * RedBlackTreeMap on the shared heap when user code panics

    The functions of red_black_tree_map/mod.rs that call the key's [Ord::cmp], and [make_mut] on
    an entry, which calls [Clone::clone] of the key and of the value when the entry is shared,
    written once more on the heap of HeapModel.v.  As in CrashModel.v a counter [n] says how many
    user calls still return; the call made when it is 0 unwinds.  What unwinding does to the heap
    is what the frames left behind do: a node behind [&mut] stays with the contents it has at that
    moment (its pointer is [Fill]ed), a local clone of the map is dropped.  User code that panics
    in [Drop] is not modelled. *)
From Coq Require Import List Arith Lia Bool Permutation.
From Verif Require Import Base Spec SpecMap SpecOrd ListModel RBModel CrashModel HeapModel HeapList HeapRB.
Import ListNotations.
Local Open Scope prog_scope.

Section Prog.
Context {K V Q : Type}.
Variable dbg : bool.
Variable kcmp : K -> K -> comparison.
Variable borrow : K -> Q.
Variable qcmp : Q -> Q -> comparison.
Notation C := (rcell K V).
Notation P := (prog C).

(** One call of user code: CrashModel.v's [ucall], with what the unwinding does. *)
Definition hucall {S A} (n : nat) (unwind : P (crash S A)) (f : nat -> P (crash S A)) : P (crash S A) :=
  match n with
  | O => unwind
  | Datatypes.S n' => f n'
  end.

(** mod.rs 373-425; [k] and [v] are dropped by the frame that unwinds first *)
Fixpoint xins (f n : nat) (o : option addr) (k : K) (v : V) (is_root : bool)
  : P (crash (option addr) (option addr * bool)) :=
  match f with
  | 0 => Fail
  | S f' =>
      match o with
      | Some _ =>
          let* (p, node) := take_mut o in
          see_entry (hn_entry node) (fun e =>
          hucall n (Fill p (RN node) (Ret (Unwound (Some p)))) (fun n =>
            match kcmp k (fst e) with
            | Lt =>
                let* r := xins f' n (hn_left node) k v false in
                match r with
                | Unwound l' => Fill p (RN (hset_left node l')) (Ret (Unwound (Some p)))
                | Done n (l', is_new_key) =>
                    let node := hset_left node l' in
                    let* node := (if (is_new_key : bool) then hbalance node else Ret node) in
                    let node := if is_root then hset_color node Black else node in
                    Fill p (RN node) (Ret (Done n (Some p, is_new_key)))
                end
            | Eq =>
                New (RE (k, v)) (fun e' =>
                  let* _ := drop_ptr rkids 1 (hn_entry node) in
                  let node := hset_entry node e' in
                  let node := if is_root then hset_color node Black else node in
                  Fill p (RN node) (Ret (Done n (Some p, false))))
            | Gt =>
                let* r := xins f' n (hn_right node) k v false in
                match r with
                | Unwound r' => Fill p (RN (hset_right node r')) (Ret (Unwound (Some p)))
                | Done n (r', is_new_key) =>
                    let node := hset_right node r' in
                    let* node := (if (is_new_key : bool) then hbalance node else Ret node) in
                    let node := if is_root then hset_color node Black else node in
                    Fill p (RN node) (Ret (Done n (Some p, is_new_key)))
                end
            end))
      | None =>
          let* a := hnew_node (if is_root then Black else Red) (k, v) in
          Ret (Done n (Some a, true))
      end
  end.

(** mod.rs 669-755 *)
Fixpoint xdel (f g n : nat) (o : option addr) (k : Q) (is_root : bool)
  : P (crash (option addr) (option addr * bool)) :=
  match f with
  | 0 => Fail
  | S f' =>
      match o with
      | Some _ =>
          let* (p, node) := take_mut o in
          see_entry (hn_entry node) (fun e =>
          hucall n (Fill p (RN node) (Ret (Unwound (Some p)))) (fun n =>
            match qcmp k (borrow (fst e)) with
            | Lt =>
                let* original_left_color := hcolor (hn_left node) in
                let* r := xdel f' g n (hn_left node) k false in
                match r with
                | Unwound l' => Fill p (RN (hset_left node l')) (Ret (Unwound (Some p)))
                | Done n (l', removed) =>
                    let node := hset_left node l' in
                    let node := hset_color node Red in
                    let* node := match original_left_color with
                                 | Some Black => hremove_balance_left dbg node
                                 | _ => Ret node
                                 end in
                    let node := if is_root then hset_color node Black else node in
                    Fill p (RN node) (Ret (Done n (Some p, removed)))
                end
            | Eq =>
                let left := hn_left node in
                let right := hn_right node in
                let node := hset_right (hset_left node None) None in
                let* (node, fused) := hremove_fuse dbg g node left right in
                let node := if is_root then hset_color node Black else node in
                Fill p (RN node)
                  (if negb fused then let* _ := drop_ptr rkids 2 p in Ret (Done n (None, true))
                   else Ret (Done n (Some p, true)))
            | Gt =>
                let* original_right_color := hcolor (hn_right node) in
                let* r := xdel f' g n (hn_right node) k false in
                match r with
                | Unwound r' => Fill p (RN (hset_right node r')) (Ret (Unwound (Some p)))
                | Done n (r', removed) =>
                    let node := hset_right node r' in
                    let node := hset_color node Red in
                    let* node := match original_right_color with
                                 | Some Black => hremove_balance_right dbg node
                                 | _ => Ret node
                                 end in
                    let node := if is_root then hset_color node Black else node in
                    Fill p (RN node) (Ret (Done n (Some p, removed)))
                end
            end))
      | None => Ret (Done n (None, false))
      end
  end.

(** [make_mut] on an entry (map/entry.rs 1-12, [derive(Clone)]; archery's [make_mut], that of
    std): if the entry is shared its key and its value are cloned before anything changes.
    Memory that std reserves for the copy and gives back when the clone unwinds does not show. *)
Definition xentry_mut (n : nat) (a : addr) : P (crash unit (addr * C)) :=
  Take a (fun r =>
    match r with
    | Some c => Ret (Done n (a, c))
    | None =>
        Read a (fun c =>
          hucall n (Ret (Unwound tt)) (fun n => hucall n (Ret (Unwound tt)) (fun n =>
            clone_all (rkids c)
              (Reserve (fun a' => let* _ := drop_ptr rkids 2 a in Ret (Done n (a', c)))))))
    end).

(** mod.rs 764-778, and a write through the reference *)
Fixpoint xget_mut (f n : nat) (o : option addr) (key : Q) (g : V -> V)
  : P (crash (option addr) (option addr * option V)) :=
  match f with
  | 0 => Fail
  | S f' =>
      match o with
      | None => Ret (Done n (None, None))
      | Some _ =>
          let* (p, node) := take_mut o in
          see_entry (hn_entry node) (fun e =>
          hucall n (Fill p (RN node) (Ret (Unwound (Some p)))) (fun n =>
            match qcmp key (borrow (fst e)) with
            | Lt =>
                let* r := xget_mut f' n (hn_left node) key g in
                match r with
                | Unwound l' => Fill p (RN (hset_left node l')) (Ret (Unwound (Some p)))
                | Done n (l', x) => Fill p (RN (hset_left node l')) (Ret (Done n (Some p, x)))
                end
            | Eq =>
                let* r := xentry_mut n (hn_entry node) in
                match r with
                | Unwound _ => Fill p (RN node) (Ret (Unwound (Some p)))
                | Done n (pe, RE e) =>
                    Fill pe (RE (fst e, g (snd e)))
                      (Fill p (RN (hset_entry node pe)) (Ret (Done n (Some p, Some (snd e)))))
                | Done _ (_, RN _) => Fail
                end
            | Gt =>
                let* r := xget_mut f' n (hn_right node) key g in
                match r with
                | Unwound r' => Fill p (RN (hset_right node r')) (Ret (Unwound (Some p)))
                | Done n (r', x) => Fill p (RN (hset_right node r')) (Ret (Done n (Some p, x)))
                end
            end))
      end
  end.

(** mod.rs 169-179 *)
Fixpoint xget (f n : nat) (o : option addr) (key : Q) : P (crash unit (option (K * V))) :=
  match f with
  | 0 => Fail
  | S f' =>
      match o with
      | None => Ret (Done n None)
      | Some a =>
          see_node a (fun nd => see_entry (hn_entry nd) (fun e =>
          hucall n (Ret (Unwound tt)) (fun n =>
            match qcmp key (borrow (fst e)) with
            | Lt => xget f' n (hn_left nd) key
            | Eq => Ret (Done n (Some e))
            | Gt => xget f' n (hn_right nd) key
            end)))
      end
  end.

(** ** The map *)
(** mod.rs 848-854 *)
Definition xb_insert_mut (n : nat) (m : hrb) (k : K) (v : V) : P (crash hrb hrb) :=
  let* r := xins (S (hb_levels m)) n (hb_root m) k v true in
  match r with
  | Unwound root => Ret (Unwound (mkHRB root (hb_size m)))
  | Done n (root, is_new_key) => Ret (Done n (mkHRB root (if (is_new_key : bool) then S (hb_size m) else hb_size m)))
  end.
(** mod.rs 872-887 *)
Definition xb_remove_mut (n : nat) (m : hrb) (q : Q) : P (crash hrb (hrb * bool)) :=
  let* r := xdel (S (hb_levels m)) (S (2 * hb_levels m)) n (hb_root m) q true in
  match r with
  | Unwound root => Ret (Unwound (mkHRB root (hb_size m)))
  | Done n (root, removed) =>
      Ret (Done n (mkHRB root (if (removed : bool) then hb_size m - 1 else hb_size m), removed))
  end.
(** mod.rs 975-985 *)
Definition xb_get_mut (n : nat) (m : hrb) (q : Q) (g : V -> V) : P (crash hrb (hrb * option V)) :=
  let* r := xget_mut (S (hb_levels m)) n (hb_root m) q g in
  match r with
  | Unwound root => Ret (Unwound (mkHRB root (hb_size m)))
  | Done n (root, x) => Ret (Done n (mkHRB root (hb_size m), x))
  end.
(** mod.rs 812-837, 890-896 *)
Definition xb_get (n : nat) (m : hrb) (q : Q) : P (crash unit (option (K * V))) :=
  xget (S (hb_levels m)) n (hb_root m) q.

(** mod.rs 840-846: the clone is a local, dropped when the insertion unwinds; the receiver
    stays.  Otherwise the old value is dropped. *)
Definition xb_insert (n : nat) (m : hrb) (k : K) (v : V) : P (crash hrb hrb) :=
  let* c := hb_clone m in
  let* r := xb_insert_mut n c k v in
  match r with
  | Unwound c => let* _ := hb_drop c in Ret (Unwound m)
  | Done n c => let* _ := hb_drop m in Ret (Done n c)
  end.
(** mod.rs 857-870 *)
Definition xb_remove (n : nat) (m : hrb) (q : Q) : P (crash hrb hrb) :=
  let* c := hb_clone m in
  let* r := xb_remove_mut n c q in
  match r with
  | Unwound c => let* _ := hb_drop c in Ret (Unwound m)
  | Done n (c, removed) =>
      if (removed : bool) then let* _ := hb_drop m in Ret (Done n c)
      else
        let* c' := hb_clone m in
        let* _ := hb_drop c in
        let* _ := hb_drop m in
        Ret (Done n c')
  end.

(** A call and what a client sees of it: [None] if it unwound. *)
Definition seen {A} (p : P (crash hrb (hrb * A))) : P (hrb * option A) :=
  let* r := p in
  match r with
  | Unwound m => Ret (m, None)
  | Done _ (m, x) => Ret (m, Some x)
  end.
Definition xfinish {S A B} (p : P (crash S A)) (k : S -> hrb) (f : A -> hrb * B) : P (crash hrb (hrb * B)) :=
  let* r := p in
  match r with
  | Unwound s => Ret (Unwound (k s))
  | Done n a => Ret (Done n (f a))
  end.

(** One API call, the [n]-th user call of which (from 0) unwinds. *)
Definition xb_call (n : nat) (o : map_op K V Q) (m : hrb) : P (crash hrb (hrb * map_obs K V)) :=
  match o with
  | MInsert k v => xfinish (xb_insert n m k v) (fun m => m) (fun m => (m, MoUnit))
  | MInsertMut k v => xfinish (xb_insert_mut n m k v) (fun m => m) (fun m => (m, MoUnit))
  | MRemove q => xfinish (xb_remove n m q) (fun m => m) (fun m => (m, MoUnit))
  | MRemoveMut q => xfinish (xb_remove_mut n m q) (fun m => m) (fun '(m, b) => (m, MoBool b))
  | MGetMut q f => xfinish (xb_get_mut n m q f) (fun m => m) (fun '(m, x) => (m, MoVal x))
  | MGet q => xfinish (xb_get n m q) (fun _ => m) (fun x => (m, MoVal (option_map snd x)))
  | MGetKeyValue q => xfinish (xb_get n m q) (fun _ => m) (fun x => (m, MoKV x))
  | MContains q => xfinish (xb_get n m q) (fun _ => m) (fun x => (m, MoBool (is_some x)))
  | MSize => Ret (Done n (m, MoNat (hb_size m)))
  | MIsEmpty => Ret (Done n (m, MoBool (hb_size m =? 0)))
  | MClone => let* c := hb_clone m in let* _ := hb_drop c in Ret (Done n (m, MoUnit))
  end.
Definition xb_step (no : nat * map_op K V Q) (m : hrb) : P (hrb * option (map_obs K V)) :=
  seen (xb_call (fst no) (snd no) m).
End Prog.
