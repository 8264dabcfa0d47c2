(** * RedBlackTreeMap on the shared heap

    The functions of RBModel.v again, with the pointers.  A function that takes
    [&mut Node] in the crate takes here the contents that [make_mut] lent and
    returns the contents it leaves.  A node lent by [make_mut] is written back
    ([Fill]) when the function that borrowed it is done with it. *)
From Coq Require Import List Arith Lia Bool.
From Verif Require Import Base Spec SpecMap RBModel HeapModel HeapList.
Import ListNotations.
Local Open Scope prog_scope.

(** mod.rs 119-128 *)
Record hnode : Type := mkHN { hn_entry : addr; hn_color : color; hn_left : option addr; hn_right : option addr }.

Definition hset_entry (n : hnode) (e : addr) : hnode := mkHN e (hn_color n) (hn_left n) (hn_right n).
Definition hset_color (n : hnode) (c : color) : hnode := mkHN (hn_entry n) c (hn_left n) (hn_right n).
(** Assignment to the field [left], mod.rs 119-128. *)
Definition hset_left (n : hnode) (t : option addr) : hnode := mkHN (hn_entry n) (hn_color n) t (hn_right n).
(** Assignment to the field [right], mod.rs 119-128. *)
Definition hset_right (n : hnode) (t : option addr) : hnode := mkHN (hn_entry n) (hn_color n) (hn_left n) t.

(** The two sorts of cells: nodes, and entries (src/map/entry.rs 1-12). *)
Inductive rcell (K V : Type) := RN (n : hnode) | RE (e : K * V).
Arguments RN {K V}.
Arguments RE {K V}.

(** mod.rs 103-109 *)
Record hrb : Type := mkHRB { hb_root : option addr; hb_size : nat }.

Section Base.
Context {K V : Type}.
Notation C := (rcell K V).
Notation P := (prog C).

(** The pointers a cell owns, mod.rs 119-128, in the order they are cloned and dropped. *)
Definition rkids (c : C) : list addr :=
  match c with
  | RN n => hn_entry n :: opt_list (hn_left n) ++ opt_list (hn_right n)
  | RE _ => []
  end.

(** Reading through a pointer to a node, to an entry. *)
Definition see_node {A} (a : addr) (k : hnode -> P A) : P A :=
  Read a (fun c => match c with RN n => k n | RE _ => Fail end).
Definition see_entry {A} (a : addr) (k : K * V -> P A) : P A :=
  Read a (fun c => match c with RE e => k e | RN _ => Fail end).

(** Every recursion gets the number of nested calls that a balanced
    tree of that size needs and no more: a tree of [n] entries that is balanced
    has at most [2 * log2 (n + 1)] levels.  A program that needs more calls fails. *)
Definition hb_levels (m : hrb) : nat := 2 * Nat.log2 (hb_size m + 1).

End Base.

(** ** Iterators.  A stack holds pointers to nodes ([&Node]); what is in a node or an
    entry is read when the code reads it. *)
Section Range.
Context {K V Q : Type}.
Variable kcmp : K -> K -> comparison.
Variable borrow : K -> Q.
Variable qcmp : Q -> Q -> comparison.
Notation C := (rcell K V).
Notation P := (prog C).
Notation bound := (bound Q).

(** mod.rs 1145-1156 *)
Record hstk : Type := mkHStk { hsk_stack : list addr; hsk_backwards : bool }.

(** mod.rs 1212-1215: the pointer to the entry *)
Definition hsk_current (s : hstk) : P (option addr) :=
  match hsk_stack s with
  | [] => Ret None
  | a :: _ => see_node a (fun n => Ret (Some (hn_entry n)))
  end.

(** The tests against a bound: the key is only looked at when there is one. *)
Definition habove (sb : bound) (e : addr) : P bool :=
  match sb with
  | Unbounded => Ret true
  | _ => see_entry e (fun x => Ret (above qcmp sb (borrow (fst x))))
  end.
(** The test against the end bound. *)
Definition hbelow (eb : bound) (e : addr) : P bool :=
  match eb with
  | Unbounded => Ret true
  | _ => see_entry e (fun x => Ret (below qcmp eb (borrow (fst x))))
  end.

(** mod.rs 1186-1210 *)
Definition hsk_clear_if_finished (sb eb : bound) (s : hstk) : P hstk :=
  let* current := hsk_current s in
  match current with
  | Some entry =>
      let* in_range := (if hsk_backwards s then habove sb entry else hbelow eb entry) in
      if (in_range : bool) then Ret s else Ret (mkHStk [] (hsk_backwards s))
  | None => Ret s
  end.

(** mod.rs 1217-1231 *)
Fixpoint hsk_dig (f : nat) (bw : bool) (stack : list addr) : P (list addr) :=
  match f with
  | 0 => Fail
  | S f' =>
      match stack with
      | [] => Ret []
      | a :: _ =>
          see_node a (fun n =>
            match (if bw then hn_right n else hn_left n) with
            | Some c => hsk_dig f' bw (c :: stack)
            | None => Ret stack
            end)
      end
  end.

(** mod.rs 1233-1275 *)
Fixpoint hsk_dig_towards (f : nat) (bw : bool) (sb eb : bound) (a : addr) (stack : list addr) : P (list addr) :=
  match f with
  | 0 => Fail
  | S f' =>
      see_node a (fun n =>
        let* in_range := (if bw then hbelow eb (hn_entry n) else habove sb (hn_entry n)) in
        let stack := if (in_range : bool) then a :: stack else stack in
        let child := match bw, in_range with
                     | false, true => hn_left n
                     | false, false => hn_right n
                     | true, true => hn_right n
                     | true, false => hn_left n
                     end in
        match child with
        | Some c => hsk_dig_towards f' bw sb eb c stack
        | None => Ret stack
        end)
  end.

(** mod.rs 1163-1184 *)
Definition hsk_new (m : hrb) (sb eb : bound) (bw : bool) : P hstk :=
  let* stack := match hb_root m with
                | Some a => hsk_dig_towards (S (hb_levels m)) bw sb eb a []
                | None => Ret []
                end in
  hsk_clear_if_finished sb eb (mkHStk stack bw).

(** mod.rs 1277-1291 *)
Definition hsk_advance (f : nat) (sb eb : bound) (s : hstk) : P hstk :=
  match hsk_stack s with
  | [] => Ret s
  | a :: stack =>
      see_node a (fun n =>
        let* stack := match (if hsk_backwards s then hn_left n else hn_right n) with
                      | Some c => hsk_dig f (hsk_backwards s) (c :: stack)
                      | None => Ret stack
                      end in
        hsk_clear_if_finished sb eb (mkHStk stack (hsk_backwards s)))
  end.

(** mod.rs 1366-1378 *)
Record hriter : Type := mkHRI {
  hri_map : hrb; hri_fwd : option hstk; hri_bwd : option hstk; hri_start : bound; hri_end : bound }.

(** mod.rs 1387-1389 *)
Definition hri_new (m : hrb) (sb eb : bound) : hriter := mkHRI m None None sb eb.

(** mod.rs 1391-1405 *)
Definition hri_init (bw : bool) (i : hriter) : P hriter :=
  if bw then
    match hri_bwd i with
    | Some _ => Ret i
    | None =>
        let* s := hsk_new (hri_map i) (hri_start i) (hri_end i) true in
        Ret (mkHRI (hri_map i) (hri_fwd i) (Some s) (hri_start i) (hri_end i))
    end
  else
    match hri_fwd i with
    | Some _ => Ret i
    | None =>
        let* s := hsk_new (hri_map i) (hri_start i) (hri_end i) false in
        Ret (mkHRI (hri_map i) (Some s) (hri_bwd i) (hri_start i) (hri_end i))
    end.

(** mod.rs 1407-1417 *)
Definition hri_is_empty (i : hriter) : P bool :=
  match hri_fwd i, hri_bwd i with
  | Some f, Some b =>
      let* lft := hsk_current f in
      let* rgt := hsk_current b in
      match lft, rgt with
      | Some l, Some r =>
          see_entry l (fun x => see_entry r (fun y =>
            Ret (match kcmp (fst x) (fst y) with Gt => true | _ => false end)))
      | _, _ => Ret true
      end
  | _, _ => Ret false
  end.

(** mod.rs 1419-1424 and 1433-1438 *)
Definition hri_current (bw : bool) (i : hriter) : P (option addr) :=
  let* empty := hri_is_empty i in
  if (empty : bool) then Ret None
  else let* s := lift (unwrap (if bw then hri_bwd i else hri_fwd i)) in hsk_current s.

(** mod.rs 1426-1431 and 1440-1445 *)
Definition hri_advance (bw : bool) (i : hriter) : P hriter :=
  let* s := lift (unwrap (if bw then hri_bwd i else hri_fwd i)) in
  let* s := hsk_advance (S (hb_levels (hri_map i))) (hri_start i) (hri_end i) s in
  Ret (if bw then mkHRI (hri_map i) (hri_fwd i) (Some s) (hri_start i) (hri_end i)
       else mkHRI (hri_map i) (Some s) (hri_bwd i) (hri_start i) (hri_end i)).

(** mod.rs 1457-1465 ([bw] false) and 1475-1483 *)
Definition hri_next (bw : bool) (i : hriter) : P (option addr * hriter) :=
  let* i := hri_init bw i in
  let* current := hri_current bw i in
  let* i := hri_advance bw i in
  Ret (current, i).

(** mod.rs 944-966 *)
Definition hb_range (m : hrb) (sb eb : bound) : res hriter :=
  match sb, eb with
  | Excluded s, Excluded e =>
      if q_eqb qcmp s e then Panic else if q_lt qcmp e s then Panic else Ok (hri_new m sb eb)
  | Included s, Included e | Included s, Excluded e | Excluded s, Included e =>
      if q_lt qcmp e s then Panic else Ok (hri_new m sb eb)
  | _, _ => Ok (hri_new m sb eb)
  end.

(** mod.rs 964 [.map(|e| (&e.key, &e.value))]: the entry is read *)
Definition deliver {St} (p : P (option addr * St)) : P (option (K * V) * St) :=
  let* (o, i) := p in
  match o with
  | Some e => see_entry e (fun x => Ret (Some x, i))
  | None => Ret (None, i)
  end.
(** mod.rs 944-965, 1457-1484 *)
Definition hb_range_next (bw : bool) (i : hriter) : P (option (K * V) * hriter) := deliver (hri_next bw i).
End Range.
Arguments hriter Q : clear implicits.

Section Full.
Context {K V : Type}.
Variable kcmp : K -> K -> comparison.
Notation P := (prog (rcell K V)).

(** mod.rs 1307-1315; the range is [..], queried through the key itself *)
Record hbiter : Type := mkHBI { hbi_range : hriter K; hbi_size : nat }.
(** mod.rs 1322-1324 *)
Definition hbi_new (m : hrb) : hbiter := mkHBI (hri_new m Unbounded Unbounded) (hb_size m).
(** mod.rs 1334-1341 ([bw] false) and 1353-1360 *)
Definition hbi_next_ptr (bw : bool) (i : hbiter) : P (option addr * hbiter) :=
  if Nat.ltb 0 (hbi_size i) then
    let* size := lift (csub (hbi_size i) 1) in
    let* (o, r) := hri_next kcmp (fun k => k) kcmp bw (hbi_range i) in
    Ret (o, mkHBI r size)
  else Ret (None, i).
(** mod.rs 1343-1345 *)
Definition hbi_hint (i : hbiter) : res nat := Ok (hbi_size i).
(** mod.rs 927-929 *)
Definition hbi_next (bw : bool) (i : hbiter) : P (option (K * V) * hbiter) := deliver (hbi_next_ptr bw i).

Definition hb_iter (m : hrb) (ds : list bool) : P (list (nat * option (K * V))) :=
  pruns2 (hbi_next false) (hbi_next true) hbi_hint ds (hbi_new m).
End Full.

Section HRB.
Context {K V Q : Type}.
Variable dbg : bool.
Variable kcmp : K -> K -> comparison.
Variable borrow : K -> Q.
Variable qcmp : Q -> Q -> comparison.
Notation C := (rcell K V).
Notation P := (prog C).

(** [SharedPointer::make_mut(o.as_mut().unwrap())] *)
Definition take_mut (o : option addr) : P (addr * hnode) :=
  match o with
  | None => Fail
  | Some a =>
      let* (a', c) := make_mut rkids a in
      match c with RN n => Ret (a', n) | RE _ => Fail end
  end.

(** mod.rs 161-167 *)
Definition hcolor (o : option addr) : P (option color) :=
  match o with None => Ret None | Some a => see_node a (fun n => Ret (Some (hn_color n))) end.
Definition hthen_left_color (o : option addr) : P (option color) :=
  match o with None => Ret None | Some a => see_node a (fun n => hcolor (hn_left n)) end.
(** mod.rs 165-167, on an optional node *)
Definition hthen_right_color (o : option addr) : P (option color) :=
  match o with None => Ret None | Some a => see_node a (fun n => hcolor (hn_right n)) end.

(** mod.rs 282-299 *)
Definition hbal1 (self : hnode) : P hnode :=
  let* (pl, node_l) := take_mut (hn_left self) in
  let self := hset_left self None in
  let* (pll, node_l_l) := take_mut (hn_left node_l) in
  let node_l := hset_left node_l None in
  let self := hset_color self Red in
  let node_l := hset_color node_l Black in
  let node_l_l := hset_color node_l_l Black in
  let '(self, node_l) := (hset_entry self (hn_entry node_l), hset_entry node_l (hn_entry self)) in
  let node_l := hset_right (hset_left node_l (hn_right node_l)) (hn_left node_l) in
  let '(self, node_l) := (hset_right self (hn_right node_l), hset_right node_l (hn_right self)) in
  let self := hset_left self (Some pll) in
  let self := hset_right self (Some pl) in
  Fill pll (RN node_l_l) (Fill pl (RN node_l) (Ret self)).

(** mod.rs 302-320 *)
Definition hbal2 (self : hnode) : P hnode :=
  let* (pl, node_l) := take_mut (hn_left self) in
  let self := hset_left self None in
  let* (plr, node_l_r) := take_mut (hn_right node_l) in
  let node_l := hset_right node_l None in
  let self := hset_color self Red in
  let node_l := hset_color node_l Black in
  let node_l_r := hset_color node_l_r Black in
  let '(self, node_l_r) := (hset_entry self (hn_entry node_l_r), hset_entry node_l_r (hn_entry self)) in
  let node_l_r := hset_right (hset_left node_l_r (hn_right node_l_r)) (hn_left node_l_r) in
  let '(node_l, node_l_r) := (hset_right node_l (hn_right node_l_r), hset_right node_l_r (hn_right node_l)) in
  let '(self, node_l_r) := (hset_right self (hn_right node_l_r), hset_right node_l_r (hn_right self)) in
  let self := hset_right self (Some plr) in
  let self := hset_left self (Some pl) in
  Fill plr (RN node_l_r) (Fill pl (RN node_l) (Ret self)).

(** mod.rs 323-341 *)
Definition hbal3 (self : hnode) : P hnode :=
  let* (pr, node_r) := take_mut (hn_right self) in
  let self := hset_right self None in
  let* (prl, node_r_l) := take_mut (hn_left node_r) in
  let node_r := hset_left node_r None in
  let self := hset_color self Red in
  let node_r := hset_color node_r Black in
  let node_r_l := hset_color node_r_l Black in
  let '(self, node_r_l) := (hset_entry self (hn_entry node_r_l), hset_entry node_r_l (hn_entry self)) in
  let '(node_r, node_r_l) := (hset_left node_r (hn_right node_r_l), hset_right node_r_l (hn_left node_r)) in
  let node_r_l := hset_right (hset_left node_r_l (hn_right node_r_l)) (hn_left node_r_l) in
  let '(self, node_r_l) := (hset_left self (hn_left node_r_l), hset_left node_r_l (hn_left self)) in
  let self := hset_left self (Some prl) in
  let self := hset_right self (Some pr) in
  Fill prl (RN node_r_l) (Fill pr (RN node_r) (Ret self)).

(** mod.rs 344-361 *)
Definition hbal4 (self : hnode) : P hnode :=
  let* (pr, node_r) := take_mut (hn_right self) in
  let self := hset_right self None in
  let* (prr, node_r_r) := take_mut (hn_right node_r) in
  let node_r := hset_right node_r None in
  let self := hset_color self Red in
  let node_r := hset_color node_r Black in
  let node_r_r := hset_color node_r_r Black in
  let '(self, node_r) := (hset_entry self (hn_entry node_r), hset_entry node_r (hn_entry self)) in
  let node_r := hset_right (hset_left node_r (hn_right node_r)) (hn_left node_r) in
  let '(self, node_r) := (hset_left self (hn_left node_r), hset_left node_r (hn_left self)) in
  let self := hset_right self (Some prr) in
  let self := hset_left self (Some pr) in
  Fill prr (RN node_r_r) (Fill pr (RN node_r) (Ret self)).

(** mod.rs 267-369 *)
Definition hbalance (self : hnode) : P hnode :=
  match hn_color self with
  | Black =>
      let* color_l := hcolor (hn_left self) in
      let* color_l_l := hthen_left_color (hn_left self) in
      let* color_l_r := hthen_right_color (hn_left self) in
      let* color_r := hcolor (hn_right self) in
      let* color_r_l := hthen_left_color (hn_right self) in
      let* color_r_r := hthen_right_color (hn_right self) in
      match color_l, color_l_l, color_l_r, color_r, color_r_l, color_r_r with
      | Some Red, Some Red, _, _, _, _ => hbal1 self
      | Some Red, _, Some Red, _, _, _ => hbal2 self
      | _, _, _, Some Red, Some Red, _ => hbal3 self
      | _, _, _, Some Red, _, Some Red => hbal4 self
      | _, _, _, _, _, _ => Ret self
      end
  | Red => Ret self
  end.

(** mod.rs 149-155 *)
Definition hnew_node (c : color) (e : K * V) : P addr :=
  New (RE e) (fun p => New (RN (mkHN p c None None)) (fun a => Ret a)).

(** mod.rs 373-425; at most [f] levels *)
Fixpoint hins (f : nat) (o : option addr) (k : K) (v : V) (is_root : bool) : P (option addr * bool) :=
  match f with
  | 0 => Fail
  | S f' =>
      match o with
      | Some _ =>
          let* (p, node) := take_mut o in
          see_entry (hn_entry node) (fun e =>
            let* (node, ret) :=
              match kcmp k (fst e) with
              | Lt =>
                  let* (l', is_new_key) := hins f' (hn_left node) k v false in
                  let node := hset_left node l' in
                  let* node := (if (is_new_key : bool) then hbalance node else Ret node) in
                  Ret (node, is_new_key)
              | Eq =>
                  (* the assignment drops the old entry *)
                  New (RE (k, v)) (fun e' =>
                    let* _ := drop_ptr rkids 1 (hn_entry node) in
                    Ret (hset_entry node e', false))
              | Gt =>
                  let* (r', is_new_key) := hins f' (hn_right node) k v false in
                  let node := hset_right node r' in
                  let* node := (if (is_new_key : bool) then hbalance node else Ret node) in
                  Ret (node, is_new_key)
              end in
            let node := if is_root then hset_color node Black else node in
            Fill p (RN node) (Ret (Some p, ret)))
      | None =>
          let* a := hnew_node (if is_root then Black else Red) (k, v) in
          Ret (Some a, true)
      end
  end.

(** mod.rs 547-562 *)
Definition hremove_balance (self : hnode) : P hnode :=
  let* cl := hcolor (hn_left self) in
  let* cr := hcolor (hn_right self) in
  match cl, cr with
  | Some Red, Some Red =>
      let* (pl, l) := take_mut (hn_left self) in
      Fill pl (RN (hset_color l Black))
        (let self := hset_left self (Some pl) in
         let* (pr, r) := take_mut (hn_right self) in
         Fill pr (RN (hset_color r Black))
           (let self := hset_right self (Some pr) in
            Ret (hset_color self Red)))
  | _, _ =>
      if dbg && match hn_color self with Black => false | Red => true end then Fail
      else hbalance self
  end.

(** mod.rs 564-613 *)
Definition hremove_balance_left (self : hnode) : P hnode :=
  let* color_l := hcolor (hn_left self) in
  let* color_r := hcolor (hn_right self) in
  let* color_r_l := hthen_left_color (hn_right self) in
  match color_l, color_r, color_r_l with
  | Some Red, _, _ =>
      let* (pl, self_l) := take_mut (hn_left self) in
      let self := hset_color self Red in
      Fill pl (RN (hset_color self_l Black)) (Ret (hset_left self (Some pl)))
  | _, Some Black, _ =>
      let* (pr, self_r) := take_mut (hn_right self) in
      let self := hset_color self Black in
      Fill pr (RN (hset_color self_r Red)) (hremove_balance (hset_right self (Some pr)))
  | _, Some Red, Some Black =>
      let* (pr, self_r) := take_mut (hn_right self) in
      let* (prl, self_r_l) := take_mut (hn_left self_r) in
      let self_r := hset_left self_r None in
      let new_r_l := hn_right self_r_l in
      let self_r_l := hset_right self_r_l None in
      let self_r := hset_color self_r Black in
      let self_r := hset_left self_r new_r_l in
      let* (prr, self_r_r) := take_mut (hn_right self_r) in
      Fill prr (RN (hset_color self_r_r Red))
        (let self_r := hset_right self_r (Some prr) in
         let* self_r := hremove_balance self_r in
         Fill pr (RN self_r)
           (let self := hset_right self (Some pr) in
            let self := hset_color self Red in
            let self_r_l := hset_left (hset_right self_r_l (hn_left self_r_l)) None in
            let self_r_l := hset_left self_r_l (hn_left self) in
            let self := hset_left self None in
            let '(self, self_r_l) := (hset_entry self (hn_entry self_r_l), hset_entry self_r_l (hn_entry self)) in
            Fill prl (RN self_r_l) (Ret (hset_left self (Some prl)))))
  | _, _, _ => Fail
  end.

(** mod.rs 615-664 *)
Definition hremove_balance_right (self : hnode) : P hnode :=
  let* color_r := hcolor (hn_right self) in
  let* color_l := hcolor (hn_left self) in
  let* color_l_r := hthen_right_color (hn_left self) in
  match color_l, color_l_r, color_r with
  | _, _, Some Red =>
      let* (pr, self_r) := take_mut (hn_right self) in
      let self := hset_color self Red in
      Fill pr (RN (hset_color self_r Black)) (Ret (hset_right self (Some pr)))
  | Some Black, _, _ =>
      let* (pl, self_l) := take_mut (hn_left self) in
      let self := hset_color self Black in
      Fill pl (RN (hset_color self_l Red)) (hremove_balance (hset_left self (Some pl)))
  | Some Red, Some Black, _ =>
      let* (pl, self_l) := take_mut (hn_left self) in
      let* (plr, self_l_r) := take_mut (hn_right self_l) in
      let self_l := hset_right self_l None in
      let new_l_r := hn_left self_l_r in
      let self_l_r := hset_left self_l_r None in
      let self_l := hset_color self_l Black in
      let self_l := hset_right self_l new_l_r in
      let* (pll, self_l_l) := take_mut (hn_left self_l) in
      Fill pll (RN (hset_color self_l_l Red))
        (let self_l := hset_left self_l (Some pll) in
         let* self_l := hremove_balance self_l in
         Fill pl (RN self_l)
           (let self := hset_left self (Some pl) in
            let self := hset_color self Red in
            let self_l_r := hset_right (hset_left self_l_r (hn_right self_l_r)) None in
            let self_l_r := hset_right self_l_r (hn_right self) in
            let self := hset_right self None in
            let '(self, self_l_r) := (hset_entry self (hn_entry self_l_r), hset_entry self_l_r (hn_entry self)) in
            Fill plr (RN self_l_r) (Ret (hset_right self (Some plr)))))
  | _, _, _ => Fail
  end.

(** utils/mod.rs 9-17: the contents of [src] come out, those of [dest] go into
    its cell, and [src] is dropped. *)
Definition hreplace (dest : hnode) (src : option addr) : P hnode :=
  let* (p, n) := take_mut src in
  Fill p (RN dest) (let* _ := drop_ptr rkids 2 p in Ret n).

(** mod.rs 477-506: the rest of the (R, R) arm.  [pl] and [pr] are lent. *)
Definition hfuse_red_red (pl pr : addr) (l r node : hnode) (fused : bool) : P hnode :=
  match hn_color node, fused with
  | Red, true =>
      let fl := hn_left node in
      let fr := hn_right node in
      let node := hset_right (hset_left node None) None in
      let l := hset_right l fl in
      let r := hset_left r fr in
      Fill pl (RN l) (Fill pr (RN r) (Ret (hset_right (hset_left node (Some pl)) (Some pr))))
  | _, _ =>
      let '(l, node) := (node, l) in
      Fill pl (RN l)
        (let r := if fused then hset_left r (Some pl) else r in
         Fill pr (RN r)
           (let node := hset_right node (Some pr) in
            (* [l_ptr] is dropped at the end of the arm unless it was moved *)
            if fused then Ret node else let* _ := drop_ptr rkids 2 pl in Ret node))
  end.

(** mod.rs 507-538: the rest of the (B, B) arm *)
Definition hfuse_black_black (pl pr : addr) (l r node : hnode) (fused : bool) : P hnode :=
  match hn_color node, fused with
  | Red, true =>
      let fl := hn_left node in
      let fr := hn_right node in
      let node := hset_right (hset_left node None) None in
      let l := hset_right l fl in
      let r := hset_left r fr in
      Fill pl (RN l) (Fill pr (RN r) (Ret (hset_right (hset_left node (Some pl)) (Some pr))))
  | _, _ =>
      let '(l, node) := (node, l) in
      Fill pl (RN l)
        (let r := if fused then hset_left r (Some pl) else r in
         Fill pr (RN r)
           (let node := hset_color node Red in
            let node := hset_right node (Some pr) in
            let* node := hremove_balance_left node in
            if fused then Ret node else let* _ := drop_ptr rkids 2 pl in Ret node))
  end.

(** mod.rs 432-545; at most [f] levels *)
Fixpoint hremove_fuse (f : nat) (n0 : hnode) (left right : option addr) : P (hnode * bool) :=
  match f with
  | 0 => Fail
  | S f' =>
      match left, right with
      | None, None => Ret (n0, false)
      | None, Some _ => let* n := hreplace n0 right in Ret (n, true)
      | Some _, None => let* n := hreplace n0 left in Ret (n, true)
      | Some a, Some b =>
          see_node a (fun ln => see_node b (fun rn =>
            let* node :=
              match hn_color ln, hn_color rn with
              | Black, Red =>
                  let* (pr, r) := take_mut right in
                  let rl := hn_left r in
                  let r := hset_left r None in
                  let* (node, _) := hremove_fuse f' n0 left rl in
                  let '(node, r) := (r, node) in
                  Fill pr (RN r) (Ret (hset_left node (Some pr)))
              | Red, Black =>
                  let* (pl, l) := take_mut left in
                  let lr := hn_right l in
                  let l := hset_right l None in
                  let* (node, _) := hremove_fuse f' n0 lr right in
                  let '(node, l) := (l, node) in
                  Fill pl (RN l) (Ret (hset_right node (Some pl)))
              | Red, Red =>
                  let* (pr, r) := take_mut right in
                  let rl := hn_left r in
                  let r := hset_left r None in
                  let* (pl, l) := take_mut left in
                  let lr := hn_right l in
                  let l := hset_right l None in
                  let* (node, fused) := hremove_fuse f' n0 lr rl in
                  hfuse_red_red pl pr l r node fused
              | Black, Black =>
                  let* (pr, r) := take_mut right in
                  let rl := hn_left r in
                  let r := hset_left r None in
                  let* (pl, l) := take_mut left in
                  let lr := hn_right l in
                  let l := hset_right l None in
                  let* (node, fused) := hremove_fuse f' n0 lr rl in
                  hfuse_black_black pl pr l r node fused
              end in
            Ret (node, true)))
      end
  end.

(** mod.rs 669-755; at most [f] levels; [g] bounds the depth of [remove_fuse] *)
Fixpoint hdel (f g : nat) (o : option addr) (k : Q) (is_root : bool) : P (option addr * bool) :=
  match f with
  | 0 => Fail
  | S f' =>
      match o with
      | Some _ =>
          let* (p, node) := take_mut o in
          see_entry (hn_entry node) (fun e =>
            let* (node, removed, make_node_none) :=
              match qcmp k (borrow (fst e)) with
              | Lt =>
                  let* original_left_color := hcolor (hn_left node) in
                  let* (l', removed) := hdel f' g (hn_left node) k false in
                  let node := hset_left node l' in
                  let node := hset_color node Red in
                  let* node := match original_left_color with
                               | Some Black => hremove_balance_left node
                               | _ => Ret node
                               end in
                  Ret (node, removed, false)
              | Eq =>
                  let left := hn_left node in
                  let right := hn_right node in
                  let node := hset_right (hset_left node None) None in
                  let* (node, fused) := hremove_fuse g node left right in
                  Ret (node, true, negb fused)
              | Gt =>
                  let* original_right_color := hcolor (hn_right node) in
                  let* (r', removed) := hdel f' g (hn_right node) k false in
                  let node := hset_right node r' in
                  let node := hset_color node Red in
                  let* node := match original_right_color with
                               | Some Black => hremove_balance_right node
                               | _ => Ret node
                               end in
                  Ret (node, removed, false)
              end in
            let node := if is_root then hset_color node Black else node in
            Fill p (RN node)
              (if (make_node_none : bool) then
                 (* [*node = None] drops the pointer *)
                 let* _ := drop_ptr rkids 2 p in Ret (None, removed)
               else Ret (Some p, removed)))
      | None => Ret (None, false)
      end
  end.

(** mod.rs 764-778, and a write through the reference; the old value is returned *)
Fixpoint hget_mut (f : nat) (o : option addr) (key : Q) (g : V -> V) : P (option addr * option V) :=
  match f with
  | 0 => Fail
  | S f' =>
      match o with
      | None => Ret (None, None)
      | Some _ =>
          let* (p, node) := take_mut o in
          see_entry (hn_entry node) (fun e =>
            match qcmp key (borrow (fst e)) with
            | Lt =>
                let* (l', x) := hget_mut f' (hn_left node) key g in
                Fill p (RN (hset_left node l')) (Ret (Some p, x))
            | Eq =>
                let* (pe, c) := make_mut rkids (hn_entry node) in
                match c with
                | RE e => Fill pe (RE (fst e, g (snd e)))
                            (Fill p (RN (hset_entry node pe)) (Ret (Some p, Some (snd e))))
                | RN _ => Fail
                end
            | Gt =>
                let* (r', x) := hget_mut f' (hn_right node) key g in
                Fill p (RN (hset_right node r')) (Ret (Some p, x))
            end)
      end
  end.

(** mod.rs 169-179 *)
Fixpoint hget (f : nat) (o : option addr) (key : Q) : P (option (K * V)) :=
  match f with
  | 0 => Fail
  | S f' =>
      match o with
      | None => Ret None
      | Some a =>
          see_node a (fun n => see_entry (hn_entry n) (fun e =>
            match qcmp key (borrow (fst e)) with
            | Lt => hget f' (hn_left n) key
            | Eq => Ret (Some e)
            | Gt => hget f' (hn_right n) key
            end))
      end
  end.

(** mod.rs 181-193 *)
Fixpoint hfirst (f : nat) (o : option addr) : P (option (K * V)) :=
  match f with
  | 0 => Fail
  | S f' =>
      match o with
      | None => Ret None
      | Some a =>
          see_node a (fun n =>
            match hn_left n with
            | Some _ => hfirst f' (hn_left n)
            | None => see_entry (hn_entry n) (fun e => Ret (Some e))
            end)
      end
  end.
(** mod.rs 188-193 *)
Fixpoint hlast (f : nat) (o : option addr) : P (option (K * V)) :=
  match f with
  | 0 => Fail
  | S f' =>
      match o with
      | None => Ret None
      | Some a =>
          see_node a (fun n =>
            match hn_right n with
            | Some _ => hlast f' (hn_right n)
            | None => see_entry (hn_entry n) (fun e => Ret (Some e))
            end)
      end
  end.

(** ** The map *)
(** mod.rs 807-809 *)
Definition hb_new : P hrb := Ret (mkHRB None 0).
(** mod.rs 848-854 *)
Definition hb_insert_mut (m : hrb) (k : K) (v : V) : P hrb :=
  let* (root, is_new_key) := hins (S (hb_levels m)) (hb_root m) k v true in
  Ret (mkHRB root (if (is_new_key : bool) then S (hb_size m) else hb_size m)).
(** mod.rs 872-887 *)
Definition hb_remove_mut (m : hrb) (q : Q) : P (hrb * bool) :=
  let* (root, removed) := hdel (S (hb_levels m)) (S (2 * hb_levels m)) (hb_root m) q true in
  Ret (mkHRB root (if (removed : bool) then hb_size m - 1 else hb_size m), removed).
(** mod.rs 975-985 *)
Definition hb_get_mut (m : hrb) (q : Q) (g : V -> V) : P (hrb * option V) :=
  let* (root, x) := hget_mut (S (hb_levels m)) (hb_root m) q g in
  Ret (mkHRB root (hb_size m), x).
(** mod.rs 812-837, 890-896 *)
Definition hb_get (m : hrb) (q : Q) : P (option (K * V)) := hget (S (hb_levels m)) (hb_root m) q.
Definition hb_first (m : hrb) : P (option (K * V)) := hfirst (S (hb_levels m)) (hb_root m).
Definition hb_last (m : hrb) : P (option (K * V)) := hlast (S (hb_levels m)) (hb_root m).
(** mod.rs 1006-1008 *)
Definition hb_clone (m : hrb) : P hrb := clone_opt (hb_root m) (Ret m).
(** Drop glue *)
Definition hb_drop (m : hrb) : P unit := drop_opt rkids (S (hb_levels m)) (hb_root m).

(** mod.rs 840-846 then the old value is dropped *)
Definition hb_insert (m : hrb) (k : K) (v : V) : P hrb :=
  let* n := hb_clone m in
  let* n := hb_insert_mut n k v in
  let* _ := hb_drop m in
  Ret n.
(** mod.rs 857-870 then the old value is dropped *)
Definition hb_remove (m : hrb) (q : Q) : P hrb :=
  let* n := hb_clone m in
  let* (n, removed) := hb_remove_mut n q in
  if (removed : bool) then let* _ := hb_drop m in Ret n
  else
    let* c := hb_clone m in
    let* _ := hb_drop n in
    let* _ := hb_drop m in
    Ret c.

(** The calls: those of SpecMap.v, the ends, and double-ended iteration. *)
Inductive rb_call : Type :=
| BOp (o : map_op K V Q) | BFirst | BLast | BIter (ds : list bool).
Inductive rb_result : Type :=
| BObs (x : map_obs K V) | BSteps (l : list (nat * option (K * V))).

(** One call of a history, dispatched to the functions above. *)
Definition hb_step (o : rb_call) (m : hrb) : P (hrb * rb_result) :=
  match o with
  | BOp (MInsert k v) => let* m := hb_insert m k v in Ret (m, BObs MoUnit)
  | BOp (MInsertMut k v) => let* m := hb_insert_mut m k v in Ret (m, BObs MoUnit)
  | BOp (MRemove q) => let* m := hb_remove m q in Ret (m, BObs MoUnit)
  | BOp (MRemoveMut q) => let* (m, b) := hb_remove_mut m q in Ret (m, BObs (MoBool b))
  | BOp (MGetMut q f) => let* (m, o) := hb_get_mut m q f in Ret (m, BObs (MoVal o))
  | BOp (MGet q) => let* o := hb_get m q in Ret (m, BObs (MoVal (option_map snd o)))
  | BOp (MGetKeyValue q) => let* o := hb_get m q in Ret (m, BObs (MoKV o))
  | BOp (MContains q) => let* o := hb_get m q in Ret (m, BObs (MoBool (is_some o)))
  | BOp MSize => Ret (m, BObs (MoNat (hb_size m)))
  | BOp MIsEmpty => Ret (m, BObs (MoBool (hb_size m =? 0)))
  | BOp MClone =>
      (* the clone is dropped *)
      let* c := hb_clone m in let* _ := hb_drop c in Ret (m, BObs MoUnit)
  | BFirst => let* o := hb_first m in Ret (m, BObs (MoKV o))
  | BLast => let* o := hb_last m in Ret (m, BObs (MoKV o))
  | BIter ds => let* l := hb_iter kcmp m ds in Ret (m, BSteps l)
  end.

End HRB.
