(** * RedBlackTreeMap whose values are collections, on the shared heap

    [RedBlackTreeMap<K, X>] where [X] is itself a collection of this crate: HeapRB.v hosting an
    inner collection (HeapHost.v).  Keys are plain. *)
From Coq Require Import List Arith Lia Bool.
From Verif Require Import Base Spec SpecMap SpecOrd RBModel HeapModel HeapList HeapRB HeapIn HeapHost HeapOfMap.
Import ListNotations.
Local Open Scope prog_scope.

(** The value in a cell: that of an entry (src/map/entry.rs 1-12) *)
Definition r_elem {K T} (c : rcell K T) : option T := match c with RE e => Some (snd e) | RN _ => None end.
Definition r_put {K T} (c : rcell K T) (x : T) : rcell K T := match c with RE e => RE (fst e, x) | RN _ => c end.

(** The calls that the maps have in common, and those of this one *)
Inductive nbop (K Q Op : Type) :=
| NBMap (o : nmop K Q Op)
| NBFirst (l : list Op)                  (** [m.first()]: the key, and calls on a clone of the value *)
| NBLast (l : list Op)
| NBIter (ds : list bool) (l : list Op). (** the same for the references that the calls [ds] on [m.iter()] deliver *)
Arguments NBMap {K Q Op}.
Arguments NBFirst {K Q Op}.
Arguments NBLast {K Q Op}.
Arguments NBIter {K Q Op}.

Section Of.
Context {K Q : Type}.
Variable dbg : bool.
Variable kcmp : K -> K -> comparison.
Variable borrow : K -> Q.
Variable qcmp : Q -> Q -> comparison.

(** The calls that the maps have in common *)
Definition rb_step {T} (o : map_op K T Q) (m : hrb) : prog (rcell K T) (hrb * map_obs K T) :=
  let* (m, r) := hb_step dbg kcmp borrow qcmp (BOp o) m in
  match r with BObs x => Ret (m, x) | BSteps _ => Fail end.

Context {C E Op Out : Type} (I : impl C E Op Out).
Notation B := (rcell K E).
Notation D := (dcell B C).
Notation P := (prog D).
Notation calls := (calls I r_elem).
Notation peek := (peek (B := B) I).
Notation node_mut := (node_mut I r_elem (make_mut rkids)).
Notation update := (update I r_elem rkids r_put).

Definition wtake_mut (o : option addr) : P (addr * hnode) :=
  match o with
  | None => Fail
  | Some a =>
      let* (a', c) := node_mut a in
      match c with RN n => Ret (a', n) | RE _ => Fail end
  end.

(** red_black_tree_map/mod.rs 764-778, and calls through the reference returned *)
Fixpoint wbn_get_mut (f : nat) (o : option addr) (key : Q) (l : list Op) : P (option addr * option (list Out)) :=
  match f with
  | 0 => Fail
  | S f' =>
      match o with
      | None => Ret (None, None)
      | Some _ =>
          let* (p, node) := wtake_mut o in
          let* k := calls (see_entry (hn_entry node) (fun e => Ret (fst e))) [] in
          match qcmp key (borrow k) with
          | Lt =>
              let* (l', x) := wbn_get_mut f' (hn_left node) key l in
              Fill p (DO (RN (hset_left node l'))) (Ret (Some p, x))
          | Eq =>
              let* (pe, xs) := update l (hn_entry node) in
              Fill p (DO (RN (hset_entry node pe))) (Ret (Some p, Some xs))
          | Gt =>
              let* (r', x) := wbn_get_mut f' (hn_right node) key l in
              Fill p (DO (RN (hset_right node r'))) (Ret (Some p, x))
          end
      end
  end.

(** red_black_tree_map/mod.rs 975-985 *)
Definition wb_get_mut (m : hrb) (q : Q) (l : list Op) : P (hrb * option (list Out)) :=
  let* (root, x) := wbn_get_mut (S (hb_levels m)) (hb_root m) q l in
  Ret (mkHRB root (hb_size m), x).

(** An entry that a call handed out *)
Definition wb_entry (m : hrb) (l : list Op) (o : option (K * E)) : P (hrb * nmout K Out) :=
  let* r := peek l (option_map snd o) in
  match o, r with
  | Some (k, _), Some xs => Ret (m, NMEntry (Some (k, xs)))
  | None, None => Ret (m, NMEntry None)
  | _, _ => Fail
  end.

Definition entry_of {X} (x : nat * option K * option X) : nat * option (K * X) :=
  match x with
  | (n, Some k, Some xs) => (n, Some (k, xs))
  | (n, _, _) => (n, None)
  end.

Definition wb_step (o : nbop K Q Op) (m : hrb) : P (hrb * nmout K Out) :=
  match o with
  | NBMap o => wm_step I r_elem rb_step wb_get_mut o m
  | NBFirst l =>
      let* (m, o) := calls (hb_step dbg kcmp borrow qcmp BFirst m) [] in
      match o with BObs (MoKV o) => wb_entry m l o | _ => Fail end
  | NBLast l =>
      let* (m, o) := calls (hb_step dbg kcmp borrow qcmp BLast m) [] in
      match o with BObs (MoKV o) => wb_entry m l o | _ => Fail end
  | NBIter ds l =>
      let* (m, o) := calls (hb_step dbg kcmp borrow qcmp (BIter ds) m) [] in
      match o with
      | BSteps os =>
          let* rs := peeks I l (map (fun x => (fst x, option_map fst (snd x), option_map snd (snd x))) os) in
          Ret (m, NMSteps (map entry_of rs))
      | _ => Fail
      end
  end.

(** As a collection again *)
Definition rb_map_of : impl D hrb (nbop K Q Op) (nmout K Out) :=
  mkImpl (dkids I r_elem rkids) (fun m => opt_list (hb_root m)) (calls hb_new []) (fun m => calls (hb_clone m) [])
    (fun m => calls (hb_drop m) []) wb_step.
End Of.

(** ** The same as plain values *)
Section Spec.
Context {V Op Out K Q : Type} (S : spec V Op Out).
Variable kcmp : K -> K -> comparison.
Variable borrow : K -> Q.
Variable qcmp : Q -> Q -> comparison.

Definition entry_shown (l : list Op) (kv : K * V) : K * list Out := (fst kv, snd (vrun S l (snd kv))).

Definition wb_val (o : nbop K Q Op) (m : fmap K V) : fmap K V * nmout K Out :=
  match o with
  | NBMap o => wm_val S (eq_of kcmp) borrow (eq_of qcmp) o m
  | NBFirst l => (m, NMEntry (option_map (entry_shown l) (hd_error (by_key kcmp m))))
  | NBLast l => (m, NMEntry (option_map (entry_shown l) (last_error (by_key kcmp m))))
  | NBIter ds l => (m, NMSteps (map (fun r => (fst r, option_map (entry_shown l) (snd r))) (de_spec ds (by_key kcmp m))))
  end.

Definition wb_pre (o : nbop K Q Op) (m : fmap K V) : Prop :=
  match o with
  | NBMap o => wm_pre S borrow (eq_of qcmp) o m
  | NBFirst l => opt_may S l (option_map snd (hd_error (by_key kcmp m)))
  | NBLast l => opt_may S l (option_map snd (last_error (by_key kcmp m)))
  | NBIter _ l => Forall (fun kv => vmay S l (snd kv)) m
  end.

Definition rb_map_of_spec : spec (fmap K V) (nbop K Q Op) (nmout K Out) := mkSpec [] wb_val wb_pre.
End Spec.
