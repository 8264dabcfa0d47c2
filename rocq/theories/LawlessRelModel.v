(** Equality, ordering and set relations of whole collections with user code that keeps no law,
    as LawlessModel.v has the calls on one map.  All of these take shared references only, so
    that a panic of user code leaves nothing behind: [Torn tt]. *)
From Coq Require Import List NArith Arith Bool.
From Verif Require Import Base Spec SpecMap ListModel VectorModel SparseModel RBModel HashModel LawlessModel.
Import ListNotations.

(** An iterator whose [next] may call user code. *)
Definition w_next (W St A : Type) : Type := W -> St -> res (W * uout unit (option A * St)).
(** One that does not: those of List, Stack, Queue, Vector and HashTrieMap. *)
Definition quiet_next {W St A} (next : St -> res (option A * St)) : w_next W St A :=
  fun w s => let! (o, s') := next s in Ok (w, Gave (o, s')).

(** ** The iterator adapters of core, as in IterStd.v *)
Section Adapters.
Context {W S1 S2 A B R : Type}.
Variable next1 : w_next W S1 A.
Variable next2 : w_next W S2 B.
Variable ask : W -> A * B -> W * option R.     (* [partial_cmp], [cmp] or [eq] of the items *)
Variable equal : R -> bool.                    (* go on after this answer *)
Variable ends : comparison -> R.               (* how the lengths compare *)

(** [Iterator::{partial_cmp, cmp, eq}]: both iterators are stepped once per round, the first
    one first, up to the first difference *)
Fixpoint w_iter_compare (fuel : nat) (w : W) (s1 : S1) (s2 : S2) : res (W * uout unit R) :=
  match fuel with
  | O => Diverge
  | S fuel =>
      wbind (next1 w s1) (fun _ => tt) (fun w '(oa, s1) =>
      match oa with
      | None =>
          wbind (next2 w s2) (fun _ => tt) (fun w '(ob, _) =>
          Ok (w, Gave (ends match ob with None => Eq | Some _ => Lt end)))
      | Some a =>
          wbind (next2 w s2) (fun _ => tt) (fun w '(ob, s2) =>
          match ob with
          | None => Ok (w, Gave (ends Gt))
          | Some b =>
              wcall (ask w (a, b)) tt (fun w r =>
              if equal r then w_iter_compare fuel w s1 s2 else Ok (w, Gave r))
          end)
      end)
  end.

(** [Iterator::all] *)
Fixpoint w_iter_all (p : W -> A -> res (W * uout unit bool)) (fuel : nat) (w : W) (s1 : S1) : res (W * uout unit bool) :=
  match fuel with
  | O => Diverge
  | S fuel =>
      wbind (next1 w s1) (fun _ => tt) (fun w '(oa, s1) =>
      match oa with
      | None => Ok (w, Gave true)
      | Some a => wbind (p w a) (fun _ => tt) (fun w b =>
                  if b : bool then w_iter_all p fuel w s1 else Ok (w, Gave false))
      end)
  end.
End Adapters.

(** The answers of [PartialOrd::partial_cmp], [Ord::cmp] and [PartialEq::eq]. *)
Definition is_equal (c : option comparison) : bool := match c with Some Eq => true | _ => false end.
Definition is_eq (c : comparison) : bool := match c with Eq => true | _ => false end.
(** Two references to tuples: the first components, and if they are equal the second ones. *)
Definition pair_ask {W K V R} (equal : R -> bool) (ka : W -> K -> K -> W * option R) (va : W -> V -> V -> W * option R)
  (w : W) (ab : (K * V) * (K * V)) : W * option R :=
  let '((k, v), (k', v')) := ab in
  match ka w k k' with
  | (w, Some r) => if equal r then va w v v' else (w, Some r)
  | (w, None) => (w, None)
  end.

(** ** List, Stack, Queue and Vector.  [ask] is [eq], [partial_cmp] or [cmp] of two elements. *)
Section SeqRel.
Context {W T R : Type}.
Variable equal : R -> bool.
Variable ends : comparison -> R.
Variable ask : W -> T * T -> W * option R.
(** list/mod.rs 309-311 and 318-320 *)
Definition w_l_compare (w : W) (l other : rlist T) : res (W * uout unit R) :=
  w_iter_compare (quiet_next l_iter_next) (quiet_next l_iter_next) ask equal ends (S (l_len l)) w (l_iter_new l) (l_iter_new other).
(** stack/mod.rs 195-197 and 204-206 *)
Definition w_s_compare (w : W) (s other : rstack T) : res (W * uout unit R) := w_l_compare w (s_list s) (s_list other).
(** queue/mod.rs 217-219 and 226-228 *)
Definition w_q_compare (w : W) (q other : rqueue T) : res (W * uout unit R) :=
  w_iter_compare (quiet_next q_iter_next) (quiet_next q_iter_next) ask equal ends (S (q_len q)) w (q_iter_new q) (q_iter_new other).
End SeqRel.
(** vector/mod.rs 556-558 and 565-567; the element types may differ *)
Definition w_v_compare (ubits : N) (dbg : bool) {W T T' R} (equal : R -> bool) (ends : comparison -> R) (ask : W -> T * T' -> W * option R)
  (w : W) (v : rvec T) (other : rvec T') : res (W * uout unit R) :=
  w_iter_compare (quiet_next (vi_next ubits dbg)) (quiet_next (vi_next ubits dbg)) ask equal ends
    (S (N.to_nat (v_len v))) w (vi_new v) (vi_new other).
(** [Iterator::eq] goes on after [true]. *)
Definition yes (b : bool) : bool := b.
(** list/mod.rs 297-299 *)
Definition w_l_eq {W T} (ask : W -> T * T -> W * option bool) (w : W) (l other : rlist T) : res (W * uout unit bool) :=
  if Nat.eqb (l_length l) (l_length other) then w_l_compare yes is_eq ask w l other else Ok (w, Gave false).
(** stack/mod.rs 183-185 *)
Definition w_s_eq {W T} (ask : W -> T * T -> W * option bool) (w : W) (s other : rstack T) : res (W * uout unit bool) :=
  w_l_eq ask w (s_list s) (s_list other).
(** queue/mod.rs 205-207 *)
Definition w_q_eq {W T} (ask : W -> T * T -> W * option bool) (w : W) (q other : rqueue T) : res (W * uout unit bool) :=
  if Nat.eqb (q_len q) (q_len other) then w_q_compare yes is_eq ask w q other else Ok (w, Gave false).
(** vector/mod.rs 544-546 *)
Definition w_v_eq (ubits : N) (dbg : bool) {W T T'} (ask : W -> T * T' -> W * option bool) (w : W) (v : rvec T) (other : rvec T')
  : res (W * uout unit bool) :=
  if N.eqb (v_length v) (v_length other) then w_v_compare ubits dbg yes is_eq ask w v other else Ok (w, Gave false).

(** ** RedBlackTreeMap and RedBlackTreeSet *)
Section RBRel.
Context {W K V : Type}.
Variable U : ord_code W K V K.
Variable gt : W -> K -> K -> W * option bool.            (* [>], which only the iterators call *)
Notation rbmap := (rbmap K V).
Notation it := (witer K V * nat)%type.

(** [iter()], stepped from the front *)
Definition rb_next : w_next W it (K * V) := fun w i =>
  wbind (wt_step (full_range gt) false w i) (fun _ => tt) (fun w '(i, o) => Ok (w, Gave (o, i))).

(** red_black_tree_map/mod.rs 1027-1033; [same]: [ptr_eq] (898-913) *)
Definition w_rb_eq (veq : W -> V -> V -> W * option bool) (w : W) (same : bool) (m other : rbmap)
  : res (W * uout unit bool) :=
  if same then Ok (w, Gave true)
  else if negb (Nat.eqb (rb_size m) (rb_size other)) then Ok (w, Gave false)
  else w_iter_all rb_next (fun w '(k, v) =>
         wbind (w_t_get U w (rb_root other) k) (fun _ => tt) (fun w o =>
         match o with
         | Some (_, v') => wcall (veq w v v') tt (fun w b => Ok (w, Gave b))
         | None => Ok (w, Gave false)
         end)) (S (rb_size m)) w (wt_new m).

(** red_black_tree_map/mod.rs 1049-1051 and 1058-1060, [ask] comparing two entries *)
Definition w_rb_compare {R} (ask : W -> (K * V) * (K * V) -> W * option R) (equal : R -> bool) (ends : comparison -> R)
  (w : W) (m other : rbmap) : res (W * uout unit R) :=
  w_iter_compare rb_next rb_next ask equal ends (S (rb_size m)) w (wt_new m) (wt_new other).

(** [iter()] of the set, 263-265: [keys()] of the map *)
Definition rs_next : w_next W it K := fun w i =>
  wbind (rb_next w i) (fun _ => tt) (fun w '(o, i) => Ok (w, Gave (option_map fst o, i))).

(** red_black_tree_set/mod.rs 324-326 and 333-335 *)
Definition w_rs_compare {R} (ask : W -> K * K -> W * option R) (equal : R -> bool) (ends : comparison -> R)
  (w : W) (s other : rbmap) : res (W * uout unit R) :=
  w_iter_compare rs_next rs_next ask equal ends (S (rb_size s)) w (wt_new s) (wt_new other).

(** red_black_tree_set/mod.rs 200-206 *)
Fixpoint w_disjoint_loop (fuel : nat) (w : W) (v_opt u_opt : option K) (self_it other_it : it) : res (W * uout unit bool) :=
  match fuel with
  | O => Diverge
  | S fuel =>
      match v_opt, u_opt with
      | Some v, Some u =>
          wcall (oc_key U w v u) tt (fun w c =>
          match c with
          | Lt => wbind (rs_next w self_it) (fun _ => tt) (fun w '(v_opt, self_it) =>
                  w_disjoint_loop fuel w v_opt u_opt self_it other_it)
          | Eq => Ok (w, Gave false)
          | Gt => wbind (rs_next w other_it) (fun _ => tt) (fun w '(u_opt, other_it) =>
                  w_disjoint_loop fuel w v_opt u_opt self_it other_it)
          end)
      | _, _ => Ok (w, Gave true)
      end
  end.
(** red_black_tree_set/mod.rs 188-208 *)
Definition w_rs_is_disjoint (w : W) (s other : rbmap) : res (W * uout unit bool) :=
  wbind (rs_next w (wt_new s)) (fun _ => tt) (fun w '(v_opt, self_it) =>
  wbind (rs_next w (wt_new other)) (fun _ => tt) (fun w '(u_opt, other_it) =>
  w_disjoint_loop (S (rb_size s + rb_size other)) w v_opt u_opt self_it other_it)).

(** red_black_tree_set/mod.rs 232-241: [None] is [return false], [Some] the iterator after [break] *)
Fixpoint w_subset_seek (fuel : nat) (w : W) (v : K) (other_it : it) : res (W * uout unit (option it)) :=
  match fuel with
  | O => Diverge
  | S fuel =>
      wbind (rs_next w other_it) (fun _ => tt) (fun w '(o, other_it) =>
      match o with
      | Some u =>
          wcall (oc_key U w u v) tt (fun w c =>
          match c with
          | Lt => w_subset_seek fuel w v other_it
          | Eq => Ok (w, Gave (Some other_it))
          | Gt => Ok (w, Gave None)
          end)
      | None => Ok (w, Gave None)
      end)
  end.
(** red_black_tree_set/mod.rs 231-242 *)
Fixpoint w_subset_loop (fuel fuel' : nat) (w : W) (self_it other_it : it) : res (W * uout unit bool) :=
  match fuel with
  | O => Diverge
  | S fuel =>
      wbind (rs_next w self_it) (fun _ => tt) (fun w '(o, self_it) =>
      match o with
      | None => Ok (w, Gave true)
      | Some v =>
          wbind (w_subset_seek fuel' w v other_it) (fun _ => tt) (fun w r =>
          match r with
          | None => Ok (w, Gave false)
          | Some other_it => w_subset_loop fuel fuel' w self_it other_it
          end)
      end)
  end.
(** red_black_tree_set/mod.rs 218-245 *)
Definition w_rs_is_subset (w : W) (same : bool) (s other : rbmap) : res (W * uout unit bool) :=
  if same then Ok (w, Gave true)
  else if Nat.ltb (rb_size other) (rb_size s) then Ok (w, Gave false)
  else w_subset_loop (S (rb_size s)) (S (rb_size other)) w (wt_new s) (wt_new other).
(** red_black_tree_set/mod.rs 307-309: the values are [()] and compare without user code *)
Definition w_rs_eq (w : W) (same : bool) (s other : rbmap) : res (W * uout unit bool) :=
  w_rb_eq (fun w _ _ => (w, Some true)) w same s other.
End RBRel.

(** ** HashTrieMap and HashTrieSet.  [U] is the user code with the hasher of [other]. *)
Section HashRel.
Variable ubits : N.
Variable dbg : bool.
Context {W K V : Type}.
Variable U : hash_code W K V K.
Variable fuel : nat.
Notation hmap := (hmap K V).

(** [iter()] of the map (hash_trie_map/mod.rs 875-877), in which no user code is called *)
Definition hm_next : w_next W hiter (K * V) := quiet_next hi_next.

(** hash_trie_map/mod.rs 963-969; [same]: [ptr_eq] (850-861) *)
Definition w_hm_eq (veq : W -> V -> V -> W * option bool) (w : W) (same : bool) (m other : hmap)
  : res (W * uout unit bool) :=
  if same then Ok (w, Gave true)
  else if negb (Nat.eqb (hm_len m) (hm_len other)) then Ok (w, Gave false)
  else w_iter_all hm_next (fun w '(k, v) =>
         wbind (w_hm_find ubits dbg U fuel w other k) (fun _ => tt) (fun w o =>
         match o with
         | Some e => wcall (veq w v (e_val e)) tt (fun w b => Ok (w, Gave b))
         | None => Ok (w, Gave false)
         end)) (S (hm_len m)) w (hi_new m).

(** hash_trie_set/mod.rs 203-206 *)
Definition w_hs_is_disjoint (w : W) (s other : hmap) : res (W * uout unit bool) :=
  w_iter_all hm_next (fun w '(v, _) =>
    wbind (w_hm_find ubits dbg U fuel w other v) (fun _ => tt) (fun w o => Ok (w, Gave (negb (is_some o)))))
    (S (hm_len s)) w (hi_new s).
(** hash_trie_set/mod.rs 219-226 *)
Definition w_hs_is_subset (w : W) (same : bool) (s other : hmap) : res (W * uout unit bool) :=
  if same then Ok (w, Gave true)
  else if negb (Nat.leb (hm_len s) (hm_len other)) then Ok (w, Gave false)
  else w_iter_all hm_next (fun w '(v, _) =>
         wbind (w_hm_find ubits dbg U fuel w other v) (fun _ => tt) (fun w o => Ok (w, Gave (is_some o))))
         (S (hm_len s)) w (hi_new s).
(** hash_trie_set/mod.rs 280-282 *)
Definition w_hs_eq (w : W) (same : bool) (s other : hmap) : res (W * uout unit bool) :=
  w_hm_eq (fun w _ _ => (w, Some true)) w same s other.
End HashRel.
