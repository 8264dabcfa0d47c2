(** * Property C52: values are released promptly, and a version takes little space

    [holds_at_most] is stated in HeapSpace.v: whatever a program has called, on however many
    versions, cloned, shared, dropped and handed to threads, the cells that are live at its end
    weigh no more than the versions it still has.  Two ways of weighing:
    - the cells that hold a user value (or entry) with the property [p], against the
      occurrences of such values in the versions: a value that was popped, overwritten or removed
      from every version, or whose versions were all dropped, is in no cell any more, so its
      destructor has run; and no version keeps a value twice;
    - all cells, against a bound in the size of the version.
    The bounds do not credit sharing: versions that share cells take less. *)
From Coq Require Import List NArith Arith Lia Bool Permutation.
From Verif Require Import Base Spec Sim SpecMap SpecOrd ListModel SparseModel HashModel HashProofs HashHist HashExtraProofs Prop_Hash
  RBModel RBHist Prop_RB VectorModel VectorProofs HeapModel HeapProofs HeapSafe HeapClient HeapWorld HeapSpace
  HeapList HeapListProofs HeapSeqProofs HeapVec HeapVecProofs HeapRB HeapRBProofs HeapRBMap HeapHash HeapHashProofs HeapHashMap HeapSet
  HeapSpaceColl Prop_HeapSeq Prop_HeapVec Prop_HeapRB Prop_HeapHash Prop_HeapSet.
Import ListNotations.
Local Open Scope nat_scope.

(** ** List, Stack, Queue *)
Theorem C52_list_values : forall (T : Type) (p : T -> bool),
  holds_at_most (Ret hl_new) hlp_clone hlp_drop hl_step (@nil T) list_spec Prop_HeapSeq.always (l_value p) (how_many p).
Proof.
  intros T p. eapply (holds_at_most_ok lkids _ _ _ _ _ hlrep _ _ _ 0 list_cost).
  - apply hl_new_ok.
  - apply hlp_clone_ok.
  - apply hlp_drop_ok.
  - intros. now apply hl_step_ok.
  - apply hl_rep_roots.
  - intros c v G. apply list_values.
Qed.
Print Assumptions C52_list_values.

Theorem C52_list_cells : forall (T : Type),
  holds_at_most (Ret hl_new) hlp_clone hlp_drop hl_step (@nil T) list_spec Prop_HeapSeq.always (fun _ => 1) (fun l => 2 * length l).
Proof.
  intros T. eapply (holds_at_most_ok lkids _ _ _ _ _ hlrep _ _ _ 0 list_cost).
  - apply hl_new_ok.
  - apply hlp_clone_ok.
  - apply hlp_drop_ok.
  - intros. now apply hl_step_ok.
  - apply hl_rep_roots.
  - intros c v G. apply list_cells.
Qed.
Print Assumptions C52_list_cells.

Theorem C52_stack_values : forall (T : Type) (p : T -> bool),
  holds_at_most (Ret hl_new) hlp_clone hlp_drop hs_step (@nil T) stack_spec Prop_HeapSeq.always (l_value p) (how_many p).
Proof.
  intros T p. eapply (holds_at_most_ok lkids _ _ _ _ _ hlrep _ _ _ 0 stack_cost).
  - apply hl_new_ok.
  - apply hlp_clone_ok.
  - apply hlp_drop_ok.
  - intros. now apply hs_step_ok.
  - apply hl_rep_roots.
  - intros c v G. apply list_values.
Qed.
Print Assumptions C52_stack_values.

Theorem C52_stack_cells : forall (T : Type),
  holds_at_most (Ret hl_new) hlp_clone hlp_drop hs_step (@nil T) stack_spec Prop_HeapSeq.always (fun _ => 1) (fun l => 2 * length l).
Proof.
  intros T. eapply (holds_at_most_ok lkids _ _ _ _ _ hlrep _ _ _ 0 stack_cost).
  - apply hl_new_ok.
  - apply hlp_clone_ok.
  - apply hlp_drop_ok.
  - intros. now apply hs_step_ok.
  - apply hl_rep_roots.
  - intros c v G. apply list_cells.
Qed.
Print Assumptions C52_stack_cells.

Theorem C52_queue_values : forall (T : Type) (p : T -> bool),
  holds_at_most (Ret hq_new) hq_clone hq_drop hq_step (@nil T) queue_spec Prop_HeapSeq.always (l_value p) (how_many p).
Proof.
  intros T p. eapply (holds_at_most_ok lkids _ _ _ _ _ hqrep _ _ _ 0 queue_cost).
  - apply hq_new_ok.
  - apply hq_clone_ok.
  - apply hq_drop_ok.
  - intros. now apply hq_step_ok.
  - apply hq_rep_roots.
  - intros c v G. apply queue_values.
Qed.
Print Assumptions C52_queue_values.

Theorem C52_queue_cells : forall (T : Type),
  holds_at_most (Ret hq_new) hq_clone hq_drop hq_step (@nil T) queue_spec Prop_HeapSeq.always (fun _ => 1) (fun l => 2 * length l).
Proof.
  intros T. eapply (holds_at_most_ok lkids _ _ _ _ _ hqrep _ _ _ 0 queue_cost).
  - apply hq_new_ok.
  - apply hq_clone_ok.
  - apply hq_drop_ok.
  - intros. now apply hq_step_ok.
  - apply hq_rep_roots.
  - intros c v G. apply queue_cells.
Qed.
Print Assumptions C52_queue_cells.

(** ** Vector *)
Theorem C52_vector_values : forall (T : Type) (ubits : N) (dbg : bool) (bits : N) (p : T -> bool),
  (8 <= ubits)%N -> (0 < bits < ubits)%N ->
  holds_at_most (hv_new bits) hv_clone (hv_drop ubits dbg) (hv_step ubits dbg) (@nil T) vec_spec (fits ubits dbg bits) (v_value p) (how_many p).
Proof.
  intros T ubits dbg bits p Hu [Hb Hbu].
  eapply (holds_at_most_ok vkids _ _ _ _ _ (hvrep ubits dbg bits) _ _ _ 1 (vec_cost bits)).
  - now apply hv_new_ok.
  - apply hv_clone_ok.
  - now apply hv_drop_ok.
  - intros. now apply hv_step_ok.
  - apply hv_rep_roots.
  - intros c v G R. eapply vec_values; eassumption.
Qed.
Print Assumptions C52_vector_values.

(** An element cell each, a node for each [2^bits - 1] elements, and one for each level. *)
Example vec_cells_max_is : forall n, vec_cells_max 5 n = n + n / 31 + levels 5 (N.of_nat n).
Proof. reflexivity. Qed.

Theorem C52_vector_cells : forall (T : Type) (ubits : N) (dbg : bool) (bits : N),
  (8 <= ubits)%N -> (0 < bits < ubits)%N ->
  holds_at_most (hv_new bits) hv_clone (hv_drop ubits dbg) (hv_step ubits dbg) (@nil T) vec_spec (fits ubits dbg bits) (fun _ => 1) (fun l => vec_cells_max bits (length l)).
Proof.
  intros T ubits dbg bits Hu [Hb Hbu].
  eapply (holds_at_most_ok vkids _ _ _ _ _ (hvrep ubits dbg bits) _ _ _ 1 (vec_cost bits)).
  - now apply hv_new_ok.
  - apply hv_clone_ok.
  - now apply hv_drop_ok.
  - intros. now apply hv_step_ok.
  - apply hv_rep_roots.
  - intros c v G R. eapply vec_cells; eassumption.
Qed.
Print Assumptions C52_vector_cells.

(** ** The red-black tree map and set *)
Theorem C52_rb_map_values : forall (K V Q : Type) (dbg : bool)
  (kcmp : K -> K -> comparison) (borrow : K -> Q) (qcmp : Q -> Q -> comparison) (p : K * V -> bool),
  ord_laws qcmp -> borrow_agrees kcmp borrow qcmp ->
  holds_at_most (@hb_new K V) hb_clone hb_drop (hb_step dbg kcmp borrow qcmp)
    (@nil (K * V)) (rb_call_spec kcmp borrow qcmp) always (r_entry p) (how_many p).
Proof.
  intros K V Q dbg kcmp borrow qcmp p OL KB.
  eapply (holds_at_most_ok rkids _ _ _ _ _ (hbrep kcmp) _ _ _ 0 rb_cost).
  - apply hb_new_ok.
  - apply hb_clone_ok.
  - apply hb_drop_ok.
  - intros. now apply hb_step_ok.
  - apply hb_rep_roots.
  - intros c v G. apply rb_values.
Qed.
Print Assumptions C52_rb_map_values.

Theorem C52_rb_map_cells : forall (K V Q : Type) (dbg : bool)
  (kcmp : K -> K -> comparison) (borrow : K -> Q) (qcmp : Q -> Q -> comparison),
  ord_laws qcmp -> borrow_agrees kcmp borrow qcmp ->
  holds_at_most (@hb_new K V) hb_clone hb_drop (hb_step dbg kcmp borrow qcmp)
    (@nil (K * V)) (rb_call_spec kcmp borrow qcmp) always (fun _ => 1) (fun m => 2 * length m).
Proof.
  intros K V Q dbg kcmp borrow qcmp OL KB.
  eapply (holds_at_most_ok rkids _ _ _ _ _ (hbrep kcmp) _ _ _ 0 rb_cost).
  - apply hb_new_ok.
  - apply hb_clone_ok.
  - apply hb_drop_ok.
  - intros. now apply hb_step_ok.
  - apply hb_rep_roots.
  - intros c v G. apply rb_cells.
Qed.
Print Assumptions C52_rb_map_cells.

Theorem C52_rb_set_values : forall (T Q : Type) (dbg : bool)
  (tcmp : T -> T -> comparison) (borrow : T -> Q) (qcmp : Q -> Q -> comparison) (p : T -> bool),
  ord_laws qcmp -> borrow_agrees tcmp borrow qcmp ->
  holds_at_most (@hb_new T unit) hb_clone hb_drop (ss_step dbg tcmp borrow qcmp)
    (@nil T) (ss_spec tcmp borrow qcmp) always (r_entry (fun e => p (fst e))) (how_many p).
Proof.
  intros T Q dbg tcmp borrow qcmp p OL KB.
  eapply (holds_at_most_ok rkids _ _ _ _ _ (ssrep tcmp) _ _ _ 0 ss_cost).
  - apply hb_new_ok.
  - intros c v G. apply (hb_clone_ok tcmp c (map ut v)).
  - intros c v G. apply (hb_drop_ok tcmp c (map ut v)).
  - intros. now apply ss_step_ok.
  - intros c v G. apply (hb_rep_roots _ _ tcmp c (map ut v)).
  - intros c v G. apply ss_values.
Qed.
Print Assumptions C52_rb_set_values.

Theorem C52_rb_set_cells : forall (T Q : Type) (dbg : bool)
  (tcmp : T -> T -> comparison) (borrow : T -> Q) (qcmp : Q -> Q -> comparison),
  ord_laws qcmp -> borrow_agrees tcmp borrow qcmp ->
  holds_at_most (@hb_new T unit) hb_clone hb_drop (ss_step dbg tcmp borrow qcmp)
    (@nil T) (ss_spec tcmp borrow qcmp) always (fun _ => 1) (fun s => 2 * length s).
Proof.
  intros T Q dbg tcmp borrow qcmp OL KB.
  eapply (holds_at_most_ok rkids _ _ _ _ _ (ssrep tcmp) _ _ _ 0 ss_cost).
  - apply hb_new_ok.
  - intros c v G. apply (hb_clone_ok tcmp c (map ut v)).
  - intros c v G. apply (hb_drop_ok tcmp c (map ut v)).
  - intros. now apply ss_step_ok.
  - intros c v G. apply (hb_rep_roots _ _ tcmp c (map ut v)).
  - intros c v G. apply ss_cells.
Qed.
Print Assumptions C52_rb_set_cells.

(** ** The hash trie map and set *)

(** Four cells for an entry suffice (a colliding entry has its own, a list node and a list
    element; the bucket has one), and half a branch for each level of each entry: below the root a
    branch has two entries at least.  One more for the root. *)
Theorem C52_hash_map_values : forall (K V Q : Type) (ubits : N) (dbg : bool)
  (keq : K -> K -> bool) (borrow : K -> Q) (qeq : Q -> Q -> bool) (hash : K -> N) (qhash : Q -> N) (p : K * V -> bool),
  (ubits <= 64)%N -> key_laws keq borrow qeq -> hash_laws borrow qeq hash qhash ->
  forall (degree : N) (fuel : nat), supported ubits degree -> 2 * digits degree < fuel ->
  holds_at_most (@hh_new ubits K V degree) hh_clone hh_drop
    (hh_step ubits dbg keq borrow qeq hash qhash fuel)
    (@nil (K * V)) (ht_call_spec keq borrow qeq) always (t_entry p) (how_many p).
Proof.
  intros K V Q ubits dbg keq borrow qeq hash qhash p Hub KL HL degree fuel (b & Hb & -> & Hd) Hf.
  rewrite digits_D in *.
  eapply (holds_at_most_ok tkids _ _ _ _ _ (hhrep ubits b keq hash) _ _ _ 1 (ht_cost b hash qhash)).
  - now apply (hh_new_ok ubits dbg b Hb Hd Hub keq borrow qeq hash qhash KL HL fuel Hf).
  - apply hh_clone_ok.
  - now apply hh_drop_ok.
  - intros. now apply hh_step_ok.
  - apply hh_rep_roots.
  - intros c v G. apply hash_values.
Qed.
Print Assumptions C52_hash_map_values.

Theorem C52_hash_map_cells : forall (K V Q : Type) (ubits : N) (dbg : bool)
  (keq : K -> K -> bool) (borrow : K -> Q) (qeq : Q -> Q -> bool) (hash : K -> N) (qhash : Q -> N),
  (ubits <= 64)%N -> key_laws keq borrow qeq -> hash_laws borrow qeq hash qhash ->
  forall (degree : N) (fuel : nat), supported ubits degree -> 2 * digits degree < fuel ->
  holds_at_most (@hh_new ubits K V degree) hh_clone hh_drop
    (hh_step ubits dbg keq borrow qeq hash qhash fuel)
    (@nil (K * V)) (ht_call_spec keq borrow qeq) always (fun _ => 1) (fun m => 4 * length m + digits degree * length m / 2 + 1).
Proof.
  intros K V Q ubits dbg keq borrow qeq hash qhash Hub KL HL degree fuel (b & Hb & -> & Hd) Hf.
  rewrite digits_D in *.
  eapply (holds_at_most_ok tkids _ _ _ _ _ (hhrep ubits b keq hash) _ _ _ 1 (ht_cost b hash qhash)).
  - now apply (hh_new_ok ubits dbg b Hb Hd Hub keq borrow qeq hash qhash KL HL fuel Hf).
  - apply hh_clone_ok.
  - now apply hh_drop_ok.
  - intros. now apply hh_step_ok.
  - apply hh_rep_roots.
  - intros c v G. apply hash_cells.
Qed.
Print Assumptions C52_hash_map_cells.

Theorem C52_hash_set_values : forall (T Q : Type) (ubits : N) (dbg : bool)
  (teq : T -> T -> bool) (borrow : T -> Q) (qeq : Q -> Q -> bool) (hash : T -> N) (qhash : Q -> N) (p : T -> bool),
  (ubits <= 64)%N -> key_laws teq borrow qeq -> hash_laws borrow qeq hash qhash ->
  forall (degree : N) (fuel : nat), supported ubits degree -> 2 * digits degree < fuel ->
  holds_at_most (@hh_new ubits T unit degree) hh_clone hh_drop
    (us_step ubits dbg teq borrow qeq hash qhash fuel)
    (@nil T) (us_spec teq borrow qeq) always (t_entry (fun e => p (fst e))) (how_many p).
Proof.
  intros T Q ubits dbg teq borrow qeq hash qhash p Hub KL HL degree fuel (b & Hb & -> & Hd) Hf.
  rewrite digits_D in *.
  eapply (holds_at_most_ok tkids _ _ _ _ _ (usrep ubits b teq hash) _ _ _ 1 (us_cost b hash qhash)).
  - now apply (hh_new_ok ubits dbg b Hb Hd Hub teq borrow qeq hash qhash KL HL fuel Hf).
  - intros c v G. apply (hh_clone_ok ubits b teq hash c (map ut v)).
  - intros c v G. now apply (hh_drop_ok ubits b Hb Hd Hub teq hash c (map ut v)).
  - intros. now apply us_step_ok.
  - intros c v G. apply (hh_rep_roots ubits b _ _ teq hash c (map ut v)).
  - intros c v G. apply us_values.
Qed.
Print Assumptions C52_hash_set_values.

Theorem C52_hash_set_cells : forall (T Q : Type) (ubits : N) (dbg : bool)
  (teq : T -> T -> bool) (borrow : T -> Q) (qeq : Q -> Q -> bool) (hash : T -> N) (qhash : Q -> N),
  (ubits <= 64)%N -> key_laws teq borrow qeq -> hash_laws borrow qeq hash qhash ->
  forall (degree : N) (fuel : nat), supported ubits degree -> 2 * digits degree < fuel ->
  holds_at_most (@hh_new ubits T unit degree) hh_clone hh_drop
    (us_step ubits dbg teq borrow qeq hash qhash fuel)
    (@nil T) (us_spec teq borrow qeq) always (fun _ => 1) (fun s => 4 * length s + digits degree * length s / 2 + 1).
Proof.
  intros T Q ubits dbg teq borrow qeq hash qhash Hub KL HL degree fuel (b & Hb & -> & Hd) Hf.
  rewrite digits_D in *.
  eapply (holds_at_most_ok tkids _ _ _ _ _ (usrep ubits b teq hash) _ _ _ 1 (us_cost b hash qhash)).
  - now apply (hh_new_ok ubits dbg b Hb Hd Hub teq borrow qeq hash qhash KL HL fuel Hf).
  - intros c v G. apply (hh_clone_ok ubits b teq hash c (map ut v)).
  - intros c v G. now apply (hh_drop_ok ubits b Hb Hd Hub teq hash c (map ut v)).
  - intros. now apply us_step_ok.
  - intros c v G. apply (hh_rep_roots ubits b _ _ teq hash c (map ut v)).
  - intros c v G. apply us_cells.
Qed.
Print Assumptions C52_hash_set_cells.

(** ** Cases *)

(** A queue and its clone; the clone is drained; then the first is dropped.  [after n] is what is
    left after the first [n] commands: the live cells, and how many hold the value 1. *)
Definition q52 : list (cmd (queue_op nat)) :=
  [CNew; COp 0 (QEnqMut 1); COp 0 (QEnqMut 2); CClone 0; COp 1 QDeqMut; COp 1 QDeqMut; CDrop 0].
Definition q52_after (n : nat) : option (nat * nat * (nat * nat)) :=
  match run [] (hclient (Ret hq_new) hq_clone hq_drop hq_step (firstn n q52) []) with
  | Some (h, _) => let vs := fst (sclient [] queue_spec (firstn n q52) []) in
      Some (weigh (fun _ => 1) h, held (fun l => 2 * length l) vs,
            (weigh (l_value (Nat.eqb 1)) h, held (how_many (Nat.eqb 1)) vs))
  | None => None
  end.
Example C52_queue_case : within (@nil nat) queue_spec Prop_HeapSeq.always q52 [] /\
  map q52_after [3; 4; 5; 6; 7] =
  [Some (4, 4, (1, 1)); Some (4, 8, (1, 2)); Some (5, 6, (1, 1)); Some (4, 4, (1, 1)); Some (0, 0, (0, 0))].
Proof. split; [apply within_always|vm_compute; reflexivity]. Qed.

(** The thread example of C40 for vectors meets the hypotheses ([vthreads_hypotheses]); the bound
    for a vector of a thousand elements in nodes of 32. *)
Example C52_vector_case : vec_cells_max 5 1000 = 1000 + 32 + 2.
Proof. reflexivity. Qed.

(** A vector with nodes of two: the number of cells, the bound, the cells that hold 1 and the
    occurrences of 1, before and after its first element is overwritten and the clone dropped. *)
Definition v52 : list (cmd (vec_op nat)) :=
  [CNew; COp 0 (VExtend [1; 2; 3; 4; 5]); CClone 0; COp 0 (VSetMut 0%N 7); CDrop 1].
Definition v52_after (n : nat) : option (nat * nat * (nat * nat)) :=
  match run [] (hclient (hv_new 1) hv_clone (hv_drop 64 true) (hv_step 64 true) (firstn n v52) []) with
  | Some (h, _) => let vs := fst (sclient [] vec_spec (firstn n v52) []) in
      Some (weigh (fun _ => 1) h, held (fun l => vec_cells_max 1 (length l)) vs,
            (weigh (v_value (Nat.eqb 1)) h, held (how_many (Nat.eqb 1)) vs))
  | None => None
  end.
Example C52_vector_runs : within (@nil nat) vec_spec (fits 64 true 1) v52 [] /\ map v52_after [2; 3; 4; 5] =
  [Some (11, 13, (1, 1)); Some (11, 26, (1, 2)); Some (15, 26, (1, 1)); Some (11, 13, (0, 0))].
Proof. split; [vm_compute; repeat (split; [discriminate|]); exact I|vm_compute; reflexivity]. Qed.

(** A red-black tree map: 5 is removed from one version, then that from which it was not is dropped. *)
Definition b52 : list (cmd (rb_call (K := nat) (V := nat) (Q := nat))) :=
  CNew :: map (fun k => COp 0 (ins_ k)) [4; 2; 6; 1; 3; 5; 7] ++
  [CClone 0; COp 0 (BOp (MRemoveMut 5)); CDrop 1].
Definition b52_after (n : nat) : option (nat * nat * (nat * nat)) :=
  match run [] (hclient hb_new hb_clone hb_drop (hb_step true Nat.compare (fun k => k) Nat.compare) (firstn n b52) []) with
  | Some (h, _) => let vs := fst (sclient [] (rb_call_spec Nat.compare (fun k => k) Nat.compare) (firstn n b52) []) in
      Some (weigh (fun _ => 1) h, held (fun m => 2 * length m) vs,
            (weigh (r_entry (fun e => Nat.eqb 5 (fst e))) h, held (how_many (fun e => Nat.eqb 5 (fst e))) vs))
  | None => None
  end.
Example C52_rb_map_case : within (@nil (nat * nat)) (rb_call_spec Nat.compare (fun k => k) Nat.compare) always b52 [] /\
  map b52_after [8; 9; 10; 11] =
  [Some (14, 14, (1, 1)); Some (14, 28, (1, 2)); Some (18, 26, (1, 1)); Some (12, 12, (0, 0))].
Proof. split; [vm_compute; repeat split|vm_compute; reflexivity]. Qed.

(** A map with colliding keys: an entry removed from both versions is in no cell. *)
Definition t52 : list (cmd (ht_call N nat N)) :=
  CNew :: map (fun k => COp 0 (TOp (MInsertMut k (N.to_nat k)))) [0; 2; 1]%N ++
  [CClone 0; COp 0 (TOp (MRemoveMut 2%N)); COp 1 (TOp (MRemove 2%N)); CDrop 0].
Definition t52_after (n : nat) : option (nat * nat * (nat * nat)) :=
  match run [] (hclient hx_new hh_clone hh_drop hx_step (firstn n t52) []) with
  | Some (h, _) => let vs := fst (sclient [] hx_spec (firstn n t52) []) in
      Some (weigh (fun _ => 1) h, held (fun m => 4 * length m + digits 4 * length m / 2 + 1) vs,
            (weigh (t_entry (fun e => N.eqb 2 (fst e))) h, held (how_many (fun e => N.eqb 2 (fst e))) vs))
  | None => None
  end.
Example C52_hash_map_case : within (@nil (N * nat)) hx_spec always t52 [] /\
  map t52_after [4; 5; 6; 7; 8] =
  [Some (42, 61, (1, 1)); Some (42, 122, (1, 2)); Some (77, 102, (1, 1)); Some (74, 82, (0, 0)); Some (39, 41, (0, 0))].
Proof. split; [vm_compute; repeat split|vm_compute; reflexivity]. Qed.
