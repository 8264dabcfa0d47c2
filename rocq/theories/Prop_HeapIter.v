(** * Property C51

    Iterators held over time, on the shared heap.  A program makes iterators over the
    versions it holds, of any number of collections, and calls them in any order; in between
    it changes, clones and drops versions that share nodes with the ones being iterated, as
    far as the borrow checker lets it ([iwithin]: a version is neither changed nor dropped
    while an iterator over it is alive).  Other threads do the same to theirs.

    Every iterator delivers what its version held when it was made, with exact size hints,
    and afterwards [None] for ever; each call of it reads a bounded number of cells and
    changes none.  [holds_iterators] (HeapIterWorld.v) has three parts:
    - [iterates]: the outputs of the program are those of the specification, where an
      iterator is a sequence fixed when it is made, and the counts are exact afterwards;
    - [next_cheap] and [open_cheap]: the reads of one call of an iterator, and of making one;
    - [iter_threads]: the same for threads, under every schedule.

    The two numbers at the end of each statement bound the reads for making an iterator and
    for each call of it. *)
From Coq Require Import List NArith Arith Lia Bool Permutation.
From Verif Require Import Base Spec Sim SpecMap SpecOrd SparseModel HashModel HashProofs HashHist HashExtraProofs RBModel RBProofs RBHist RBIter
  RBExtra RBExtraProofs Prop_RB Prop_Hash
  VectorModel VectorProofs
  HeapModel HeapProofs HeapSafe HeapDrive HeapClient HeapWorld HeapList HeapListProofs HeapSeqProofs HeapVec HeapVecProofs
  HeapRB HeapRBProofs HeapRBMap HeapHash HeapHashMap HeapSet HeapNest
  HeapWork HeapWorkSeq HeapWorkVec HeapWorkRB HeapIterWorld HeapIterSeq HeapIterVec HeapIterRB HeapIterHash.
From Verif Require Prop_HeapSeq Prop_HeapVec Prop_HeapRB Prop_HeapHash Prop_HeapWork Prop_HeapWorkHash.
Import ListNotations.
Local Open Scope nat_scope.

(** For the examples: the outputs of a program; a closed program keeps the borrow rule. *)
Definition outs {C R X : Type} (p : prog C (R * list X)) : list X :=
  match run [] p with Some (_, (_, xs)) => xs | None => [] end.
Local Notation got x := (Datatypes.inr x).
Ltac keeps_rule :=
  cbn [iwithin];
  repeat match goal with
         | |- True => exact I
         | |- _ /\ _ => split
         | |- allowed _ _ _ (IDo (COp _ _)) _ _ =>
             split; [first [left; vm_compute; reflexivity|right; vm_compute; reflexivity]|
                     intros ? E; first [exact I|vm_compute in E; injection E as <-; vm_compute; discriminate]]
         | |- allowed _ _ _ (IDo (CDrop _)) _ _ => vm_compute; reflexivity
         | |- allowed _ _ _ (IOpen _ _) _ _ => intros ? _; vm_compute; first [exact I|discriminate|intros []]
         | |- allowed _ _ _ _ _ _ => exact I
         end.

(** ** List *)
Theorem C51_list_iterators : forall T : Type,
  iterates lkids (Ret hl_new) hlp_clone hlp_drop (@hl_step T) hl_open hl_inext Prop_HeapSeq.hl_roots
    (@nil T) list_spec snext1 all_of list_reads always any_arg
    0 2 3 list_price (fun _ _ => 0) (fun _ => 2).
Proof. intros T. exact (proj1 list_holds). Qed.
Print Assumptions C51_list_iterators.

Theorem C51_list_next : forall T : Type,
  next_cheap (Ret hl_new) hlp_clone hlp_drop (@hl_step T) hl_open hl_inext
    (@nil T) list_spec list_reads always any_arg (fun _ => 2) /\
  open_cheap (Ret hl_new) hlp_clone hlp_drop (@hl_step T) hl_open hl_inext
    (@nil T) list_spec list_reads always any_arg (fun _ _ => 0).
Proof. intros T. exact (proj1 (proj2 list_holds)). Qed.
Print Assumptions C51_list_next.

Theorem C51_list_threads : forall T : Type,
  iter_threads (Ret hl_new) hlp_clone hlp_drop (@hl_step T) hl_open hl_inext
    (@nil T) list_spec snext1 all_of list_reads always any_arg
    0 2 3 list_price (fun _ _ => 0) (fun _ => 2).
Proof. intros T. exact (proj2 (proj2 list_holds)). Qed.
Print Assumptions C51_list_threads.

(** Register 1 shares every node with register 0.  The iterator over register 0 is half way
    when register 1 loses its first element, is iterated itself, grows, and is dropped. *)
Definition list_program : list (icmd (list_op nat) unit unit) :=
  [IDo CNew; IDo (COp 0 (LPushMut 3)); IDo (COp 0 (LPushMut 2)); IDo (COp 0 (LPushMut 1)); IDo (CClone 0);
   IOpen 0 tt; INext 0 tt; IDo (COp 1 LDropMut); IOpen 1 tt; INext 1 tt; INext 0 tt; IClose 1;
   IDo (COp 1 (LPushMut 9)); IDo (COp 1 LRevMut); IDo (COp 0 LFirst); IDo (CDrop 1);
   INext 0 tt; INext 0 tt; INext 0 tt; IClose 0; IDo (CDrop 0)].

Example list_program_within : iwithin (@nil nat) list_spec list_reads always any_arg list_program [] [].
Proof. unfold list_program. cbn [map app]. keeps_rule. Qed.

Example list_program_runs :
  let p := hiclient (Ret hl_new) hlp_clone hlp_drop hl_step hl_open hl_inext list_program [] [] in
  outs p =
  [inl OUnit; inl OUnit; inl OUnit; got (3, Some 1); inl (OBool true); got (2, Some 2); got (2, Some 2); inl OUnit; inl OUnit;
   inl (OElem (Some 1)); got (1, Some 3); got (0, None); got (0, None)] /\
  opened [] list_spec list_program [] = [(tt, [1; 2; 3]); (tt, [2; 3])] /\
  work [] p = 64 /\ iprice [] list_spec 0 2 3 list_price (fun _ _ => 0) (fun _ => 2) list_program [] [] = 110.
Proof. vm_compute. repeat (split; [reflexivity|]). reflexivity. Qed.

(** Changing a version while an iterator over it is alive is against the rule. *)
Example list_program_refused :
  ~ iwithin (Dir := unit) (@nil nat) list_spec list_reads always any_arg
      [IDo CNew; IDo (COp 0 (LPushMut 1)); IOpen 0 tt; IDo (COp 0 LDropMut)] [] [].
Proof. vm_compute. intros (_ & _ & _ & ([H|H] & _) & _); discriminate. Qed.

(** Two threads: each iterates its clone, then changes it and drops it. *)
Definition list_jobs : list (list nat * list (icmd (list_op nat) unit unit)) :=
  [([0], [IOpen 0 tt; INext 0 tt; INext 0 tt; INext 0 tt; INext 0 tt; IClose 0; IDo (COp 0 LRevMut); IOpen 0 tt; INext 1 tt; IClose 1; IDo (CDrop 0)]);
   ([1], [IDo (COp 0 LDropMut); IOpen 0 tt; INext 0 tt; IDo (CClone 0); IDo (COp 1 LDropMut); IDo (CDrop 1); INext 0 tt; IClose 0; IDo (CDrop 0)])].

Example list_jobs_hypotheses :
  within (@nil nat) list_spec always Prop_HeapSeq.threads_main [] /\
  let vs := fst (sclient [] list_spec Prop_HeapSeq.threads_main []) in
  Permutation (concat (map fst list_jobs)) (List.seq 0 (length vs)) /\
  Forall (fun j => iwithin [] list_spec list_reads always any_arg (snd j) (hand vs (fst j)) []) list_jobs.
Proof.
  split; [apply (proj1 Prop_HeapSeq.threads_hypotheses)|]. cbn zeta. split; [apply Permutation_refl|].
  repeat (constructor; [cbn [snd]; keeps_rule|]). constructor.
Qed.

Example list_jobs_run :
  match run [] (hclient (Ret hl_new) hlp_clone hlp_drop hl_step Prop_HeapSeq.threads_main []) with
  | Some (h, (rs, _)) =>
      let cf := exec (flat_map (fun _ => [0; 1]) (List.seq 0 60))
                  (h, map (ijob_start (Ret hl_new) hlp_clone hlp_drop hl_step hl_open hl_inext rs) list_jobs) in
      (map (fun p => match p with Ret r => Some (snd r) | _ => None end) (snd cf),
       forallb (fun x => match x with None => true | Some _ => false end) (fst cf))
  | None => ([], false)
  end =
  ([Some [got (3, Some 1); got (2, Some 2); got (1, Some 3); got (0, None); inl OUnit; got (3, Some 3)];
    Some [inl (OBool true); got (2, Some 2); inl (OBool true); got (1, Some 3)]], true).
Proof. vm_compute. reflexivity. Qed.

(** ** Stack *)
Theorem C51_stack_iterators : forall T : Type,
  iterates lkids (Ret hl_new) hlp_clone hlp_drop (@hs_step T) hl_open hl_inext Prop_HeapSeq.hl_roots
    (@nil T) stack_spec snext1 all_of stack_reads always any_arg
    0 2 3 stack_price (fun _ _ => 0) (fun _ => 2).
Proof. intros T. exact (proj1 stack_holds). Qed.
Print Assumptions C51_stack_iterators.

Theorem C51_stack_next : forall T : Type,
  next_cheap (Ret hl_new) hlp_clone hlp_drop (@hs_step T) hl_open hl_inext
    (@nil T) stack_spec stack_reads always any_arg (fun _ => 2) /\
  open_cheap (Ret hl_new) hlp_clone hlp_drop (@hs_step T) hl_open hl_inext
    (@nil T) stack_spec stack_reads always any_arg (fun _ _ => 0).
Proof. intros T. exact (proj1 (proj2 stack_holds)). Qed.
Print Assumptions C51_stack_next.

Theorem C51_stack_threads : forall T : Type,
  iter_threads (Ret hl_new) hlp_clone hlp_drop (@hs_step T) hl_open hl_inext
    (@nil T) stack_spec snext1 all_of stack_reads always any_arg
    0 2 3 stack_price (fun _ _ => 0) (fun _ => 2).
Proof. intros T. exact (proj2 (proj2 stack_holds)). Qed.
Print Assumptions C51_stack_threads.

Definition stack_program : list (icmd (stack_op nat) unit unit) :=
  [IDo CNew; IDo (COp 0 (SPushMut 1)); IDo (COp 0 (SPushMut 2)); IDo (CClone 0); IOpen 1 tt; INext 0 tt;
   IDo (COp 0 SPopMut); IDo (COp 0 (SPush 7)); INext 0 tt; IDo (COp 1 SPeek); IOpen 0 tt; INext 1 tt; INext 0 tt; INext 1 tt].
Example stack_program_within : iwithin (@nil nat) stack_spec stack_reads always any_arg stack_program [] [].
Proof. unfold stack_program. cbn [map app]. keeps_rule. Qed.
Example stack_program_runs :
  outs (hiclient (Ret hl_new) hlp_clone hlp_drop hs_step hl_open hl_inext stack_program [] []) =
  [inl OUnit; inl OUnit; got (2, Some 2); inl (OBool true); inl OUnit; got (1, Some 1); inl (OElem (Some 2));
   got (2, Some 7); got (0, None); got (1, Some 1)].
Proof. vm_compute. reflexivity. Qed.

(** ** Queue: a call reads the whole inbound list when the outbound list has run out *)
Theorem C51_queue_iterators : forall T : Type,
  iterates lkids (Ret hq_new) hq_clone hq_drop (@hq_step T) hq_open hq_inext Prop_HeapSeq.hq_roots
    (@nil T) queue_spec snext1 all_of queue_reads always any_arg
    0 4 6 queue_price (fun _ _ => 0) (fun v => length v + 2).
Proof. intros T. exact (proj1 queue_holds). Qed.
Print Assumptions C51_queue_iterators.

Theorem C51_queue_next : forall T : Type,
  next_cheap (Ret hq_new) hq_clone hq_drop (@hq_step T) hq_open hq_inext
    (@nil T) queue_spec queue_reads always any_arg (fun v => length v + 2) /\
  open_cheap (Ret hq_new) hq_clone hq_drop (@hq_step T) hq_open hq_inext
    (@nil T) queue_spec queue_reads always any_arg (fun _ _ => 0).
Proof. intros T. exact (proj1 (proj2 queue_holds)). Qed.
Print Assumptions C51_queue_next.

Theorem C51_queue_threads : forall T : Type,
  iter_threads (Ret hq_new) hq_clone hq_drop (@hq_step T) hq_open hq_inext
    (@nil T) queue_spec snext1 all_of queue_reads always any_arg
    0 4 6 queue_price (fun _ _ => 0) (fun v => length v + 2).
Proof. intros T. exact (proj2 (proj2 queue_holds)). Qed.
Print Assumptions C51_queue_threads.

(** Elements in both lists of the queue. *)
Definition queue_program : list (icmd (queue_op nat) unit unit) :=
  [IDo CNew; IDo (COp 0 (QEnqMut 1)); IDo (COp 0 (QEnqMut 2)); IDo (COp 0 (QEnqMut 3)); IDo (COp 0 QDeqMut);
   IDo (COp 0 (QEnqMut 4)); IDo (COp 0 (QEnqMut 5)); IDo (CClone 0); IOpen 0 tt; INext 0 tt; INext 0 tt; IDo (COp 1 QDeqMut);
   IDo (COp 1 (QEnqMut 6)); INext 0 tt; IDo (COp 1 QDeqMut); IDo (COp 1 QDeqMut); IDo (CDrop 1); INext 0 tt; INext 0 tt].
Example queue_program_within : iwithin (@nil nat) queue_spec queue_reads always any_arg queue_program [] [].
Proof. unfold queue_program. cbn [map app]. keeps_rule. Qed.
Example queue_program_runs :
  let p := hiclient (Ret hq_new) hq_clone hq_drop hq_step hq_open hq_inext queue_program [] [] in
  outs p =
  [inl OUnit; inl OUnit; inl OUnit; inl (OBool true); inl OUnit; inl OUnit; got (4, Some 2); got (3, Some 3); inl (OBool true); inl OUnit;
   got (2, Some 4); inl (OBool true); inl (OBool true); got (1, Some 5); got (0, None)] /\
  opened [] queue_spec queue_program [] = [(tt, [2; 3; 4; 5])].
Proof. vm_compute. repeat (split; [reflexivity|]). reflexivity. Qed.

(** ** Vector: from both ends *)
Theorem C51_vector_iterators : forall (T : Type) (ubits : N) (dbg : bool) (bits : N),
  (8 <= ubits)%N -> (0 < bits)%N -> (bits < ubits)%N ->
  iterates vkids (@hv_new T bits) hv_clone (hv_drop ubits dbg) (hv_step ubits dbg) hv_open (hv_inext ubits dbg) Prop_HeapVec.hv_roots
    (@nil T) vec_spec snext2 all_of vec_reads (fits ubits dbg bits) any_arg
    (ways bits + 3) 1 1 (vec_price bits) (fun _ _ => 0) (fun v => 7 * levels bits (len v)).
Proof. intros T ubits dbg bits Hu Hb Hbu. exact (proj1 (vector_holds ubits dbg bits Hu Hb Hbu)). Qed.
Print Assumptions C51_vector_iterators.

Theorem C51_vector_next : forall (T : Type) (ubits : N) (dbg : bool) (bits : N),
  (8 <= ubits)%N -> (0 < bits)%N -> (bits < ubits)%N ->
  next_cheap (@hv_new T bits) hv_clone (hv_drop ubits dbg) (hv_step ubits dbg) hv_open (hv_inext ubits dbg)
    (@nil T) vec_spec vec_reads (fits ubits dbg bits) any_arg (fun v => 7 * levels bits (len v)) /\
  open_cheap (@hv_new T bits) hv_clone (hv_drop ubits dbg) (hv_step ubits dbg) hv_open (hv_inext ubits dbg)
    (@nil T) vec_spec vec_reads (fits ubits dbg bits) any_arg (fun _ _ => 0).
Proof. intros T ubits dbg bits Hu Hb Hbu. exact (proj1 (proj2 (vector_holds ubits dbg bits Hu Hb Hbu))). Qed.
Print Assumptions C51_vector_next.

Theorem C51_vector_threads : forall (T : Type) (ubits : N) (dbg : bool) (bits : N),
  (8 <= ubits)%N -> (0 < bits)%N -> (bits < ubits)%N ->
  iter_threads (@hv_new T bits) hv_clone (hv_drop ubits dbg) (hv_step ubits dbg) hv_open (hv_inext ubits dbg)
    (@nil T) vec_spec snext2 all_of vec_reads (fits ubits dbg bits) any_arg
    (ways bits + 3) 1 1 (vec_price bits) (fun _ _ => 0) (fun v => 7 * levels bits (len v)).
Proof. intros T ubits dbg bits Hu Hb Hbu. exact (proj2 (proj2 (vector_holds ubits dbg bits Hu Hb Hbu))). Qed.
Print Assumptions C51_vector_threads.

(** Two-way nodes, so three levels: the clone is written to, shrunk and dropped half way. *)
Definition vector_program : list (icmd (vec_op nat) unit bool) :=
  [IDo CNew; IDo (COp 0 (VExtend [1; 2; 3; 4; 5])); IDo (CClone 0); IOpen 0 tt; INext 0 false; INext 0 true;
   IDo (COp 1 (VSetMut 1%N 9)); IOpen 1 tt; INext 1 true; INext 0 false; INext 1 true; IClose 1; IDo (COp 1 VDropMut);
   IDo (COp 0 (VGet 1%N)); INext 0 true; IDo (CDrop 1); INext 0 false; INext 0 false; INext 0 true].
Example vector_program_within : iwithin (@nil nat) vec_spec vec_reads (fits 64 true 1) any_arg vector_program [] [].
Proof. unfold vector_program. cbn [map app]. keeps_rule. Qed.
Example vector_program_runs :
  let p := hiclient (hv_new 1) hv_clone (hv_drop 64 true) (hv_step 64 true) hv_open (hv_inext 64 true) vector_program [] [] in
  outs p =
  [inl OUnit; got (5, Some 1); got (4, Some 5); inl (OBool true); got (5, Some 5); got (3, Some 2); got (4, Some 4); inl (OBool true);
   inl (OElem (Some 2)); got (2, Some 4); got (1, Some 3); got (0, None); got (0, None)] /\
  7 * levels 1 (len [1; 2; 3; 4; 5]) = 21.
Proof. vm_compute. repeat (split; [reflexivity|]). reflexivity. Qed.

(** ** RedBlackTreeMap: everything or a range, from both ends, ascending *)
Theorem C51_rb_map_iterators : forall (K V Q : Type) (dbg : bool)
  (kcmp : K -> K -> comparison) (borrow : K -> Q) (qcmp : Q -> Q -> comparison),
  ord_laws qcmp -> borrow_agrees kcmp borrow qcmp ->
  iterates rkids (@hb_new K V) hb_clone hb_drop (hb_step dbg kcmp borrow qcmp) (hb_open qcmp) (hb_inext kcmp borrow qcmp) Prop_HeapRB.hb_roots
    (@nil (K * V)) (rb_call_spec kcmp borrow qcmp) cnext (sorted_entries kcmp borrow qcmp) rb_reads always (good_arg qcmp)
    0 1 1 (fun o m => rb_price o (length m)) (fun _ _ => 0) (fun m => 3 * (2 * Nat.log2 (length m + 1)) + 11).
Proof. intros K V Q dbg kcmp borrow qcmp OL KB. exact (proj1 (rb_map_holds dbg kcmp borrow qcmp OL KB)). Qed.
Print Assumptions C51_rb_map_iterators.

Theorem C51_rb_map_next : forall (K V Q : Type) (dbg : bool)
  (kcmp : K -> K -> comparison) (borrow : K -> Q) (qcmp : Q -> Q -> comparison),
  ord_laws qcmp -> borrow_agrees kcmp borrow qcmp ->
  next_cheap (@hb_new K V) hb_clone hb_drop (hb_step dbg kcmp borrow qcmp) (hb_open qcmp) (hb_inext kcmp borrow qcmp)
    (@nil (K * V)) (rb_call_spec kcmp borrow qcmp) rb_reads always (good_arg qcmp) (fun m => 3 * (2 * Nat.log2 (length m + 1)) + 11) /\
  open_cheap (@hb_new K V) hb_clone hb_drop (hb_step dbg kcmp borrow qcmp) (hb_open qcmp) (hb_inext kcmp borrow qcmp)
    (@nil (K * V)) (rb_call_spec kcmp borrow qcmp) rb_reads always (good_arg qcmp) (fun _ _ => 0).
Proof. intros K V Q dbg kcmp borrow qcmp OL KB. exact (proj1 (proj2 (rb_map_holds dbg kcmp borrow qcmp OL KB))). Qed.
Print Assumptions C51_rb_map_next.

Theorem C51_rb_map_threads : forall (K V Q : Type) (dbg : bool)
  (kcmp : K -> K -> comparison) (borrow : K -> Q) (qcmp : Q -> Q -> comparison),
  ord_laws qcmp -> borrow_agrees kcmp borrow qcmp ->
  iter_threads (@hb_new K V) hb_clone hb_drop (hb_step dbg kcmp borrow qcmp) (hb_open qcmp) (hb_inext kcmp borrow qcmp)
    (@nil (K * V)) (rb_call_spec kcmp borrow qcmp) cnext (sorted_entries kcmp borrow qcmp) rb_reads always (good_arg qcmp)
    0 1 1 (fun o m => rb_price o (length m)) (fun _ _ => 0) (fun m => 3 * (2 * Nat.log2 (length m + 1)) + 11).
Proof. intros K V Q dbg kcmp borrow qcmp OL KB. exact (proj2 (proj2 (rb_map_holds dbg kcmp borrow qcmp OL KB))). Qed.
Print Assumptions C51_rb_map_threads.

(** A range with an excluded and an included end, and the whole map, both from both ends. *)
Notation nat_spec := (rb_call_spec Nat.compare (fun k : nat => k) Nat.compare).
Definition rb_program : list (icmd (rb_call (K := nat) (V := nat) (Q := nat)) (iter_arg nat) bool) :=
  IDo CNew :: map (fun k => IDo (COp 0 (BOp (MInsertMut k (10 * k))))) [5; 1; 4; 2; 3; 6] ++
  [IDo (CClone 0); IOpen 0 None; IOpen 0 (Some (Excluded 2, Included 5)); INext 0 true; INext 1 true; INext 1 false;
   IDo (COp 1 (BOp (MRemoveMut 4))); IDo (COp 1 (BOp (MGetMut 3 S))); IOpen 1 None; INext 2 false; INext 1 false; INext 1 true;
   INext 0 false; IClose 2; IDo (CDrop 1); INext 0 true; IDo (COp 0 (BOp (MGet 4))); INext 0 true].
Example rb_program_within : iwithin (@nil (nat * nat)) nat_spec rb_reads always (good_arg Nat.compare) rb_program [] [].
Proof. unfold rb_program. cbn [map app]. keeps_rule. Qed.
Example rb_program_runs :
  let p := hiclient hb_new hb_clone hb_drop (hb_step true Nat.compare (fun k : nat => k) Nat.compare) (hb_open Nat.compare)
             (hb_inext Nat.compare (fun k => k) Nat.compare) rb_program [] [] in
  skipn 6 (outs p) =
  [got (Some 6, Some (6, 60)); got (None, Some (5, 50)); got (None, Some (3, 30)); inl (BObs (MoBool true));
   inl (BObs (MoVal (Some 30))); got (Some 5, Some (1, 10)); got (None, Some (4, 40)); got (None, None);
   got (Some 5, Some (1, 10)); got (Some 4, Some (5, 50)); inl (BObs (MoVal (Some 40))); got (Some 3, Some (4, 40))] /\
  3 * (2 * Nat.log2 (6 + 1)) + 11 = 23.
Proof. vm_compute. repeat (split; [reflexivity|]). reflexivity. Qed.

(** ** RedBlackTreeSet *)
Theorem C51_rb_set_iterators : forall (T Q : Type) (dbg : bool)
  (tcmp : T -> T -> comparison) (borrow : T -> Q) (qcmp : Q -> Q -> comparison),
  ord_laws qcmp -> borrow_agrees tcmp borrow qcmp ->
  iterates rkids (@hb_new T unit) hb_clone hb_drop (ss_step dbg tcmp borrow qcmp) (ss_open qcmp) (ss_inext tcmp borrow qcmp) Prop_HeapRB.hb_roots
    (@nil T) (ss_spec tcmp borrow qcmp) cnext (sorted_elements tcmp borrow qcmp) ss_reads always (good_arg qcmp)
    0 1 1 (fun o m => rb_price (ss_map o) (length m)) (fun _ _ => 0) (fun m => 3 * (2 * Nat.log2 (length m + 1)) + 11).
Proof. intros T Q dbg tcmp borrow qcmp OL KB. exact (proj1 (rb_set_holds dbg tcmp borrow qcmp OL KB)). Qed.
Print Assumptions C51_rb_set_iterators.

Theorem C51_rb_set_next : forall (T Q : Type) (dbg : bool)
  (tcmp : T -> T -> comparison) (borrow : T -> Q) (qcmp : Q -> Q -> comparison),
  ord_laws qcmp -> borrow_agrees tcmp borrow qcmp ->
  next_cheap (@hb_new T unit) hb_clone hb_drop (ss_step dbg tcmp borrow qcmp) (ss_open qcmp) (ss_inext tcmp borrow qcmp)
    (@nil T) (ss_spec tcmp borrow qcmp) ss_reads always (good_arg qcmp) (fun m => 3 * (2 * Nat.log2 (length m + 1)) + 11) /\
  open_cheap (@hb_new T unit) hb_clone hb_drop (ss_step dbg tcmp borrow qcmp) (ss_open qcmp) (ss_inext tcmp borrow qcmp)
    (@nil T) (ss_spec tcmp borrow qcmp) ss_reads always (good_arg qcmp) (fun _ _ => 0).
Proof. intros T Q dbg tcmp borrow qcmp OL KB. exact (proj1 (proj2 (rb_set_holds dbg tcmp borrow qcmp OL KB))). Qed.
Print Assumptions C51_rb_set_next.

Theorem C51_rb_set_threads : forall (T Q : Type) (dbg : bool)
  (tcmp : T -> T -> comparison) (borrow : T -> Q) (qcmp : Q -> Q -> comparison),
  ord_laws qcmp -> borrow_agrees tcmp borrow qcmp ->
  iter_threads (@hb_new T unit) hb_clone hb_drop (ss_step dbg tcmp borrow qcmp) (ss_open qcmp) (ss_inext tcmp borrow qcmp)
    (@nil T) (ss_spec tcmp borrow qcmp) cnext (sorted_elements tcmp borrow qcmp) ss_reads always (good_arg qcmp)
    0 1 1 (fun o m => rb_price (ss_map o) (length m)) (fun _ _ => 0) (fun m => 3 * (2 * Nat.log2 (length m + 1)) + 11).
Proof. intros T Q dbg tcmp borrow qcmp OL KB. exact (proj2 (proj2 (rb_set_holds dbg tcmp borrow qcmp OL KB))). Qed.
Print Assumptions C51_rb_set_threads.

Definition rb_set_program : list (icmd (ss_call nat nat) (iter_arg nat) bool) :=
  IDo CNew :: map (fun k => IDo (COp 0 (SkOp (SetInsertMut k)))) [5; 1; 4; 2; 3] ++
  [IDo (CClone 0); IOpen 0 (Some (Included 2, Unbounded)); IOpen 0 None; INext 0 true; INext 0 false; INext 1 false;
   IDo (COp 1 (SkOp (SetRemoveMut 3))); INext 0 false; INext 0 false; INext 0 false; INext 1 true].
Example rb_set_program_within : iwithin (@nil nat) (ss_spec Nat.compare (fun k => k) Nat.compare) ss_reads always
  (good_arg Nat.compare) rb_set_program [] [].
Proof. unfold rb_set_program. cbn [map app]. keeps_rule. Qed.
Example rb_set_program_runs :
  skipn 5 (outs (hiclient hb_new hb_clone hb_drop (ss_step true Nat.compare (fun k : nat => k) Nat.compare) (ss_open Nat.compare)
             (ss_inext Nat.compare (fun k => k) Nat.compare) rb_set_program [] [])) =
  [got (None, Some 5); got (None, Some 2); got (Some 5, Some 1); inl (SkObs (SetoBool true)); got (None, Some 3); got (None, Some 4);
   got (None, None); got (Some 4, Some 5)].
Proof. vm_compute. reflexivity. Qed.

(** ** HashTrieMap: in some order *)
Theorem C51_hash_map_iterators : forall (K V Q : Type) (ubits : N) (dbg : bool)
  (keq : K -> K -> bool) (borrow : K -> Q) (qeq : Q -> Q -> bool) (hash : K -> N) (qhash : Q -> N),
  (ubits <= 64)%N -> key_laws keq borrow qeq -> hash_laws borrow qeq hash qhash ->
  forall (degree : N) (fuel : nat), supported ubits degree -> 2 * digits degree < fuel ->
  iterates tkids (@hh_new ubits K V degree) hh_clone hh_drop (hh_step ubits dbg keq borrow qeq hash qhash fuel) hh_open (hh_inext fuel) Prop_HeapHash.hh_roots
    (@nil (K * V)) (ht_call_spec keq borrow qeq) snext1 in_some_order ht_reads always any_arg
    (N.to_nat degree + 4) 1 1 (Prop_HeapWorkHash.map_price (N.to_nat degree) (digits degree) hash qhash) (fun _ _ => 1) (fun _ => 3 * digits degree + 3).
Proof. 
  intros K V Q ubits dbg keq borrow qeq hash qhash Hub KL HL degree fuel (b & Hb & -> & Hd) Hf. rewrite digits_D in *.
  exact (proj1 (hash_map_holds ubits dbg keq borrow qeq hash qhash Hub KL HL b fuel Hb Hd Hf)). Qed.
Print Assumptions C51_hash_map_iterators.

Theorem C51_hash_map_next : forall (K V Q : Type) (ubits : N) (dbg : bool)
  (keq : K -> K -> bool) (borrow : K -> Q) (qeq : Q -> Q -> bool) (hash : K -> N) (qhash : Q -> N),
  (ubits <= 64)%N -> key_laws keq borrow qeq -> hash_laws borrow qeq hash qhash ->
  forall (degree : N) (fuel : nat), supported ubits degree -> 2 * digits degree < fuel ->
  next_cheap (@hh_new ubits K V degree) hh_clone hh_drop (hh_step ubits dbg keq borrow qeq hash qhash fuel) hh_open (hh_inext fuel)
    (@nil (K * V)) (ht_call_spec keq borrow qeq) ht_reads always any_arg (fun _ => 3 * digits degree + 3) /\
  open_cheap (@hh_new ubits K V degree) hh_clone hh_drop (hh_step ubits dbg keq borrow qeq hash qhash fuel) hh_open (hh_inext fuel)
    (@nil (K * V)) (ht_call_spec keq borrow qeq) ht_reads always any_arg (fun _ _ => 1).
Proof. 
  intros K V Q ubits dbg keq borrow qeq hash qhash Hub KL HL degree fuel (b & Hb & -> & Hd) Hf. rewrite digits_D in *.
  exact (proj1 (proj2 (hash_map_holds ubits dbg keq borrow qeq hash qhash Hub KL HL b fuel Hb Hd Hf))). Qed.
Print Assumptions C51_hash_map_next.

Theorem C51_hash_map_threads : forall (K V Q : Type) (ubits : N) (dbg : bool)
  (keq : K -> K -> bool) (borrow : K -> Q) (qeq : Q -> Q -> bool) (hash : K -> N) (qhash : Q -> N),
  (ubits <= 64)%N -> key_laws keq borrow qeq -> hash_laws borrow qeq hash qhash ->
  forall (degree : N) (fuel : nat), supported ubits degree -> 2 * digits degree < fuel ->
  iter_threads (@hh_new ubits K V degree) hh_clone hh_drop (hh_step ubits dbg keq borrow qeq hash qhash fuel) hh_open (hh_inext fuel)
    (@nil (K * V)) (ht_call_spec keq borrow qeq) snext1 in_some_order ht_reads always any_arg
    (N.to_nat degree + 4) 1 1 (Prop_HeapWorkHash.map_price (N.to_nat degree) (digits degree) hash qhash) (fun _ _ => 1) (fun _ => 3 * digits degree + 3).
Proof. 
  intros K V Q ubits dbg keq borrow qeq hash qhash Hub KL HL degree fuel (b & Hb & -> & Hd) Hf. rewrite digits_D in *.
  exact (proj2 (proj2 (hash_map_holds ubits dbg keq borrow qeq hash qhash Hub KL HL b fuel Hb Hd Hf))). Qed.
Print Assumptions C51_hash_map_threads.

(** Degree 4 and the hash [k / 3] of Prop_HeapHash.v: 0, 1, 2 collide and so do 3, 4, 5. *)
Definition hash_program : list (icmd (ht_call N nat N) unit unit) :=
  IDo CNew :: map (fun k => IDo (COp 0 (TOp (MInsertMut k (N.to_nat k * 10))))) [0; 1; 2; 3; 4]%N ++
  [IDo (CClone 0); IOpen 0 tt; INext 0 tt; IDo (COp 1 (TOp (MRemoveMut 1%N))); INext 0 tt; IDo (COp 1 (TOp (MGetMut 2%N S)));
   IOpen 1 tt; INext 1 tt; IClose 1; INext 0 tt; IDo (CDrop 1); INext 0 tt; IDo (COp 0 (TOp (MGet 4%N))); INext 0 tt; INext 0 tt].
Example hash_program_within :
  iwithin (@nil (N * nat)) Prop_HeapHash.hx_spec ht_reads always any_arg hash_program [] [].
Proof. unfold hash_program. cbn [map app]. keeps_rule. Qed.
Example hash_program_runs :
  skipn 5 (outs (hiclient Prop_HeapHash.hx_new hh_clone hh_drop Prop_HeapHash.hx_step hh_open (hh_inext 65) hash_program [] [])) =
  [got (5, Some (2%N, 20)); inl (TObs (MoBool true)); got (4, Some (1%N, 10)); inl (TObs (MoVal (Some 20)));
   got (4, Some (2%N, 21)); got (3, Some (0%N, 0)); got (2, Some (4%N, 40)); inl (TObs (MoVal (Some 40)));
   got (1, Some (3%N, 30)); got (0, None)].
Proof. vm_compute. reflexivity. Qed.

(** ** HashTrieSet *)
Theorem C51_hash_set_iterators : forall (T Q : Type) (ubits : N) (dbg : bool)
  (teq : T -> T -> bool) (borrow : T -> Q) (qeq : Q -> Q -> bool) (hash : T -> N) (qhash : Q -> N),
  (ubits <= 64)%N -> key_laws teq borrow qeq -> hash_laws borrow qeq hash qhash ->
  forall (degree : N) (fuel : nat), supported ubits degree -> 2 * digits degree < fuel ->
  iterates tkids (@hh_new ubits T unit degree) hh_clone hh_drop (us_step ubits dbg teq borrow qeq hash qhash fuel) us_open (us_inext fuel) Prop_HeapHash.hh_roots
    (@nil T) (us_spec teq borrow qeq) snext1 in_some_order us_reads always any_arg
    (N.to_nat degree + 4) 1 1 (fun o s => Prop_HeapWorkHash.map_price (N.to_nat degree) (digits degree) hash qhash (us_map o) (map ut s)) (fun _ _ => 1) (fun _ => 3 * digits degree + 3).
Proof. 
  intros T Q ubits dbg teq borrow qeq hash qhash Hub KL HL degree fuel (b & Hb & -> & Hd) Hf. rewrite digits_D in *.
  exact (proj1 (hash_set_holds ubits dbg teq borrow qeq hash qhash Hub KL HL b fuel Hb Hd Hf)). Qed.
Print Assumptions C51_hash_set_iterators.

Theorem C51_hash_set_next : forall (T Q : Type) (ubits : N) (dbg : bool)
  (teq : T -> T -> bool) (borrow : T -> Q) (qeq : Q -> Q -> bool) (hash : T -> N) (qhash : Q -> N),
  (ubits <= 64)%N -> key_laws teq borrow qeq -> hash_laws borrow qeq hash qhash ->
  forall (degree : N) (fuel : nat), supported ubits degree -> 2 * digits degree < fuel ->
  next_cheap (@hh_new ubits T unit degree) hh_clone hh_drop (us_step ubits dbg teq borrow qeq hash qhash fuel) us_open (us_inext fuel)
    (@nil T) (us_spec teq borrow qeq) us_reads always any_arg (fun _ => 3 * digits degree + 3) /\
  open_cheap (@hh_new ubits T unit degree) hh_clone hh_drop (us_step ubits dbg teq borrow qeq hash qhash fuel) us_open (us_inext fuel)
    (@nil T) (us_spec teq borrow qeq) us_reads always any_arg (fun _ _ => 1).
Proof. 
  intros T Q ubits dbg teq borrow qeq hash qhash Hub KL HL degree fuel (b & Hb & -> & Hd) Hf. rewrite digits_D in *.
  exact (proj1 (proj2 (hash_set_holds ubits dbg teq borrow qeq hash qhash Hub KL HL b fuel Hb Hd Hf))). Qed.
Print Assumptions C51_hash_set_next.

Theorem C51_hash_set_threads : forall (T Q : Type) (ubits : N) (dbg : bool)
  (teq : T -> T -> bool) (borrow : T -> Q) (qeq : Q -> Q -> bool) (hash : T -> N) (qhash : Q -> N),
  (ubits <= 64)%N -> key_laws teq borrow qeq -> hash_laws borrow qeq hash qhash ->
  forall (degree : N) (fuel : nat), supported ubits degree -> 2 * digits degree < fuel ->
  iter_threads (@hh_new ubits T unit degree) hh_clone hh_drop (us_step ubits dbg teq borrow qeq hash qhash fuel) us_open (us_inext fuel)
    (@nil T) (us_spec teq borrow qeq) snext1 in_some_order us_reads always any_arg
    (N.to_nat degree + 4) 1 1 (fun o s => Prop_HeapWorkHash.map_price (N.to_nat degree) (digits degree) hash qhash (us_map o) (map ut s)) (fun _ _ => 1) (fun _ => 3 * digits degree + 3).
Proof. 
  intros T Q ubits dbg teq borrow qeq hash qhash Hub KL HL degree fuel (b & Hb & -> & Hd) Hf. rewrite digits_D in *.
  exact (proj2 (proj2 (hash_set_holds ubits dbg teq borrow qeq hash qhash Hub KL HL b fuel Hb Hd Hf))). Qed.
Print Assumptions C51_hash_set_threads.

Definition hash_set_program : list (icmd (hs_call N N) unit unit) :=
  IDo CNew :: map (fun k => IDo (COp 0 (UkOp (SetInsertMut k)))) [0; 1; 2; 3]%N ++
  [IDo (CClone 0); IOpen 1 tt; INext 0 tt; IDo (COp 0 (UkOp (SetRemoveMut 1%N))); INext 0 tt; IDo (CDrop 0); INext 0 tt; INext 0 tt; INext 0 tt].
Example hash_set_program_within :
  iwithin (@nil N) (us_spec N.eqb (fun k => k) N.eqb) us_reads always any_arg hash_set_program [] [].
Proof. unfold hash_set_program. cbn [map app]. keeps_rule. Qed.
Example hash_set_program_runs :
  skipn 4 (outs (hiclient (@hh_new 64 N unit 4) hh_clone hh_drop
    (us_step 64 true N.eqb (fun k => k) N.eqb Prop_HeapHash.hx_hash Prop_HeapHash.hx_hash 65) us_open (us_inext 65) hash_set_program [] [])) =
  [got (4, Some 2%N); inl (UkObs (SetoBool true)); got (3, Some 1%N); got (2, Some 0%N); got (1, Some 3%N); got (0, None)].
Proof. vm_compute. reflexivity. Qed.
