(** * Property C50: how many pointer operations the calls make

    The documentation of every collection has a table of complexities
    (list/mod.rs:89-101, stack/mod.rs:75-85, queue/mod.rs:79-90, vector/mod.rs:76-87,
    red_black_tree_map/mod.rs:83-94, red_black_tree_set/mod.rs:77-88).  Here: what
    the calls cost on the shared, reference counted heap of HeapModel.v, in
    primitive steps (allocate, clone a pointer, read, drop a pointer, test and take
    a uniquely held cell, write it back; HeapWork.v, [work] and [moves]).

    [total_work] (HeapWork.v): in any program, followed by any threads under any
    schedule, all steps of all threads together are at most the sum of the prices
    of the calls.  The price of a call includes what dropping its cells will cost
    later: the bound is amortised, whatever versions are kept and shared.

    [call_work]: in any state a program can reach, a call made on its own takes at
    most so many steps.  The calls it is stated for are those that drop no version
    of the collection: in the model a call such as [push] (a clone, [push_mut] on
    the clone) is followed by the drop of the version it was called on, which may
    free the whole of it.

    [clone_work]: the same for [clone]. *)
From Coq Require Import List NArith Arith Lia Bool Permutation.
From Verif Require Import Base Spec Sim SpecMap SpecOrd RBModel RBHist HashExtraProofs Prop_RB
  HeapModel HeapProofs HeapSafe HeapClient HeapWorld
  HeapList HeapListProofs HeapSeqProofs HeapVec HeapVecProofs HeapRB HeapRBProofs HeapRBMap HeapSet
  HeapWork HeapWorkSeq HeapWorkVec HeapWorkRB.
From Verif Require Prop_HeapSeq Prop_HeapVec Prop_HeapRB.
Import ListNotations.
Local Open Scope nat_scope.

Notation always := Prop_HeapSeq.always.

Notation sp S P := (safe_pays _ _ _ _ _ _ _ _ _ S P).

(** ** List *)
Lemma list_works : forall T : Type,
  works (Ret hl_new) hlp_clone hlp_drop hl_step (@nil T) list_spec always 0 2 3 list_price list_direct list_limit.
Proof.
  intros T. eapply (works_ok lkids 4 (fun _ => True) _ _ _ _ hlrep).
  - refine (sp Prop_HeapSeq.hl_new_ok (_ : pays _ _ _ _ any)). exact I.
  - intros c v G R. exact (sp (hlp_clone_ok _ _ _ R) (l_clone _)).
  - intros c v G R. exact (sp (hlp_drop_ok _ _ _ R) (l_drop _)).
  - intros o c v G R _. exact (sp (hl_step_ok o _ _ _ R) (hl_step_pays o _ _ _ R)).
  - intros o c v G R _ D. exact (sp (hl_step_ok o _ _ _ R) (hl_step_direct o _ _ _ R D)).
  - intros c v G R. exact (sp (hlp_clone_ok _ _ _ R) (clone_pays _ _ _)).
Qed.

(** Costs: of a new list 0, of a clone 2, of a drop 3. *)
Theorem C50_list_total_work : forall T : Type,
  total_work (Ret hl_new) hlp_clone hlp_drop hl_step (@nil T) list_spec always
    0 2 3
    (fun o s => match o with
                | LNew => 3
                | LFromIter vs => 12 * length vs + 3
                | LPush _ => 17
                | LPushMut _ => 12
                | LDrop => 9
                | LDropMut => 4
                | LRev => 9 * length s + 3
                | LRevMut => 11 * length s + 3
                | LFirst => 2
                | LLast => 1
                | LLen | LIsEmpty => 0
                | LIter k => 2 * k
                end).
Proof. intros T. exact (proj1 (list_works T)). Qed.
Print Assumptions C50_list_total_work.

Theorem C50_list_call_work : forall T : Type,
  call_work (Ret hl_new) hlp_clone hlp_drop hl_step (@nil T) list_spec always
    (fun o => match o with LNew | LFromIter _ | LPush _ | LDrop | LRev => false | _ => true end)
    (fun o s => match o with
                | LPushMut _ => 6
                | LDropMut => 26
                | LRevMut => 15 * length s + 5
                | LFirst => 2
                | LLast => 1
                | LIter k => 2 * k
                | _ => 0
                end).
Proof. intros T. exact (proj1 (proj2 (list_works T))). Qed.
Print Assumptions C50_list_call_work.

Theorem C50_list_clone_work : forall T : Type,
  clone_work (Ret hl_new) hlp_clone hlp_drop hl_step (@nil T) list_spec always 2.
Proof. intros T. exact (proj2 (proj2 (list_works T))). Qed.
Print Assumptions C50_list_clone_work.

(** ** Stack *)
Lemma stack_works : forall T : Type,
  works (Ret hl_new) hlp_clone hlp_drop hs_step (@nil T) stack_spec always 0 2 3 stack_price stack_direct stack_limit.
Proof.
  intros T. eapply (works_ok lkids 4 (fun _ => True) _ _ _ _ hlrep).
  - refine (sp Prop_HeapSeq.hl_new_ok (_ : pays _ _ _ _ any)). exact I.
  - intros c v G R. exact (sp (hlp_clone_ok _ _ _ R) (l_clone _)).
  - intros c v G R. exact (sp (hlp_drop_ok _ _ _ R) (l_drop _)).
  - intros o c v G R _. exact (sp (hs_step_ok o _ _ _ R) (hs_step_pays o _ _ _ R)).
  - intros o c v G R _ D. exact (sp (hs_step_ok o _ _ _ R) (hs_step_direct o _ _ _ R D)).
  - intros c v G R. exact (sp (hlp_clone_ok _ _ _ R) (clone_pays _ _ _)).
Qed.

Theorem C50_stack_total_work : forall T : Type,
  total_work (Ret hl_new) hlp_clone hlp_drop hs_step (@nil T) stack_spec always
    0 2 3
    (fun o s => match o with
                | SNew => 3
                | SPush _ => 17
                | SPushMut _ => 12
                | SPop => 9
                | SPopMut => 4
                | SPeek => 2
                | SSize | SIsEmpty => 0
                | SIter k => 2 * k
                end).
Proof. intros T. exact (proj1 (stack_works T)). Qed.
Print Assumptions C50_stack_total_work.

Theorem C50_stack_call_work : forall T : Type,
  call_work (Ret hl_new) hlp_clone hlp_drop hs_step (@nil T) stack_spec always
    (fun o => match o with SNew | SPush _ | SPop => false | _ => true end)
    (fun o s => match o with
                | SPushMut _ => 6
                | SPopMut => 26
                | SPeek => 2
                | SIter k => 2 * k
                | _ => 0
                end).
Proof. intros T. exact (proj1 (proj2 (stack_works T))). Qed.
Print Assumptions C50_stack_call_work.

Theorem C50_stack_clone_work : forall T : Type,
  clone_work (Ret hl_new) hlp_clone hlp_drop hs_step (@nil T) stack_spec always 2.
Proof. intros T. exact (proj2 (proj2 (stack_works T))). Qed.
Print Assumptions C50_stack_clone_work.

(** ** Queue.  [dequeue] is bounded by the number of elements: it may have to
    reverse the list they came in on.  (That dequeues of one version are cheap on
    average, and that those of a kept version are not, is C06.) *)
Lemma queue_works : forall T : Type,
  works (Ret hq_new) hq_clone hq_drop hq_step (@nil T) queue_spec always 0 4 6 queue_price queue_direct queue_limit.
Proof.
  intros T. eapply (works_ok lkids 4 (fun _ => True) _ _ _ _ hqrep).
  - refine (sp Prop_HeapSeq.hq_new_ok (_ : pays _ _ _ _ any)). exact I.
  - intros c v G R. exact (sp (hq_clone_ok _ _ _ R) (q_clone 4 _)).
  - intros c v G R. exact (sp (hq_drop_ok _ _ _ R) (q_drop _)).
  - intros o c v G R _. exact (hq_step_dear o _ _ _ R).
  - intros o c v G R _ D. exact (hq_step_direct_dear o _ _ _ R D).
  - intros c v G R. exact (sp (hq_clone_ok _ _ _ R) (q_clone 0 _)).
Qed.

Theorem C50_queue_total_work : forall T : Type,
  total_work (Ret hq_new) hq_clone hq_drop hq_step (@nil T) queue_spec always
    0 4 6
    (fun o s => match o with
                | QNew => 6
                | QFromIter vs => 12 * length vs + 6
                | QEnq _ => 22
                | QEnqMut _ => 12
                | QDeq => 11 * length s + 17
                | QDeqMut => 11 * length s + 7
                | QPeek => 2
                | QLen | QIsEmpty => 0
                | QIter _ => 2 * length s
                end).
Proof. intros T. exact (proj1 (queue_works T)). Qed.
Print Assumptions C50_queue_total_work.

Theorem C50_queue_call_work : forall T : Type,
  call_work (Ret hq_new) hq_clone hq_drop hq_step (@nil T) queue_spec always
    (fun o => match o with QNew | QFromIter _ | QEnq _ | QDeq => false | _ => true end)
    (fun o s => match o with
                | QEnqMut _ => 6
                | QDeqMut => 15 * length s + 31
                | QPeek => 2
                | QIter _ => 2 * length s
                | _ => 0
                end).
Proof. intros T. exact (proj1 (proj2 (queue_works T))). Qed.
Print Assumptions C50_queue_call_work.

Theorem C50_queue_clone_work : forall T : Type,
  clone_work (Ret hq_new) hq_clone hq_drop hq_step (@nil T) queue_spec always 4.
Proof. intros T. exact (proj2 (proj2 (queue_works T))). Qed.
Print Assumptions C50_queue_clone_work.

(** The hypotheses are met, by the two threads of Prop_HeapSeq.v; how many steps
    they make, and what their calls are allowed. *)
Example list_work_hypotheses :
  within (@nil nat) list_spec always Prop_HeapSeq.threads_main [] /\
  let vs := fst (sclient [] list_spec Prop_HeapSeq.threads_main []) in
  Permutation (concat (map job_regs Prop_HeapSeq.threads_jobs)) (seq 0 (length vs)) /\
  Forall (job_within [] list_spec always vs) Prop_HeapSeq.threads_jobs.
Proof.
  destruct Prop_HeapSeq.threads_hypotheses as (H1 & H2 & H3 & _). auto.
Qed.

Example list_work_case :
  let vs := fst (sclient [] list_spec Prop_HeapSeq.threads_main []) in
  match run [] (hclient (Ret hl_new) hlp_clone hlp_drop hl_step Prop_HeapSeq.threads_main []) with
  | Some (h, (rs, _)) =>
      work [] (hclient (Ret hl_new) hlp_clone hlp_drop hl_step Prop_HeapSeq.threads_main []) +
      moves (flat_map (fun _ => [0; 1]) (seq 0 60))
        (h, map (job_start (Ret hl_new) hlp_clone hlp_drop hl_step rs) Prop_HeapSeq.threads_jobs)
  | None => 0
  end = 65 /\
  price_of [] list_spec 0 2 3 list_price Prop_HeapSeq.threads_main [] +
  list_sum (map (fun j => price_of [] list_spec 0 2 3 list_price (job_cmds j) (hand vs (job_regs j)))
              Prop_HeapSeq.threads_jobs) = 113.
Proof. vm_compute. split; reflexivity. Qed.

Example list_call_case : exists v,
  nth_error (fst (sclient (@nil nat) list_spec Prop_HeapSeq.threads_main [])) 1 = Some (Some v) /\
  length v = 3 /\ list_direct (@LDropMut nat) = true.
Proof. eexists. repeat split. Qed.

(** ** Vector: [b] ways, [levels bits n] levels over [n] elements (C42_levels_meaning) *)
Notation fits := Prop_HeapVec.fits.

Lemma hv_new_pays : forall T bits, pays (ways bits + 2) (@thin bits T) (ways bits + 3) (@hv_new T bits) any.
Proof.
  intros T bits. unfold hv_new. destruct (_ <? _)%N; [|exact I]. apply pay_new; [lia| |].
  - unfold thin. cbn. lia.
  - intros a. exact I.
Qed.

Lemma vector_works : forall (T : Type) (ubits : N) (dbg : bool) (bits : N),
  (8 <= ubits)%N -> (0 < bits < ubits)%N ->
  works (hv_new bits) hv_clone (hv_drop ubits dbg) (hv_step ubits dbg) (@nil T) vec_spec (fits ubits dbg bits)
    (ways bits + 3) 1 1 (vec_price bits) vec_direct (vec_limit_work bits).
Proof.
  intros T ubits dbg bits Hu [Hb Hbu].
  eapply (works_ok vkids (ways bits + 2) (thin bits) _ _ _ _ (hvrep ubits dbg bits)).
  - refine (sp (hv_new_ok ubits dbg bits Hu Hb Hbu) (hv_new_pays T bits)).
  - intros c v G R. exact (sp (hv_clone_ok ubits dbg bits _ _ _ R) (hv_clone_pays ubits bits Hu Hb Hbu _ _)).
  - intros c v G R. refine (sp (hv_drop_ok ubits dbg bits Hu Hb Hbu _ _ _ R) _).
    eapply (hv_drop_pays ubits dbg bits _ (fun _ => 1)); [apply (v_drops ubits bits Hu Hb Hbu)|trivial].
  - intros o c v G R F. exact (hv_step_dear ubits dbg bits Hu Hb Hbu o _ _ _ R F).
  - intros o c v G R F D. exact (hv_step_direct_dear ubits dbg bits Hu Hb Hbu o _ _ _ R F D).
  - intros c v G R. exact (sp (hv_clone_ok ubits dbg bits _ _ _ R) (hv_clone_pays ubits bits Hu Hb Hbu _ _)).
Qed.

(** A new vector holds an empty leaf, whose drop is paid for: [2^bits + 3]. *)
Theorem C50_vector_total_work : forall (T : Type) (ubits : N) (dbg : bool) (bits : N),
  (8 <= ubits)%N -> (0 < bits < ubits)%N ->
  total_work (hv_new bits) hv_clone (hv_drop ubits dbg) (hv_step ubits dbg) (@nil T) vec_spec
    (fits ubits dbg bits)
    (N.to_nat (2 ^ bits) + 3) 1 1
    (fun o l => let n := N.of_nat (length l) in let b := N.to_nat (2 ^ bits) in
                match o with
                | VPush _ => (levels bits (n + 1) + 1) * (2 * b + 7) + 2 * b + 11
                | VPushMut _ => (levels bits (n + 1) + 1) * (2 * b + 7) + 2 * b + 9
                | VExtend xs =>
                    length xs * ((levels bits (n + N.of_nat (length xs)) + 1) * (2 * b + 7) + 2 * b + 9)
                | VDrop => (levels bits n + 1) * (2 * b + 8) + 2
                | VDropMut => (levels bits n + 1) * (2 * b + 8)
                | VSet _ _ => (levels bits n + 1) * (2 * b + 7) + b + 6
                | VSetMut _ _ => (levels bits n + 1) * (2 * b + 7) + b + 4
                | VGetMut _ _ => (levels bits n + 1) * (2 * b + 7)
                | VGet _ | VFirst | VLast => levels bits n + 1
                | VLen | VIsEmpty => 0
                | VIter ds => Nat.min (22 * length l + 10 * levels bits n) (length ds * (7 * levels bits n))
                end).
Proof. intros T ubits dbg bits Hu Hb. exact (proj1 (vector_works T ubits dbg bits Hu Hb)). Qed.
Print Assumptions C50_vector_total_work.

Theorem C50_vector_call_work : forall (T : Type) (ubits : N) (dbg : bool) (bits : N),
  (8 <= ubits)%N -> (0 < bits < ubits)%N ->
  call_work (hv_new bits) hv_clone (hv_drop ubits dbg) (hv_step ubits dbg) (@nil T) vec_spec
    (fits ubits dbg bits)
    (fun o => match o with VPush _ | VDrop | VSet _ _ => false | _ => true end)
    (fun o l => let n := N.of_nat (length l) in let b := N.to_nat (2 ^ bits) in
                match o with
                | VPushMut _ => (levels bits (n + 1) + 1) * (4 * b + 7) + 9
                | VExtend xs => length xs * ((levels bits (n + N.of_nat (length xs)) + 1) * (4 * b + 7) + 9)
                | VDropMut => (levels bits n + 1) * (4 * b + 10)
                | VSetMut _ _ => (levels bits n + 1) * (4 * b + 7) + 4
                | VGetMut _ _ => (levels bits n + 1) * (4 * b + 7)
                | VGet _ | VFirst | VLast => levels bits n + 1
                | VIter ds => Nat.min (22 * length l + 10 * levels bits n) (length ds * (7 * levels bits n))
                | _ => 0
                end).
Proof. intros T ubits dbg bits Hu Hb. exact (proj1 (proj2 (vector_works T ubits dbg bits Hu Hb))). Qed.
Print Assumptions C50_vector_call_work.

Theorem C50_vector_clone_work : forall (T : Type) (ubits : N) (dbg : bool) (bits : N),
  (8 <= ubits)%N -> (0 < bits < ubits)%N ->
  clone_work (hv_new bits) hv_clone (hv_drop ubits dbg) (hv_step ubits dbg) (@nil T) vec_spec
    (fits ubits dbg bits) 1.
Proof. intros T ubits dbg bits Hu Hb. exact (proj2 (proj2 (vector_works T ubits dbg bits Hu Hb))). Qed.
Print Assumptions C50_vector_clone_work.

Example vector_work_hypotheses :
  within (@nil nat) vec_spec (fits 64 true 1) Prop_HeapVec.vthreads_main [] /\
  let vs := fst (sclient [] vec_spec Prop_HeapVec.vthreads_main []) in
  Permutation (concat (map job_regs Prop_HeapVec.vthreads_jobs)) (seq 0 (length vs)) /\
  Forall (job_within [] vec_spec (fits 64 true 1) vs) Prop_HeapVec.vthreads_jobs.
Proof.
  destruct Prop_HeapVec.vthreads_hypotheses as (H1 & H2 & H3 & _). auto.
Qed.

Example vector_work_case :
  let step := hv_step 64 true in
  let vs := fst (sclient [] vec_spec Prop_HeapVec.vthreads_main []) in
  match run [] (hclient (hv_new 1) hv_clone (hv_drop 64 true) step Prop_HeapVec.vthreads_main []) with
  | Some (h, (rs, _)) =>
      work [] (hclient (hv_new 1) hv_clone (hv_drop 64 true) step Prop_HeapVec.vthreads_main []) +
      moves (flat_map (fun _ => [0; 1]) (seq 0 120))
        (h, map (job_start (hv_new 1) hv_clone (hv_drop 64 true) step rs) Prop_HeapVec.vthreads_jobs)
  | None => 0
  end = 192 /\
  price_of [] vec_spec 5 1 1 (vec_price 1) Prop_HeapVec.vthreads_main [] +
  list_sum (map (fun j => price_of [] vec_spec 5 1 1 (vec_price 1) (job_cmds j) (hand vs (job_regs j)))
              Prop_HeapVec.vthreads_jobs) = 570.
Proof. vm_compute. split; reflexivity. Qed.

Example vector_call_case : exists v,
  nth_error (fst (sclient (@nil nat) vec_spec Prop_HeapVec.vthreads_main [])) 1 = Some (Some v) /\
  length v = 5 /\ fits 64 true 1 (VSetMut 3%N 9) v /\ vec_direct (VSetMut 3%N 9) = true.
Proof. eexists. split; [reflexivity|]. split; [reflexivity|]. split; [|reflexivity]. vm_compute. discriminate. Qed.

(** A million elements in 32-way nodes: [get] takes five steps, [set_mut] at most
    [5 * (4 * 32 + 7) + 4]. *)
Example vector_million : levels 5 1000000%N + 1 = 5 /\ N.to_nat (2 ^ 5) = 32.
Proof. split; reflexivity. Qed.

(** ** RedBlackTreeMap: a tree of [n] entries has at most [2 * log2 (n + 1)] levels *)
Section RB.
Context (K V Q : Type) (dbg : bool).
Context (kcmp : K -> K -> comparison) (borrow : K -> Q) (qcmp : Q -> Q -> comparison).
Context (OL : ord_laws qcmp) (KB : borrow_agrees kcmp borrow qcmp).

Lemma rb_map_works :
  works (@hb_new K V) hb_clone hb_drop (hb_step dbg kcmp borrow qcmp)
    (@nil (K * V)) (rb_call_spec kcmp borrow qcmp) always
    0 1 1 (fun o m => rb_price o (length m)) rb_direct (fun o m => rb_limit o (length m)).
Proof.
  eapply (works_ok rkids 5 (fun _ => True) _ _ _ _ (hbrep kcmp)).
  - refine (sp (hb_new_ok kcmp) (_ : pays _ _ _ _ any)). exact I.
  - intros c v G R. exact (sp (hb_clone_ok kcmp _ _ _ R) (hb_clone_pays _ _)).
  - intros c v G R. exact (sp (hb_drop_ok kcmp _ _ _ R) (b_drop _)).
  - intros o c v G R _. now apply hb_step_dear.
  - intros o c v G R _ D. now apply hb_step_direct.
  - intros c v G R. exact (sp (hb_clone_ok kcmp _ _ _ R) (hb_clone_pays _ _)).
Qed.
End RB.

Theorem C50_rb_map_total_work : forall (K V Q : Type) (dbg : bool)
  (kcmp : K -> K -> comparison) (borrow : K -> Q) (qcmp : Q -> Q -> comparison),
  ord_laws qcmp -> borrow_agrees kcmp borrow qcmp ->
  total_work (@hb_new K V) hb_clone hb_drop (hb_step dbg kcmp borrow qcmp)
    (@nil (K * V)) (rb_call_spec kcmp borrow qcmp) always
    0 1 1
    (fun o m => let L := 2 * Nat.log2 (length m + 1) in
                match o with
                | BOp (MInsert _ _) => 50 * (L + 1) + 15
                | BOp (MInsertMut _ _) => 50 * (L + 1) + 13
                | BOp (MRemove _) => 97 * (L + 1) + 110 * (2 * L + 1) + 4
                | BOp (MRemoveMut _) => 97 * (L + 1) + 110 * (2 * L + 1)
                | BOp (MGetMut _ _) => 14 * (L + 1) + 13
                | BOp (MGet _) | BOp (MGetKeyValue _) | BOp (MContains _) => 2 * (L + 1)
                | BOp MSize | BOp MIsEmpty => 0
                | BOp MClone => 2
                | BFirst | BLast => L + 2
                | BIter ds => Nat.min (15 * length m) (length ds * (3 * L + 11))
                end).
Proof.
  intros K V Q dbg kcmp borrow qcmp OL KB. exact (proj1 (rb_map_works K V Q dbg kcmp borrow qcmp OL KB)).
Qed.
Print Assumptions C50_rb_map_total_work.

Theorem C50_rb_map_call_work : forall (K V Q : Type) (dbg : bool)
  (kcmp : K -> K -> comparison) (borrow : K -> Q) (qcmp : Q -> Q -> comparison),
  ord_laws qcmp -> borrow_agrees kcmp borrow qcmp ->
  call_work (@hb_new K V) hb_clone hb_drop (hb_step dbg kcmp borrow qcmp)
    (@nil (K * V)) (rb_call_spec kcmp borrow qcmp) always
    (fun o => match o with BOp (MInsert _ _) | BOp (MRemove _) | BOp MClone => false | _ => true end)
    (fun o m => let L := 2 * Nat.log2 (length m + 1) in
                match o with
                | BOp (MInsertMut _ _) => 68 * (L + 1) + 5
                | BOp (MRemoveMut _) => 144 * (L + 1) + 163 * (2 * L + 1)
                | BOp (MGetMut _ _) => 20 * (L + 1) + 19
                | BOp (MGet _) | BOp (MGetKeyValue _) | BOp (MContains _) => 2 * (L + 1)
                | BFirst | BLast => L + 2
                | BIter ds => Nat.min (15 * length m) (length ds * (3 * L + 11))
                | _ => 0
                end).
Proof.
  intros K V Q dbg kcmp borrow qcmp OL KB. exact (proj1 (proj2 (rb_map_works K V Q dbg kcmp borrow qcmp OL KB))).
Qed.
Print Assumptions C50_rb_map_call_work.

Theorem C50_rb_map_clone_work : forall (K V Q : Type) (dbg : bool)
  (kcmp : K -> K -> comparison) (borrow : K -> Q) (qcmp : Q -> Q -> comparison),
  ord_laws qcmp -> borrow_agrees kcmp borrow qcmp ->
  clone_work (@hb_new K V) hb_clone hb_drop (hb_step dbg kcmp borrow qcmp)
    (@nil (K * V)) (rb_call_spec kcmp borrow qcmp) always 1.
Proof.
  intros K V Q dbg kcmp borrow qcmp OL KB. exact (proj2 (proj2 (rb_map_works K V Q dbg kcmp borrow qcmp OL KB))).
Qed.
Print Assumptions C50_rb_map_clone_work.

Example rb_work_hypotheses :
  ord_laws Nat.compare /\ borrow_agrees Nat.compare (fun k : nat => k) Nat.compare /\
  within (@nil (nat * nat)) (rb_call_spec Nat.compare (fun k => k) Nat.compare) always Prop_HeapRB.bthreads_main [] /\
  let vs := fst (sclient [] (rb_call_spec Nat.compare (fun k => k) Nat.compare) Prop_HeapRB.bthreads_main []) in
  Permutation (concat (map job_regs Prop_HeapRB.bthreads_jobs)) (seq 0 (length vs)) /\
  Forall (job_within [] (rb_call_spec Nat.compare (fun k => k) Nat.compare) always vs) Prop_HeapRB.bthreads_jobs.
Proof.
  destruct Prop_HeapRB.bthreads_hypotheses as (H1 & H2 & H3 & _).
  split.
  { constructor.
    - intros a b. apply Nat.compare_antisym.
    - intros a b c. rewrite !Nat.compare_lt_iff. lia.
    - intros a b c E. apply Nat.compare_eq_iff in E. now subst. } split; [intros a b; reflexivity|]. auto.
Qed.

Example rb_work_case :
  let step := hb_step true Nat.compare (fun k : nat => k) Nat.compare in
  let spec := rb_call_spec Nat.compare (fun k : nat => k) Nat.compare in
  let price o (m : fmap nat nat) := rb_price o (length m) in
  let vs := fst (sclient [] spec Prop_HeapRB.bthreads_main []) in
  match run [] (hclient hb_new hb_clone hb_drop step Prop_HeapRB.bthreads_main []) with
  | Some (h, (rs, _)) =>
      work [] (hclient hb_new hb_clone hb_drop step Prop_HeapRB.bthreads_main []) +
      moves (flat_map (fun _ => [0; 1]) (seq 0 150))
        (h, map (job_start hb_new hb_clone hb_drop step rs) Prop_HeapRB.bthreads_jobs)
  | None => 0
  end = 254 /\
  price_of [] spec 0 1 1 price Prop_HeapRB.bthreads_main [] +
  list_sum (map (fun j => price_of [] spec 0 1 1 price (job_cmds j) (hand vs (job_regs j)))
              Prop_HeapRB.bthreads_jobs) = 4275.
Proof. vm_compute. split; reflexivity. Qed.

Example rb_call_case : exists m,
  nth_error (fst (sclient (@nil (nat * nat)) (rb_call_spec Nat.compare (fun k => k) Nat.compare)
                    Prop_HeapRB.bthreads_main [])) 1 = Some (Some m) /\
  length m = 5 /\ rb_direct (BOp (K := nat) (V := nat) (Q := nat) (MRemoveMut 4)) = true.
Proof. eexists. repeat split. Qed.

(** ** RedBlackTreeSet *)
Section RBSet.
Context (T Q : Type) (dbg : bool).
Context (tcmp : T -> T -> comparison) (borrow : T -> Q) (qcmp : Q -> Q -> comparison).
Context (OL : ord_laws qcmp) (KB : borrow_agrees tcmp borrow qcmp).

Lemma rb_set_works :
  works (@hb_new T unit) hb_clone hb_drop (ss_step dbg tcmp borrow qcmp)
    (@nil T) (ss_spec tcmp borrow qcmp) always
    0 1 1 (fun o m => rb_price (ss_map o) (length m)) (fun o => rb_direct (ss_map o))
    (fun o m => rb_limit (ss_map o) (length m)).
Proof.
  eapply (works_ok rkids 5 (fun _ => True) _ _ _ _ (ssrep tcmp)).
  - refine (sp (hb_new_ok tcmp) (_ : pays _ _ _ _ any)). exact I.
  - intros c v G R. exact (sp (hb_clone_ok tcmp _ (map ut v) _ R) (hb_clone_pays _ _)).
  - intros c v G R. exact (sp (hb_drop_ok tcmp _ (map ut v) _ R) (b_drop _)).
  - intros o c v G R _. destruct (ss_map_spec T Q tcmp borrow qcmp o v) as [E1 E2].
    rewrite <- E2. unfold ssrep. rewrite <- E1, <- (map_length ut v).
    apply (dear_wrap rkids 5 _ _ _ ss_answer G
             (fun c => hbrep tcmp c (fst (rb_call_spec tcmp borrow qcmp (ss_map o) (map ut v))))
             (snd (rb_call_spec tcmp borrow qcmp (ss_map o) (map ut v)))).
    now apply hb_step_dear.
  - intros o c v G R _ D. destruct (ss_map_spec T Q tcmp borrow qcmp o v) as [E1 E2].
    rewrite <- E2. unfold ssrep. rewrite <- E1, <- (map_length ut v).
    apply (dear_wrap rkids 0 _ _ _ ss_answer G
             (fun c => hbrep tcmp c (fst (rb_call_spec tcmp borrow qcmp (ss_map o) (map ut v))))
             (snd (rb_call_spec tcmp borrow qcmp (ss_map o) (map ut v)))).
    now apply hb_step_direct.
  - intros c v G R. exact (sp (hb_clone_ok tcmp _ (map ut v) _ R) (hb_clone_pays _ _)).
Qed.
End RBSet.

Theorem C50_rb_set_total_work : forall (T Q : Type) (dbg : bool)
  (tcmp : T -> T -> comparison) (borrow : T -> Q) (qcmp : Q -> Q -> comparison),
  ord_laws qcmp -> borrow_agrees tcmp borrow qcmp ->
  total_work (@hb_new T unit) hb_clone hb_drop (ss_step dbg tcmp borrow qcmp)
    (@nil T) (ss_spec tcmp borrow qcmp) always
    0 1 1
    (fun o s => let L := 2 * Nat.log2 (length s + 1) in
                match o with
                | SkOp (SetInsert _) => 50 * (L + 1) + 15
                | SkOp (SetInsertMut _) => 50 * (L + 1) + 13
                | SkOp (SetRemove _) => 97 * (L + 1) + 110 * (2 * L + 1) + 4
                | SkOp (SetRemoveMut _) => 97 * (L + 1) + 110 * (2 * L + 1)
                | SkOp (SetGet _) | SkOp (SetContains _) => 2 * (L + 1)
                | SkOp SetSize | SkOp SetIsEmpty => 0
                | SkOp SetClone => 2
                | SkFirst | SkLast => L + 2
                | SkIter ds => Nat.min (15 * length s) (length ds * (3 * L + 11))
                end).
Proof.
  intros T Q dbg tcmp borrow qcmp OL KB main jobs Wm vs Pj Wj.
  destruct (proj1 (rb_set_works T Q dbg tcmp borrow qcmp OL KB) main jobs Wm Pj Wj) as (h & rs & E & X).
  exists h, rs. split; [exact E|]. intros sched. eapply Nat.le_trans; [apply X|].
  apply Nat.eq_le_incl. f_equal; [|f_equal; apply map_ext; intros j]; apply price_ext; intros [[]| | |] s; reflexivity.
Qed.
Print Assumptions C50_rb_set_total_work.

Theorem C50_rb_set_call_work : forall (T Q : Type) (dbg : bool)
  (tcmp : T -> T -> comparison) (borrow : T -> Q) (qcmp : Q -> Q -> comparison),
  ord_laws qcmp -> borrow_agrees tcmp borrow qcmp ->
  call_work (@hb_new T unit) hb_clone hb_drop (ss_step dbg tcmp borrow qcmp)
    (@nil T) (ss_spec tcmp borrow qcmp) always
    (fun o => match o with SkOp (SetInsert _) | SkOp (SetRemove _) | SkOp SetClone => false | _ => true end)
    (fun o s => let L := 2 * Nat.log2 (length s + 1) in
                match o with
                | SkOp (SetInsertMut _) => 68 * (L + 1) + 5
                | SkOp (SetRemoveMut _) => 144 * (L + 1) + 163 * (2 * L + 1)
                | SkOp (SetGet _) | SkOp (SetContains _) => 2 * (L + 1)
                | SkFirst | SkLast => L + 2
                | SkIter ds => Nat.min (15 * length s) (length ds * (3 * L + 11))
                | _ => 0
                end).
Proof.
  intros T Q dbg tcmp borrow qcmp OL KB main i o v Wm Ev Po Di.
  assert (X := proj1 (proj2 (rb_set_works T Q dbg tcmp borrow qcmp OL KB)) main i o v Wm Ev Po).
  destruct o as [[]| | |]; first [discriminate Di|exact (X eq_refl)].
Qed.
Print Assumptions C50_rb_set_call_work.

Theorem C50_rb_set_clone_work : forall (T Q : Type) (dbg : bool)
  (tcmp : T -> T -> comparison) (borrow : T -> Q) (qcmp : Q -> Q -> comparison),
  ord_laws qcmp -> borrow_agrees tcmp borrow qcmp ->
  clone_work (@hb_new T unit) hb_clone hb_drop (ss_step dbg tcmp borrow qcmp)
    (@nil T) (ss_spec tcmp borrow qcmp) always 1.
Proof.
  intros T Q dbg tcmp borrow qcmp OL KB. exact (proj2 (proj2 (rb_set_works T Q dbg tcmp borrow qcmp OL KB))).
Qed.
Print Assumptions C50_rb_set_clone_work.

(** A set of three elements, with another version alive. *)
Definition set_work_main : list (cmd (ss_call nat nat)) :=
  CNew :: map (fun k => COp 0 (SkOp (SetInsertMut k))) [4; 2; 6] ++ [CClone 0; COp 0 (SkOp (SetRemoveMut 4))].
Example rb_set_work_case : exists s,
  within (@nil nat) (ss_spec Nat.compare (fun k => k) Nat.compare) always set_work_main [] /\
  nth_error (fst (sclient [] (ss_spec Nat.compare (fun k => k) Nat.compare) set_work_main [])) 1 = Some (Some s) /\
  length s = 3 /\
  work [] (hclient hb_new hb_clone hb_drop (ss_step true Nat.compare (fun k : nat => k) Nat.compare) set_work_main []) = 49.
Proof.
  eexists. split; [apply Prop_HeapSeq.within_always|].
  split; [vm_compute; reflexivity|]. split; [reflexivity|]. vm_compute. reflexivity.
Qed.
