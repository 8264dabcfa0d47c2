(** * Property C61

    Versions shared between threads by reference.  A main thread builds any versions by any
    program; all threads then get references to some of them ([shared]) and each thread owns
    some of the others.  Through a reference a thread reads, iterates and clones; nothing that
    changes or drops a version is accepted through a reference ([spares]).  With what it owns,
    its clones included, a thread does what it likes.

    [shares] (HeapShare.v) says, for every schedule of the threads' steps: no thread crashes and
    every thread can finish; a thread that has finished has the outputs it has when every register
    is a value of its own; the counts are exact at every point; no cell of a shared version changes
    or is freed; and when the threads have finished, the pointers left are those of the main thread
    and of the threads' own registers, and the main thread goes on with the shared versions as if
    nothing had happened. *)
From Coq Require Import List NArith Arith Lia Bool Permutation.
From Verif Require Import Base Spec Sim SpecMap SpecOrd SparseModel HashModel HashProofs HashHist HashExtraProofs RBModel RBProofs RBHist RBIter
  RBExtra RBExtraProofs Prop_RB Prop_Hash
  VectorModel VectorProofs
  HeapModel HeapProofs HeapSafe HeapDrive HeapClient HeapWorld HeapList HeapListProofs HeapSeqProofs HeapVec HeapVecProofs
  HeapRB HeapRBProofs HeapRBMap HeapHash HeapHashMap HeapSet HeapNest HeapLooks
  HeapWork HeapWorkSeq HeapWorkVec HeapWorkRB HeapIterWorld HeapIterSeq HeapIterVec HeapIterRB HeapIterHash HeapShare.
From Verif Require Prop_HeapSeq Prop_HeapVec Prop_HeapRB Prop_HeapHash Prop_HeapSet Prop_HeapIter.
Import ListNotations.
Local Open Scope nat_scope.
Local Notation got x := (Datatypes.inr x).
Ltac keeps_rule := Prop_HeapIter.keeps_rule.

Lemma copying_list : forall T (c : hlist), copying (@hlp_clone T c).
Proof. intros T [l f n]. unfold hlp_clone, hl_clone, clone_opt. cbn. destruct l, f; exact I. Qed.

Lemma copying_bind : forall {C A B} (p : prog C A) (f : A -> prog C B),
  copying p -> (forall x, copying (f x)) -> copying (pbind p f).
Proof. intros C A B p f. induction p; cbn [copying pbind]; try easy; auto. Qed.

(** For the examples: the main program runs, then the threads, then the main thread drops what
    it had shared.  Each thread's outputs; whether every cell is free at the end.  [hyps]: the
    hypotheses of [shares]. *)
Section Examples.
Context {C Coll Op Out Arg Dir Ans St : Type}.
Context (hnew : prog C Coll) (hclone : Coll -> prog C Coll) (hdrop : Coll -> prog C unit)
        (hop : Op -> Coll -> prog C (Coll * Out)).
Context (iopen : Arg -> Coll -> prog C St) (inext : Dir -> St -> prog C (St * Ans)).
Definition share_run (main : list (cmd Op)) (shared : list nat) (jobs : list (list nat * list (icmd Op Arg Dir))) (sched : list nat) :
  list (option (list (Out + Ans))) * bool :=
  match run [] (hclient hnew hclone hdrop hop main []) with
  | Some (h, (rs, _)) =>
      let cf := exec sched (h, map (sjob_start hnew hclone hdrop hop iopen inext rs shared) jobs) in
      (map (fun p => match p with Ret r => Some (snd r) | _ => None end) (snd cf),
       match run (fst cf) (hclient hnew hclone hdrop hop (map CDrop (List.seq 0 (length shared))) (hand rs shared)) with
       | Some (h', _) => forallb (fun x => match x with None => true | Some _ => false end) h'
       | None => false
       end)
  | None => ([], false)
  end.
End Examples.
Definition turns (k : nat) : list nat := flat_map (fun _ => [0; 1; 1; 0; 1]) (List.seq 0 k).
Ltac share_hyps :=
  split; [vm_compute; repeat split; trivial; try discriminate|];
  cbn zeta; split; [apply Permutation_refl|];
  repeat (constructor; [split; [cbn [snd]; keeps_rule|repeat (constructor; [cbn; first [exact I|lia|intros H; first [reflexivity|exfalso; lia]]|]); constructor]|]); constructor.
Notation hyps vnew vop reads pre ipre main shared jobs :=
  (within vnew vop pre main [] /\
   let vs := fst (sclient vnew vop main []) in
   Permutation (shared ++ concat (map fst jobs)) (List.seq 0 (length vs)) /\
   Forall (sjob_ok vnew vop reads pre ipre vs shared) jobs).

(** ** List *)
Theorem C61_list_shares : forall T : Type,
  shares lkids (Ret hl_new) hlp_clone hlp_drop (@hl_step T) hl_open hl_inext Prop_HeapSeq.hl_roots
    (@nil T) list_spec snext1 all_of list_reads always any_arg.
Proof.
  intros T. eapply (shares_ok lkids _ _ _ _ _ _ _ hlrep lirel1 _ _ _ _ _ _ _ 0 list_cost (fun _ _ => 0) (fun _ => 2)).
  - apply Prop_HeapSeq.hl_new_ok.
  - apply hl_clone_keeps.
  - apply copying_list.
  - apply hlp_drop_ok.
  - intros. now apply hl_step_ok.
  - apply list_reads_gentle.
  - apply list_reads_same.
  - apply Prop_HeapSeq.hl_rep_roots.
  - apply hl_open_looks.
  - apply hl_next_looks.
Qed.
Print Assumptions C61_list_shares.

(** Both threads have a reference to [1; 2; 3].  The first iterates it, and while the iterator is
    half way clones it, empties the clone from the front and drops the clone; it also owns [7],
    which it drops.  The second clones it, reverses the clone, reads both, iterates the clone and
    drops it. *)
Definition list_main : list (cmd (list_op nat)) :=
  [CNew; COp 0 (LPushMut 3); COp 0 (LPushMut 2); COp 0 (LPushMut 1); CNew; COp 1 (LPushMut 7)].
Definition list_jobs : list (list nat * list (icmd (list_op nat) unit unit)) :=
  [([1], [IOpen 0 tt; INext 0 tt; IDo (CClone 0); IDo (COp 2 LDropMut); INext 0 tt; IDo (COp 2 LDropMut); IDo (COp 0 LFirst);
          IDo (CDrop 2); INext 0 tt; IDo (COp 1 LFirst); IDo (CDrop 1); INext 0 tt]);
   ([], [IDo (CClone 0); IDo (COp 1 LRevMut); IDo (COp 0 LFirst); IDo (COp 1 LFirst); IOpen 1 tt; INext 0 tt; INext 0 tt;
         IClose 0; IDo (COp 0 LLast); IDo (CDrop 1)])].
Example list_hypotheses : hyps (@nil nat) list_spec list_reads always any_arg list_main [0] list_jobs.
Proof. share_hyps. Qed.
Example list_runs :
  share_run (Ret hl_new) hlp_clone hlp_drop hl_step hl_open hl_inext list_main [0] list_jobs (turns 60) =
  ([Some [got (3, Some 1); inl (OBool true); got (2, Some 2); inl (OBool true); inl (OElem (Some 1)); got (1, Some 3);
          inl (OElem (Some 7)); got (0, None)];
    Some [inl OUnit; inl (OElem (Some 1)); inl (OElem (Some 3)); got (3, Some 3); got (2, Some 2); inl (OElem (Some 3))]], true).
Proof. vm_compute. reflexivity. Qed.

(** Nothing that changes or drops what a thread has only a reference to is accepted. *)
Example list_refused :
  ~ spares (Op := list_op nat) (Arg := unit) (Dir := unit) list_reads 1 (IDo (COp 0 LDropMut)) /\
  ~ spares (Op := list_op nat) (Arg := unit) (Dir := unit) list_reads 1 (IDo (CDrop 0)).
Proof. split; cbn; [intros H; specialize (H (le_n 1)); discriminate|lia]. Qed.
(** And it has to be refused: had one of two threads dropped the shared version, the other crashes. *)
Example list_drop_crashes :
  share_run (Ret hl_new) hlp_clone hlp_drop hl_step hl_open hl_inext list_main [0; 1]
    [([], [IDo (CDrop 0)]); ([], [IDo (COp 0 LFirst)])] (List.repeat 0 20 ++ List.repeat 1 20) = ([Some []; None], false).
Proof. vm_compute. reflexivity. Qed.

(** ** Stack *)
Theorem C61_stack_shares : forall T : Type,
  shares lkids (Ret hl_new) hlp_clone hlp_drop (@hs_step T) hl_open hl_inext Prop_HeapSeq.hl_roots
    (@nil T) stack_spec snext1 all_of stack_reads always any_arg.
Proof.
  intros T. eapply (shares_ok lkids _ _ _ _ _ _ _ hlrep lirel1 _ _ _ _ _ _ _ 0 stack_cost (fun _ _ => 0) (fun _ => 2)).
  - apply Prop_HeapSeq.hl_new_ok.
  - apply hl_clone_keeps.
  - apply copying_list.
  - apply hlp_drop_ok.
  - intros. now apply hs_step_ok.
  - apply stack_reads_gentle.
  - apply stack_reads_same.
  - apply Prop_HeapSeq.hl_rep_roots.
  - apply hl_open_looks.
  - apply hl_next_looks.
Qed.
Print Assumptions C61_stack_shares.

Definition stack_main : list (cmd (stack_op nat)) := [CNew; COp 0 (SPushMut 1); COp 0 (SPushMut 2)].
Definition stack_jobs : list (list nat * list (icmd (stack_op nat) unit unit)) :=
  [([], [IDo (CClone 0); IDo (COp 1 SPopMut); IDo (COp 1 SPeek); IDo (COp 0 SPeek); IDo (CDrop 1)]);
   ([], [IOpen 0 tt; INext 0 tt; IDo (CClone 0); IDo (COp 1 (SPushMut 9)); INext 0 tt; IDo (COp 1 SPeek); IDo (CDrop 1)])].
Example stack_hypotheses : hyps (@nil nat) stack_spec stack_reads always any_arg stack_main [0] stack_jobs.
Proof. share_hyps. Qed.
Example stack_runs :
  share_run (Ret hl_new) hlp_clone hlp_drop hs_step hl_open hl_inext stack_main [0] stack_jobs (turns 60) =
  ([Some [inl (OBool true); inl (OElem (Some 1)); inl (OElem (Some 2))];
    Some [got (2, Some 2); inl OUnit; got (1, Some 1); inl (OElem (Some 9))]], true).
Proof. vm_compute. reflexivity. Qed.

(** ** Queue *)
Theorem C61_queue_shares : forall T : Type,
  shares lkids (Ret hq_new) hq_clone hq_drop (@hq_step T) hq_open hq_inext Prop_HeapSeq.hq_roots
    (@nil T) queue_spec snext1 all_of queue_reads always any_arg.
Proof.
  intros T. eapply (shares_ok lkids _ _ _ _ _ _ _ hqrep qirel1 _ _ _ _ _ _ _ 0 queue_cost (fun _ _ => 0) (fun v => length v + 2)).
  - apply Prop_HeapSeq.hq_new_ok.
  - apply hq_clone_keeps.
  - intros c. unfold hq_clone. apply copying_bind; [apply copying_list|]. intros i.
    apply copying_bind; [apply copying_list|]. intros o. exact I.
  - apply hq_drop_ok.
  - intros. now apply hq_step_ok.
  - apply queue_reads_gentle.
  - apply queue_reads_same.
  - apply Prop_HeapSeq.hq_rep_roots.
  - apply hq_open_looks.
  - apply hq_next_looks.
Qed.
Print Assumptions C61_queue_shares.

(** Elements in both lists of the queue. *)
Definition queue_main : list (cmd (queue_op nat)) :=
  [CNew; COp 0 (QEnqMut 1); COp 0 (QEnqMut 2); COp 0 QDeqMut; COp 0 (QEnqMut 3); COp 0 (QEnqMut 4)].
Definition queue_jobs : list (list nat * list (icmd (queue_op nat) unit unit)) :=
  [([], [IDo (CClone 0); IDo (COp 1 QDeqMut); IDo (COp 1 QDeqMut); IDo (COp 1 QPeek); IDo (COp 0 QPeek); IDo (CDrop 1)]);
   ([], [IOpen 0 tt; INext 0 tt; INext 0 tt; IDo (COp 0 QLen); INext 0 tt; INext 0 tt])].
Example queue_hypotheses : hyps (@nil nat) queue_spec queue_reads always any_arg queue_main [0] queue_jobs.
Proof. share_hyps. Qed.
Example queue_runs :
  share_run (Ret hq_new) hq_clone hq_drop hq_step hq_open hq_inext queue_main [0] queue_jobs (turns 60) =
  ([Some [inl (OBool true); inl (OBool true); inl (OElem (Some 4)); inl (OElem (Some 2))];
    Some [got (3, Some 2); got (2, Some 3); inl (ONat 3); got (1, Some 4); got (0, None)]], true).
Proof. vm_compute. reflexivity. Qed.

(** ** Vector *)
Theorem C61_vector_shares : forall (T : Type) (ubits : N) (dbg : bool) (bits : N),
  (8 <= ubits)%N -> (0 < bits)%N -> (bits < ubits)%N ->
  shares vkids (@hv_new T bits) hv_clone (hv_drop ubits dbg) (hv_step ubits dbg) hv_open (hv_inext ubits dbg) Prop_HeapVec.hv_roots
    (@nil T) vec_spec snext2 all_of vec_reads (fits ubits dbg bits) any_arg.
Proof.
  intros T ubits dbg bits Hu Hb Hbu.
  eapply (shares_ok vkids _ _ _ _ _ _ _ (hvrep ubits dbg bits) (virel ubits dbg bits) _ _ _ _ _ _ _ 1 (vec_cost bits)
            (fun _ _ => 0) (fun v => 7 * levels bits (len v))).
  - now apply hv_new_ok.
  - apply hv_clone_keeps.
  - intros c. exact I.
  - now apply hv_drop_ok.
  - intros. now apply hv_step_ok.
  - apply vec_reads_gentle.
  - apply vec_reads_same.
  - apply Prop_HeapVec.hv_rep_roots.
  - now apply hv_open_looks.
  - now apply hv_next_looks.
Qed.
Print Assumptions C61_vector_shares.

(** Two-way nodes, so three levels. *)
Definition vector_main : list (cmd (vec_op nat)) := [CNew; COp 0 (VExtend [1; 2; 3; 4; 5])].
Definition vector_jobs : list (list nat * list (icmd (vec_op nat) unit bool)) :=
  [([], [IDo (CClone 0); IDo (COp 1 (VSetMut 1%N 9)); IDo (COp 1 (VGet 1%N)); IDo (COp 0 (VGet 1%N)); IDo (COp 1 VDropMut); IDo (CDrop 1)]);
   ([], [IOpen 0 tt; INext 0 true; INext 0 false; INext 0 false; IDo (CClone 0); IDo (COp 1 (VSetMut 1%N 8)); IDo (COp 1 (VGet 1%N));
         IDo (COp 0 (VGet 1%N)); IDo (CDrop 1)])].
Example vector_hypotheses : hyps (@nil nat) vec_spec vec_reads (fits 64 true 1) any_arg vector_main [0] vector_jobs.
Proof. share_hyps. Qed.
Example vector_runs :
  share_run (hv_new 1) hv_clone (hv_drop 64 true) (hv_step 64 true) hv_open (hv_inext 64 true) vector_main [0] vector_jobs (turns 60) =
  ([Some [inl (OBool true); inl (OElem (Some 9)); inl (OElem (Some 2)); inl (OBool true)];
    Some [got (5, Some 5); got (4, Some 1); got (3, Some 2); inl (OBool true); inl (OElem (Some 8)); inl (OElem (Some 2))]], true).
Proof. vm_compute. reflexivity. Qed.

(** ** RedBlackTreeMap *)
Theorem C61_rb_map_shares : forall (K V Q : Type) (dbg : bool)
  (kcmp : K -> K -> comparison) (borrow : K -> Q) (qcmp : Q -> Q -> comparison),
  ord_laws qcmp -> borrow_agrees kcmp borrow qcmp ->
  shares rkids (@hb_new K V) hb_clone hb_drop (hb_step dbg kcmp borrow qcmp) (hb_open qcmp) (hb_inext kcmp borrow qcmp) Prop_HeapRB.hb_roots
    (@nil (K * V)) (rb_call_spec kcmp borrow qcmp) cnext (sorted_entries kcmp borrow qcmp) rb_reads always (good_arg qcmp).
Proof.
  intros K V Q dbg kcmp borrow qcmp OL KB.
  eapply (shares_ok rkids _ _ _ _ _ _ _ (hbrep kcmp) (mirel kcmp borrow qcmp) _ _ _ _ _ _ _ 0 rb_cost
            (fun _ _ => 0) (fun m => 3 * rb_levels (length m) + 11)).
  - apply hb_new_ok.
  - apply hb_clone_keeps.
  - intros [[r|] s]; exact I.
  - apply hb_drop_ok.
  - intros. now apply hb_step_ok.
  - apply rb_reads_gentle.
  - apply rb_reads_same.
  - apply Prop_HeapRB.hb_rep_roots.
  - now apply hb_open_looks.
  - now apply hb_next_looks.
Qed.
Print Assumptions C61_rb_map_shares.

Notation nat_spec := (rb_call_spec Nat.compare (fun k : nat => k) Nat.compare).
Definition rb_main : list (cmd (rb_call (K := nat) (V := nat) (Q := nat))) :=
  CNew :: map (fun k => COp 0 (BOp (MInsertMut k (10 * k)))) [5; 1; 4; 2; 3; 6].
Definition rb_jobs : list (list nat * list (icmd (rb_call (K := nat) (V := nat) (Q := nat)) (iter_arg nat) bool)) :=
  [([], [IDo (CClone 0); IDo (COp 1 (BOp (MRemoveMut 4))); IDo (COp 1 (BOp (MGet 4))); IDo (COp 0 (BOp (MGet 4))); IDo (CDrop 1)]);
   ([], [IOpen 0 (Some (Excluded 2, Included 5)); INext 0 true; IDo (CClone 0); IDo (COp 1 (BOp (MInsertMut 7 70))); IDo (COp 1 BLast);
         IDo (COp 0 BLast); INext 0 false; INext 0 false; INext 0 false; IDo (CDrop 1)])].
Example rb_hypotheses : hyps (@nil (nat * nat)) nat_spec rb_reads always (good_arg Nat.compare) rb_main [0] rb_jobs.
Proof. share_hyps. Qed.
Example rb_runs :
  share_run hb_new hb_clone hb_drop (hb_step true Nat.compare (fun k : nat => k) Nat.compare) (hb_open Nat.compare)
             (hb_inext Nat.compare (fun k => k) Nat.compare) rb_main [0] rb_jobs (turns 150) =
  ([Some [inl (BObs (MoBool true)); inl (BObs (MoVal None)); inl (BObs (MoVal (Some 40)))];
    Some [got (None, Some (5, 50)); inl (BObs MoUnit); inl (BObs (MoKV (Some (7, 70)))); inl (BObs (MoKV (Some (6, 60))));
          got (None, Some (3, 30)); got (None, Some (4, 40)); got (None, None)]], true).
Proof. vm_compute. reflexivity. Qed.

(** ** RedBlackTreeSet *)
Theorem C61_rb_set_shares : forall (T Q : Type) (dbg : bool)
  (tcmp : T -> T -> comparison) (borrow : T -> Q) (qcmp : Q -> Q -> comparison),
  ord_laws qcmp -> borrow_agrees tcmp borrow qcmp ->
  shares rkids (@hb_new T unit) hb_clone hb_drop (ss_step dbg tcmp borrow qcmp) (ss_open qcmp) (ss_inext tcmp borrow qcmp) Prop_HeapRB.hb_roots
    (@nil T) (ss_spec tcmp borrow qcmp) cnext (sorted_elements tcmp borrow qcmp) ss_reads always (good_arg qcmp).
Proof.
  intros T Q dbg tcmp borrow qcmp OL KB.
  eapply (shares_ok rkids _ _ _ _ _ _ _ (ssrep tcmp) (sirel tcmp borrow qcmp) _ _ _ _ _ _ _ 0 ss_cost
            (fun _ _ => 0) (fun m => 3 * rb_levels (length m) + 11)).
  - apply hb_new_ok.
  - intros c v G. apply (hb_clone_keeps tcmp c (map ut v)).
  - intros [[r|] s]; exact I.
  - intros c v G. apply (hb_drop_ok tcmp c (map ut v)).
  - intros. now apply ss_step_ok.
  - apply ss_reads_gentle.
  - apply ss_reads_same.
  - intros c v G. apply (Prop_HeapRB.hb_rep_roots _ _ tcmp c (map ut v)).
  - now apply ss_open_looks.
  - now apply ss_next_looks.
Qed.
Print Assumptions C61_rb_set_shares.

Definition rb_set_main : list (cmd (ss_call nat nat)) := CNew :: map (fun k => COp 0 (SkOp (SetInsertMut k))) [5; 1; 4; 2; 3].
Definition rb_set_jobs : list (list nat * list (icmd (ss_call nat nat) (iter_arg nat) bool)) :=
  [([], [IDo (CClone 0); IDo (COp 1 (SkOp (SetRemoveMut 3))); IDo (COp 0 (SkOp (SetContains 3))); IDo (CDrop 1)]);
   ([], [IOpen 0 None; INext 0 false; INext 0 true; INext 0 true])].
Example rb_set_hypotheses : hyps (@nil nat) (ss_spec Nat.compare (fun k => k) Nat.compare) ss_reads always (good_arg Nat.compare)
  rb_set_main [0] rb_set_jobs.
Proof. share_hyps. Qed.
Example rb_set_runs :
  share_run hb_new hb_clone hb_drop (ss_step true Nat.compare (fun k : nat => k) Nat.compare) (ss_open Nat.compare)
             (ss_inext Nat.compare (fun k => k) Nat.compare) rb_set_main [0] rb_set_jobs (turns 150) =
  ([Some [inl (SkObs (SetoBool true)); inl (SkObs (SetoBool true))];
    Some [got (Some 5, Some 1); got (Some 4, Some 5); got (Some 3, Some 4)]], true).
Proof. vm_compute. reflexivity. Qed.

(** ** HashTrieMap *)
Lemma hh_clone_safe : forall K V ubits b keq hash m (fm : list (K * V)) G, hhrep ubits b keq hash m fm G ->
  safe tkids 0 (hh_clone m) G (fun m' G' => exists G2, G' = G ++ G2 /\ hhrep ubits b keq hash m' fm G2).
Proof.
  intros K V ubits b keq hash m fm G R. assert (R' := R). destruct R' as (x & Rw & Es & Ed & [a c ts] & T & Ep & ->).
  unfold hh_clone. rewrite <- Ep. cbn [pa]. exists c, ts. split; [apply lent_in; now left|].
  exists [Tree (PT a c ts); Tree (PT a c ts)]. split; [apply Permutation_refl|]. eexists [_]. split; [reflexivity|exact R].
Qed.

Theorem C61_hash_map_shares : forall (K V Q : Type) (ubits : N) (dbg : bool)
  (keq : K -> K -> bool) (borrow : K -> Q) (qeq : Q -> Q -> bool) (hash : K -> N) (qhash : Q -> N),
  (ubits <= 64)%N -> key_laws keq borrow qeq -> hash_laws borrow qeq hash qhash ->
  forall (degree : N) (fuel : nat), supported ubits degree -> 2 * digits degree < fuel ->
  shares tkids (@hh_new ubits K V degree) hh_clone hh_drop (hh_step ubits dbg keq borrow qeq hash qhash fuel) hh_open (hh_inext fuel) Prop_HeapHash.hh_roots
    (@nil (K * V)) (ht_call_spec keq borrow qeq) snext1 in_some_order ht_reads always any_arg.
Proof.
  intros K V Q ubits dbg keq borrow qeq hash qhash Hub KL HL degree fuel (b & Hb & -> & Hd) Hf.
  rewrite digits_D in *.
  eapply (shares_ok tkids _ _ _ _ _ _ _ (hhrep ubits b keq hash) (hmirel ubits b) _ _ _ _ _ _ _ 1 (ht_cost b hash qhash)
            (fun _ _ => 1) (fun _ => 3 * D b + 3)).
  - now apply (hh_new_ok ubits dbg b Hb Hd Hub keq borrow qeq hash qhash KL HL fuel Hf).
  - apply hh_clone_safe.
  - intros c. exact I.
  - now apply hh_drop_ok.
  - intros. now apply hh_step_ok.
  - apply ht_reads_gentle.
  - apply ht_reads_same.
  - apply Prop_HeapHash.hh_rep_roots.
  - apply hh_open_looks.
  - now apply hh_next_looks.
Qed.
Print Assumptions C61_hash_map_shares.

(** Degree 4 and the hash [k / 3] of Prop_HeapHash.v: 0, 1, 2 collide and so do 3, 4, 5. *)
Definition hash_main : list (cmd (ht_call N nat N)) :=
  CNew :: map (fun k => COp 0 (TOp (MInsertMut k (N.to_nat k * 10)))) [0; 1; 2; 3; 4]%N.
Definition hash_jobs : list (list nat * list (icmd (ht_call N nat N) unit unit)) :=
  [([], [IDo (CClone 0); IDo (COp 1 (TOp (MRemoveMut 1%N))); IDo (COp 1 (TOp (MGet 1%N))); IDo (COp 0 (TOp (MGet 1%N))); IDo (CDrop 1)]);
   ([], [IOpen 0 tt; INext 0 tt; IDo (CClone 0); IDo (COp 1 (TOp (MInsertMut 2%N 7))); INext 0 tt; IDo (COp 1 (TOp (MGet 2%N)));
         IDo (COp 0 (TOp (MGet 2%N))); INext 0 tt; IDo (CDrop 1); INext 0 tt; INext 0 tt; INext 0 tt])].
Example hash_hypotheses : hyps (@nil (N * nat)) Prop_HeapHash.hx_spec ht_reads always any_arg hash_main [0] hash_jobs.
Proof. share_hyps. Qed.
Example hash_runs :
  share_run Prop_HeapHash.hx_new hh_clone hh_drop Prop_HeapHash.hx_step hh_open (hh_inext 65) hash_main [0] hash_jobs (turns 900) =
  ([Some [inl (TObs (MoBool true)); inl (TObs (MoVal None)); inl (TObs (MoVal (Some 10)))];
    Some [got (5, Some (2%N, 20)); inl (TObs MoUnit); got (4, Some (1%N, 10)); inl (TObs (MoVal (Some 7))); inl (TObs (MoVal (Some 20)));
          got (3, Some (0%N, 0)); got (2, Some (4%N, 40)); got (1, Some (3%N, 30)); got (0, None)]], true).
Proof. vm_compute. reflexivity. Qed.

(** ** HashTrieSet *)
Theorem C61_hash_set_shares : forall (T Q : Type) (ubits : N) (dbg : bool)
  (teq : T -> T -> bool) (borrow : T -> Q) (qeq : Q -> Q -> bool) (hash : T -> N) (qhash : Q -> N),
  (ubits <= 64)%N -> key_laws teq borrow qeq -> hash_laws borrow qeq hash qhash ->
  forall (degree : N) (fuel : nat), supported ubits degree -> 2 * digits degree < fuel ->
  shares tkids (@hh_new ubits T unit degree) hh_clone hh_drop (us_step ubits dbg teq borrow qeq hash qhash fuel) us_open (us_inext fuel) Prop_HeapHash.hh_roots
    (@nil T) (us_spec teq borrow qeq) snext1 in_some_order us_reads always any_arg.
Proof.
  intros T Q ubits dbg teq borrow qeq hash qhash Hub KL HL degree fuel (b & Hb & -> & Hd) Hf.
  rewrite digits_D in *.
  eapply (shares_ok tkids _ _ _ _ _ _ _ (usrep ubits b teq hash) (usirel ubits b) _ _ _ _ _ _ _ 1 (us_cost b hash qhash)
            (fun _ _ => 1) (fun _ => 3 * D b + 3)).
  - now apply (hh_new_ok ubits dbg b Hb Hd Hub teq borrow qeq hash qhash KL HL fuel Hf).
  - intros c v G. apply (hh_clone_safe _ _ ubits b teq hash c (map ut v)).
  - intros c. exact I.
  - intros c v G. now apply (hh_drop_ok ubits b Hb Hd Hub teq hash c (map ut v)).
  - intros. now apply us_step_ok.
  - apply us_reads_gentle.
  - apply us_reads_same.
  - intros c v G. apply (Prop_HeapHash.hh_rep_roots ubits b _ _ teq hash c (map ut v)).
  - apply us_open_looks.
  - now apply us_next_looks.
Qed.
Print Assumptions C61_hash_set_shares.

Definition hash_set_main : list (cmd (hs_call N N)) := CNew :: map (fun k => COp 0 (UkOp (SetInsertMut k))) [0; 1; 2; 3]%N.
Definition hash_set_jobs : list (list nat * list (icmd (hs_call N N) unit unit)) :=
  [([], [IDo (CClone 0); IDo (COp 1 (UkOp (SetRemoveMut 1%N))); IDo (COp 0 (UkOp (SetContains 1%N))); IDo (CDrop 1)]);
   ([], [IOpen 0 tt; INext 0 tt; INext 0 tt; IDo (COp 0 (UkOp SetSize)); INext 0 tt])].
Example hash_set_hypotheses : hyps (@nil N) (us_spec N.eqb (fun k => k) N.eqb) us_reads always any_arg hash_set_main [0] hash_set_jobs.
Proof. share_hyps. Qed.
Example hash_set_runs :
  share_run (@hh_new 64 N unit 4) hh_clone hh_drop
    (us_step 64 true N.eqb (fun k => k) N.eqb Prop_HeapHash.hx_hash Prop_HeapHash.hx_hash 65) us_open (us_inext 65)
    hash_set_main [0] hash_set_jobs (turns 900) =
  ([Some [inl (UkObs (SetoBool true)); inl (UkObs (SetoBool true))];
    Some [got (4, Some 2%N); got (3, Some 1%N); inl (UkObs (SetoNat 4)); got (2, Some 0%N)]], true).
Proof. vm_compute. reflexivity. Qed.
