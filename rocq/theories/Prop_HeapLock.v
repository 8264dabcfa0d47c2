(** * Property C62

    Versions behind locks.  A main thread builds any versions by any program; some go behind locks,
    each thread owns some of the others.  A thread works on its own versions, takes a lock and
    works on the version behind it - reads it, clones it (a snapshot), updates it in place, drops
    clones -, or exchanges the version behind a lock with one of its own.  The versions of different
    threads and behind different locks may share any nodes.

    [guarded] (HeapLock.v) says, for every schedule of the threads' steps: no thread crashes, every
    thread can finish (no deadlock); the counts are exact at every point; and every command is
    atomic: with the commands executed one at a time on plain values, in the order in which they
    were begun (the locks taken), every thread between two commands has the same outputs, the same
    commands left and versions of the same values, every free lock has a version of the same value
    behind it, and when all have finished the main thread goes on with the versions behind the locks
    as with these values; then the only pointers left are those of the threads and the locks. *)
From Coq Require Import List NArith Arith Lia Bool Permutation.
From Verif Require Import Base Spec Sim SpecMap SpecOrd SparseModel HashModel HashProofs HashHist HashExtraProofs RBModel RBProofs RBHist RBIter
  RBExtra RBExtraProofs Prop_RB Prop_Hash
  VectorModel VectorProofs
  HeapModel HeapProofs HeapSafe HeapDrive HeapClient HeapWorld HeapList HeapListProofs HeapSeqProofs HeapVec HeapVecProofs
  HeapRB HeapRBProofs HeapRBMap HeapHash HeapHashMap HeapSet HeapNest HeapLooks
  HeapWork HeapWorkSeq HeapWorkVec HeapWorkRB HeapIterWorld HeapIterSeq HeapIterVec HeapIterRB HeapIterHash HeapShare HeapLock.
From Verif Require Prop_HeapSeq Prop_HeapVec Prop_HeapRB Prop_HeapHash Prop_HeapSet Prop_HeapIter Prop_HeapShare.
Import ListNotations.
Local Open Scope nat_scope.

Lemma weaken : forall {C Coll Val : Type} (kids : C -> list addr) (rep : Coll -> Val -> list (@own C) -> Prop) (p : prog C Coll) c v G,
  safe kids 0 p G (fun c' G' => exists G2, G' = G ++ G2 /\ rep c' v G2) -> rep c v G ->
  safe kids 0 p G (fun c' G' => exists G1 G2, G' = G1 ++ G2 /\ rep c v G1 /\ rep c' v G2).
Proof. intros C Coll Val kids rep p c v G S r. eapply safe_mono; [apply le_n| |exact S]. cbn. intros c' G' (G2 & -> & r2). eauto. Qed.

(** For the examples: the main program runs, then the threads by the schedule, then the main thread
    drops the versions behind the locks.  The order of the commands; each thread's outputs, if it has
    finished; whether every cell is free at the end. *)
Section Examples.
Context {C Coll Val Op Out : Type}.
Context (hnew : prog C Coll) (hclone : Coll -> prog C Coll) (hdrop : Coll -> prog C unit)
        (hop : Op -> Coll -> prog C (Coll * Out)).
Definition lock_run (main : list (cmd Op)) (slots : list nat) (jobs : list (list nat * list (lcmd Op))) (sched : list nat) :
  list nat * list (option (list Out)) * bool :=
  match run [] (hclient hnew hclone hdrop hop main []) with
  | Some (h, (rs, _)) =>
      let st := lexec hnew hclone hdrop hop sched (lstart h rs slots jobs) in
      (ls_log st,
       map (fun t => match lt_todo t, lt_phase t with [], Idle _ => Some (lt_outs t) | _, _ => None end) (ls_threads st),
       match run (ls_heap st) (hclient hnew hclone hdrop hop (map CDrop (List.seq 0 (length (ls_slots st))))
                                 (flat_map (fun s => match s with Free c => [Some c] | Taken _ => [] end) (ls_slots st))) with
       | Some (h', _) => forallb (fun x => match x with None => true | Some _ => false end) h'
       | None => false
       end)
  | None => ([], [], false)
  end.

(** The hypothesis on all orders, where no call has a precondition: no command drops the version
    behind the lock. *)
Definition no_drop (c : lcmd Op) : Prop := match c with Locked _ l => ~ In (CDrop 0) l | _ => True end.
Context (vnew : Val) (vop : Op -> Val -> Val * Out).
Lemma within_always : forall pre : Op -> Val -> Prop, (forall o v, pre o v) -> forall l rs, within vnew vop pre l rs.
Proof.
  intros pre P l. induction l as [|[|i|i o|i] l IH]; intros rs; cbn [within]; auto; destruct (nth_error rs i) as [[v|]|]; auto.
Qed.
Lemma all_orders : forall pre : Op -> Val -> Prop, (forall o v, pre o v) -> forall vs slots jobs, Forall (fun j => Forall no_drop (snd j)) jobs ->
  forall order, let vst := vexec vnew vop order (vstart vs slots jobs) in
     Forall (next_ok vnew vop pre (fst vst)) (snd vst).
Proof.
  intros pre P vs slots jobs F order.
  assert (X : forall order (st : list Val * list (vthread Val Op Out)), Forall (fun t => Forall no_drop (vt_todo t)) (snd st) ->
    Forall (fun t => Forall no_drop (vt_todo t)) (snd (vexec vnew vop order st))).
  { clear. intros order. induction order as [|i order IH]; intros [vl ts] F; [exact F|]. cbn [vexec]. apply IH. unfold vstep.
    destruct (nth_error ts i) as [t|] eqn:Ei; [|exact F]. cbn [snd] in F.
    assert (Ft : Forall no_drop (vt_todo t)) by (rewrite Forall_forall in F; exact (F t (nth_error_In _ _ Ei))).
    assert (U : forall t', Forall no_drop (vt_todo t') -> Forall (fun t => Forall no_drop (vt_todo t)) (upd ts i t')).
    { intros t' Ft'. clear Ei. revert i. induction F; intros [|i]; cbn; constructor; auto. }
    destruct (vt_todo t) as [|[c|k l|k j] rest]; [exact F|inversion Ft; subst..].
    - destruct (sclient vnew vop [c] (vt_regs t)). now apply U.
    - destruct (nth_error vl k); [destruct (sclient vnew vop l (Some v :: vt_regs t))|]; now apply U.
    - destruct (nth_error vl k) as [v|]; [destruct (nth_error (vt_regs t) j) as [[w|]|]|]; now apply U. }
  intros vst. assert (Y : Forall (fun t => Forall no_drop (vt_todo t)) (snd vst)).
  { apply X. unfold vstart. cbn [snd]. rewrite Forall_map. exact F. }
  eapply Forall_impl; [|exact Y]. intros t Ft. cbn beta in Ft. unfold next_ok. destruct (vt_todo t) as [|[c|k l|k j] rest] eqn:Et; trivial.
  - now apply within_always.
  - inversion Ft; subst. split; [assumption|]. destruct (nth_error (fst vst) k); trivial. now apply within_always.
Qed.

(** In general: it is enough to look at the states within as many commands as there are. *)
Fixpoint each {X : Type} (P : X -> Prop) (l : list X) : Prop := match l with [] => True | x :: l' => P x /\ each P l' end.
Lemma each_forall : forall {X : Type} (P : X -> Prop) l, each P l -> Forall P l.
Proof. intros X P l. induction l; cbn; intros H; constructor; [easy|]. now apply IHl. Qed.
Fixpoint some_ok (pre : Op -> Val -> Prop) (d n : nat) (st : list Val * list (vthread Val Op Out)) : Prop :=
  each (next_ok vnew vop pre (fst st)) (snd st) /\
  match d with
  | 0 => each (fun t => vt_todo t = []) (snd st)
  | S d' =>
      each (fun i => match nth_error (snd st) i with
                     | Some (mkVT (_ :: _) _ _) => some_ok pre d' n (vstep vnew vop i st)
                     | _ => True
                     end) (List.seq 0 n)
  end.
Lemma length_vstep : forall i (st : list Val * list (vthread Val Op Out)), length (snd (vstep vnew vop i st)) = length (snd st).
Proof.
  intros i [vl ts]. unfold vstep. destruct (nth_error ts i) as [t|]; trivial. destruct (vt_todo t) as [|[c|k l|k j] rest]; trivial.
  - destruct (sclient vnew vop [c] (vt_regs t)). apply length_upd.
  - destruct (nth_error vl k); [destruct (sclient vnew vop l (Some v :: vt_regs t))|]; apply length_upd.
  - destruct (nth_error vl k) as [v|]; [destruct (nth_error (vt_regs t) j) as [[w|]|]|]; apply length_upd.
Qed.
Lemma some_orders : forall pre d n st, length (snd st) = n -> some_ok pre d n st ->
  forall order, let vst := vexec vnew vop order st in Forall (next_ok vnew vop pre (fst vst)) (snd vst).
Proof.
  intros pre d. induction d as [|d IH]; intros n st L A order; destruct A as (A0 & A1); apply each_forall in A0, A1; cbv zeta.
  - replace (vexec vnew vop order st) with st; [exact A0|]. induction order as [|i order IH]; [reflexivity|]. cbn [vexec].
    replace (vstep vnew vop i st) with st; [exact IH|]. destruct st as [vl ts]. unfold vstep. cbn [snd] in *.
    destruct (nth_error ts i) eqn:E; trivial. rewrite Forall_forall in A1. now rewrite (A1 _ (nth_error_In _ _ E)).
  - induction order as [|i order IHo]; [exact A0|]. cbn [vexec].
    assert (St : vstep vnew vop i st = st \/ some_ok pre d n (vstep vnew vop i st)).
    { destruct (lt_dec i n) as [Hi|Hi].
      - rewrite Forall_forall in A1. specialize (A1 i ltac:(apply in_seq; lia)). cbn beta in A1.
        destruct (nth_error (snd st) i) as [[[|c rest] outs rs]|] eqn:E; [left|now right|left]; destruct st as [vl ts];
          cbn [snd] in E; unfold vstep; now rewrite E.
      - left. destruct st as [vl ts]. unfold vstep. cbn [snd] in L. destruct (nth_error ts i) eqn:E; trivial.
        apply nth_error_lt in E. lia. }
    destruct St as [->|A]; [exact IHo|]. apply (IH n); [now rewrite length_vstep|exact A].
Qed.
End Examples.
Definition turns (k : nat) : list nat := flat_map (fun _ => [0; 1; 1; 0; 1]) (List.seq 0 k).
Ltac lock_hyps :=
  split; [vm_compute; repeat split; trivial; try discriminate|];
  cbn zeta; split; [apply Permutation_refl|];
  apply all_orders; [intros; exact I|];
  repeat constructor; cbn; intuition discriminate.
Notation hyps vnew vop pre main slots jobs :=
  (within vnew vop pre main [] /\
   let vs := fst (sclient vnew vop main []) in
   Permutation (slots ++ concat (map fst jobs)) (List.seq 0 (length vs)) /\
   forall order, let vst := vexec vnew vop order (vstart vs slots jobs) in
     Forall (next_ok vnew vop pre (fst vst)) (snd vst)).

(** ** List *)
Theorem C62_list_guarded : forall T : Type,
  guarded lkids (Ret hl_new) hlp_clone hlp_drop (@hl_step T) Prop_HeapSeq.hl_roots
    (@nil T) list_spec always.
Proof.
  intros T. eapply (guarded_ok lkids _ _ _ _ _ hlrep _ _ _ 0 list_cost).
  - apply Prop_HeapSeq.hl_new_ok.
  - intros c v G r. apply weaken; [now apply hl_clone_keeps|exact r].
  - apply hlp_drop_ok.
  - intros. now apply hl_step_ok.
  - apply Prop_HeapSeq.hl_rep_roots.
Qed.
Print Assumptions C62_list_guarded.

(** [1; 2] behind lock 0 and [7] behind lock 1.  The first thread pushes 5 onto the version behind
    lock 0 and takes a snapshot of it, which it shortens.  The second takes a snapshot of it too,
    pushes 9 onto the snapshot, publishes it by exchanging it with the version behind the lock, and
    looks at what it got; then it moves that behind lock 1 and gets the [7]. *)
Definition list_main : list (cmd (list_op nat)) := [CNew; COp 0 (LPushMut 2); COp 0 (LPushMut 1); CNew; COp 1 (LPushMut 7)].
Definition list_jobs : list (list nat * list (lcmd (list_op nat))) :=
  [([], [Locked 0 [COp 0 (LPushMut 5); CClone 0]; Mine (COp 0 LDropMut); Mine (COp 0 LFirst); Locked 0 [COp 0 LFirst; COp 1 LFirst; CDrop 1]]);
   ([], [Locked 0 [CClone 0; COp 0 LFirst]; Mine (COp 0 (LPushMut 9)); Swap 0 0; Mine (COp 0 LFirst); Swap 1 0; Mine (COp 0 LFirst); Mine (CDrop 0)])].
Example list_hypotheses : hyps (@nil nat) list_spec always list_main [0; 1] list_jobs.
Proof. lock_hyps. Qed.
(** The first thread is the first to get the lock; the second publishes before the first looks again. *)
Example list_runs :
  lock_run (Ret hl_new) hlp_clone hlp_drop hl_step list_main [0; 1] list_jobs (turns 60) =
  ([0; 1; 0; 1; 0; 1; 1; 0; 1; 1; 1],
   [Some [OUnit; OBool true; OElem (Some 1); OElem (Some 9); OElem (Some 1)];
    Some [OElem (Some 5); OUnit; OElem (Some 5); OElem (Some 7)]], true).
Proof. vm_compute. reflexivity. Qed.
(** The second is; it publishes only after the first has updated and has finished: what it gets
    back has the 5 on top. *)
Example list_runs_otherwise :
  lock_run (Ret hl_new) hlp_clone hlp_drop hl_step list_main [0; 1] list_jobs (List.repeat 1 10 ++ List.repeat 0 60 ++ turns 60) =
  ([1; 1; 0; 0; 0; 0; 1; 1; 1; 1; 1],
   [Some [OUnit; OBool true; OElem (Some 1); OElem (Some 5); OElem (Some 1)];
    Some [OElem (Some 1); OUnit; OElem (Some 5); OElem (Some 7)]], true).
Proof. vm_compute. reflexivity. Qed.

(** Dropping the version behind the lock is refused. *)
Example list_refused : forall vl outs rs,
  ~ next_ok (@nil nat) list_spec always vl (mkVT (Out := obs nat) [Locked 0 [CDrop 0]] outs rs).
Proof. intros vl outs rs (N & _). apply N. now left. Qed.

(** ** Stack *)
Theorem C62_stack_guarded : forall T : Type,
  guarded lkids (Ret hl_new) hlp_clone hlp_drop (@hs_step T) Prop_HeapSeq.hl_roots
    (@nil T) stack_spec always.
Proof.
  intros T. eapply (guarded_ok lkids _ _ _ _ _ hlrep _ _ _ 0 stack_cost).
  - apply Prop_HeapSeq.hl_new_ok.
  - intros c v G r. apply weaken; [now apply hl_clone_keeps|exact r].
  - apply hlp_drop_ok.
  - intros. now apply hs_step_ok.
  - apply Prop_HeapSeq.hl_rep_roots.
Qed.
Print Assumptions C62_stack_guarded.

Definition stack_main : list (cmd (stack_op nat)) := [CNew; COp 0 (SPushMut 1); COp 0 (SPushMut 2)].
Definition stack_jobs : list (list nat * list (lcmd (stack_op nat))) :=
  [([], [Locked 0 [COp 0 SPeek; COp 0 SPopMut]; Locked 0 [COp 0 SPeek; COp 0 SPopMut]]);
   ([], [Locked 0 [CClone 0; COp 0 (SPushMut 9)]; Mine (COp 0 SPeek); Mine (CDrop 0)])].
Example stack_hypotheses : hyps (@nil nat) stack_spec always stack_main [0] stack_jobs.
Proof. lock_hyps. Qed.
Example stack_runs :
  lock_run (Ret hl_new) hlp_clone hlp_drop hs_step stack_main [0] stack_jobs (turns 60) =
  ([0; 1; 0; 1; 1],
   [Some [OElem (Some 2); OBool true; OElem (Some 9); OBool true]; Some [OUnit; OElem (Some 1)]], true).
Proof. vm_compute. reflexivity. Qed.

(** ** Queue *)
Theorem C62_queue_guarded : forall T : Type,
  guarded lkids (Ret hq_new) hq_clone hq_drop (@hq_step T) Prop_HeapSeq.hq_roots
    (@nil T) queue_spec always.
Proof.
  intros T. eapply (guarded_ok lkids _ _ _ _ _ hqrep _ _ _ 0 queue_cost).
  - apply Prop_HeapSeq.hq_new_ok.
  - intros c v G r. apply weaken; [now apply hq_clone_keeps|exact r].
  - apply hq_drop_ok.
  - intros. now apply hq_step_ok.
  - apply Prop_HeapSeq.hq_rep_roots.
Qed.
Print Assumptions C62_queue_guarded.

(** A queue between a producer and a consumer. *)
Definition queue_main : list (cmd (queue_op nat)) := [CNew; COp 0 (QEnqMut 1)].
Definition queue_jobs : list (list nat * list (lcmd (queue_op nat))) :=
  [([], [Locked 0 [COp 0 (QEnqMut 2)]; Locked 0 [COp 0 (QEnqMut 3)]; Locked 0 [COp 0 QLen]]);
   ([], [Locked 0 [COp 0 QPeek; COp 0 QDeqMut]; Locked 0 [CClone 0; COp 0 QPeek; COp 0 QDeqMut]; Mine (COp 0 QPeek); Mine (CDrop 0)])].
Example queue_hypotheses : hyps (@nil nat) queue_spec always queue_main [0] queue_jobs.
Proof. lock_hyps. Qed.
Example queue_runs :
  lock_run (Ret hq_new) hq_clone hq_drop hq_step queue_main [0] queue_jobs (turns 60) =
  ([0; 1; 0; 1; 0; 1; 1],
   [Some [OUnit; OUnit; ONat 1]; Some [OElem (Some 1); OBool true; OElem (Some 2); OBool true; OElem (Some 2)]], true).
Proof. vm_compute. reflexivity. Qed.

(** ** Vector *)
Theorem C62_vector_guarded : forall (T : Type) (ubits : N) (dbg : bool) (bits : N),
  (8 <= ubits)%N -> (0 < bits)%N -> (bits < ubits)%N ->
  guarded vkids (@hv_new T bits) hv_clone (hv_drop ubits dbg) (hv_step ubits dbg) Prop_HeapVec.hv_roots
    (@nil T) vec_spec (fits ubits dbg bits).
Proof.
  intros T ubits dbg bits Hu Hb Hbu.
  eapply (guarded_ok vkids _ _ _ _ _ (hvrep ubits dbg bits) _ _ _ 1 (vec_cost bits)).
  - now apply hv_new_ok.
  - intros c v G r. apply weaken; [now apply hv_clone_keeps|exact r].
  - now apply hv_drop_ok.
  - intros. now apply hv_step_ok.
  - apply Prop_HeapVec.hv_rep_roots.
Qed.
Print Assumptions C62_vector_guarded.

(** Two-way nodes, so three levels.  The calls have a precondition here ([fits]: the vector does not
    become longer than supported), which has to hold in every order of the commands. *)
Definition vector_main : list (cmd (vec_op nat)) := [CNew; COp 0 (VExtend [1; 2; 3; 4; 5])].
Definition vector_jobs : list (list nat * list (lcmd (vec_op nat))) :=
  [([], [Locked 0 [COp 0 (VSetMut 1%N 9)]; Locked 0 [CClone 0; COp 0 (VGet 1%N)]; Mine (COp 0 (VSetMut 0%N 8)); Swap 0 0; Mine (CDrop 0)]);
   ([], [Locked 0 [COp 0 (VSetMut 0%N 7); COp 0 (VGet 1%N)]; Locked 0 [COp 0 (VGet 0%N)]])].
Example vector_hypotheses : hyps (@nil nat) vec_spec (fits 64 true 1) vector_main [0] vector_jobs.
Proof.
  split; [vm_compute; repeat split; trivial; try discriminate|]. cbn zeta. split; [apply Permutation_refl|].
  apply (some_orders _ _ _ 7 2); [reflexivity|]. vm_compute.
  repeat first [exact I|discriminate|match goal with |- _ \/ _ -> _ => intros H; intuition discriminate end|split|constructor].
Qed.
Example vector_runs :
  lock_run (hv_new 1) hv_clone (hv_drop 64 true) (hv_step 64 true) vector_main [0] vector_jobs (turns 60) =
  ([0; 1; 0; 1; 0; 0; 0],
   [Some [OBool true; OElem (Some 9); OBool true]; Some [OBool true; OElem (Some 9); OElem (Some 7)]], true).
Proof. vm_compute. reflexivity. Qed.

(** ** RedBlackTreeMap *)
Theorem C62_rb_map_guarded : forall (K V Q : Type) (dbg : bool)
  (kcmp : K -> K -> comparison) (borrow : K -> Q) (qcmp : Q -> Q -> comparison),
  ord_laws qcmp -> borrow_agrees kcmp borrow qcmp ->
  guarded rkids (@hb_new K V) hb_clone hb_drop (hb_step dbg kcmp borrow qcmp) Prop_HeapRB.hb_roots
    (@nil (K * V)) (rb_call_spec kcmp borrow qcmp) always.
Proof.
  intros K V Q dbg kcmp borrow qcmp OL KB.
  eapply (guarded_ok rkids _ _ _ _ _ (hbrep kcmp) _ _ _ 0 rb_cost).
  - apply hb_new_ok.
  - intros c v G r. apply weaken; [now apply hb_clone_keeps|exact r].
  - apply hb_drop_ok.
  - intros. now apply hb_step_ok.
  - apply Prop_HeapRB.hb_rep_roots.
Qed.
Print Assumptions C62_rb_map_guarded.

Notation nat_spec := (rb_call_spec Nat.compare (fun k : nat => k) Nat.compare).
Definition rb_main : list (cmd (rb_call (K := nat) (V := nat) (Q := nat))) :=
  CNew :: map (fun k => COp 0 (BOp (MInsertMut k (10 * k)))) [5; 1; 4; 2; 3; 6].
Definition rb_jobs : list (list nat * list (lcmd (rb_call (K := nat) (V := nat) (Q := nat)))) :=
  [([], [Locked 0 [COp 0 (BOp (MRemoveMut 4)); CClone 0]; Mine (COp 0 (BOp (MGet 4))); Mine (COp 0 BLast); Mine (CDrop 0)]);
   ([], [Locked 0 [CClone 0; COp 0 (BOp (MInsertMut 7 70))]; Mine (COp 0 BLast); Mine (CDrop 0); Locked 0 [COp 0 (BOp (MGet 4)); COp 0 BLast]])].
Example rb_hypotheses : hyps (@nil (nat * nat)) nat_spec always rb_main [0] rb_jobs.
Proof. lock_hyps. Qed.
Example rb_runs :
  lock_run hb_new hb_clone hb_drop (hb_step true Nat.compare (fun k : nat => k) Nat.compare) rb_main [0] rb_jobs (turns 150) =
  ([0; 1; 0; 0; 0; 1; 1; 1],
   [Some [BObs (MoBool true); BObs (MoVal None); BObs (MoKV (Some (6, 60)))];
    Some [BObs MoUnit; BObs (MoKV (Some (6, 60))); BObs (MoVal None); BObs (MoKV (Some (7, 70)))]], true).
Proof. vm_compute. reflexivity. Qed.

(** ** RedBlackTreeSet *)
Theorem C62_rb_set_guarded : forall (T Q : Type) (dbg : bool)
  (tcmp : T -> T -> comparison) (borrow : T -> Q) (qcmp : Q -> Q -> comparison),
  ord_laws qcmp -> borrow_agrees tcmp borrow qcmp ->
  guarded rkids (@hb_new T unit) hb_clone hb_drop (ss_step dbg tcmp borrow qcmp) Prop_HeapRB.hb_roots
    (@nil T) (ss_spec tcmp borrow qcmp) always.
Proof.
  intros T Q dbg tcmp borrow qcmp OL KB.
  eapply (guarded_ok rkids _ _ _ _ _ (ssrep tcmp) _ _ _ 0 ss_cost).
  - apply hb_new_ok.
  - intros c v G r. apply weaken; [now apply (hb_clone_keeps tcmp c (map ut v))|exact r].
  - intros c v G. apply (hb_drop_ok tcmp c (map ut v)).
  - intros. now apply ss_step_ok.
  - intros c v G. apply (Prop_HeapRB.hb_rep_roots _ _ tcmp c (map ut v)).
Qed.
Print Assumptions C62_rb_set_guarded.

Definition rb_set_main : list (cmd (ss_call nat nat)) := CNew :: map (fun k => COp 0 (SkOp (SetInsertMut k))) [5; 1; 4; 2; 3].
Definition rb_set_jobs : list (list nat * list (lcmd (ss_call nat nat))) :=
  [([], [Locked 0 [COp 0 (SkOp (SetRemoveMut 3))]; Locked 0 [CClone 0]; Mine (COp 0 (SkOp (SetContains 3))); Mine (CDrop 0)]);
   ([], [Locked 0 [COp 0 (SkOp (SetContains 3)); COp 0 (SkOp (SetInsertMut 6))]; Locked 0 [COp 0 (SkOp SetSize)]])].
Example rb_set_hypotheses : hyps (@nil nat) (ss_spec Nat.compare (fun k => k) Nat.compare) always rb_set_main [0] rb_set_jobs.
Proof. lock_hyps. Qed.
Example rb_set_runs :
  lock_run hb_new hb_clone hb_drop (ss_step true Nat.compare (fun k : nat => k) Nat.compare) rb_set_main [0] rb_set_jobs (turns 150) =
  ([0; 1; 1; 0; 0; 0],
   [Some [SkObs (SetoBool true); SkObs (SetoBool false)]; Some [SkObs (SetoBool false); SkObs SetoUnit; SkObs (SetoNat 5)]], true).
Proof. vm_compute. reflexivity. Qed.

(** ** HashTrieMap *)
Theorem C62_hash_map_guarded : forall (K V Q : Type) (ubits : N) (dbg : bool)
  (keq : K -> K -> bool) (borrow : K -> Q) (qeq : Q -> Q -> bool) (hash : K -> N) (qhash : Q -> N),
  (ubits <= 64)%N -> key_laws keq borrow qeq -> hash_laws borrow qeq hash qhash ->
  forall (degree : N) (fuel : nat), supported ubits degree -> 2 * digits degree < fuel ->
  guarded tkids (@hh_new ubits K V degree) hh_clone hh_drop (hh_step ubits dbg keq borrow qeq hash qhash fuel) Prop_HeapHash.hh_roots
    (@nil (K * V)) (ht_call_spec keq borrow qeq) always.
Proof.
  intros K V Q ubits dbg keq borrow qeq hash qhash Hub KL HL degree fuel (b & Hb & -> & Hd) Hf.
  rewrite digits_D in *.
  eapply (guarded_ok tkids _ _ _ _ _ (hhrep ubits b keq hash) _ _ _ 1 (ht_cost b hash qhash)).
  - now apply (hh_new_ok ubits dbg b Hb Hd Hub keq borrow qeq hash qhash KL HL fuel Hf).
  - intros c v G r. apply weaken; [now apply Prop_HeapShare.hh_clone_safe|exact r].
  - now apply hh_drop_ok.
  - intros. now apply hh_step_ok.
  - apply Prop_HeapHash.hh_rep_roots.
Qed.
Print Assumptions C62_hash_map_guarded.

(** Degree 4 and the hash [k / 3] of Prop_HeapHash.v: 0, 1, 2 collide and so do 3, 4, 5. *)
Definition hash_main : list (cmd (ht_call N nat N)) :=
  CNew :: map (fun k => COp 0 (TOp (MInsertMut k (N.to_nat k * 10)))) [0; 1; 2; 3; 4]%N.
Definition hash_jobs : list (list nat * list (lcmd (ht_call N nat N))) :=
  [([], [Locked 0 [COp 0 (TOp (MRemoveMut 1%N)); CClone 0]; Mine (COp 0 (TOp (MGet 1%N))); Mine (CDrop 0)]);
   ([], [Locked 0 [CClone 0; COp 0 (TOp (MInsertMut 2%N 7))]; Mine (COp 0 (TOp (MGet 2%N))); Mine (CDrop 0);
         Locked 0 [COp 0 (TOp (MGet 1%N)); COp 0 (TOp (MGet 2%N))]])].
Example hash_hypotheses : hyps (@nil (N * nat)) Prop_HeapHash.hx_spec always hash_main [0] hash_jobs.
Proof. lock_hyps. Qed.
Example hash_runs :
  lock_run Prop_HeapHash.hx_new hh_clone hh_drop Prop_HeapHash.hx_step hash_main [0] hash_jobs (turns 900) =
  ([0; 1; 0; 0; 1; 1; 1],
   [Some [TObs (MoBool true); TObs (MoVal None)];
    Some [TObs MoUnit; TObs (MoVal (Some 20)); TObs (MoVal None); TObs (MoVal (Some 7))]], true).
Proof. vm_compute. reflexivity. Qed.

(** ** HashTrieSet *)
Theorem C62_hash_set_guarded : forall (T Q : Type) (ubits : N) (dbg : bool)
  (teq : T -> T -> bool) (borrow : T -> Q) (qeq : Q -> Q -> bool) (hash : T -> N) (qhash : Q -> N),
  (ubits <= 64)%N -> key_laws teq borrow qeq -> hash_laws borrow qeq hash qhash ->
  forall (degree : N) (fuel : nat), supported ubits degree -> 2 * digits degree < fuel ->
  guarded tkids (@hh_new ubits T unit degree) hh_clone hh_drop (us_step ubits dbg teq borrow qeq hash qhash fuel) Prop_HeapHash.hh_roots
    (@nil T) (us_spec teq borrow qeq) always.
Proof.
  intros T Q ubits dbg teq borrow qeq hash qhash Hub KL HL degree fuel (b & Hb & -> & Hd) Hf.
  rewrite digits_D in *.
  eapply (guarded_ok tkids _ _ _ _ _ (usrep ubits b teq hash) _ _ _ 1 (us_cost b hash qhash)).
  - now apply (hh_new_ok ubits dbg b Hb Hd Hub teq borrow qeq hash qhash KL HL fuel Hf).
  - intros c v G r. apply weaken; [now apply (Prop_HeapShare.hh_clone_safe _ _ ubits b teq hash c (map ut v))|exact r].
  - intros c v G. now apply (hh_drop_ok ubits b Hb Hd Hub teq hash c (map ut v)).
  - intros. now apply us_step_ok.
  - intros c v G. apply (Prop_HeapHash.hh_rep_roots ubits b _ _ teq hash c (map ut v)).
Qed.
Print Assumptions C62_hash_set_guarded.

Definition hash_set_main : list (cmd (hs_call N N)) := CNew :: map (fun k => COp 0 (UkOp (SetInsertMut k))) [0; 1; 2; 3]%N.
Definition hash_set_jobs : list (list nat * list (lcmd (hs_call N N))) :=
  [([], [Locked 0 [COp 0 (UkOp (SetRemoveMut 1%N))]; Locked 0 [CClone 0]; Mine (COp 0 (UkOp (SetContains 1%N))); Mine (CDrop 0)]);
   ([], [Locked 0 [COp 0 (UkOp (SetContains 1%N)); COp 0 (UkOp (SetInsertMut 5%N))]; Locked 0 [COp 0 (UkOp SetSize)]])].
Example hash_set_hypotheses : hyps (@nil N) (us_spec N.eqb (fun k => k) N.eqb) always hash_set_main [0] hash_set_jobs.
Proof. lock_hyps. Qed.
Example hash_set_runs :
  lock_run (@hh_new 64 N unit 4) hh_clone hh_drop
    (us_step 64 true N.eqb (fun k => k) N.eqb Prop_HeapHash.hx_hash Prop_HeapHash.hx_hash 65)
    hash_set_main [0] hash_set_jobs (turns 900) =
  ([0; 1; 1; 0; 0; 0],
   [Some [UkObs (SetoBool true); UkObs (SetoBool false)]; Some [UkObs (SetoBool false); UkObs SetoUnit; UkObs (SetoNat 4)]], true).
Proof. vm_compute. reflexivity. Qed.
