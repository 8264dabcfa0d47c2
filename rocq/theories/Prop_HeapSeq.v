(** * Properties C34, C38, C40, C42 for List, Stack and Queue

    The collections on the shared, reference counted heap.  [persistent],
    [non_interfering], [counts_exact] and [allocates_at_most] are stated in
    HeapWorld.v for any collection; the specifications of the operations are
    those of Spec.v, which know nothing of pointers. *)
From Coq Require Import List Arith Lia Bool Permutation.
From Verif Require Import Base Spec ListModel HeapModel HeapProofs HeapSafe HeapClient HeapWorld
  HeapList HeapListProofs HeapSeqProofs.
Import ListNotations.

Section Instances.
Context {T : Type}.

(** Every call is allowed in every state. *)
Definition always {Op Val : Type} : Op -> Val -> Prop := fun _ _ => True.

(** The pointers in a list value and in a queue value: list/mod.rs:107-115,
    queue/mod.rs:96-103. *)
Definition hl_roots (l : hlist) : list addr := opt_list (hl_head l) ++ opt_list (hl_last l).
Definition hq_roots (q : hqueue) : list addr := hl_roots (hq_in q) ++ hl_roots (hq_out q).

Lemma hl_rep_roots : forall l (s : list T) G, hlrep l s G ->
  exists ts, G = map Tree ts /\ hl_roots l = map pa ts.
Proof.
  intros l s G (ts & tl & -> & Ch & Lt & ->). exists (ts ++ tl). split; trivial.
  unfold hl_roots. cbn [hl_head hl_last]. rewrite map_app.
  now rewrite (chain_opt _ _ _ _ _ Ch), (lastt_opt _ _ _ _ _ Lt).
Qed.

Lemma hq_rep_roots : forall q (s : list T) G, hqrep q s G ->
  exists ts, G = map Tree ts /\ hq_roots q = map pa ts.
Proof.
  intros q s G (i & o & Gi & Go & Ri & Ro & -> & ->).
  destruct (hl_rep_roots _ _ _ Ri) as (ti & -> & Ei). destruct (hl_rep_roots _ _ _ Ro) as (to & -> & Eo).
  exists (ti ++ to). unfold hq_roots. now rewrite !map_app, Ei, Eo.
Qed.

Lemma hl_new_ok : safe (@lkids T) 0 (Ret hl_new) [] (fun c G => hlrep c [] G).
Proof. apply safe_ret. apply hlrep_new. Qed.
Lemma hq_new_ok : safe (@lkids T) 0 (Ret hq_new) [] (fun c G => hqrep c [] G).
Proof. apply safe_ret. apply hqrep_new. Qed.

Lemma within_always : forall {Op Val Out} (vnew : Val) (vop : Op -> Val -> Val * Out) l rs,
  within vnew vop always l rs.
Proof.
  intros Op Val Out vnew vop. induction l as [|[|i|i o|i] l IH]; intros rs; cbn [within]; trivial;
    destruct (nth_error rs i) as [[v|]|]; auto. split; [exact I|trivial].
Qed.

End Instances.

(** ** C34: persistence *)
Theorem C34_list_persistent : forall T : Type,
  persistent (Ret hl_new) hlp_clone hlp_drop hl_step (@nil T) list_spec always.
Proof.
  intros T. eapply (persistent_ok lkids _ _ _ _ hlrep _ _ _ 0 list_cost).
  - apply hl_new_ok.
  - apply hlp_clone_ok.
  - apply hlp_drop_ok.
  - intros. now apply hl_step_ok.
Qed.
Print Assumptions C34_list_persistent.

Theorem C34_stack_persistent : forall T : Type,
  persistent (Ret hl_new) hlp_clone hlp_drop hs_step (@nil T) stack_spec always.
Proof.
  intros T. eapply (persistent_ok lkids _ _ _ _ hlrep _ _ _ 0 stack_cost).
  - apply hl_new_ok.
  - apply hlp_clone_ok.
  - apply hlp_drop_ok.
  - intros. now apply hs_step_ok.
Qed.
Print Assumptions C34_stack_persistent.

Theorem C34_queue_persistent : forall T : Type,
  persistent (Ret hq_new) hq_clone hq_drop hq_step (@nil T) queue_spec always.
Proof.
  intros T. eapply (persistent_ok lkids _ _ _ _ hqrep _ _ _ 0 queue_cost).
  - apply hq_new_ok.
  - apply hq_clone_ok.
  - apply hq_drop_ok.
  - intros. now apply hq_step_ok.
Qed.
Print Assumptions C34_queue_persistent.

(** A queue and its clone share all their nodes; reversing the input list of
    one in place, on its first dequeue, leaves the other as it was. *)
Definition queue_example : list (cmd (queue_op nat)) :=
  [CNew; COp 0 (QEnqMut 1); COp 0 (QEnqMut 2); COp 0 (QEnqMut 3); CClone 0;
   COp 0 QDeqMut; COp 0 (QEnqMut 4); COp 1 (QIter 4); COp 0 (QIter 4); CDrop 0; COp 1 QPeek].

Example queue_example_within : within (@nil nat) queue_spec always queue_example [].
Proof. apply within_always. Qed.

Example queue_example_runs :
  match run [] (hclient (Ret hq_new) hq_clone hq_drop hq_step queue_example []) with
  | Some (_, (_, out)) => out
  | None => []
  end =
  [OUnit; OUnit; OUnit; OBool true; OUnit;
   OSteps [(3, Some 1); (2, Some 2); (1, Some 3); (0, None)];
   OSteps [(3, Some 2); (2, Some 3); (1, Some 4); (0, None)]; OElem (Some 1)].
Proof. vm_compute. reflexivity. Qed.

(** ** C38: counts *)
Theorem C38_list_counts_exact : forall T : Type,
  counts_exact lkids (Ret hl_new) hlp_clone hlp_drop hl_step hl_roots (@nil T) list_spec always.
Proof.
  intros T. eapply (counts_exact_ok lkids _ _ _ _ _ hlrep _ _ _ 0 list_cost).
  - apply hl_new_ok.
  - apply hlp_clone_ok.
  - apply hlp_drop_ok.
  - intros. now apply hl_step_ok.
  - apply hl_rep_roots.
Qed.
Print Assumptions C38_list_counts_exact.

Theorem C38_stack_counts_exact : forall T : Type,
  counts_exact lkids (Ret hl_new) hlp_clone hlp_drop hs_step hl_roots (@nil T) stack_spec always.
Proof.
  intros T. eapply (counts_exact_ok lkids _ _ _ _ _ hlrep _ _ _ 0 stack_cost).
  - apply hl_new_ok.
  - apply hlp_clone_ok.
  - apply hlp_drop_ok.
  - intros. now apply hs_step_ok.
  - apply hl_rep_roots.
Qed.
Print Assumptions C38_stack_counts_exact.

Theorem C38_queue_counts_exact : forall T : Type,
  counts_exact lkids (Ret hq_new) hq_clone hq_drop hq_step hq_roots (@nil T) queue_spec always.
Proof.
  intros T. eapply (counts_exact_ok lkids _ _ _ _ _ hqrep _ _ _ 0 queue_cost).
  - apply hq_new_ok.
  - apply hq_clone_ok.
  - apply hq_drop_ok.
  - intros. now apply hq_step_ok.
  - apply hq_rep_roots.
Qed.
Print Assumptions C38_queue_counts_exact.

(** ** C40: threads *)
Theorem C40_list_non_interfering : forall T : Type,
  non_interfering (Ret hl_new) hlp_clone hlp_drop hl_step (@nil T) list_spec always.
Proof.
  intros T. eapply (non_interfering_ok lkids _ _ _ _ hl_roots hlrep _ _ _ 0 list_cost).
  - apply hl_new_ok.
  - apply hlp_clone_ok.
  - apply hlp_drop_ok.
  - intros. now apply hl_step_ok.
  - apply hl_rep_roots.
Qed.
Print Assumptions C40_list_non_interfering.

Theorem C40_stack_non_interfering : forall T : Type,
  non_interfering (Ret hl_new) hlp_clone hlp_drop hs_step (@nil T) stack_spec always.
Proof.
  intros T. eapply (non_interfering_ok lkids _ _ _ _ hl_roots hlrep _ _ _ 0 stack_cost).
  - apply hl_new_ok.
  - apply hlp_clone_ok.
  - apply hlp_drop_ok.
  - intros. now apply hs_step_ok.
  - apply hl_rep_roots.
Qed.
Print Assumptions C40_stack_non_interfering.

Theorem C40_queue_non_interfering : forall T : Type,
  non_interfering (Ret hq_new) hq_clone hq_drop hq_step (@nil T) queue_spec always.
Proof.
  intros T. eapply (non_interfering_ok lkids _ _ _ _ hq_roots hqrep _ _ _ 0 queue_cost).
  - apply hq_new_ok.
  - apply hq_clone_ok.
  - apply hq_drop_ok.
  - intros. now apply hq_step_ok.
  - apply hq_rep_roots.
Qed.
Print Assumptions C40_queue_non_interfering.

(** Two threads, each with a clone of the same three-element list: one reverses
    it in place and pushes, the other drops its first element and reads it. *)
Definition threads_main : list (cmd (list_op nat)) :=
  [CNew; COp 0 (LPushMut 3); COp 0 (LPushMut 2); COp 0 (LPushMut 1); CClone 0].
Definition threads_jobs : list (job (Op := list_op nat)) :=
  [mkJob [0] [COp 0 LRevMut; COp 0 (LPushMut 9); COp 0 (LIter 5); CDrop 0];
   mkJob [1] [COp 0 LDropMut; COp 0 (LIter 3); COp 0 LLast; CDrop 0]].

Example threads_hypotheses :
  within (@nil nat) list_spec always threads_main [] /\
  let vs := fst (sclient [] list_spec threads_main []) in
  Permutation (concat (map job_regs threads_jobs)) (seq 0 (length vs)) /\
  Forall (job_within [] list_spec always vs) threads_jobs /\
  Forall (fun j => Forall (eq None) (fst (job_spec [] list_spec vs j))) threads_jobs.
Proof.
  split; [apply within_always|]. cbn zeta. split; [apply Permutation_refl|].
  split; [repeat constructor; apply within_always|]. vm_compute. repeat constructor.
Qed.

(** Strict alternation of the two threads, to the end. *)
Example threads_run :
  match run [] (hclient (Ret hl_new) hlp_clone hlp_drop hl_step threads_main []) with
  | Some (h, (rs, _)) =>
      let cf := exec (flat_map (fun _ => [0; 1]) (seq 0 60))
                  (h, map (job_start (Ret hl_new) hlp_clone hlp_drop hl_step rs) threads_jobs) in
      (map (fun p => match p with Ret r => Some (snd r) | _ => None end) (snd cf),
       forallb (fun x => match x with None => true | Some _ => false end) (fst cf))
  | None => ([], false)
  end =
  ([Some [OUnit; OUnit; OSteps [(4, Some 9); (3, Some 3); (2, Some 2); (1, Some 1); (0, None)]];
    Some [OBool true; OSteps [(2, Some 2); (1, Some 3); (0, None)]; OElem (Some 3)]], true).
Proof. vm_compute. reflexivity. Qed.

(** ** C42: sharing *)

(** What a call may allocate: a push, two cells (the element and the node);
    removing an element, looking and cloning, none.  [list_cost], [stack_cost]
    and [queue_cost] spelled out. *)
Theorem C42_list_allocates : forall T : Type,
  allocates_at_most (Ret hl_new) hlp_clone hlp_drop hl_step (@nil T) list_spec always
    (fun o s => match o with
                | LPush _ | LPushMut _ => 2
                | LFromIter vs => 2 * length vs
                | LRev | LRevMut => length s
                | _ => 0
                end).
Proof.
  intros T. eapply (allocates_ok lkids _ _ _ _ hlrep _ _ _ 0 list_cost).
  - apply hl_new_ok.
  - apply hlp_clone_ok.
  - apply hlp_drop_ok.
  - intros. now apply hl_step_ok.
Qed.
Print Assumptions C42_list_allocates.

Theorem C42_stack_allocates : forall T : Type,
  allocates_at_most (Ret hl_new) hlp_clone hlp_drop hs_step (@nil T) stack_spec always
    (fun o s => match o with SPush _ | SPushMut _ => 2 | _ => 0 end).
Proof.
  intros T. eapply (allocates_ok lkids _ _ _ _ hlrep _ _ _ 0 stack_cost).
  - apply hl_new_ok.
  - apply hlp_clone_ok.
  - apply hlp_drop_ok.
  - intros. now apply hs_step_ok.
Qed.
Print Assumptions C42_stack_allocates.

Theorem C42_queue_allocates : forall T : Type,
  allocates_at_most (Ret hq_new) hq_clone hq_drop hq_step (@nil T) queue_spec always
    (fun o s => match o with
                | QEnq _ | QEnqMut _ => 2
                | QFromIter vs => 2 * length vs
                | QDeq | QDeqMut => length s
                | _ => 0
                end).
Proof.
  intros T. eapply (allocates_ok lkids _ _ _ _ hqrep _ _ _ 0 queue_cost).
  - apply hq_new_ok.
  - apply hq_clone_ok.
  - apply hq_drop_ok.
  - intros. now apply hq_step_ok.
Qed.
Print Assumptions C42_queue_allocates.

(** The hypotheses are met, with a list of which another version is alive. *)
Example C42_example : exists v,
  nth_error (fst (sclient (@nil nat) list_spec threads_main [])) 1 = Some (Some v) /\ length v = 3.
Proof. eexists. split; reflexivity. Qed.
