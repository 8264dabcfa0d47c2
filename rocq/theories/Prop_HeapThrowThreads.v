(** * Property C66: threads that drop versions while the [Drop] of elements, keys or values panics

    [throws_apart] is stated in HeapThrowSafe.v; the programs are those of HeapThrow.v.  [tb], [kb] and [vb]
    say which elements, keys and values panic when they are dropped. *)
From Coq Require Import List NArith Arith Lia Bool Permutation.
From Verif Require Import Base Spec Sim SpecMap SpecOrd ListModel SparseModel HashModel HashProofs HashHist HashExtraProofs Prop_Hash
  RBModel RBHist Prop_RB VectorModel VectorProofs HeapModel HeapProofs HeapSafe HeapClient HeapWorld
  HeapList HeapListProofs HeapSeqProofs HeapVec HeapVecProofs HeapRB HeapRBProofs HeapRBMap HeapHash HeapHashProofs HeapHashMap HeapSet
  HeapSpace HeapThrow HeapThrowSafe Prop_HeapSeq Prop_HeapVec Prop_HeapRB Prop_HeapHash Prop_HeapSet.
Import ListNotations.
Local Open Scope nat_scope.

Theorem C66_list_throws : forall (T : Type) (tb : T -> bool),
  throws_apart lkids (Ret hl_new) hlp_clone hlp_drop (hlp_throw tb) hl_step hl_roots (@nil T) list_spec Prop_HeapSeq.always (l_booms tb).
Proof.
  intros T tb. eapply (throws_apart_ok lkids _ _ _ _ _ _ hlrep _ _ _ 0 list_cost).
  - apply hl_new_ok.
  - apply hlp_clone_ok.
  - apply hlp_drop_ok.
  - intros. eapply hlp_throw_ok. eassumption.
  - intros. now apply hl_step_ok.
  - apply hlp_clone_spends.
  - apply hlp_spends.
  - apply hl_rep_roots.
Qed.
Print Assumptions C66_list_throws.

Theorem C66_stack_throws : forall (T : Type) (tb : T -> bool),
  throws_apart lkids (Ret hl_new) hlp_clone hlp_drop (hlp_throw tb) hs_step hl_roots (@nil T) stack_spec Prop_HeapSeq.always (l_booms tb).
Proof.
  intros T tb. eapply (throws_apart_ok lkids _ _ _ _ _ _ hlrep _ _ _ 0 stack_cost).
  - apply hl_new_ok.
  - apply hlp_clone_ok.
  - apply hlp_drop_ok.
  - intros. eapply hlp_throw_ok. eassumption.
  - intros. now apply hs_step_ok.
  - apply hlp_clone_spends.
  - apply hlp_spends.
  - apply hl_rep_roots.
Qed.
Print Assumptions C66_stack_throws.

Theorem C66_queue_throws : forall (T : Type) (tb : T -> bool),
  throws_apart lkids (Ret hq_new) hq_clone hq_drop (hq_throw tb) hq_step hq_roots (@nil T) queue_spec Prop_HeapSeq.always (l_booms tb).
Proof.
  intros T tb. eapply (throws_apart_ok lkids _ _ _ _ _ _ hqrep _ _ _ 0 queue_cost).
  - apply hq_new_ok.
  - apply hq_clone_ok.
  - apply hq_drop_ok.
  - intros. eapply hq_throw_ok. eassumption.
  - intros. now apply hq_step_ok.
  - apply hq_clone_spends.
  - apply hq_spends.
  - apply hq_rep_roots.
Qed.
Print Assumptions C66_queue_throws.

Theorem C66_vector_throws : forall (T : Type) (ubits : N) (dbg : bool) (bits : N) (tb : T -> bool),
  (8 <= ubits)%N -> (0 < bits < ubits)%N ->
  throws_apart vkids (hv_new bits) hv_clone (hv_drop ubits dbg) (hv_throw ubits dbg tb) (hv_step ubits dbg) hv_roots
    (@nil T) vec_spec (fits ubits dbg bits) (v_booms tb).
Proof.
  intros T ubits dbg bits tb Hu [Hb Hbu].
  eapply (throws_apart_ok vkids _ _ _ _ _ _ (hvrep ubits dbg bits) _ _ _ 1 (vec_cost bits)).
  - now apply hv_new_ok.
  - apply hv_clone_ok.
  - now apply hv_drop_ok.
  - intros. eapply hv_throw_ok; eassumption.
  - intros. now apply hv_step_ok.
  - apply hv_clone_spends.
  - apply hv_spends.
  - apply hv_rep_roots.
Qed.
Print Assumptions C66_vector_throws.

Theorem C66_rb_map_throws : forall (K V Q : Type) (dbg : bool)
  (kcmp : K -> K -> comparison) (borrow : K -> Q) (qcmp : Q -> Q -> comparison) (kb : K -> bool) (vb : V -> bool),
  ord_laws qcmp -> borrow_agrees kcmp borrow qcmp ->
  throws_apart rkids (@hb_new K V) hb_clone hb_drop (hb_throw kb vb) (hb_step dbg kcmp borrow qcmp) hb_roots
    (@nil (K * V)) (rb_call_spec kcmp borrow qcmp) always (r_booms kb vb).
Proof.
  intros K V Q dbg kcmp borrow qcmp kb vb OL KB.
  eapply (throws_apart_ok rkids _ _ _ _ _ _ (hbrep kcmp) _ _ _ 0 rb_cost).
  - apply hb_new_ok.
  - apply hb_clone_ok.
  - apply hb_drop_ok.
  - intros. eapply hb_throw_ok. eassumption.
  - intros. now apply hb_step_ok.
  - apply hb_clone_spends.
  - apply hb_spends.
  - apply hb_rep_roots.
Qed.
Print Assumptions C66_rb_map_throws.

Theorem C66_rb_set_throws : forall (T Q : Type) (dbg : bool)
  (tcmp : T -> T -> comparison) (borrow : T -> Q) (qcmp : Q -> Q -> comparison) (tb : T -> bool),
  ord_laws qcmp -> borrow_agrees tcmp borrow qcmp ->
  throws_apart rkids (@hb_new T unit) hb_clone hb_drop (hb_throw tb (fun _ => false)) (ss_step dbg tcmp borrow qcmp) hb_roots
    (@nil T) (ss_spec tcmp borrow qcmp) always (r_booms tb (fun _ => false)).
Proof.
  intros T Q dbg tcmp borrow qcmp tb OL KB.
  eapply (throws_apart_ok rkids _ _ _ _ _ _ (ssrep tcmp) _ _ _ 0 ss_cost).
  - apply hb_new_ok.
  - intros c v G. apply (hb_clone_ok tcmp c (map ut v)).
  - intros c v G. apply (hb_drop_ok tcmp c (map ut v)).
  - intros c v G u. apply (hb_throw_ok _ _ tcmp _ _ c (map ut v)).
  - intros. now apply ss_step_ok.
  - apply hb_clone_spends.
  - apply hb_spends.
  - intros c v G. apply (hb_rep_roots _ _ tcmp c (map ut v)).
Qed.
Print Assumptions C66_rb_set_throws.

Theorem C66_hash_map_throws : forall (K V Q : Type) (ubits : N) (dbg : bool)
  (keq : K -> K -> bool) (borrow : K -> Q) (qeq : Q -> Q -> bool) (hash : K -> N) (qhash : Q -> N) (kb : K -> bool) (vb : V -> bool),
  (ubits <= 64)%N -> key_laws keq borrow qeq -> hash_laws borrow qeq hash qhash ->
  forall (degree : N) (fuel : nat), supported ubits degree -> 2 * digits degree < fuel ->
  throws_apart tkids (@hh_new ubits K V degree) hh_clone hh_drop (hh_throw kb vb)
    (hh_step ubits dbg keq borrow qeq hash qhash fuel) hh_roots
    (@nil (K * V)) (ht_call_spec keq borrow qeq) always (t_booms kb vb).
Proof.
  intros K V Q ubits dbg keq borrow qeq hash qhash kb vb Hub KL HL degree fuel (b & Hb & -> & Hd) Hf.
  rewrite digits_D in *.
  eapply (throws_apart_ok tkids _ _ _ _ _ _ (hhrep ubits b keq hash) _ _ _ 1 (ht_cost b hash qhash)).
  - now apply (hh_new_ok ubits dbg b Hb Hd Hub keq borrow qeq hash qhash KL HL fuel Hf).
  - apply hh_clone_ok.
  - now apply hh_drop_ok.
  - intros. eapply hh_throw_ok; eassumption.
  - intros. now apply hh_step_ok.
  - apply hh_clone_spends.
  - apply hh_spends.
  - apply hh_rep_roots.
Qed.
Print Assumptions C66_hash_map_throws.

Theorem C66_hash_set_throws : forall (T Q : Type) (ubits : N) (dbg : bool)
  (teq : T -> T -> bool) (borrow : T -> Q) (qeq : Q -> Q -> bool) (hash : T -> N) (qhash : Q -> N) (tb : T -> bool),
  (ubits <= 64)%N -> key_laws teq borrow qeq -> hash_laws borrow qeq hash qhash ->
  forall (degree : N) (fuel : nat), supported ubits degree -> 2 * digits degree < fuel ->
  throws_apart tkids (@hh_new ubits T unit degree) hh_clone hh_drop (hh_throw tb (fun _ => false))
    (us_step ubits dbg teq borrow qeq hash qhash fuel) hh_roots
    (@nil T) (us_spec teq borrow qeq) always (t_booms tb (fun _ => false)).
Proof.
  intros T Q ubits dbg teq borrow qeq hash qhash tb Hub KL HL degree fuel (b & Hb & -> & Hd) Hf.
  rewrite digits_D in *.
  eapply (throws_apart_ok tkids _ _ _ _ _ _ (usrep ubits b teq hash) _ _ _ 1 (us_cost b hash qhash)).
  - now apply (hh_new_ok ubits dbg b Hb Hd Hub teq borrow qeq hash qhash KL HL fuel Hf).
  - intros c v G. apply (hh_clone_ok ubits b teq hash c (map ut v)).
  - intros c v G. now apply (hh_drop_ok ubits b Hb Hd Hub teq hash c (map ut v)).
  - intros c v G u. now apply (hh_throw_ok _ _ ubits b Hb Hd Hub teq hash _ _ c (map ut v)).
  - intros. now apply us_step_ok.
  - apply hh_clone_spends.
  - apply hh_spends.
  - intros c v G. apply (hh_rep_roots ubits b _ _ teq hash c (map ut v)).
Qed.
Print Assumptions C66_hash_set_throws.

(** ** Cases

    Two threads drop the two versions of [threads_main] (Prop_HeapSeq.v), which share all elements; element 2
    panics.  The drop that comes last panics, whichever it is, and all memory is released. *)
Definition throw_jobs : list (job (Op := list_op nat)) := [mkJob [0] [CDrop 0]; mkJob [1] [COp 0 LFirst; CDrop 0]].
Example C66_case_hypotheses :
  within (@nil nat) list_spec Prop_HeapSeq.always threads_main [] /\
  let vs := fst (sclient [] list_spec threads_main []) in
  Permutation (concat (map job_regs throw_jobs)) (List.seq 0 (length vs)) /\
  Forall (job_within [] list_spec Prop_HeapSeq.always vs) throw_jobs /\
  Forall (fun j => Forall (eq None) (fst (job_spec [] list_spec vs j))) throw_jobs.
Proof.
  split; [apply within_always|]. cbn zeta. split; [apply Permutation_refl|].
  split; [repeat constructor; apply within_always|]. vm_compute. repeat constructor.
Qed.
Definition throw_ends (tb : nat -> bool) (sched : list nat) : option (list (option (list nat * bool)) * bool) :=
  match run [] (hclient (Ret hl_new) hlp_clone hlp_drop hl_step threads_main []) with
  | Some (h, (rs, _)) =>
      let cf := exec sched (h, map (job_throw (Ret hl_new) hlp_clone (hlp_throw tb) hl_step rs) throw_jobs) in
      Some (map (fun p => match p with Ret (Some (_, xs, [b])) => Some (map (fun _ => 0) xs, b) | _ => None end) (snd cf),
            forallb (fun x => match x with None => true | Some _ => false end) (fst cf))
  | None => None
  end.
Example C66_case_first : throw_ends (Nat.eqb 2) (repeat 0 40 ++ repeat 1 40) = Some ([Some ([], false); Some ([0], true)], true).
Proof. vm_compute. reflexivity. Qed.
Example C66_case_second : throw_ends (Nat.eqb 2) (repeat 1 40 ++ repeat 0 40) = Some ([Some ([], true); Some ([0], false)], true).
Proof. vm_compute. reflexivity. Qed.
(** With two elements that panic the last drop aborts. *)
Example C66_case_abort : throw_ends (fun x => Nat.leb x 2) (repeat 0 40 ++ repeat 1 40) = Some ([Some ([], false); None], false).
Proof. vm_compute. reflexivity. Qed.
(** Threads that only clone and drop: whichever thread is last, there is one panic for the one panicking value. *)
Definition drop_jobs : list (job (Op := list_op nat)) := [mkJob [0] [CDrop 0]; mkJob [1] [CClone 0; CDrop 0; CDrop 1]].
Definition drop_ends (sched : list nat) : option (nat * list nat * nat) :=
  match run [] (hclient (Ret hl_new) hlp_clone hlp_drop hl_step threads_main []) with
  | Some (h, (rs, _)) =>
      let cf := exec sched (h, map (job_throw (Ret hl_new) hlp_clone (hlp_throw (Nat.eqb 2)) hl_step rs) drop_jobs) in
      Some (weigh (l_booms (Nat.eqb 2)) h, map panics (snd cf), weigh (l_booms (Nat.eqb 2)) (fst cf))
  | None => None
  end.
Example C66_case_once :
  Forall (fun j => Forall only_drops (job_cmds j)) drop_jobs /\
  drop_ends (repeat 0 40 ++ repeat 1 40) = Some (1, [0; 1], 0) /\ drop_ends (repeat 1 40 ++ repeat 0 40) = Some (1, [1; 0], 0).
Proof. split; [repeat constructor|]. split; vm_compute; reflexivity. Qed.
