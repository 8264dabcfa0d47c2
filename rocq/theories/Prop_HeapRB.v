(** * Property C37, and C38, C40, C42 for RedBlackTreeMap

    RedBlackTreeMap on the shared, reference counted heap (HeapRB.v).  The
    properties are those of HeapWorld.v; the specification is [rb_call_spec]
    of HeapRBMap.v: finite maps (SpecMap.v), with first, last and the
    iterators read off the ascending listing [by_key] (SpecOrd.v).
    Parameters as in Prop_RB.v: [dbg] is the profile, [qcmp] the total order of
    the lookup keys with which [kcmp] agrees through [borrow].
    RedBlackTreeSet is a struct around such a map with unit values (C25). *)
From Coq Require Import List NArith Arith Lia Bool Permutation.
From Verif Require Import Base Spec Sim SpecMap SpecOrd RBModel RBHist RBExtra Prop_RB
  HeapModel HeapProofs HeapSafe HeapClient HeapWorld HeapRB HeapRBProofs HeapRBMap.
Import ListNotations.

(** Every call is allowed. *)
Definition always {O S : Type} (o : O) (s : S) : Prop := True.

(** The pointer in a map value: red_black_tree_map/mod.rs:91-98. *)
Definition hb_roots (m : hrb) : list addr := match hb_root m with Some a => [a] | None => [] end.

Lemma hb_rep_roots : forall K V (kcmp : K -> K -> comparison) m (fm : fmap K V) G, hbrep kcmp m fm G ->
  exists ts, G = map Tree ts /\ hb_roots m = map pa ts.
Proof.
  intros K V kcmp m fm G (w & _ & _ & ts & T & ->). exists ts. split; [reflexivity|].
  unfold hb_roots. inversion T; subst; reflexivity.
Qed.

(** ** C37: persistence *)
Theorem C37_rb_map_persistent : forall (K V Q : Type) (dbg : bool)
  (kcmp : K -> K -> comparison) (borrow : K -> Q) (qcmp : Q -> Q -> comparison),
  ord_laws qcmp -> borrow_agrees kcmp borrow qcmp ->
  persistent (@hb_new K V) hb_clone hb_drop (hb_step dbg kcmp borrow qcmp)
    (@nil (K * V)) (rb_call_spec kcmp borrow qcmp) always.
Proof.
  intros K V Q dbg kcmp borrow qcmp OL KB.
  eapply (persistent_ok rkids _ _ _ _ (hbrep kcmp) _ _ _ 0 rb_cost).
  - apply hb_new_ok.
  - apply hb_clone_ok.
  - apply hb_drop_ok.
  - intros. now apply hb_step_ok.
Qed.
Print Assumptions C37_rb_map_persistent.

(** Seven keys; the clone sees neither the removals that rebalance and fuse
    the tree, nor the insertion, nor the write through get_mut. *)
Definition ins_ (k : nat) : rb_call (K := nat) (V := nat) (Q := nat) := BOp (MInsertMut k (10 * k)).
Definition rb_heap_example : list (cmd (rb_call (K := nat) (V := nat) (Q := nat))) :=
  CNew :: map (fun k => COp 0 (ins_ k)) [4; 2; 6; 1; 3; 5; 7] ++
  [CClone 0; COp 0 (BOp (MRemoveMut 4)); COp 0 (BOp (MRemove 1)); COp 0 (BOp (MRemove 9));
   COp 1 (BOp (MInsert 8 80)); COp 1 (BOp (MGetMut 2 S)); CClone 1; CDrop 1;
   COp 0 (BIter (repeat false 6)); COp 2 (BIter [true; false; true]); COp 0 BFirst; COp 2 BLast;
   COp 0 (BOp (MGet 2)); COp 2 (BOp (MGet 2)); COp 0 (BOp MSize); COp 2 (BOp MSize)].

Example rb_heap_example_runs :
  match run [] (hclient hb_new hb_clone hb_drop
                  (hb_step true Nat.compare (fun k => k) Nat.compare) rb_heap_example []) with
  | Some (_, (_, out)) => skipn 7 out
  | None => []
  end =
  [BObs (MoBool true); BObs MoUnit; BObs MoUnit; BObs MoUnit; BObs (MoVal (Some 20));
   BSteps [(5, Some (2, 20)); (4, Some (3, 30)); (3, Some (5, 50)); (2, Some (6, 60));
           (1, Some (7, 70)); (0, None)];
   BSteps [(8, Some (8, 80)); (7, Some (1, 10)); (6, Some (7, 70))];
   BObs (MoKV (Some (2, 20))); BObs (MoKV (Some (8, 80)));
   BObs (MoVal (Some 20)); BObs (MoVal (Some 21)); BObs (MoNat 5); BObs (MoNat 8)].
Proof. vm_compute. reflexivity. Qed.

(** ** C38: counts *)
Theorem C38_rb_map_counts_exact : forall (K V Q : Type) (dbg : bool)
  (kcmp : K -> K -> comparison) (borrow : K -> Q) (qcmp : Q -> Q -> comparison),
  ord_laws qcmp -> borrow_agrees kcmp borrow qcmp ->
  counts_exact rkids (@hb_new K V) hb_clone hb_drop (hb_step dbg kcmp borrow qcmp) hb_roots
    (@nil (K * V)) (rb_call_spec kcmp borrow qcmp) always.
Proof.
  intros K V Q dbg kcmp borrow qcmp OL KB.
  eapply (counts_exact_ok rkids _ _ _ _ _ (hbrep kcmp) _ _ _ 0 rb_cost).
  - apply hb_new_ok.
  - apply hb_clone_ok.
  - apply hb_drop_ok.
  - intros. now apply hb_step_ok.
  - apply hb_rep_roots.
Qed.
Print Assumptions C38_rb_map_counts_exact.

(** ** C40: threads *)
Theorem C40_rb_map_non_interfering : forall (K V Q : Type) (dbg : bool)
  (kcmp : K -> K -> comparison) (borrow : K -> Q) (qcmp : Q -> Q -> comparison),
  ord_laws qcmp -> borrow_agrees kcmp borrow qcmp ->
  non_interfering (@hb_new K V) hb_clone hb_drop (hb_step dbg kcmp borrow qcmp)
    (@nil (K * V)) (rb_call_spec kcmp borrow qcmp) always.
Proof.
  intros K V Q dbg kcmp borrow qcmp OL KB.
  eapply (non_interfering_ok rkids _ _ _ _ hb_roots (hbrep kcmp) _ _ _ 0 rb_cost).
  - apply hb_new_ok.
  - apply hb_clone_ok.
  - apply hb_drop_ok.
  - intros. now apply hb_step_ok.
  - apply hb_rep_roots.
Qed.
Print Assumptions C40_rb_map_non_interfering.

(** Two threads with clones of the same map, one removing, one inserting. *)
Definition bthreads_main : list (cmd (rb_call (K := nat) (V := nat) (Q := nat))) :=
  CNew :: map (fun k => COp 0 (ins_ k)) [4; 2; 6; 1; 3] ++ [CClone 0].
Definition bthreads_jobs : list (job (Op := rb_call (K := nat) (V := nat) (Q := nat))) :=
  [mkJob [0] [COp 0 (BOp (MRemoveMut 6)); COp 0 (BOp (MRemoveMut 4)); COp 0 (BIter (repeat false 4)); CDrop 0];
   mkJob [1] [COp 0 (BOp (MInsertMut 5 50)); COp 0 (BOp (MGetMut 4 S)); COp 0 (BOp (MGet 4)); COp 0 BLast; CDrop 0]].

Example bthreads_hypotheses :
  within (@nil (nat * nat)) (rb_call_spec Nat.compare (fun k => k) Nat.compare) always bthreads_main [] /\
  let vs := fst (sclient [] (rb_call_spec Nat.compare (fun k => k) Nat.compare) bthreads_main []) in
  Permutation (concat (map job_regs bthreads_jobs)) (seq 0 (length vs)) /\
  Forall (job_within [] (rb_call_spec Nat.compare (fun k => k) Nat.compare) always vs) bthreads_jobs /\
  Forall (fun j => Forall (eq None) (fst (job_spec [] (rb_call_spec Nat.compare (fun k => k) Nat.compare) vs j)))
    bthreads_jobs.
Proof.
  split; [vm_compute; repeat split|]. cbn zeta. split; [apply Permutation_refl|].
  split; [|vm_compute; repeat constructor].
  repeat (constructor; [vm_compute; repeat split|]). constructor.
Qed.

(** Strict alternation of the two threads, to the end. *)
Example bthreads_run :
  let step := hb_step true Nat.compare (fun k : nat => k) Nat.compare in
  match run [] (hclient hb_new hb_clone hb_drop step bthreads_main []) with
  | Some (h, (rs, _)) =>
      let cf := exec (flat_map (fun _ => [0; 1]) (seq 0 150))
                  (h, map (job_start hb_new hb_clone hb_drop step rs) bthreads_jobs) in
      (map (fun p => match p with Ret r => Some (snd r) | _ => None end) (snd cf),
       forallb (fun x => match x with None => true | Some _ => false end) (fst cf))
  | None => ([], false)
  end =
  ([Some [BObs (MoBool true); BObs (MoBool true);
          BSteps [(3, Some (1, 10)); (2, Some (2, 20)); (1, Some (3, 30)); (0, None)]];
    Some [BObs MoUnit; BObs (MoVal (Some 40)); BObs (MoVal (Some 41)); BObs (MoKV (Some (6, 60)))]], true).
Proof. vm_compute. reflexivity. Qed.

(** ** C42: sharing *)

(** A call allocates a constant number of cells per level, and a tree of [n]
    entries has at most [2 * log2 (n + 1)] levels.  [rb_cost] spelled out. *)
Theorem C42_rb_map_allocates : forall (K V Q : Type) (dbg : bool)
  (kcmp : K -> K -> comparison) (borrow : K -> Q) (qcmp : Q -> Q -> comparison),
  ord_laws qcmp -> borrow_agrees kcmp borrow qcmp ->
  allocates_at_most (@hb_new K V) hb_clone hb_drop (hb_step dbg kcmp borrow qcmp)
    (@nil (K * V)) (rb_call_spec kcmp borrow qcmp) always
    (fun o m => let levels := 2 * Nat.log2 (length m + 1) in
                match o with
                | BOp (MInsert _ _) | BOp (MInsertMut _ _) => 3 * levels + 2
                | BOp (MRemove _) | BOp (MRemoveMut _) => 14 * levels
                | BOp (MGetMut _ _) => levels + 1
                | _ => 0
                end).
Proof.
  intros K V Q dbg kcmp borrow qcmp OL KB.
  eapply (allocates_ok rkids _ _ _ _ (hbrep kcmp) _ _ _ 0 rb_cost).
  - apply hb_new_ok.
  - apply hb_clone_ok.
  - apply hb_drop_ok.
  - intros. now apply hb_step_ok.
Qed.
Print Assumptions C42_rb_map_allocates.

(** The hypotheses are met, with a map of which another version is alive. *)
Example C42_rb_map_case : exists m,
  nth_error (fst (sclient (@nil (nat * nat)) (rb_call_spec Nat.compare (fun k => k) Nat.compare) bthreads_main [])) 1 =
  Some (Some m) /\ length m = 5 /\ always (S := fmap nat nat) (BOp (K := nat) (V := nat) (Q := nat) (MInsert 7 70)) m.
Proof. eexists. repeat split. Qed.
