(** * Property C35, and C38, C40, C42 for Vector

    Vector on the shared, reference counted heap (HeapVec.v).  The properties
    are those of HeapWorld.v; the specification is [vec_spec] of Spec.v.
    Parameters as in Prop_Vector.v: [ubits] is usize::BITS, [dbg] the profile,
    [bits] the argument of new_with_bits. *)
From Coq Require Import List NArith Arith Lia Bool Permutation.
From Verif Require Import Base Spec VectorModel VectorProofs HeapModel HeapProofs HeapSafe HeapClient HeapWorld
  HeapVec HeapVecProofs.
Import ListNotations.

(** A call is allowed when the vector it leaves is within the capacity limit
    (C11 says what happens beyond). *)
Definition fits {T} (ubits : N) (dbg : bool) (bits : N) (o : vec_op T) (l : list T) : Prop :=
  (N.of_nat (length (fst (vec_spec o l))) <= vec_limit ubits dbg bits)%N.

(** The pointer in a vector value: vector/mod.rs:94-102. *)
Definition hv_roots (v : hvec) : list addr := [hv_root v].

Lemma hv_rep_roots : forall T ubits dbg bits v (l : list T) G, hvrep ubits dbg bits v l G ->
  exists ts, G = map Tree ts /\ hv_roots v = map pa ts.
Proof. intros T ubits dbg bits v l G (w & _ & _ & t & -> & _ & ->). exists [t]. auto. Qed.

(** ** C35: persistence *)
Theorem C35_vector_persistent : forall (T : Type) (ubits : N) (dbg : bool) (bits : N),
  (8 <= ubits)%N -> (0 < bits < ubits)%N ->
  persistent (hv_new bits) hv_clone (hv_drop ubits dbg) (hv_step ubits dbg) (@nil T) vec_spec
    (fits ubits dbg bits).
Proof.
  intros T ubits dbg bits Hu [Hb Hbu].
  eapply (persistent_ok vkids _ _ _ _ (hvrep ubits dbg bits) _ _ _ 1 (vec_cost bits)).
  - now apply hv_new_ok.
  - apply hv_clone_ok.
  - now apply hv_drop_ok.
  - intros. now apply hv_step_ok.
Qed.
Print Assumptions C35_vector_persistent.

(** Two-way nodes; the clone of a five-element vector sees neither the write
    through get_mut, nor the removal, nor the push that grows the tree. *)
Definition vector_example : list (cmd (vec_op nat)) :=
  [CNew; COp 0 (VExtend [1; 2; 3; 4; 5]); CClone 0; COp 0 (VGetMut 1%N (fun x => 10 * x));
   COp 0 VDropMut; COp 1 (VPushMut 6); COp 1 (VSet 0%N 7); CClone 1; CDrop 1;
   COp 0 (VIter (repeat false 5)); COp 2 (VIter (repeat true 7))].

Example vector_example_within : within (@nil nat) vec_spec (fits 64 true 1) vector_example [].
Proof. vm_compute. repeat (split; [discriminate|]). exact I. Qed.

Example vector_example_runs :
  match run [] (hclient (hv_new 1) hv_clone (hv_drop 64 true) (hv_step 64 true) vector_example []) with
  | Some (_, (_, out)) => out
  | None => []
  end =
  [OUnit; OBool true; OBool true; OUnit; OBool true;
   OSteps [(4, Some 1); (3, Some 20); (2, Some 3); (1, Some 4); (0, None)];
   OSteps [(6, Some 6); (5, Some 5); (4, Some 4); (3, Some 3); (2, Some 2); (1, Some 7); (0, None)]].
Proof. vm_compute. reflexivity. Qed.

(** ** C38: counts *)
Theorem C38_vector_counts_exact : forall (T : Type) (ubits : N) (dbg : bool) (bits : N),
  (8 <= ubits)%N -> (0 < bits < ubits)%N ->
  counts_exact vkids (hv_new bits) hv_clone (hv_drop ubits dbg) (hv_step ubits dbg) hv_roots
    (@nil T) vec_spec (fits ubits dbg bits).
Proof.
  intros T ubits dbg bits Hu [Hb Hbu].
  eapply (counts_exact_ok vkids _ _ _ _ _ (hvrep ubits dbg bits) _ _ _ 1 (vec_cost bits)).
  - now apply hv_new_ok.
  - apply hv_clone_ok.
  - now apply hv_drop_ok.
  - intros. now apply hv_step_ok.
  - apply hv_rep_roots.
Qed.
Print Assumptions C38_vector_counts_exact.

(** ** C40: threads *)
Theorem C40_vector_non_interfering : forall (T : Type) (ubits : N) (dbg : bool) (bits : N),
  (8 <= ubits)%N -> (0 < bits < ubits)%N ->
  non_interfering (hv_new bits) hv_clone (hv_drop ubits dbg) (hv_step ubits dbg) (@nil T) vec_spec
    (fits ubits dbg bits).
Proof.
  intros T ubits dbg bits Hu [Hb Hbu].
  eapply (non_interfering_ok vkids _ _ _ _ hv_roots (hvrep ubits dbg bits) _ _ _ 1 (vec_cost bits)).
  - now apply hv_new_ok.
  - apply hv_clone_ok.
  - now apply hv_drop_ok.
  - intros. now apply hv_step_ok.
  - apply hv_rep_roots.
Qed.
Print Assumptions C40_vector_non_interfering.

(** Two threads with clones of the same vector, both writing to it. *)
Definition vthreads_main : list (cmd (vec_op nat)) :=
  [CNew; COp 0 (VExtend [1; 2; 3; 4; 5]); CClone 0].
Definition vthreads_jobs : list (job (Op := vec_op nat)) :=
  [mkJob [0] [COp 0 (VSetMut 0%N 9); COp 0 VDropMut; COp 0 (VIter (repeat false 5)); CDrop 0];
   mkJob [1] [COp 0 (VGetMut 0%N S); COp 0 (VPushMut 6); COp 0 (VGet 0%N); COp 0 VLast; CDrop 0]].

Example vthreads_hypotheses :
  within (@nil nat) vec_spec (fits 64 true 1) vthreads_main [] /\
  let vs := fst (sclient [] vec_spec vthreads_main []) in
  Permutation (concat (map job_regs vthreads_jobs)) (seq 0 (length vs)) /\
  Forall (job_within [] vec_spec (fits 64 true 1) vs) vthreads_jobs /\
  Forall (fun j => Forall (eq None) (fst (job_spec [] vec_spec vs j))) vthreads_jobs.
Proof.
  split; [vm_compute; repeat (split; [discriminate|]); exact I|]. cbn zeta. split; [apply Permutation_refl|].
  split; [|vm_compute; repeat constructor].
  repeat (constructor; [vm_compute; repeat (split; [discriminate|]); exact I|]). constructor.
Qed.

(** Strict alternation of the two threads, to the end. *)
Example vthreads_run :
  match run [] (hclient (hv_new 1) hv_clone (hv_drop 64 true) (hv_step 64 true) vthreads_main []) with
  | Some (h, (rs, _)) =>
      let cf := exec (flat_map (fun _ => [0; 1]) (seq 0 120))
                  (h, map (job_start (hv_new 1) hv_clone (hv_drop 64 true) (hv_step 64 true) rs) vthreads_jobs) in
      (map (fun p => match p with Ret r => Some (snd r) | _ => None end) (snd cf),
       forallb (fun x => match x with None => true | Some _ => false end) (fst cf))
  | None => ([], false)
  end =
  ([Some [OBool true; OBool true; OSteps [(4, Some 9); (3, Some 2); (2, Some 3); (1, Some 4); (0, None)]];
    Some [OBool true; OUnit; OElem (Some 2); OElem (Some 6)]], true).
Proof. vm_compute. reflexivity. Qed.

(** ** C42: sharing *)

(** A tree of [2^bits]-way nodes over [n] elements has [levels bits n] levels:
    the least number [k >= 1] with [n <= (2^bits)^k]. *)
Theorem C42_levels_meaning : forall bits n k, (0 < bits)%N -> 1 <= k ->
  (levels bits n <= k <-> (n <= (2 ^ bits) ^ N.of_nat k)%N).
Proof.
  intros bits n k Hb Hk. unfold levels. rewrite <- N.pow_mul_r.
  destruct (N.le_gt_cases n 1) as [H|H].
  - replace (n - 1)%N with 0%N by lia. cbn [N.log2]. rewrite N.div_0_l by lia. cbn [N.to_nat].
    split; intros _; [|lia]. pose proof (N.pow_nonzero 2 (bits * N.of_nat k)). lia.
  - assert (E : (N.log2 (n - 1) < bits * N.of_nat k <-> n - 1 < 2 ^ (bits * N.of_nat k))%N).
    { symmetry. apply N.log2_lt_pow2. lia. }
    assert (E2 : (N.log2 (n - 1) / bits < N.of_nat k <-> N.log2 (n - 1) < bits * N.of_nat k)%N).
    { split; intros L.
      - pose proof (N.mul_succ_div_gt (N.log2 (n - 1)) bits). nia.
      - apply N.div_lt_upper_bound; lia. }
    pose proof (N.pow_nonzero 2 (bits * N.of_nat k)). lia.
Qed.
Print Assumptions C42_levels_meaning.

(** What a call may allocate: a copy of the nodes on one path from the root,
    and at most two more cells.  [vec_cost] spelled out. *)
Theorem C42_vector_allocates : forall (T : Type) (ubits : N) (dbg : bool) (bits : N),
  (8 <= ubits)%N -> (0 < bits < ubits)%N ->
  allocates_at_most (hv_new bits) hv_clone (hv_drop ubits dbg) (hv_step ubits dbg) (@nil T) vec_spec
    (fits ubits dbg bits)
    (fun o l => let n := N.of_nat (length l) in
                match o with
                | VPush _ | VPushMut _ => levels bits (n + 1) + 2
                | VExtend xs => length xs * (levels bits (n + N.of_nat (length xs)) + 2)
                | VSet _ _ | VSetMut _ _ | VGetMut _ _ => levels bits n + 1
                | VDrop | VDropMut => levels bits n
                | _ => 0
                end).
Proof.
  intros T ubits dbg bits Hu [Hb Hbu].
  eapply (allocates_ok vkids _ _ _ _ (hvrep ubits dbg bits) _ _ _ 1 (vec_cost bits)).
  - now apply hv_new_ok.
  - apply hv_clone_ok.
  - now apply hv_drop_ok.
  - intros. now apply hv_step_ok.
Qed.
Print Assumptions C42_vector_allocates.

(** A vector of a million elements in 32-way nodes: at most five cells for a set. *)
Example C42_vector_million : levels 5 1000000%N + 1 = 5.
Proof. reflexivity. Qed.

(** The hypotheses are met, with a vector of which another version is alive. *)
Example C42_vector_case : exists v,
  nth_error (fst (sclient (@nil nat) vec_spec vthreads_main [])) 1 = Some (Some v) /\ length v = 5 /\
  fits 64 true 1 (VPush 6) v.
Proof. eexists. splits; [reflexivity..|]. vm_compute. discriminate. Qed.
