(** Properties of List, Stack and Queue (C01-C06, sequence part of C33). *)
From Coq Require Import List Arith Bool Lia.
From Verif Require Import Base Spec Sim ListModel ListProofs QueueCost.
Import ListNotations.

(** C01.  Every history of List calls runs without panic and returns exactly what a plain
    sequence would return ([list_spec] in Spec.v). *)
Theorem C01_list_history : forall (T : Type) (ops : list (list_op T)),
  exists l, exec_m l_step ops l_new = Ok (l, snd (exec_s list_spec ops [])).
Proof. intros T ops. destruct (list_history ops) as (l & E & _). exact (ex_intro _ l E). Qed.
Print Assumptions C01_list_history.

Example C01_case : exec_m l_step
    [LPush 1; LPushMut 2; LPush 3; LRevMut; LFirst; LLast; LDropMut; LIter 3; LRev; LLen; LLast] l_new
  = Ok (mkL [3; 2] (Some 2) 2,
        [OUnit; OUnit; OUnit; OUnit; OElem (Some 1); OElem (Some 3); OBool true;
         OSteps [(2, Some 2); (1, Some 3); (0, None)]; OUnit; ONat 2; OElem (Some 2)]).
Proof. reflexivity. Qed.

(** C02.  Whatever the history, [last] is the final element of what [iter] yields. *)
Theorem C02_list_last : forall (T : Type) (ops : list (list_op T)) l outs,
  exec_m l_step ops l_new = Ok (l, outs) ->
  exists s, l_elems l = Ok s /\ l_last_elem l = last_error s.
Proof.
  intros T ops l outs H. destruct (list_history ops) as (l' & E & R).
  rewrite E in H. injection H as <- _.
  exact (ex_intro _ _ (conj (l_elems_ok _ _ R) (proj1 (proj2 R)))).
Qed.
Print Assumptions C02_list_last.

Example C02_case :
  exists l outs, exec_m l_step [LPush 1; LDropMut; LPush 2; LPush 3; LRevMut; LDrop] l_new = Ok (l, outs)
    /\ l_elems l = Ok [3] /\ l_last_elem l = Some 3.
Proof. do 2 eexists. repeat split. Qed.

(** The crate-internal [first_mut] (used only on collision buckets) writes the first element.
    It is sound for the cached [last] exactly because those lists have two elements or more:
    with at least two elements the result is the updated sequence with the right [last] ... *)
Theorem C02_first_mut : forall (T : Type) (ops : list (list_op T)) l outs (f : T -> T) x y s,
  exec_m l_step ops l_new = Ok (l, outs) ->
  l_elems l = Ok (x :: y :: s) ->
  exists l', l_first_mut f l = (l', true) /\
    l_elems l' = Ok (f x :: y :: s) /\ l_last_elem l' = last_error (f x :: y :: s).
Proof.
  intros T ops l outs f x y s H E. destruct (list_history ops) as (l0 & E0 & R).
  rewrite E0 in H. injection H as <- _. rewrite (l_elems_ok _ _ R) in E. injection E as E. rewrite E in R.
  destruct R as (R1 & R2 & R3). unfold l_first_mut. rewrite R1.
  assert (R' : l_rep (mkL (f x :: y :: s) (l_last l0) (l_length l0)) (f x :: y :: s)).
  { split; [reflexivity|]. split; [exact R2|exact R3]. }
  eexists. split; [reflexivity|]. exact (conj (l_elems_ok _ _ R') R2).
Qed.
Print Assumptions C02_first_mut.

(** ... on an empty list it returns nothing, and on a one-element list it would leave [last]
    at the old value. *)
Theorem C02_first_mut_singleton_refuted : forall (T : Type) (f : T -> T) x, f x <> x ->
  l_first_mut f (@l_new T) = (l_new, false) /\
  exists l outs l', exec_m l_step [LPush x] l_new = Ok (l, outs) /\
    l_first_mut f l = (l', true) /\ l_elems l' = Ok [f x] /\ l_last_elem l' = Some x /\
    l_last_elem l' <> last_error [f x].
Proof.
  intros T f x Hx. split; [reflexivity|]. do 3 eexists. repeat split.
  cbn. intros E. injection E as E. exact (Hx (eq_sym E)).
Qed.
Print Assumptions C02_first_mut_singleton_refuted.

Example C02_first_mut_case : exists l outs l', exec_m l_step [LPush 3; LPush 2; LPush 1] l_new = Ok (l, outs) /\
  l_elems l = Ok [1; 2; 3] /\ l_first_mut S l = (l', true) /\ l_elems l' = Ok [2; 2; 3].
Proof. do 3 eexists. repeat split. Qed.

(** C03.  Stack. *)
Theorem C03_stack_history : forall (T : Type) (ops : list (stack_op T)),
  exists s, exec_m s_step ops s_new = Ok (s, snd (exec_s stack_spec ops [])).
Proof. intros T ops. destruct (stack_history ops) as (l & E & _). exact (ex_intro _ l E). Qed.
Print Assumptions C03_stack_history.

Example C03_case : exec_m s_step [SPush 1; SPushMut 2; SPeek; SPop; SPopMut; SPopMut; SSize] s_new
  = Ok (s_new, [OUnit; OUnit; OElem (Some 2); OBool true; OBool true; OBool false; ONat 0]).
Proof. reflexivity. Qed.

(** C04, C05.  Queue, including stepwise iteration with exact size hints. *)
Theorem C04_queue_history : forall (T : Type) (ops : list (queue_op T)),
  exists q, exec_m q_step ops q_new = Ok (q, snd (exec_s queue_spec ops [])).
Proof. intros T ops. destruct (queue_history ops) as (l & E & _). exact (ex_intro _ l E). Qed.
Print Assumptions C04_queue_history.

Theorem C05_queue_iteration : forall (T : Type) (ops : list (queue_op T)) q outs k,
  exec_m q_step ops q_new = Ok (q, outs) ->
  runs q_iter_next q_iter_hint k (q_iter_new q) = Ok (fwd_spec k (fst (exec_s queue_spec ops []))).
Proof.
  intros T ops q outs k H. destruct (queue_history ops) as (q' & E & R).
  rewrite E in H. injection H as <- _.
  exact (sim_runs _ _ _ _ _ q_iter_sim k _ _ (q_iter_new_rep _ _ R)).
Qed.
Print Assumptions C05_queue_iteration.

(** A queue with elements on both internal sides. *)
Example C05_case : exists q outs,
  exec_m q_step [QEnq 1; QEnqMut 2; QEnq 3; QDeq; QEnq 4; QPeek; QIter 4] q_new = Ok (q, outs)
  /\ l_head (q_in q) = [4] /\ l_head (q_out q) = [2; 3]
  /\ outs = [OUnit; OUnit; OUnit; OBool true; OUnit; OElem (Some 2);
             OSteps [(3, Some 2); (2, Some 3); (1, Some 4); (0, None)]].
Proof. do 2 eexists. repeat split. Qed.

(** C06.  In any in-place history from an empty queue the total number of nodes touched is
    at most twice the number of operations. *)
Theorem C06_queue_amortised : forall (T : Type) (ops : list (option T)),
  exists q c, q_cost ops q_new = Ok (q, c) /\ c <= 2 * length ops.
Proof. exact (fun T => @q_cost_linear T). Qed.
Print Assumptions C06_queue_amortised.

(** The counted dequeue is the real one. *)
Theorem C06_cost_model_faithful : forall (T : Type) (q : rqueue T),
  (let! (q', b, _) := q_dequeue_mut_c q in Ok (q', b)) = q_dequeue_mut q.
Proof. exact (fun T => @q_dequeue_mut_c_proj T). Qed.
Print Assumptions C06_cost_model_faithful.

(** The amortised bound does not extend to persistent use: dequeueing one and the same
    version [k] times costs [k * (n + 1)]. *)
Theorem C06_persistent_use_refuted : forall (T : Type) (vs : list T) k, vs <> [] ->
  repeat_dequeue_cost k (q_macro vs) = Ok (k * (length vs + 1)).
Proof. exact (fun T => @repeat_dequeue_expensive T). Qed.
Print Assumptions C06_persistent_use_refuted.

Example C06_case : exists q, q_cost [Some 1; Some 2; Some 3; None; None; Some 4; None; None; None] q_new
  = Ok (q, 13).
Proof. eexists. reflexivity. Qed.

(** C33 (sequences).  Macros and [from_iter]: argument order.  [stack!] pushes left to
    right, so its top is the last argument, whereas [Stack::from_iter] puts the first item
    on top. *)
Theorem C33_list_construction : forall (T : Type) (vs : list T),
  l_elems (l_from_iter vs) = Ok vs /\ l_elems (l_macro vs) = Ok vs.
Proof.
  exact (fun T vs => conj (l_elems_ok _ _ (l_rep_from_iter vs)) (l_elems_ok _ _ (l_rep_macro vs))).
Qed.
Print Assumptions C33_list_construction.

Theorem C33_list_macro_evaluation_order : forall (T : Type) (vs : list T),
  list_reverse_macro vs [] = rev vs.
Proof. intros T vs. rewrite list_reverse_macro_eq. exact (app_nil_r (rev vs)). Qed.
Print Assumptions C33_list_macro_evaluation_order.

Theorem C33_queue_construction : forall (T : Type) (vs : list T),
  q_elems (q_from_iter vs) = Ok vs /\ q_elems (q_macro vs) = Ok vs.
Proof.
  exact (fun T vs => conj (q_elems_ok _ _ (q_rep_from_iter vs)) (q_elems_ok _ _ (q_rep_macro vs))).
Qed.
Print Assumptions C33_queue_construction.

Theorem C33_stack_construction : forall (T : Type) (vs : list T),
  l_elems (s_list (s_macro vs)) = Ok (rev vs) /\ l_elems (s_list (s_from_iter vs)) = Ok vs.
Proof.
  exact (fun T vs => conj (l_elems_ok _ _ (s_rep_macro vs)) (l_elems_ok _ _ (l_rep_from_iter vs))).
Qed.
Print Assumptions C33_stack_construction.

Example C33_case : l_elems (l_macro [1; 2; 3]) = Ok [1; 2; 3]
  /\ s_peek (s_macro [1; 2; 3]) = Some 3 /\ s_peek (s_from_iter [1; 2; 3]) = Some 1.
Proof. repeat split. Qed.
