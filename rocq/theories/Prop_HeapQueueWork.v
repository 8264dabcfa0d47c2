(** * Property C53: Queue calls are cheap on average

    The table in queue/mod.rs:79-90 gives [dequeue] as Θ(1) amortised, Θ(n) in the
    worst case.  Here the amortised bound, in steps on the shared heap (HeapModel.v, as for
    C50): every call is charged a constant, whatever the queue holds, and the steps
    of all calls of all threads together are at most what the calls are charged.
    Only [clone] is charged by the number of elements, although it takes 4 steps
    itself: the version it makes may have to be reversed once more.  No
    constant would do ([C53_constant_clones_refuted]): the amortised Θ(1) of the table
    is not to be had together with its Θ(1) for [clone]. *)
From Coq Require Import List Arith Lia Bool Permutation.
From Verif Require Import Base Spec Sim HeapModel HeapProofs HeapSafe HeapClient HeapWorld
  HeapList HeapListProofs HeapSeqProofs HeapWork HeapWorkSeq HeapQueueWork.
From Verif Require Prop_HeapSeq.
Import ListNotations.

Notation always := Prop_HeapSeq.always.
Notation sp S P := (safe_pays _ _ _ _ _ _ _ _ _ S P).

Lemma two_works : forall T : Type,
  total_work (Ret hq_new) hq_clone hq_drop hq_step ([], []) (@two_spec T) (fun _ _ => True) 0 4 6 two_price.
Proof.
  intros T. eapply (total_work_ok lkids 4 (fun _ => True) _ _ _ _ two_rep).
  - refine (sp two_new_ok (_ : pays _ _ _ _ any)). exact I.
  - intros c v G R. exact (sp (two_clone_ok _ _ _ R) (q_clone 4 _)).
  - intros c v G R. exact (sp (two_drop_ok _ _ _ R) (q_drop _)).
  - intros o c v G R _. exact (two_step_dear o _ _ _ R).
Qed.

(** Charges: of a new queue 0, of a drop 6, of a clone 11 for each element and 4. *)
Theorem C53_queue_amortised_work : forall T : Type,
  charged_work (@nil T) queue_spec
    0 (fun s => 11 * length s + 4) 6
    (fun o s => match o with
                | QNew => 6
                | QFromIter vs => 12 * length vs + 6
                | QEnq _ => 33
                | QEnqMut _ => 23
                | QDeq => 17
                | QDeqMut => 7
                | QPeek => 2
                | QLen | QIsEmpty => 0
                | QIter _ => 2 * length s
                end)
    (Ret hq_new) hq_clone hq_drop hq_step (fun _ _ => True).
Proof.
  intros T. refine (charged_work_ok [] _ ([], []) _ joined eq_refl two_joined 0 4 6 two_price _ _ two_pot eq_refl _ two_pot_op _ _ _ _ (two_works T)).
  intros [i o]. unfold two_pot, joined. cbn [fst snd]. rewrite app_length, rev_length. lia.
Qed.
Print Assumptions C53_queue_amortised_work.

(** ** Specification: programs of the calls the table gives as Θ(1) on average *)
Definition brief {T} (c : cmd (queue_op T)) : Prop :=
  match c with
  | CClone _ | COp _ (QFromIter _) | COp _ (QIter _) => False
  | _ => True
  end.

(** A program of such calls takes at most 33 steps for each, however long it is and
    however many queues it uses. *)
Theorem C53_queue_linear : forall (T : Type) (main : list (cmd (queue_op T))),
  Forall brief main ->
  work [] (hclient (Ret hq_new) hq_clone hq_drop hq_step main []) <= 33 * length main.
Proof.
  intros T main B.
  set (n := length (fst (sclient (@nil T) queue_spec main []))).
  assert (W : forall l rs, within (@nil T) queue_spec (fun _ _ => True) l rs).
  { induction l as [|[|i|i o|i] l IH]; intros rs; cbn [within]; trivial; destruct (nth_error rs i) as [[f|]|]; auto. }
  destruct (C53_queue_amortised_work T main [mkJob (List.seq 0 n) []]) as (h & rs & _ & A).
  - apply W.
  - cbn [map job_regs concat]. rewrite app_nil_r. apply Permutation_refl.
  - constructor; [|constructor]. apply W.
  - specialize (A []). cbn [map job_cmds charge_of list_sum fold_right] in A.
    match goal with A : _ <= charge_of _ _ ?a ?b ?c ?d _ _ + _ |- _ =>
      assert (L : forall l rs, Forall brief l -> charge_of (@nil T) queue_spec a b c d l rs <= 33 * length l) end.
    + induction l as [|[|i|i o|i] l IH]; intros rs' F; inversion F as [|? ? F1 F2]; subst; cbn [charge_of length].
      * lia.
      * specialize (IH (rs' ++ [Some []]) F2). lia.
      * destruct F1.
      * destruct (nth_error rs' i) as [[v|]|]; [|specialize (IH rs' F2); lia..].
        specialize (IH (upd rs' i (Some (fst (queue_spec o v)))) F2). destruct o; cbn in F1; destruct F1; lia.
      * destruct (nth_error rs' i) as [[v|]|]; [|specialize (IH rs' F2); lia..].
        specialize (IH (upd rs' i None) F2). lia.
    + specialize (L main [] B). lia.
Qed.
Print Assumptions C53_queue_linear.

(** ** Clones cannot be charged a constant *)
Section Kept.
Context {T : Type} (x : T).
(** [n] elements come in; [k] times a clone is made and an element taken from it. *)
Definition kept (n k : nat) : list (cmd (queue_op T)) :=
  CNew :: repeat (COp 0 (QEnqMut x)) n ++ flat_map (fun j => [CClone 0; COp j QDeqMut]) (List.seq 1 k).

Lemma kept_length : forall n k, length (kept n k) = 1 + n + 2 * k.
Proof.
  intros n k. unfold kept.
  assert (L : forall a, length (flat_map (fun j => [CClone 0; COp j (@QDeqMut T)]) (List.seq a k)) = 2 * k).
  { induction k as [|k IH]; intros a; [trivial|]. cbn [List.seq flat_map app length]. rewrite IH. lia. }
  cbn [length]. rewrite app_length, repeat_length, L. lia.
Qed.

Notation least := (price_of ([], []) (@two_spec T) 0 0 0 two_least).
Lemma kept_in : forall n i l, least l [Some (repeat x n ++ i, [])] <= least (repeat (COp 0 (QEnqMut x)) n ++ l) [Some (i, [])].
Proof.
  induction n as [|n IH]; intros i l; [apply le_n|].
  change (repeat (COp 0 (QEnqMut x)) (S n) ++ l) with (COp 0 (QEnqMut x) :: repeat (COp 0 (QEnqMut x)) n ++ l).
  cbn [price_of nth_error upd two_spec fst snd]. etransitivity; [|apply Nat.le_add_l]. etransitivity; [|apply IH].
  replace (repeat x (S n) ++ i) with (repeat x n ++ x :: i); [apply le_n|].
  clear. induction n as [|n IHn]; [trivial|]. cbn [repeat app] in *. now rewrite IHn.
Qed.
Lemma kept_out : forall k i rs,
  k * length i <= least (flat_map (fun j => [CClone 0; COp j QDeqMut]) (List.seq (S (length rs)) k)) (Some (i, []) :: rs).
Proof.
  induction k as [|k IH]; intros i rs; [apply Nat.le_0_l|].
  cbn [List.seq flat_map app price_of nth_error].
  rewrite nth_error_app2 by lia. rewrite Nat.sub_diag. cbn [nth_error upd].
  assert (L : forall y, length (rs ++ [y]) = S (length rs)) by (intros y; rewrite app_length; cbn; lia).
  assert (U : forall X (l : list X) a b, upd (l ++ [a]) (length l) b = l ++ [b]).
  { clear. intros X l a b. induction l as [|r l IH]; [trivial|]. cbn [app length upd]. now rewrite IH. }
  rewrite U. specialize (IH i (rs ++ [Some (fst (two_spec QDeqMut (i, [])))])). rewrite L in IH. unfold two in *.
  cbn [two_least snd fst]. cbn [Nat.mul Nat.add]. lia.
Qed.

Lemma kept_work : forall n k, k * n <= work [] (hclient (Ret hq_new) hq_clone hq_drop hq_step (kept n k) []).
Proof.
  intros n k. etransitivity; [|eapply (client_least lkids _ _ _ _ two_rep ([], []) two_spec 0 (fun o v => queue_cost o (joined v)) two_least two_new_ok two_clone_ok two_drop_ok two_step_ok two_op_least (kept n k) [] [] []); [constructor|apply WF_nil]].
  unfold kept. cbn [price_of app Nat.add]. etransitivity; [|apply kept_in]. rewrite app_nil_r.
  rewrite <- (repeat_length x n) at 1. apply (kept_out k (repeat x n) []).
Qed.
End Kept.

(** Whatever constant: some program of [new], [enqueue_mut], [clone] and
    [dequeue_mut] takes more than that many steps per call. *)
Theorem C53_constant_clones_refuted : forall (T : Type) (x : T) (K : nat), exists main : list (cmd (queue_op T)),
  Forall (fun c => match c with CNew | CClone _ | COp _ (QEnqMut _) | COp _ QDeqMut => True | _ => False end) main /\
  K * length main < work [] (hclient (Ret hq_new) hq_clone hq_drop hq_step main []).
Proof.
  intros T x K. exists (kept x (4 * K + 1) (4 * K + 1)). split.
  - unfold kept. constructor; [exact I|]. apply Forall_app. split; apply Forall_forall.
    + intros c H. apply repeat_spec in H. now subst c.
    + intros c H. apply in_flat_map in H as (j & _ & [<-|[<-|[]]]); exact I.
  - pose proof (kept_work x (4 * K + 1) (4 * K + 1)). rewrite kept_length. lia.
Qed.
Print Assumptions C53_constant_clones_refuted.

(** A program that meets the hypotheses: five elements come in, a version is kept,
    both are emptied again, by two threads; the steps made and what was charged. *)
Definition some_main : list (cmd (queue_op nat)) :=
  [CNew; COp 0 (QEnqMut 1); COp 0 (QEnq 2); COp 0 (QEnqMut 3); COp 0 (QEnq 4); COp 0 (QEnqMut 5); COp 0 QDeqMut; COp 0 (QEnqMut 6); CClone 0].
Definition some_jobs : list (@job (queue_op nat)) :=
  [mkJob [0] [COp 0 QDeqMut; COp 0 QDeqMut; COp 0 QDeq; COp 0 QDeqMut; COp 0 QDeqMut; CDrop 0];
   mkJob [1] [COp 0 QDeq; COp 0 QDeq; COp 0 QDeqMut; COp 0 QDeqMut; COp 0 QDeqMut; CDrop 0]].
Example amortised_hypotheses :
  within (@nil nat) queue_spec (fun _ _ => True) some_main [] /\
  let vs := fst (sclient [] queue_spec some_main []) in
  vs = [Some [2; 3; 4; 5; 6]; Some [2; 3; 4; 5; 6]] /\
  Permutation (concat (map job_regs some_jobs)) (List.seq 0 (length vs)) /\
  Forall (job_within [] queue_spec (fun _ _ => True) vs) some_jobs.
Proof.
  split; [cbn; tauto|]. split; [reflexivity|]. split; [apply Permutation_refl|].
  repeat constructor.
Qed.
Example amortised_case :
  let vs := fst (sclient [] queue_spec some_main []) in
  match run [] (hclient (Ret hq_new) hq_clone hq_drop hq_step some_main []) with
  | Some (h, (rs, _)) =>
      work [] (hclient (Ret hq_new) hq_clone hq_drop hq_step some_main []) +
      moves (flat_map (fun _ => [0; 1]) (List.seq 0 200))
        (h, map (job_start (Ret hq_new) hq_clone hq_drop hq_step rs) some_jobs)
  | None => 0
  end = 151 /\
  charge_of [] queue_spec 0 (fun s => 11 * length s + 4) 6 queue_charge some_main [] +
  list_sum (map (fun j => charge_of [] queue_spec 0 (fun s => 11 * length s + 4) 6 queue_charge (job_cmds j) (hand vs (job_regs j))) some_jobs) = 336.
Proof. vm_compute. split; reflexivity. Qed.
Example linear_case : Forall brief (firstn 8 some_main) /\
  work [] (hclient (Ret hq_new) hq_clone hq_drop hq_step (firstn 8 some_main) []) = 46 /\ 33 * length (firstn 8 some_main) = 264.
Proof. split; [repeat constructor|]. vm_compute. split; reflexivity. Qed.
