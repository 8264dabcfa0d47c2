(** * Steps of List, Stack and Queue (for C50)

    [pays] for the functions of HeapList.v.  [dc f] is what dropping a pointer
    with [f] nested calls available costs, [b] bounds the pointers in a cell. *)
From Coq Require Import List Arith Lia Bool Permutation.
From Verif Require Import Base Spec ListModel HeapModel HeapProofs HeapSafe HeapLooks HeapClient HeapWorld
  HeapList HeapListProofs HeapSeqProofs HeapWork.
Import ListNotations.
Local Open Scope prog_scope.

Notation any := (fun _ => True).

Section HL.
Context {C : Type} (kids : C -> list addr) {E : Type}.
Context (mkN : addr -> option addr -> C) (isN : C -> option (addr * option addr)).
Context (mkE : E -> C) (isE : C -> option E) (ef : nat).
Context (credit : nat) (fine : C -> Prop) (dc : nat -> nat) (b : nat).
Hypothesis fineN : forall v nx, fine (mkN v nx).
Hypothesis fineE : forall e, fine (mkE e).
Hypothesis few : forall c, fine c -> length (kids c) <= b.
Hypothesis drops : forall f a, pays credit fine (dc f) (drop_ptr kids f a) any.
Notation pays := (pays credit fine).
Notation mm := (3 + b + credit + dc 2).

Lemma drop_opt_pays : forall f o, pays (dc f) (drop_opt kids f o) any.
Proof. intros f [a|]; [apply drops|exact I]. Qed.

Lemma pay_clone_opt : forall {A} o n (k : prog C A) R, 1 <= n -> pays (n - 1) k R -> pays n (clone_opt o k) R.
Proof.
  intros A [a|] n k R L S; cbn [clone_opt]; [now apply pay_clone|]. eapply pays_le; [exact S|lia].
Qed.

Lemma pay_read_node : forall {A} n a (k : addr -> option addr -> prog C A) R,
  1 <= n -> (forall v nx, pays (n - 1) (k v nx) R) -> pays n (read_node isN a k) R.
Proof.
  intros A n a k R L S. apply pay_read; trivial. intros c _. destruct (isN c) as [[v nx]|]; [apply S|exact I].
Qed.
Lemma pay_read_elem : forall {A} n a (k : E -> prog C A) R,
  1 <= n -> (forall e, pays (n - 1) (k e) R) -> pays n (read_elem isE a k) R.
Proof.
  intros A n a k R L S. apply pay_read; trivial. intros c _. destruct (isE c) as [e|]; [apply S|exact I].
Qed.

Lemma push_ptr_pays : forall v l, pays (2 + credit + dc ef) (hl_push_ptr kids mkN ef v l) any.
Proof.
  intros v l. unfold hl_push_ptr. eapply pay_call with (n1 := 1 + dc ef) (R := any); [|lia|].
  - destruct (hl_len l =? 0); [|exact I]. apply pay_clone; [lia|].
    eapply pay_call; [apply drop_opt_pays|lia|]. intros _ _. exact I.
  - intros last _. apply pay_new; [lia|apply fineN|]. intros a. exact I.
Qed.

Lemma push_pays : forall e l, pays (3 + 2 * credit + dc ef) (hl_push kids mkN mkE ef e l) any.
Proof.
  intros e l. apply pay_new; [lia|apply fineE|]. intros v. eapply pays_le; [apply push_ptr_pays|lia].
Qed.

Lemma drop_first_pays : forall l, pays (2 + dc ef + dc (S (S ef))) (hl_drop_first kids isN ef l) any.
Proof.
  intros l. unfold hl_drop_first. destruct (hl_head l) as [a|]; [|exact I].
  apply pay_read_node; [lia|]. intros v nx. apply pay_clone_opt; [lia|].
  destruct (hl_len l) as [|n]; [exact I|].
  eapply pay_call with (n1 := dc ef) (R := any); [|lia|].
  - destruct (n =? 0); [|exact I]. eapply pay_call; [apply drop_opt_pays|lia|]. intros _ _. exact I.
  - intros last _. eapply pay_call; [apply drops|lia|]. intros _ _. exact I.
Qed.

Lemma rev_loop_pays : forall f prev cur, pays (f * (1 + mm)) (hl_rev_loop kids mkN isN f prev cur) any.
Proof.
  induction f as [|f IH]; intros prev [a|]; cbn [hl_rev_loop]; try exact I.
  eapply pay_call; [apply pays_make_mut; [exact few|intros; apply drops]|lia|].
  intros [a' c] _. destruct (isN c) as [[v nx]|]; [|exact I].
  apply pay_fill; [lia|apply fineN|]. eapply pays_le; [apply IH|lia].
Qed.

Lemma reverse_mut_pays : forall l,
  pays (2 + dc ef + hl_len l * (1 + mm)) (hl_reverse_mut kids mkN isN ef l) any.
Proof.
  intros l. unfold hl_reverse_mut. eapply pay_call with (n1 := 2 + dc ef) (R := any); [|lia|].
  - destruct (hl_head l) as [a|].
    + apply pay_read_node; [lia|]. intros v _. apply pay_clone; [lia|].
      eapply pay_call; [apply drop_opt_pays|lia|]. intros _ _. exact I.
    + eapply pay_call; [apply drop_opt_pays|lia|]. intros _ _. exact I.
  - intros last _. eapply pay_call; [apply rev_loop_pays|lia|]. intros h _. exact I.
Qed.

Lemma rev_ptrs_pays : forall f cur rem acc,
  pays (f * (4 + credit + dc ef)) (hl_rev_ptrs kids mkN isN ef f cur rem acc) any.
Proof.
  induction f as [|f IH]; intros [a|] rem acc; cbn [hl_rev_ptrs]; try exact I.
  apply pay_read_node; [lia|]. intros v nx. destruct rem as [|rem]; [exact I|].
  apply pay_clone; [lia|]. eapply pay_call; [apply push_ptr_pays|lia|].
  intros acc' _. eapply pays_le; [apply IH|lia].
Qed.

Lemma reverse_pays : forall l,
  pays (hl_len l * (4 + credit + dc ef)) (hl_reverse kids mkN isN ef l) any.
Proof. intros l. apply rev_ptrs_pays. Qed.

Lemma clone_pays : forall l, pays 2 (@hl_clone C l) any.
Proof. intros l. apply pay_clone_opt; [lia|]. apply pay_clone_opt; [lia|]. exact I. Qed.

(** With credit, the loop of [Drop] is paid for by the nodes it frees. *)
Lemma drop_loop_pays : 2 <= credit -> (forall f, dc f = 1) -> forall f fd head,
  pays 2 (hl_drop_loop kids isN ef f fd head) any.
Proof.
  intros Cr D1. induction f as [|f IH]; intros fd [a|]; cbn [hl_drop_loop]; try exact I.
  apply pay_unwrap; [lia| |].
  - eapply pays_le; [apply drops|rewrite D1; lia].
  - intros c _. destruct (isN c) as [[v nx]|]; [|exact I].
    eapply pay_call; [apply drops|rewrite D1; lia|]. intros _ _. eapply pays_le; [apply IH|rewrite D1; lia].
Qed.

Lemma drop_pays : 2 <= credit -> (forall f, dc f = 1) -> forall l, pays 3 (hl_drop kids isN ef l) any.
Proof.
  intros Cr D1 l. eapply pay_call; [now apply drop_loop_pays|lia|]. intros _ _.
  eapply pays_le; [apply drop_opt_pays|rewrite D1; lia].
Qed.

Lemma first_pays : forall l, pays 2 (hl_first isN isE l) any.
Proof.
  intros l. unfold hl_first. destruct (hl_head l) as [a|]; [|exact I].
  apply pay_read_node; [lia|]. intros v _. apply pay_read_elem; [lia|]. intros e. exact I.
Qed.
Lemma last_pays : forall l, pays 1 (hl_last_elem isE l) any.
Proof.
  intros l. unfold hl_last_elem. destruct (hl_last l) as [a|]; [|exact I].
  apply pay_read_elem; [lia|]. intros e. exact I.
Qed.

Lemma push_all_pays : forall es l,
  pays (length es * (3 + 2 * credit + dc ef)) (hl_push_all kids mkN mkE ef es l) any.
Proof.
  induction es as [|e es IH]; intros l; cbn [hl_push_all length]; [exact I|].
  eapply pay_call; [apply push_pays|lia|]. intros l' _. eapply pays_le; [apply IH|lia].
Qed.
Lemma from_iter_pays : forall es,
  pays (length es * (3 + 2 * credit + dc ef)) (hl_from_iter kids mkN mkE ef es) any.
Proof. intros es. unfold hl_from_iter. rewrite <- (rev_length es). apply push_all_pays. Qed.

Lemma next_pays : forall it, pays 2 (hl_next isN isE it) any.
Proof.
  intros [[a|] n]; unfold hl_next, hl_next_ptr; cbn [fst snd pbind]; [|exact I].
  eapply pay_call with (n1 := 1) (R := any); [|lia|].
  - apply pay_read_node; [lia|]. intros v nx. now destruct n.
  - intros [[v|] it] _; [|exact I]. apply pay_read_elem; [lia|]. intros e. exact I.
Qed.
Lemma runs_pays : forall k l, pays (2 * k) (hl_runs isN isE k l) any.
Proof.
  intros k l. unfold hl_runs. generalize (hl_iter_new l). induction k as [|k IH]; intros it; cbn [pruns]; [exact I|].
  cbn [hl_hint lift pbind]. eapply pay_call; [apply next_pays|lia|]. intros [o it'] _.
  eapply pay_call; [apply IH|lia|]. intros r _. exact I.
Qed.

End HL.

(** ** The plain list: 4 units of credit; nothing special about its cells *)
Section Plain.
Context {T : Type}.
Notation every := (fun _ : lcell T => True).

Lemma lkids_few : forall c : lcell T, True -> length (lkids c) <= 2.
Proof. intros [v [nx|]|x] _; cbn; lia. Qed.

Lemma l_drops : forall f a, pays 4 every 1 (drop_ptr (@lkids T) f a) any.
Proof. apply pays_drop. intros c _. assert (X := lkids_few c I). lia. Qed.
Lemma l_drops_raw : forall f a, pays 0 every (raw 2 f) (drop_ptr (@lkids T) f a) any.
Proof. apply pays_drop_raw. apply lkids_few. Qed.

Definition list_price (o : list_op T) (s : list T) : nat :=
  match o with
  | LNew => 3
  | LFromIter vs => 12 * length vs + 3
  | LPush _ => 17
  | LPushMut _ => 12
  | LDrop => 9
  | LDropMut => 4
  | LRev => 9 * length s + 3
  | LRevMut => 11 * length s + 3
  | LFirst => 2
  | LLast => 1
  | LLen | LIsEmpty => 0
  | LIter k => 2 * k
  end.

Definition list_direct (o : list_op T) : bool :=
  match o with LNew | LFromIter _ | LPush _ | LDrop | LRev => false | _ => true end.

Definition list_limit (o : list_op T) (s : list T) : nat :=
  match o with
  | LPushMut _ => 6
  | LDropMut => 26
  | LRevMut => 15 * length s + 5
  | LFirst => 2
  | LLast => 1
  | LIter k => 2 * k
  | _ => 0
  end.

(** The calls they are made of, with credit and without. *)
Lemma l_drop : forall l, pays 4 every 3 (@hlp_drop T l) any.
Proof. intros l. eapply drop_pays with (dc := fun _ => 1); [apply l_drops|lia|trivial]. Qed.
Lemma l_push : forall x l, pays 4 every 12 (@hlp_push T x l) any.
Proof.
  intros x l. eapply pays_le; [eapply push_pays with (dc := fun _ => 1); trivial; apply l_drops|lia].
Qed.
Lemma l_drop_first : forall l, pays 4 every 4 (@hlp_drop_first T l) any.
Proof.
  intros l. eapply pays_le; [eapply drop_first_pays with (dc := fun _ => 1); trivial; apply l_drops|lia].
Qed.
Lemma l_reverse_mut : forall l, pays 4 every (11 * hl_len l + 3) (@hlp_reverse_mut T l) any.
Proof.
  intros l. eapply pays_le; [eapply reverse_mut_pays with (dc := fun _ => 1); trivial; [apply lkids_few|apply l_drops]|lia].
Qed.
Lemma l_clone : forall l, pays 4 every 2 (@hlp_clone T l) any.
Proof. intros l. apply clone_pays. Qed.
Lemma l_push_raw : forall x l, pays 0 every 6 (@hlp_push T x l) any.
Proof.
  intros x l. eapply pays_le; [eapply push_pays with (dc := raw 2); trivial; apply l_drops_raw|cbn; lia].
Qed.
Lemma l_drop_first_raw : forall l, pays 0 every 26 (@hlp_drop_first T l) any.
Proof.
  intros l. eapply pays_le; [eapply drop_first_pays with (dc := raw 2); trivial; apply l_drops_raw|cbn; lia].
Qed.
Lemma l_reverse_mut_raw : forall l, pays 0 every (15 * hl_len l + 5) (@hlp_reverse_mut T l) any.
Proof.
  intros l. eapply pays_le;
    [eapply reverse_mut_pays with (dc := raw 2); trivial; [apply lkids_few|apply l_drops_raw]|cbn [raw]; lia].
Qed.

Lemma hl_step_pays : forall o l (s : list T) G, hlrep l s G ->
  pays 4 every (list_price o s) (hl_step o l) any.
Proof.
  intros o l s G R. pose proof (hlrep_len _ _ _ R) as N.
  destruct o; cbn [hl_step list_price].
  - eapply pay_call; [apply l_drop|lia|]. intros _ _. exact I.
  - eapply pay_call; [eapply from_iter_pays with (dc := fun _ => 1); trivial; apply l_drops|lia|]. intros l' _.
    eapply pay_call; [apply l_drop|lia|]. intros _ _. exact I.
  - eapply pay_call; [apply l_clone|lia|]. intros n _. eapply pay_call; [apply l_push|lia|]. intros n' _.
    eapply pay_call; [apply l_drop|lia|]. intros _ _. exact I.
  - eapply pay_call; [apply l_push|lia|]. intros n' _. exact I.
  - eapply pay_call; [apply l_clone|lia|]. intros n _. eapply pay_call; [apply l_drop_first|lia|]. intros [n' []] _;
    (eapply pay_call; [apply l_drop|lia|]; intros _ _; exact I).
  - eapply pay_call; [apply l_drop_first|lia|]. intros [n' f] _. exact I.
  - eapply pay_call; [eapply reverse_pays with (dc := fun _ => 1); trivial; apply l_drops|lia|]. intros n' _.
    eapply pay_call; [apply l_drop|lia|]. intros _ _. exact I.
  - eapply pay_call; [apply l_reverse_mut|lia|].
    intros n' _. exact I.
  - eapply pay_call; [apply first_pays|lia|]. intros x _. exact I.
  - eapply pay_call; [apply last_pays|lia|]. intros x _. exact I.
  - exact I.
  - exact I.
  - eapply pay_call; [apply runs_pays|lia|]. intros x _. exact I.
Qed.

Lemma hl_step_direct : forall o l (s : list T) G, hlrep l s G -> list_direct o = true ->
  pays 0 every (list_limit o s) (hl_step o l) any.
Proof.
  intros o l s G R D. pose proof (hlrep_len _ _ _ R) as N.
  destruct o; try discriminate; cbn [hl_step list_limit]; try exact I.
  - eapply pay_call; [apply l_push_raw|lia|]. intros n' _. exact I.
  - eapply pay_call; [apply l_drop_first_raw|lia|]. intros [n' f] _. exact I.
  - eapply pay_call; [apply l_reverse_mut_raw|lia|].
    intros n' _. exact I.
  - eapply pay_call; [apply first_pays|lia|]. intros x _. exact I.
  - eapply pay_call; [apply last_pays|lia|]. intros x _. exact I.
  - eapply pay_call; [apply runs_pays|lia|]. intros x _. exact I.
Qed.

(** ** Stack *)
Definition stack_price (o : stack_op T) (s : list T) : nat :=
  match o with
  | SNew => 3
  | SPush _ => 17
  | SPushMut _ => 12
  | SPop => 9
  | SPopMut => 4
  | SPeek => 2
  | SSize | SIsEmpty => 0
  | SIter k => 2 * k
  end.
Definition stack_direct (o : stack_op T) : bool :=
  match o with SNew | SPush _ | SPop => false | _ => true end.
Definition stack_limit (o : stack_op T) (s : list T) : nat :=
  match o with
  | SPushMut _ => 6
  | SPopMut => 26
  | SPeek => 2
  | SIter k => 2 * k
  | _ => 0
  end.

Lemma hs_step_pays : forall o l (s : list T) G, hlrep l s G ->
  pays 4 every (stack_price o s) (HeapList.hs_step o l) any.
Proof.
  intros o l s G R. destruct o; cbn [HeapList.hs_step stack_price]; try exact I.
  - eapply pay_call; [apply l_drop|lia|]. intros _ _. exact I.
  - eapply pay_call; [apply l_clone|lia|]. intros n _. eapply pay_call; [apply l_push|lia|]. intros n' _.
    eapply pay_call; [apply l_drop|lia|]. intros _ _. exact I.
  - eapply pay_call; [apply l_push|lia|]. intros n' _. exact I.
  - eapply pay_call; [apply l_clone|lia|]. intros n _. eapply pay_call; [apply l_drop_first|lia|]. intros [n' []] _;
    (eapply pay_call; [apply l_drop|lia|]; intros _ _; exact I).
  - eapply pay_call; [apply l_drop_first|lia|]. intros [n' f] _. exact I.
  - eapply pay_call; [apply first_pays|lia|]. intros x _. exact I.
  - eapply pay_call; [apply runs_pays|lia|]. intros x _. exact I.
Qed.

Lemma hs_step_direct : forall o l (s : list T) G, hlrep l s G -> stack_direct o = true ->
  pays 0 every (stack_limit o s) (HeapList.hs_step o l) any.
Proof.
  intros o l s G R D. destruct o; try discriminate; cbn [HeapList.hs_step stack_limit]; try exact I.
  - eapply pay_call; [apply l_push_raw|lia|]. intros n' _. exact I.
  - eapply pay_call; [apply l_drop_first_raw|lia|]. intros [n' f] _. exact I.
  - eapply pay_call; [apply first_pays|lia|]. intros x _. exact I.
  - eapply pay_call; [apply runs_pays|lia|]. intros x _. exact I.
Qed.

(** ** Queue: [dequeue_mut] may have to reverse the list of the elements that
    came in *)
Definition queue_price (o : queue_op T) (s : list T) : nat :=
  match o with
  | QNew => 6
  | QFromIter vs => 12 * length vs + 6
  | QEnq _ => 22
  | QEnqMut _ => 12
  | QDeq => 11 * length s + 17
  | QDeqMut => 11 * length s + 7
  | QPeek => 2
  | QLen | QIsEmpty => 0
  | QIter _ => 2 * length s
  end.
Definition queue_direct (o : queue_op T) : bool :=
  match o with QNew | QFromIter _ | QEnq _ | QDeq => false | _ => true end.
Definition queue_limit (o : queue_op T) (s : list T) : nat :=
  match o with
  | QEnqMut _ => 6
  | QDeqMut => 15 * length s + 31
  | QPeek => 2
  | QIter _ => 2 * length s
  | _ => 0
  end.

Lemma q_len : forall q (s : list T) G, hqrep q s G -> hl_len (hq_in q) + hl_len (hq_out q) = length s.
Proof.
  intros q s G (i & o & Gi & Go & Ri & Ro & -> & ->).
  rewrite (hlrep_len _ _ _ Ri), (hlrep_len _ _ _ Ro), app_length, rev_length. lia.
Qed.

Lemma q_clone : forall cr q, pays cr every 4 (@hq_clone T q) any.
Proof.
  intros cr q. eapply pay_call; [apply clone_pays|lia|]. intros i _.
  eapply pay_call; [apply clone_pays|lia|]. intros o _. exact I.
Qed.
Lemma q_drop : forall q, pays 4 every 6 (@hq_drop T q) any.
Proof.
  intros q. eapply pay_call; [apply l_drop|lia|]. intros _ _. eapply pays_le; [apply l_drop|lia].
Qed.
Lemma q_peek : forall cr q, pays cr every 2 (@hq_peek T q) any.
Proof.
  intros cr q. unfold hq_peek. destruct (negb _); [apply first_pays|].
  eapply pays_le; [apply last_pays|lia].
Qed.
Lemma q_dequeue : forall q,
  pays 4 every (11 * (hl_len (hq_in q) + hl_len (hq_out q)) + 7) (@hq_dequeue_mut T q) any.
Proof.
  intros q. unfold hq_dequeue_mut. destruct (negb _).
  - eapply pay_call; [apply l_drop_first|lia|]. intros [o x] _. exact I.
  - destruct (negb _); [|exact I]. eapply pay_call; [apply l_reverse_mut|lia|]. intros o _.
    eapply pay_call; [apply l_drop_first|lia|]. intros [o' x] _. exact I.
Qed.
Lemma q_dequeue_raw : forall q,
  pays 0 every (15 * (hl_len (hq_in q) + hl_len (hq_out q)) + 31) (@hq_dequeue_mut T q) any.
Proof.
  intros q. unfold hq_dequeue_mut. destruct (negb _).
  - eapply pay_call; [apply l_drop_first_raw|lia|]. intros [o x] _. exact I.
  - destruct (negb _); [|exact I]. eapply pay_call; [apply l_reverse_mut_raw|lia|]. intros o _.
    eapply pay_call; [apply l_drop_first_raw|lia|]. intros [o' x] _. exact I.
Qed.

(** All calls but iteration, whose reads are bounded with [looks]. *)
Definition qstill (o : queue_op T) : Prop := match o with QIter _ => False | _ => True end.

Lemma hq_step_pays : forall o q (s : list T) G, qstill o -> hqrep q s G ->
  pays 4 every (queue_price o s) (hq_step o q) any.
Proof.
  intros o q s G St R. pose proof (q_len _ _ _ R) as N.
  destruct o; cbn [hq_step queue_price]; try exact I.
  - eapply pay_call; [apply q_drop|lia|]. intros _ _. exact I.
  - eapply pay_call; [eapply from_iter_pays with (dc := fun _ => 1); trivial; apply l_drops|lia|]. intros l' _.
    eapply pay_call; [apply q_drop|lia|]. intros _ _. exact I.
  - eapply pay_call; [apply q_clone|lia|]. intros n _.
    eapply pay_call with (n1 := 12) (R := any);
      [eapply pay_call; [apply l_push|lia|]; intros i _; exact I|lia|]. intros n' _.
    eapply pay_call; [apply q_drop|lia|]. intros _ _. exact I.
  - eapply pay_call with (n1 := 12) (R := any);
      [eapply pay_call; [apply l_push|lia|]; intros i _; exact I|lia|]. intros n' _. exact I.
  - eapply pay_call with (R := fun n => n = q) (n1 := 4); [|lia|].
    { unfold hq_clone. eapply pay_call with (R := fun x => x = hq_in q) (n1 := 2); [|lia|].
      - apply pay_clone_opt; [lia|]. apply pay_clone_opt; [lia|]. reflexivity.
      - intros i ->. eapply pay_call with (R := fun x => x = hq_out q) (n1 := 2); [|lia|].
        + apply pay_clone_opt; [lia|]. apply pay_clone_opt; [lia|]. reflexivity.
        + intros o ->. cbn. now destruct q. }
    intros n ->. eapply pay_call; [apply q_dequeue|lia|]. intros [n' []] _;
    (eapply pay_call; [apply q_drop|lia|]; intros _ _; exact I).
  - eapply pay_call; [apply q_dequeue|lia|]. intros [n' f] _. exact I.
  - eapply pay_call; [apply q_peek|lia|]. intros x _. exact I.
  - destruct St.
Qed.

Lemma hq_step_direct : forall o q (s : list T) G, qstill o -> hqrep q s G -> queue_direct o = true ->
  pays 0 every (queue_limit o s) (hq_step o q) any.
Proof.
  intros o q s G St R D. pose proof (q_len _ _ _ R) as N.
  destruct o; try discriminate; cbn [hq_step queue_limit]; try exact I.
  - eapply pay_call with (n1 := 6) (R := any);
      [eapply pay_call; [apply l_push_raw|lia|]; intros i _; exact I|lia|]. intros n' _. exact I.
  - eapply pay_call; [apply q_dequeue_raw|lia|]. intros [n' f] _. exact I.
  - eapply pay_call; [apply q_peek|lia|]. intros x _. exact I.
  - destruct St.
Qed.

Lemma q_iter_dear : forall cr q (s : list T) G k, hqrep q s G ->
  dear lkids cr every (2 * length s) (hq_step (QIter k) q) G
    (fun r G' => snd r = snd (queue_spec (QIter k) s) /\ hqrep (fst r) (fst (queue_spec (QIter k) s)) G').
Proof.
  intros cr q s G k R. cbn [hq_step].
  apply looks_dear with (Q := fun r => r = (q, OSteps (fwd_spec k s))).
  - rewrite <- (Nat.add_0_r (2 * _)). eapply looks_bind; [eapply looks_le; [apply (hq_iter_looks k q s G R)|lia]|].
    intros x ->. reflexivity.
  - intros x ->. auto.
Qed.

Lemma hq_step_dear : forall o q (s : list T) G, hqrep q s G ->
  dear lkids 4 every (queue_price o s) (hq_step o q) G
    (fun r G' => snd r = snd (queue_spec o s) /\ hqrep (fst r) (fst (queue_spec o s)) G').
Proof.
  intros o q s G R. assert (S := hq_step_ok o _ _ _ R). assert (P := fun St => hq_step_pays o q s G St R).
  destruct o; try exact (safe_pays _ _ _ _ _ _ _ _ _ S (P I)). apply (q_iter_dear _ _ _ _ _ R).
Qed.

Lemma hq_step_direct_dear : forall o q (s : list T) G, hqrep q s G -> queue_direct o = true ->
  dear lkids 0 every (queue_limit o s) (hq_step o q) G
    (fun r G' => snd r = snd (queue_spec o s) /\ hqrep (fst r) (fst (queue_spec o s)) G').
Proof.
  intros o q s G R D. assert (S := hq_step_ok o _ _ _ R). assert (P := fun St => hq_step_direct o q s G St R D).
  destruct o; try exact (safe_pays _ _ _ _ _ _ _ _ _ S (P I)). apply (q_iter_dear _ _ _ _ _ R).
Qed.
End Plain.
