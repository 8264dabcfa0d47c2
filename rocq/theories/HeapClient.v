(** * Clients: any number of threads, each with any number of versions

    Generic over the collection.  A client holds versions of a collection in
    registers; it creates, clones, updates in place, observes and drops them in
    any order.  The non-destructive operations of the crate are a clone
    followed by the in-place operation on the clone (list/mod.rs:237-243,
    273-285, vector/mod.rs:194-205 and so on), so a client can express them.

    The specification of a client knows nothing of pointers: each register is a
    value of its own, and an operation changes the register it is applied to
    and no other. *)
From Coq Require Import List Arith Lia Bool Permutation.
From Verif Require Import PermSolve HeapModel HeapProofs HeapSafe.
Import ListNotations.
Local Open Scope prog_scope.

Section Client.
Context {C : Type} (kids : C -> list addr).
Context {Coll Val Op Out : Type}.

Inductive cmd := CNew | CClone (i : nat) | COp (i : nat) (o : Op) | CDrop (i : nat).

(** ** The specification *)
Section Spec.
Context (vnew : Val) (vop : Op -> Val -> Val * Out).

Fixpoint sclient (l : list cmd) (rs : list (option Val)) : list (option Val) * list Out :=
  match l with
  | [] => (rs, [])
  | CNew :: l' => sclient l' (rs ++ [Some vnew])
  | CClone i :: l' =>
      match nth_error rs i with
      | Some (Some v) => sclient l' (rs ++ [Some v])
      | _ => sclient l' rs
      end
  | COp i o :: l' =>
      match nth_error rs i with
      | Some (Some v) =>
          let (v', x) := vop o v in
          let (rs', xs) := sclient l' (upd rs i (Some v')) in (rs', x :: xs)
      | _ => sclient l' rs
      end
  | CDrop i :: l' =>
      match nth_error rs i with
      | Some (Some v) => sclient l' (upd rs i None)
      | _ => sclient l' rs
      end
  end.

(** Every operation performed meets its precondition. *)
Fixpoint within (pre : Op -> Val -> Prop) (l : list cmd) (rs : list (option Val)) : Prop :=
  match l with
  | [] => True
  | CNew :: l' => within pre l' (rs ++ [Some vnew])
  | CClone i :: l' =>
      match nth_error rs i with
      | Some (Some v) => within pre l' (rs ++ [Some v])
      | _ => within pre l' rs
      end
  | COp i o :: l' =>
      match nth_error rs i with
      | Some (Some v) => pre o v /\ within pre l' (upd rs i (Some (fst (vop o v))))
      | _ => within pre l' rs
      end
  | CDrop i :: l' =>
      match nth_error rs i with
      | Some (Some v) => within pre l' (upd rs i None)
      | _ => within pre l' rs
      end
  end.

(** What the operations performed may allocate in all. *)
Fixpoint cost_of (ncost : nat) (cost : Op -> Val -> nat) (l : list cmd) (rs : list (option Val)) : nat :=
  match l with
  | [] => 0
  | CNew :: l' => ncost + cost_of ncost cost l' (rs ++ [Some vnew])
  | CClone i :: l' =>
      match nth_error rs i with
      | Some (Some v) => cost_of ncost cost l' (rs ++ [Some v])
      | _ => cost_of ncost cost l' rs
      end
  | COp i o :: l' =>
      match nth_error rs i with
      | Some (Some v) => cost o v + cost_of ncost cost l' (upd rs i (Some (fst (vop o v))))
      | _ => cost_of ncost cost l' rs
      end
  | CDrop i :: l' =>
      match nth_error rs i with
      | Some (Some v) => cost_of ncost cost l' (upd rs i None)
      | _ => cost_of ncost cost l' rs
      end
  end.
End Spec.

(** ** The client on the heap *)
Context (hnew : prog C Coll) (hclone : Coll -> prog C Coll) (hdrop : Coll -> prog C unit)
        (hop : Op -> Coll -> prog C (Coll * Out)).

Fixpoint hclient (l : list cmd) (rs : list (option Coll)) : prog C (list (option Coll) * list Out) :=
  match l with
  | [] => Ret (rs, [])
  | CNew :: l' => let* c := hnew in hclient l' (rs ++ [Some c])
  | CClone i :: l' =>
      match nth_error rs i with
      | Some (Some c) => let* c' := hclone c in hclient l' (rs ++ [Some c'])
      | _ => hclient l' rs
      end
  | COp i o :: l' =>
      match nth_error rs i with
      | Some (Some c) =>
          let* (c', x) := hop o c in
          let* (rs', xs) := hclient l' (upd rs i (Some c')) in
          Ret (rs', x :: xs)
      | _ => hclient l' rs
      end
  | CDrop i :: l' =>
      match nth_error rs i with
      | Some (Some c) => let* _ := hdrop c in hclient l' (upd rs i None)
      | _ => hclient l' rs
      end
  end.

(** ** Correctness, from the correctness of each operation *)
Notation own := (@own C).
Context (rep : Coll -> Val -> list own -> Prop).
Context (vnew : Val) (vop : Op -> Val -> Val * Out) (pre : Op -> Val -> Prop)
        (ncost : nat) (cost : Op -> Val -> nat).

Hypothesis new_ok : safe kids ncost hnew [] (fun c G => rep c vnew G).
Hypothesis clone_ok : forall c v G, rep c v G ->
  safe kids 0 (hclone c) G (fun c' G' => exists G1 G2, G' = G1 ++ G2 /\ rep c v G1 /\ rep c' v G2).
Hypothesis drop_ok : forall c v G, rep c v G -> safe kids 0 (hdrop c) G (fun _ G' => G' = []).
Hypothesis op_ok : forall o c v G, rep c v G -> pre o v ->
  safe kids (cost o v) (hop o c) G
    (fun r G' => snd r = snd (vop o v) /\ rep (fst r) (fst (vop o v)) G').

Inductive reps : list (option Coll) -> list (option Val) -> list own -> Prop :=
| reps_nil : reps [] [] []
| reps_some : forall c v G cs vs Gs,
    rep c v G -> reps cs vs Gs -> reps (Some c :: cs) (Some v :: vs) (G ++ Gs)
| reps_none : forall cs vs Gs, reps cs vs Gs -> reps (None :: cs) (None :: vs) Gs.

Lemma reps_app : forall cs vs G c v G', reps cs vs G -> rep c v G' ->
  exists G'', Permutation (G ++ G') G'' /\ reps (cs ++ [Some c]) (vs ++ [Some v]) G''.
Proof.
  intros cs vs G c v G' R r. induction R; cbn.
  - exists (G' ++ []). split; [perm|]. constructor; trivial. constructor.
  - destruct IHR as (G'' & P & R'). exists (G ++ G''). split; [|now constructor].
    rewrite <- app_assoc. now apply Permutation_app_head.
  - destruct IHR as (G'' & P & R'). exists G''. split; [trivial|now constructor].
Qed.

Lemma reps_nth : forall cs vs G i, reps cs vs G ->
  match nth_error vs i with
  | Some (Some v) =>
      exists c G1 G2, nth_error cs i = Some (Some c) /\ rep c v G1 /\ Permutation G (G1 ++ G2) /\
        (forall c' v' G', rep c' v' G' ->
           exists G'', Permutation (G' ++ G2) G'' /\ reps (upd cs i (Some c')) (upd vs i (Some v')) G'') /\
        (exists G'', Permutation G2 G'' /\ reps (upd cs i None) (upd vs i None) G'')
  | Some None => nth_error cs i = Some None
  | None => nth_error cs i = None
  end.
Proof.
  intros cs vs G i R. revert i. induction R; intros i.
  - now destruct i.
  - destruct i as [|i]; cbn.
    + exists c, G, Gs. splits; trivial.
      * intros c' v' G' r. exists (G' ++ Gs). split; [perm|now constructor].
      * exists Gs. split; [perm|now constructor].
    + specialize (IHR i). destruct (nth_error vs i) as [[w|]|]; trivial.
      destruct IHR as (d & G1 & G2 & E & r & P & U & N). exists d, G1, (G ++ G2).
      splits; trivial.
      * eapply Permutation_trans; [apply Permutation_app_head; exact P|]. perm.
      * intros c' v' G' r'. destruct (U c' v' G' r') as (G'' & P' & R').
        exists (G ++ G''). split; [|now constructor].
        eapply Permutation_trans; [|apply Permutation_app_head; exact P']. perm.
      * destruct N as (G'' & P' & R'). exists (G ++ G''). split; [|now constructor].
        now apply Permutation_app_head.
  - destruct i as [|i]; cbn; [trivial|]. specialize (IHR i).
    destruct (nth_error vs i) as [[w|]|]; trivial.
    destruct IHR as (d & G1 & G2 & E & r & P & U & N). exists d, G1, G2. splits; trivial.
    + intros c' v' G' r'. destruct (U c' v' G' r') as (G'' & P' & R').
      exists G''. split; [trivial|now constructor].
    + destruct N as (G'' & P' & R'). exists G''. split; [trivial|now constructor].
Qed.

Lemma upd_same : forall {X} (l : list X) i x, nth_error l i = Some x -> upd l i x = l.
Proof.
  intros X l. induction l as [|y l IH]; intros [|i] x E; cbn in *; try discriminate; [congruence|].
  now rewrite IH.
Qed.

Lemma client_safe : forall l cs vs G,
  reps cs vs G -> within vnew vop pre l vs ->
  safe kids (cost_of vnew vop ncost cost l vs) (hclient l cs) G
    (fun r G' => snd r = snd (sclient vnew vop l vs) /\
                 reps (fst r) (fst (sclient vnew vop l vs)) G').
Proof.
  induction l as [|x l IH]; intros cs vs G R W.
  - apply safe_ret. cbn. auto.
  - destruct x as [|i|i o|i]; cbn [hclient sclient within cost_of] in *.
    + change G with ([] ++ G). eapply safe_bind; [exact new_ok|].
      intros c G' r. destruct (reps_app _ _ _ _ _ _ R r) as (G'' & P & R').
      eapply safe_perm; [|apply IH; [exact R'|exact W]].
      apply Permutation_sym. eapply Permutation_trans; [|exact P]. perm.
    + assert (N := reps_nth _ _ _ i R). destruct (nth_error vs i) as [[v|]|] eqn:Ev;
        [|rewrite N; now apply IH..].
      destruct N as (c & G1 & G2 & E & r & P & U & _). rewrite E.
      eapply safe_perm; [apply Permutation_sym; exact P|].
      apply (safe_bind kids _ _ 0 _ G1 G2 _ _ (clone_ok _ _ _ r)).
      intros c' G' (G3 & G4 & -> & r1 & r2).
      destruct (U c v G3 r1) as (G5 & P5 & R5).
      rewrite (upd_same cs), (upd_same vs) in R5 by trivial.
      destruct (reps_app _ _ _ _ _ _ R5 r2) as (G6 & P6 & R6).
      eapply safe_perm; [|apply IH; [exact R6|exact W]].
      apply Permutation_sym. eapply Permutation_trans; [|exact P6].
      eapply Permutation_trans; [|apply Permutation_app_tail; exact P5]. perm.
    + assert (N := reps_nth _ _ _ i R). destruct (nth_error vs i) as [[v|]|] eqn:Ev;
        [|rewrite N; now apply IH..].
      destruct N as (c & G1 & G2 & E & r & P & U & _). rewrite E. destruct W as [W1 W2].
      eapply safe_perm; [apply Permutation_sym; exact P|].
      apply (safe_bind kids _ _ _ _ G1 G2 _ _ (op_ok _ _ _ _ r W1)).
      intros [c' y] G' (Ex & r'). cbn [fst snd] in *.
      destruct (vop o v) as [v' y']. cbn [fst snd] in *. subst y'.
      destruct (U c' v' G' r') as (G5 & P5 & R5).
      eapply safe_perm; [apply Permutation_sym; exact P5|].
      rewrite <- (app_nil_r G5).
      rewrite <- (Nat.add_0_r (cost_of _ _ _ _ _ _)).
      eapply safe_bind; [apply IH; [exact R5|exact W2]|].
      intros [rs xs] G6 (E6 & R6). cbn [fst snd] in *. apply safe_ret. rewrite app_nil_r.
      destruct (sclient vnew vop l (upd vs i (Some v'))) as [vs' ys]. cbn [fst snd] in *.
      subst. auto.
    + assert (N := reps_nth _ _ _ i R). destruct (nth_error vs i) as [[v|]|] eqn:Ev;
        [|rewrite N; now apply IH..].
      destruct N as (c & G1 & G2 & E & r & P & _ & G5 & P5 & R5). rewrite E.
      eapply safe_perm; [apply Permutation_sym; exact P|].
      apply (safe_bind kids _ _ 0 _ G1 G2 _ _ (drop_ok _ _ _ r)).
      intros [] G' ->. eapply safe_perm; [|apply IH; [exact R5|exact W]].
      cbn [app]. now apply Permutation_sym.
Qed.

(** ** Threads *)
Record thread := mkThread {
  th_prog : list cmd;
  th_regs : list (option Coll);
  th_vals : list (option Val);
  th_own : list own }.

Definition thread_ok (t : thread) : Prop :=
  reps (th_regs t) (th_vals t) (th_own t) /\ within vnew vop pre (th_prog t) (th_vals t).

Definition th_start (t : thread) := hclient (th_prog t) (th_regs t).
Definition th_spec (t : thread) := sclient vnew vop (th_prog t) (th_vals t).
Definition th_cost (t : thread) := cost_of vnew vop ncost cost (th_prog t) (th_vals t).

(** Every register of every thread is a value of its own, whatever the
    schedule: no crash, the outputs are those of the thread alone with its
    values, and the counts and contents of the heap are exactly those the
    registers left account for. *)
Theorem clients_sound : forall ts h sched,
  Forall thread_ok ts -> WF kids h (flat_map th_own ts) ->
  let cf := exec sched (h, map th_start ts) in
  ~ In Fail (snd cf) /\
  length (fst cf) <= length h + list_sum (map th_cost ts) /\
  (exists G, WF kids (fst cf) G) /\
  (forall i t r, nth_error ts i = Some t -> nth_error (snd cf) i = Some (Ret r) ->
     snd r = snd (th_spec t) /\ exists G, reps (fst r) (fst (th_spec t)) G) /\
  (forall rs, snd cf = map Ret rs ->
     exists Gs, Forall2 (fun x G => reps (fst (fst x)) (fst (th_spec (snd x))) G) (combine rs ts) Gs /\
       WF kids (fst cf) (concat Gs)).
Proof.
  intros ts h sched F W cf.
  set (Q := fun (t : thread) (r : list (option Coll) * list Out) G =>
              snd r = snd (th_spec t) /\ reps (fst r) (fst (th_spec t)) G).
  assert (T : threads_ok kids (map th_start ts) (map Q ts) (map (fun t => (th_cost t, th_own t)) ts)).
  { clear W cf. induction F as [|t ts [R Wi] F IH]; cbn [map]; constructor; trivial.
    now apply client_safe. }
  assert (Eo : forall ts, owned_by (map (fun t => (th_cost t, th_own t)) ts) = flat_map th_own ts).
  { clear. unfold owned_by. induction ts; cbn; congruence. }
  assert (Eb : forall ts, budget (map (fun t => (th_cost t, th_own t)) ts) = list_sum (map th_cost ts)).
  { clear. unfold budget. intros. now rewrite map_map. }
  destruct (exec_sound kids sched h _ _ _ [] T) as (ss & T' & W' & L).
  { now rewrite Eo, app_nil_r. }
  fold cf in T', W', L. rewrite Eb in L. rewrite app_nil_r in W'.
  splits.
  - eapply threads_no_fail; eauto.
  - lia.
  - eauto.
  - intros i t r Et Er. destruct (threads_nth kids _ _ _ _ _ T' Er)
      as (Q' & n & G & s1 & s2 & EQ & -> & S & _).
    rewrite nth_error_map, Et in EQ. cbn in EQ. injection EQ as <-.
    cbn in S. destruct S as (G' & P & E1 & R'). split; trivial. eauto.
  - intros rs E.
    assert (X : forall rs ts ss, threads_ok kids (map Ret rs) (map Q ts) ss ->
      exists Gs, Forall2 (fun x G => reps (fst (fst x)) (fst (th_spec (snd x))) G) (combine rs ts) Gs /\
        Permutation (owned_by ss) (concat Gs)).
    { clear. induction rs as [|r rs IH]; intros ts ss T; inversion T; subst.
      - exists []. cbn. split; [constructor|apply perm_nil].
      - destruct ts as [|t ts]; [discriminate|].
        match goal with H : Q ?q :: ?l = map _ _ |- _ => idtac | H : ?x :: ?l = map Q (t :: ts) |- _ =>
          cbn in H; injection H as -> -> end.
        match goal with H : threads_ok _ _ _ _ |- _ => destruct (IH _ _ H) as (Gs & F2 & P2) end.
        match goal with H : safe _ _ _ _ _ |- _ => cbn in H; destruct H as (G' & P & E1 & R') end.
        exists (G' :: Gs). split; [constructor; trivial|]. cbn. unfold owned_by in *. cbn.
        now apply Permutation_app. }
    rewrite E in T'. destruct (X _ _ _ T') as (Gs & F2 & P). exists Gs. split; trivial.
    eapply WF_perm; eauto.
Qed.

(** When every register has been dropped, every cell has been freed. *)
Lemma reps_none_own : forall cs vs G, reps cs vs G -> Forall (eq None) vs -> G = [].
Proof.
  intros cs vs G R. induction R; intros F; trivial; inversion F; subst; [discriminate|auto].
Qed.

Lemma WF_empty_heap : forall h, WF kids h [] -> forall a, get h a = None.
Proof.
  intros h (_ & _ & W3) a. destruct (get h a) eqn:E; trivial.
  destruct (W3 a) as (o & [] & _). congruence.
Qed.

(** One thread alone: it always finishes. *)
Theorem client_runs : forall l h F cs vs G,
  reps cs vs G -> within vnew vop pre l vs -> WF kids h (G ++ F) ->
  exists h' cs' G', run h (hclient l cs) = Some (h', (cs', snd (sclient vnew vop l vs))) /\
    reps cs' (fst (sclient vnew vop l vs)) G' /\ WF kids h' (G' ++ F) /\
    length h' <= length h + cost_of vnew vop ncost cost l vs.
Proof.
  intros l h F cs vs G R Wi W.
  destruct (run_sound kids _ _ _ _ _ _ (client_safe l cs vs G R Wi) W)
    as (h' & [cs' xs] & G' & E & (E1 & R') & W' & L).
  cbn [fst snd] in *. subst xs. exists h', cs', G'. auto.
Qed.
End Client.

Arguments cmd Op : clear implicits.
Arguments CNew {Op}.
Arguments CClone {Op}.
Arguments COp {Op}.
Arguments CDrop {Op}.
