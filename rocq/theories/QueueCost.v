(** Cost of queue operations, counted in list nodes visited. *)
From Coq Require Import List Arith Bool Lia.
From Verif Require Import Base Spec Sim ListModel ListProofs.
Import ListNotations.

Section Cost.
Context {T : Type}.

(** src/list/mod.rs 235-243 with a counter of loop iterations (one node each). *)
Fixpoint l_reverse_loop_c (prev current : list T) (c : nat) : list T * nat :=
  match current with
  | [] => (prev, c)
  | v :: next => l_reverse_loop_c (v :: prev) next (S c)
  end.

(** src/list/mod.rs 229-246 *)
Definition l_reverse_mut_c (l : rlist T) : rlist T * nat :=
  let last := match l_head l with [] => None | v :: _ => Some v end in
  let (h, c) := l_reverse_loop_c [] (l_head l) 0 in
  (mkL h last (l_length l), c).

(** src/queue/mod.rs 142-155; one unit per [drop_first_mut], one per reversed node. *)
Definition q_dequeue_mut_c (q : rqueue T) : res (rqueue T * bool * nat) :=
  if negb (l_is_empty (q_out q)) then
    let! (o, _) := l_drop_first_mut (q_out q) in
    Ok (mkQ (q_in q) o, true, 1)
  else if negb (l_is_empty (q_in q)) then
    let i := q_out q in
    let o := q_in q in
    let (o, c) := l_reverse_mut_c o in
    let! (o, _) := l_drop_first_mut o in
    Ok (mkQ i o, true, c + 1)
  else Ok (q, false, 1).

(** In-place operations: [Some v] enqueues (one node), [None] dequeues. *)
Definition q_step_c (o : option T) (q : rqueue T) : res (rqueue T * nat) :=
  match o with
  | Some v => Ok (q_enqueue_mut v q, 1)
  | None => let! (q', _, c) := q_dequeue_mut_c q in Ok (q', c)
  end.

Fixpoint q_cost (ops : list (option T)) (q : rqueue T) : res (rqueue T * nat) :=
  match ops with
  | [] => Ok (q, 0)
  | o :: ops' =>
      let! (q', c) := q_step_c o q in
      let! (q'', c') := q_cost ops' q' in
      Ok (q'', c + c')
  end.

Lemma l_reverse_loop_c_eq : forall s p c,
  l_reverse_loop_c p s c = (l_reverse_loop p s, c + length s).
Proof.
  induction s as [|a s IH]; intros p c; simpl; [f_equal; lia|]. rewrite IH. f_equal; lia.
Qed.

Lemma l_reverse_mut_c_eq : forall l,
  l_reverse_mut_c l = (l_reverse_mut l, length (l_head l)).
Proof. intros. unfold l_reverse_mut_c, l_reverse_mut. now rewrite l_reverse_loop_c_eq. Qed.

(** The counting version computes the same queue. *)
Lemma q_dequeue_mut_c_proj : forall q,
  (let! (q', b, _) := q_dequeue_mut_c q in Ok (q', b)) = q_dequeue_mut q.
Proof.
  intros q. unfold q_dequeue_mut_c, q_dequeue_mut.
  destruct (negb (l_is_empty (q_out q))).
  - destruct (l_drop_first_mut (q_out q)) as [[? ?]| |]; reflexivity.
  - destruct (negb (l_is_empty (q_in q))); [|reflexivity].
    rewrite l_reverse_mut_c_eq. destruct (l_drop_first_mut _) as [[? ?]| |]; reflexivity.
Qed.

(** Potential: the number of elements in the incoming list. *)
Lemma q_step_c_pot : forall o (q : rqueue T) s, q_rep q s ->
  exists q' c s', q_step_c o q = Ok (q', c) /\ q_rep q' s' /\
    c + l_len (q_in q') <= 2 + l_len (q_in q).
Proof.
  intros [v|] q s H.
  - simpl. do 3 eexists. split; [reflexivity|]. split; [apply q_rep_enqueue; exact H|].
    simpl. unfold l_len; simpl. lia.
  - destruct (q_rep_dequeue _ _ H) as (q' & E & H').
    pose proof (q_dequeue_mut_c_proj q) as P. rewrite E in P.
    simpl. destruct (q_dequeue_mut_c q) as [[[q1 b1] c1]| |] eqn:Ec; simpl in P; try discriminate.
    injection P as -> ->. simpl. do 3 eexists. split; [reflexivity|]. split; [exact H'|].
    clear E. unfold q_dequeue_mut_c in Ec.
    destruct H as (i & o & Hi & Ho & Hs).
    rewrite (l_rep_is_empty _ _ Ho), (l_rep_is_empty _ _ Hi) in Ec.
    destruct o as [|x o]; simpl in Ec.
    + destruct i as [|y i]; simpl in Ec.
      * injection Ec as <- _ <-. simpl. lia.
      * rewrite l_reverse_mut_c_eq in Ec.
        destruct (l_drop_first_mut (l_reverse_mut (q_in q))) as [[l1 ?]| |]; simpl in Ec; try discriminate.
        injection Ec as <- _ <-. simpl. destruct Hi as (Hh & _ & Hl), Ho as (_ & _ & Hlo).
        unfold l_len. rewrite Hh, Hl, Hlo. simpl. lia.
    + destruct (l_drop_first_mut (q_out q)) as [[l1 ?]| |]; simpl in Ec; try discriminate.
      injection Ec as <- _ <-. simpl. lia.
Qed.

Lemma q_cost_pot : forall ops (q : rqueue T) s, q_rep q s ->
  exists q' c, q_cost ops q = Ok (q', c) /\ c <= 2 * length ops + l_len (q_in q).
Proof.
  induction ops as [|o ops IH]; intros q s H; simpl.
  - do 2 eexists. split; [reflexivity|]. lia.
  - destruct (q_step_c_pot o q s H) as (q' & c & s' & E & H' & Hc).
    destruct (IH q' s' H') as (q'' & c' & E' & Hc').
    rewrite E; simpl. rewrite E'; simpl. do 2 eexists. split; [reflexivity|]. lia.
Qed.

Lemma q_cost_linear : forall ops,
  exists q' c, q_cost ops q_new = Ok (q', c) /\ c <= 2 * length ops.
Proof.
  intros. destruct (q_cost_pot ops q_new [] q_rep_new) as (q' & c & E & H).
  do 2 eexists. split; [exact E|]. simpl in H. lia.
Qed.

(** Cost of dequeueing one and the same version [k] times (persistent use: clone,
    then [dequeue_mut] on the clone, src/queue/mod.rs 136-140). *)
Fixpoint repeat_dequeue_cost (k : nat) (q : rqueue T) : res nat :=
  match k with
  | O => Ok 0
  | S k' =>
      let! (_, _, c) := q_dequeue_mut_c q in
      let! c' := repeat_dequeue_cost k' q in
      Ok (c + c')
  end.

Lemma repeat_dequeue_expensive : forall vs k, vs <> [] ->
  repeat_dequeue_cost k (q_macro vs) = Ok (k * (length vs + 1)).
Proof.
  intros vs k Hne.
  assert (Hin : l_rep (q_in (q_macro vs)) (rev vs) /\ l_rep (q_out (q_macro vs)) []).
  { unfold q_macro.
    assert (G : forall (vs : list T) q s, l_rep (q_in q) s -> l_rep (q_out q) [] ->
      l_rep (q_in (fold_left (fun acc v => q_enqueue_mut v acc) vs q)) (rev vs ++ s) /\
      l_rep (q_out (fold_left (fun acc v => q_enqueue_mut v acc) vs q)) []).
    { induction vs0 as [|v vs0 IH]; intros q s H H0; simpl; [auto|].
      rewrite <- app_assoc; simpl. apply IH; simpl; [now apply l_rep_push|assumption]. }
    destruct (G vs q_new [] l_rep_new l_rep_new) as [G1 G2].
    rewrite app_nil_r in G1. auto. }
  destruct Hin as [Hi Ho].
  assert (Hc : exists q', q_dequeue_mut_c (q_macro vs) = Ok (q', true, length vs + 1)).
  { unfold q_dequeue_mut_c. rewrite (l_rep_is_empty _ _ Ho), (l_rep_is_empty _ _ Hi). simpl.
    destruct (rev vs) as [|a r] eqn:Er.
    { exfalso. apply Hne. rewrite <- (rev_involutive vs), Er. reflexivity. }
    simpl. rewrite l_reverse_mut_c_eq.
    pose proof (l_rep_reverse_mut _ _ Hi) as Hr.
    destruct (l_rep_drop _ _ Hr) as (l' & E & _). rewrite E; simpl.
    eexists. do 2 f_equal. destruct Hi as (Hh & _ & _). rewrite Hh, <- Er, rev_length. reflexivity. }
  destruct Hc as (q' & Hc).
  induction k as [|k IH]; simpl; [reflexivity|]. rewrite Hc; simpl. rewrite IH; simpl. reflexivity.
Qed.
End Cost.
