(** * Steps of a Queue over a history (for C53)

    The queue again as the two lists of queue/mod.rs:96-103, so that the price of
    [dequeue_mut] can depend on which of them is empty. *)
From Coq Require Import List Arith Lia Bool Permutation.
From Verif Require Import Base Spec ListModel PermSolve HeapModel HeapProofs HeapSafe HeapLooks HeapClient HeapWorld
  HeapList HeapListProofs HeapSeqProofs HeapWork HeapWorkSeq.
Import ListNotations.
Local Open Scope prog_scope.

(** ** Specification: what a program may do in all, by what its calls are charged *)
Section Charge.
Context {Val Op Out : Type} (vnew : Val) (vop : Op -> Val -> Val * Out).
Context (nnew : nat) (nclone : Val -> nat) (ndrop : nat) (charge : Op -> Val -> nat).

(** As [price_of] (HeapWork.v), but what a clone is charged depends on what is cloned. *)
Fixpoint charge_of (l : list (cmd Op)) (rs : list (option Val)) : nat :=
  match l with
  | [] => 0
  | CNew :: l' => nnew + charge_of l' (rs ++ [Some vnew])
  | CClone i :: l' =>
      match nth_error rs i with
      | Some (Some v) => nclone v + charge_of l' (rs ++ [Some v])
      | _ => charge_of l' rs
      end
  | COp i o :: l' =>
      match nth_error rs i with
      | Some (Some v) => charge o v + charge_of l' (upd rs i (Some (fst (vop o v))))
      | _ => charge_of l' rs
      end
  | CDrop i :: l' =>
      match nth_error rs i with
      | Some (Some v) => ndrop + charge_of l' (upd rs i None)
      | _ => charge_of l' rs
      end
  end.

Context {C Coll : Type} (hnew : prog C Coll) (hclone : Coll -> prog C Coll) (hdrop : Coll -> prog C unit)
        (hop : Op -> Coll -> prog C (Coll * Out)) (pre : Op -> Val -> Prop).
(** Every program of a main thread followed by every schedule of every set of
    threads makes no more steps in all than its calls are charged. *)
Definition charged_work : Prop := forall main jobs,
  within vnew vop pre main [] ->
  let vs := fst (sclient vnew vop main []) in
  Permutation (concat (map job_regs jobs)) (List.seq 0 (length vs)) ->
  Forall (job_within vnew vop pre vs) jobs ->
  exists h rs,
    run [] (hclient hnew hclone hdrop hop main []) = Some (h, (rs, snd (sclient vnew vop main []))) /\
    forall sched,
      work [] (hclient hnew hclone hdrop hop main []) +
      moves sched (h, map (job_start hnew hclone hdrop hop rs) jobs) <=
      charge_of main [] + list_sum (map (fun j => charge_of (job_cmds j) (hand vs (job_regs j))) jobs).
End Charge.

(** ** Two specifications, one finer: [fl] forgets, [pot] is the potential *)
Section Finer.
Context {Val Fine Op Out : Type} (vnew : Val) (vop : Op -> Val -> Val * Out) (fnew : Fine) (fop : Op -> Fine -> Fine * Out).
Context (fl : Fine -> Val).
Hypothesis fl_new : fl fnew = vnew.
Hypothesis fl_op : forall o f, vop o (fl f) = (fl (fst (fop o f)), snd (fop o f)).
Notation down := (map (option_map fl)).

Lemma nth_down : forall rs i, nth_error (down rs) i = option_map (option_map fl) (nth_error rs i).
Proof. intros. apply nth_error_map. Qed.
Lemma upd_down : forall rs i x, down (upd rs i x) = upd (down rs) i (option_map fl x).
Proof. induction rs as [|r rs IH]; intros [|i] x; cbn [upd map]; trivial. now rewrite IH. Qed.

Lemma sclient_down : forall l rs,
  sclient vnew vop l (down rs) = (down (fst (sclient fnew fop l rs)), snd (sclient fnew fop l rs)).
Proof.
  induction l as [|[|i|i o|i] l IH]; intros rs; cbn [sclient]; trivial.
  - rewrite <- IH, map_app. cbn [map option_map]. now rewrite fl_new.
  - rewrite nth_down. destruct (nth_error rs i) as [[f|]|]; cbn [option_map]; trivial. rewrite <- IH, map_app. reflexivity.
  - rewrite nth_down. destruct (nth_error rs i) as [[f|]|]; cbn [option_map]; trivial. rewrite fl_op.
    destruct (fop o f) as [f' x]. cbn [fst snd]. specialize (IH (upd rs i (Some f'))). rewrite upd_down in IH. cbn [option_map] in IH.
    rewrite IH. now destruct (sclient fnew fop l (upd rs i (Some f'))).
  - rewrite nth_down. destruct (nth_error rs i) as [[f|]|]; cbn [option_map]; trivial. rewrite <- IH, upd_down. reflexivity.
Qed.

Lemma hand_app : forall {X} (rs : list (option X)) l m, hand rs (l ++ m) = hand rs l ++ hand rs m.
Proof. intros. apply map_app. Qed.
Lemma hand_down : forall rs js, down (hand rs js) = hand (down rs) js.
Proof.
  intros rs js. unfold hand. rewrite map_map. apply map_ext. intros j.
  change None with (option_map fl None) at 2. now rewrite map_nth.
Qed.

Context (nnew nclone ndrop : nat) (price : Op -> Fine -> nat) (ncharge : Val -> nat) (charge : Op -> Val -> nat) (pot : Fine -> nat).
Hypothesis pot_new : pot fnew = 0.
Hypothesis pot_clone : forall f, nclone + pot f <= ncharge (fl f).
Hypothesis pot_op : forall o f, price o f + pot (fst (fop o f)) <= charge o (fl f) + pot f.

Definition pots (rs : list (option Fine)) : nat := list_sum (map (fun r => match r with Some f => pot f | None => 0 end) rs).

Lemma pots_app : forall rs rs', pots (rs ++ rs') = pots rs + pots rs'.
Proof. intros. unfold pots. now rewrite map_app, list_sum_app. Qed.
Lemma pots_cons : forall r rs, pots (r :: rs) = match r with Some f => pot f | None => 0 end + pots rs.
Proof. reflexivity. Qed.
Lemma pots_upd : forall rs i f x, nth_error rs i = Some (Some f) ->
  pots (upd rs i x) + pot f = pots rs + match x with Some f => pot f | None => 0 end.
Proof.
  induction rs as [|r rs IH]; intros [|i] f x E; try discriminate; cbn [upd nth_error] in *; rewrite !pots_cons.
  - injection E as ->. lia.
  - specialize (IH i f x E). lia.
Qed.

Lemma price_charge : forall l rs,
  price_of fnew fop nnew nclone ndrop price l rs + pots (fst (sclient fnew fop l rs)) <=
  charge_of vnew vop nnew ncharge ndrop charge l (down rs) + pots rs.
Proof.
  induction l as [|[|i|i o|i] l IH]; intros rs; cbn [price_of charge_of sclient].
  - apply le_n.
  - specialize (IH (rs ++ [Some fnew])). rewrite map_app, pots_app in IH. cbn [map option_map] in IH.
    rewrite fl_new in IH. unfold pots at 3 in IH. cbn in IH. rewrite pot_new in IH. lia.
  - rewrite nth_down. destruct (nth_error rs i) as [[f|]|] eqn:E; cbn [option_map]; [|apply IH..].
    specialize (IH (rs ++ [Some f])). rewrite map_app, pots_app in IH. cbn [map option_map] in IH.
    unfold pots at 3 in IH. cbn in IH. pose proof (pot_clone f). lia.
  - rewrite nth_down. destruct (nth_error rs i) as [[f|]|] eqn:E; cbn [option_map]; [|apply IH..].
    specialize (IH (upd rs i (Some (fst (fop o f))))). rewrite upd_down in IH. cbn [option_map] in IH.
    pose proof (pots_upd rs i f (Some (fst (fop o f))) E) as P. cbn in P. pose proof (pot_op o f).
    rewrite fl_op. cbn [fst]. destruct (fop o f) as [f' x]. cbn [fst snd] in *.
    destruct (sclient fnew fop l (upd rs i (Some f'))) as [rs' xs]. cbn [fst] in *. lia.
  - rewrite nth_down. destruct (nth_error rs i) as [[f|]|] eqn:E; cbn [option_map]; [|apply IH..].
    specialize (IH (upd rs i None)). rewrite upd_down in IH. cbn [option_map] in IH.
    pose proof (pots_upd rs i f None E) as P. cbn in P. lia.
Qed.

Lemma pots_hand : forall rs js, Permutation js (List.seq 0 (length rs)) -> pots (hand rs js) = pots rs.
Proof.
  intros rs js P. unfold pots, hand. rewrite map_map.
  transitivity (list_sum (map (fun j => match nth j rs None with Some f => pot f | None => 0 end) (List.seq 0 (length rs)))).
  - induction P as [|x l l' P IH|x y l|l l' l'' P1 IH1 P2 IH2]; cbn [map]; repeat change (list_sum (?x :: ?l)) with (x + list_sum l);
      [reflexivity|now rewrite IH|lia|congruence].
  - rewrite <- (map_map (fun j => nth j rs None) (fun r => match r with Some f => pot f | None => 0 end)). f_equal. f_equal. clear P.
    induction rs as [|r rs IH]; [trivial|]. cbn [length List.seq map nth]. f_equal. rewrite <- seq_shift, map_map. exact IH.
Qed.

Context {C Coll : Type} (hnew : prog C Coll) (hclone : Coll -> prog C Coll) (hdrop : Coll -> prog C unit)
        (hop : Op -> Coll -> prog C (Coll * Out)).

Theorem charged_work_ok :
  total_work hnew hclone hdrop hop fnew fop (fun _ _ => True) nnew nclone ndrop price ->
  charged_work vnew vop nnew ncharge ndrop charge hnew hclone hdrop hop (fun _ _ => True).
Proof.
  intros TW main jobs _ vs Pj _.
  assert (Wt : forall l rs, within fnew fop (fun _ _ => True) l rs).
  { induction l as [|[|i|i o|i] l IH]; intros rs; cbn [within]; trivial; destruct (nth_error rs i) as [[f|]|]; auto. }
  set (fs := fst (sclient fnew fop main [])).
  assert (Ev : vs = down fs) by (unfold vs, fs; change (@nil (option Val)) with (down []); now rewrite sclient_down).
  destruct (TW main jobs (Wt main [])) as (h & rs & E & B).
  - fold fs. rewrite Ev, map_length in Pj. exact Pj.
  - apply Forall_forall. intros j _. apply Wt.
  - exists h, rs. split.
    + rewrite E. do 3 f_equal. change (@nil (option Val)) with (down []). now rewrite sclient_down.
    + intros sched. specialize (B sched). fold fs in B. etransitivity; [exact B|]. clear B.
      pose proof (price_charge main []) as M. cbn [map] in M. change (pots []) with 0 in M. fold fs in M.
      assert (J : list_sum (map (fun j => price_of fnew fop nnew nclone ndrop price (job_cmds j) (hand fs (job_regs j))) jobs) <=
        list_sum (map (fun j => charge_of vnew vop nnew ncharge ndrop charge (job_cmds j) (hand vs (job_regs j))) jobs) +
        pots (hand fs (concat (map job_regs jobs)))).
      { clear - Ev fl_new fl_op pot_new pot_clone pot_op. subst vs. rewrite Ev. clear Ev.
        induction jobs as [|j jobs IH]; cbn [map concat]; [cbn; lia|].
        repeat change (list_sum (?x :: ?l)) with (x + list_sum l).
        rewrite hand_app, pots_app.
        pose proof (price_charge (job_cmds j) (hand fs (job_regs j))) as P. rewrite hand_down in P. lia. }
      rewrite (pots_hand fs) in J; [lia|]. rewrite Ev, map_length in Pj. exact Pj.
Qed.
End Finer.

(** ** The queue *)
Section Queue.
Context {T : Type}.
Notation C := (lcell T).
Notation own := (@own C).
Notation safe := (safe (@lkids T)).
Ltac seq n1 n2 G1 F tac := eapply (safe_seq _ _ _ n1 n2 _ _ G1 F); [tac|perm| |lia].
Notation any := (fun _ => True).

(** The list of what came in, last in first, and the list of what is to come out. *)
Definition two : Type := list T * list T.
Definition joined (v : two) : list T := snd v ++ rev (fst v).
(** queue/mod.rs:142-161 on sequences *)
Definition two_deq (v : two) : two :=
  match v with
  | (i, []) => ([], tl (rev i))
  | (i, _ :: o) => (i, o)
  end.
Definition two_spec (o : queue_op T) (v : two) : two * obs T :=
  (match o with
   | QNew => ([], [])
   | QFromIter l => ([], l)
   | QEnq x | QEnqMut x => (x :: fst v, snd v)
   | QDeq | QDeqMut => two_deq v
   | _ => v
   end, snd (queue_spec o (joined v))).

Lemma two_joined : forall o v, queue_spec o (joined v) = (joined (fst (two_spec o v)), snd (two_spec o v)).
Proof.
  intros o [i u]. unfold joined. destruct o; cbn [queue_spec two_spec fst snd two_deq rev]; rewrite ?app_nil_r, ?app_assoc; trivial;
    destruct u as [|x u]; cbn [app tl two_deq fst snd rev]; rewrite ?app_nil_r; trivial.
Qed.

Definition two_rep (q : hqueue) (v : two) (G : list own) : Prop :=
  exists Gi Go, hlrep (hq_in q) (fst v) Gi /\ hlrep (hq_out q) (snd v) Go /\ G = Gi ++ Go.
Lemma two_rep_q : forall q v G, two_rep q v G -> hqrep q (joined v) G.
Proof. intros q [i o] G (Gi & Go & Ri & Ro & ->). exists i, o, Gi, Go. auto. Qed.

Lemma two_new_ok : safe 0 (Ret hq_new) [] (fun c G => two_rep c ([], []) G).
Proof. apply safe_ret. exists [], []. splits; trivial; apply hlrep_new. Qed.
Lemma two_clone_ok : forall q v G, two_rep q v G ->
  safe 0 (hq_clone q) G (fun q' G' => exists G1 G2, G' = G1 ++ G2 /\ two_rep q v G1 /\ two_rep q' v G2).
Proof.
  intros q [i o] G (Gi & Go & Ri & Ro & ->). unfold hq_clone.
  seq 0 0 Gi Go ltac:(apply (hlp_clone_ok _ i Gi Ri)).
  intros i' G' (G1 & G2 & -> & R1 & R2).
  seq 0 0 Go (G1 ++ G2) ltac:(apply (hlp_clone_ok _ o Go Ro)).
  intros o' G' (G3 & G4 & -> & R3 & R4).
  exists ((G1 ++ G3) ++ (G2 ++ G4)). split; [perm|].
  exists (G1 ++ G3), (G2 ++ G4). splits; trivial; eexists _, _; splits; eauto.
Qed.
Lemma two_drop_ok : forall q v G, two_rep q v G -> safe 0 (hq_drop q) G (fun _ G' => G' = []).
Proof. intros q v G R. eapply hq_drop_ok, two_rep_q, R. Qed.

Lemma two_enq_ok : forall x q v G, two_rep q v G ->
  safe 2 (hq_enqueue_mut x q) G (fun q' G' => two_rep q' (x :: fst v, snd v) G').
Proof.
  intros x q [i o] G (Gi & Go & Ri & Ro & ->). unfold hq_enqueue_mut.
  seq 2 0 Gi Go ltac:(apply (hlp_push_ok _ i Gi x Ri)).
  intros i' G' R'. apply safe_ret. exists G', Go. auto.
Qed.
Lemma two_deq_ok : forall q v G, two_rep q v G ->
  safe (length (joined v)) (hq_dequeue_mut q) G (fun r G' => snd r = negb (is_nil (joined v)) /\ two_rep (fst r) (two_deq v) G').
Proof.
  intros q [i o] G (Gi & Go & Ri & Ro & ->). cbn [fst snd] in *. unfold joined. cbn [fst snd]. unfold hq_dequeue_mut.
  rewrite (hlrep_len _ _ _ Ri), (hlrep_len _ _ _ Ro).
  destruct o as [|x o]; cbn [length Nat.eqb negb two_deq].
  - destruct i as [|y i]; cbn [length Nat.eqb negb].
    + apply safe_ret. cbn [fst snd]. split; trivial. exists Gi, Go. auto.
    + cbn [app]. rewrite rev_length.
      seq (length (y :: i)) 0 Gi Go ltac:(apply (hlp_reverse_mut_ok _ (y :: i) Gi Ri)).
      intros o' G' R'. seq 0 0 G' Go ltac:(apply (hlp_drop_first_ok _ _ G' R')).
      intros [o2 b] G2 (E & R2). apply (safe_perm _ _ _ (Go ++ G2)); [perm|]. apply safe_ret.
      cbn [fst snd] in *. split; [cbn [rev]; now destruct (rev i)|]. exists Go, G2. auto.
  - seq 0 0 Go Gi ltac:(apply (hlp_drop_first_ok _ _ Go Ro)).
    intros [o2 b] G2 (E & R2). apply (safe_perm _ _ _ (Gi ++ G2)); [perm|]. apply safe_ret.
    cbn [fst snd] in *. split; trivial. exists Gi, G2. auto.
Qed.

Lemma two_step_ok : forall o q v G, two_rep q v G ->
  safe (queue_cost o (joined v)) (hq_step o q) G
    (fun r G' => snd r = snd (two_spec o v) /\ two_rep (fst r) (fst (two_spec o v)) G').
Proof.
  intros o q v G R. destruct o; cbn [hq_step queue_cost two_spec fst snd queue_spec].
  - seq 0 0 G (@nil own) ltac:(apply (two_drop_ok q v G R)).
    intros [] G' ->. apply safe_ret. split; [trivial|]. exists [], []. splits; trivial; apply hlrep_new.
  - seq (2 * length l) 0 (@nil own) G ltac:(apply hlp_from_iter_ok).
    intros L' G' R'. seq 0 0 G G' ltac:(apply (two_drop_ok q v G R)).
    intros [] G2 ->. apply safe_ret. split; trivial. exists [], G'. splits; trivial. apply hlrep_new.
  - seq 0 2 G (@nil own) ltac:(apply (two_clone_ok q v G R)).
    intros n G' (G1 & G2 & -> & R1 & R2).
    seq 2 0 G2 G1 ltac:(apply (two_enq_ok v0 n v G2 R2)).
    intros n' G' R'. seq 0 0 G1 G' ltac:(apply (two_drop_ok q v G1 R1)).
    intros [] G3 ->. now apply safe_ret.
  - seq 2 0 G (@nil own) ltac:(apply (two_enq_ok v0 q v G R)).
    intros n' G' R'. apply safe_ret. now rewrite app_nil_r.
  - seq 0 (length (joined v)) G (@nil own) ltac:(apply (two_clone_ok q v G R)).
    intros n G' (G1 & G2 & -> & R1 & R2).
    seq (length (joined v)) 0 G2 G1 ltac:(apply (two_deq_ok n v G2 R2)).
    intros [n' b] G' (E & R'). cbn [fst snd] in *. subst b. destruct (joined v) as [|x s] eqn:Ej; cbn [is_nil negb].
    + seq 0 0 G' G1 ltac:(apply (two_drop_ok n' _ G' R')).
      intros [] G3 ->. apply safe_ret. split; [trivial|]. destruct v as [i [|? ?]]; [|discriminate].
      unfold joined in Ej. cbn in Ej. destruct i; [exact R1|]. apply (f_equal (@length T)) in Ej. cbn in Ej. rewrite app_length in Ej. cbn in Ej. lia.
    + seq 0 0 G1 G' ltac:(apply (two_drop_ok q _ G1 R1)).
      intros [] G3 ->. now apply safe_ret.
  - seq (length (joined v)) 0 G (@nil own) ltac:(apply (two_deq_ok q v G R)).
    intros [n' b] G' (E & R'). cbn [fst snd] in *. subst b. apply safe_ret. now rewrite app_nil_r.
  - destruct v as [i o]. destruct R as (Gi & Go & Ri & Ro & ->). cbn [fst snd] in *. unfold hq_peek, joined. cbn [fst snd].
    rewrite (hlrep_len _ _ _ Ro). destruct o as [|x o]; cbn [length Nat.eqb negb].
    + seq 0 0 Gi Go ltac:(apply (hlp_last_ok _ _ _ Ri)).
      intros x G' (-> & ->). apply safe_ret. cbn [fst snd app]. split.
      * now rewrite <- (last_error_rev (rev i)), rev_involutive.
      * exists Gi, Go. auto.
    + seq 0 0 Go Gi ltac:(apply (hlp_first_ok _ _ _ Ro)).
      intros y G' (-> & ->). apply (safe_perm _ _ _ (Gi ++ Go)); [perm|].
      apply safe_ret. cbn [fst snd]. split; trivial. exists Gi, Go. auto.
  - apply safe_ret. cbn [fst snd]. split; [|exact R]. pose proof (q_len _ _ _ (two_rep_q _ _ _ R)) as N. f_equal. lia.
  - apply safe_ret. cbn [fst snd]. split; [|exact R]. pose proof (q_len _ _ _ (two_rep_q _ _ _ R)) as N.
    rewrite <- len0. do 2 f_equal. lia.
  - seq 0 0 G (@nil own) ltac:(apply (hq_iter_ok k q _ G (two_rep_q _ _ _ R))).
    intros x G' (-> & ->). apply safe_ret. now rewrite app_nil_r.
Qed.

(** *** Prices: [dequeue] reverses only when the other list is empty *)
Definition deq_price (v : two) : nat := match snd v with [] => 11 * length (fst v) + 7 | _ => 7 end.
Definition two_price (o : queue_op T) (v : two) : nat :=
  match o with
  | QDeq => deq_price v + 10
  | QDeqMut => deq_price v
  | _ => queue_price o (joined v)
  end.

Lemma deq_pays : forall q v G, two_rep q v G -> pays 4 (fun _ => True) (deq_price v) (@hq_dequeue_mut T q) any.
Proof.
  intros q [i o] G (Gi & Go & Ri & Ro & ->). cbn [fst snd] in *. unfold hq_dequeue_mut, deq_price. cbn [fst snd].
  rewrite (hlrep_len _ _ _ Ri), (hlrep_len _ _ _ Ro). destruct o as [|x o]; cbn [length Nat.eqb negb].
  - destruct (negb _); [|exact I]. eapply pay_call; [apply l_reverse_mut|rewrite (hlrep_len _ _ _ Ri); lia|]. intros o _.
    rewrite (hlrep_len _ _ _ Ri). eapply pay_call; [apply l_drop_first|lia|]. intros [o' x] _. exact I.
  - eapply pay_call; [apply l_drop_first|lia|]. intros [o' y] _. exact I.
Qed.

Lemma two_step_dear : forall o q v G, two_rep q v G ->
  dear lkids 4 (fun _ => True) (two_price o v) (hq_step o q) G
    (fun r G' => snd r = snd (two_spec o v) /\ two_rep (fst r) (fst (two_spec o v)) G').
Proof.
  intros o q v G R. assert (S := two_step_ok o q v G R).
  assert (P := fun St => hq_step_pays o q (joined v) G St (two_rep_q _ _ _ R)).
  destruct o; try exact (safe_pays _ _ _ _ _ _ _ _ _ S (P I)); clear P.
  - refine (safe_pays _ _ _ _ _ _ _ _ _ S (_ : pays 4 any _ _ any)). cbn [hq_step two_price].
    eapply pay_call with (R := fun n => n = q) (n1 := 4); [|lia|].
    { unfold hq_clone. eapply pay_call with (R := fun x => x = hq_in q) (n1 := 2); [|lia|].
      - apply pay_clone_opt; [lia|]. apply pay_clone_opt; [lia|]. reflexivity.
      - intros i ->. eapply pay_call with (R := fun x => x = hq_out q) (n1 := 2); [|lia|].
        + apply pay_clone_opt; [lia|]. apply pay_clone_opt; [lia|]. reflexivity.
        + intros o ->. cbn. now destruct q. }
    intros n ->. eapply pay_call; [apply (deq_pays q v G R)|lia|]. intros [n' []] _;
    (eapply pay_call; [apply q_drop|lia|]; intros _ _; exact I).
  - refine (safe_pays _ _ _ _ _ _ _ _ _ S (_ : pays 4 any _ _ any)). cbn [hq_step two_price].
    eapply pay_call; [apply (deq_pays q v G R)|lia|]. intros [n' f] _. exact I.
  - cbn [hq_step two_price queue_price].
    apply looks_dear with (Q := fun r => r = (q, OSteps (fwd_spec k (joined v)))).
    + rewrite <- (Nat.add_0_r (2 * _)). eapply looks_bind; [eapply looks_le; [apply (hq_iter_looks k q _ G (two_rep_q _ _ _ R))|lia]|].
      intros x ->. reflexivity.
    + intros x ->. auto.
Qed.

(** 11 steps for each element on the list it came in on. *)
Definition two_pot (v : two) : nat := 11 * length (fst v).
Definition queue_charge (o : queue_op T) (s : list T) : nat :=
  match o with
  | QNew => 6
  | QFromIter vs => 12 * length vs + 6
  | QEnq _ => 33
  | QEnqMut _ => 23
  | QDeq => 17
  | QDeqMut => 7
  | QPeek => 2
  | QLen | QIsEmpty => 0
  | QIter _ => 2 * length s
  end.
Lemma two_pot_op : forall o v, two_price o v + two_pot (fst (two_spec o v)) <= queue_charge o (joined v) + two_pot v.
Proof.
  intros o [i u]. destruct o; cbn [two_price queue_price queue_charge two_spec fst snd]; unfold two_pot, deq_price; cbn [fst snd length]; try lia;
    destruct u as [|x u]; cbn [two_deq fst snd length]; lia.
Qed.
End Queue.

(** ** Steps a program makes at least *)
Lemma work_bind : forall {C A B} (p : prog C A) (f : A -> prog C B) h h1 x, run h p = Some (h1, x) ->
  work h (pbind p f) = work h p + work h1 (f x).
Proof.
  intros C A B p f. induction p; intros h h1 y E; cbn [pbind run work] in *; try discriminate.
  - injection E as -> ->. reflexivity.
  - cbn. f_equal. eauto.
  - cbn. f_equal. eauto.
  - destruct (get h a) as [[n c|]|]; [cbn; f_equal; eauto|discriminate..].
  - destruct (get h a) as [[n c|]|]; [cbn; f_equal; eauto|discriminate..].
  - destruct (get h a) as [[[|[|n]] c|]|]; try discriminate; cbn; f_equal; eauto.
  - destruct (get h a) as [[[|[|n]] c|]|]; try discriminate; cbn; f_equal; eauto.
  - destruct (get h a) as [[n d|]|]; try discriminate; cbn; f_equal; eauto.
  - destruct (get h a) as [[[|[|n]] c|]|]; try discriminate; cbn; f_equal; eauto.
  - cbn. f_equal. eauto.
  - cbn. f_equal. eauto.
Qed.

Section Least.
Context {C Coll Op Out Val : Type} (kids : C -> list addr).
Context (hnew : prog C Coll) (hclone : Coll -> prog C Coll) (hdrop : Coll -> prog C unit)
        (hop : Op -> Coll -> prog C (Coll * Out)).
Context (rep : Coll -> Val -> list (@own C) -> Prop) (vnew : Val) (vop : Op -> Val -> Val * Out)
        (ncost : nat) (cost : Op -> Val -> nat) (least : Op -> Val -> nat).
Hypothesis new_ok : safe kids ncost hnew [] (fun c G => rep c vnew G).
Hypothesis clone_ok : forall c v G, rep c v G ->
  safe kids 0 (hclone c) G (fun c' G' => exists G1 G2, G' = G1 ++ G2 /\ rep c v G1 /\ rep c' v G2).
Hypothesis drop_ok : forall c v G, rep c v G -> safe kids 0 (hdrop c) G (fun _ G' => G' = []).
Hypothesis op_ok : forall o c v G, rep c v G ->
  safe kids (cost o v) (hop o c) G
    (fun r G' => snd r = snd (vop o v) /\ rep (fst r) (fst (vop o v)) G').
Hypothesis op_least : forall o c v G h F, rep c v G -> WF kids h (G ++ F) -> least o v <= work h (hop o c).

Lemma client_least : forall l cs vs G h,
  reps rep cs vs G -> WF kids h G ->
  price_of vnew vop 0 0 0 least l vs <= work h (hclient hnew hclone hdrop hop l cs).
Proof.
  induction l as [|x l IH]; intros cs vs G h R W.
  - cbn. lia.
  - destruct x as [|i|i o|i]; cbn [hclient price_of].
    + destruct (run_sound kids _ _ [] G _ h new_ok W) as (h1 & c & G' & E & r & W' & _).
      rewrite (work_bind _ _ _ _ _ E). destruct (reps_app _ _ _ _ _ _ _ R r) as (G'' & P & R').
      assert (X := IH _ _ _ h1 R'). enough (WF kids h1 G'') by (specialize (X H); lia).
      eapply WF_perm; [|exact W']. eapply Permutation_trans; [|exact P]. apply Permutation_app_comm.
    + assert (N := reps_nth _ _ _ _ i R). destruct (nth_error vs i) as [[v|]|] eqn:Ev;
        [|rewrite N; eapply IH; eauto..].
      destruct N as (c & G1 & G2 & E & r & P & U & _). rewrite E.
      destruct (run_sound kids _ _ G1 G2 _ h (clone_ok _ _ _ r)) as (h1 & c' & G' & Er & (G3 & G4 & -> & r1 & r2) & W' & _); [eapply WF_perm; eauto|].
      rewrite (work_bind _ _ _ _ _ Er).
      destruct (U c v G3 r1) as (G5 & P5 & R5).
      rewrite (upd_same cs), (upd_same vs) in R5 by trivial.
      destruct (reps_app _ _ _ _ _ _ _ R5 r2) as (G6 & P6 & R6).
      assert (X := IH _ _ _ h1 R6). enough (WF kids h1 G6) by (specialize (X H); lia).
      eapply WF_perm; [|exact W']. eapply Permutation_trans; [|exact P6].
      eapply Permutation_trans; [|apply Permutation_app_tail; exact P5]. perm.
    + assert (N := reps_nth _ _ _ _ i R). destruct (nth_error vs i) as [[v|]|] eqn:Ev;
        [|rewrite N; eapply IH; eauto..].
      destruct N as (c & G1 & G2 & E & r & P & U & _). rewrite E.
      assert (W1 : WF kids h (G1 ++ G2)) by (eapply WF_perm; eauto).
      destruct (run_sound kids _ _ G1 G2 _ h (op_ok o _ _ _ r) W1) as (h1 & [c' y] & G' & Er & (_ & r') & W' & _).
      rewrite (work_bind _ _ _ _ _ Er). cbn [fst snd] in r'.
      pose proof (op_least o _ _ _ _ _ r W1) as Le.
      destruct (U c' _ G' r') as (G5 & P5 & R5).
      assert (W5 : WF kids h1 G5) by (eapply WF_perm; [exact P5|exact W']).
      assert (X := IH _ _ _ h1 R5 W5).
      assert (Y : forall A B (p : prog C A) (f : A -> prog C B) h, work h p <= work h (pbind p f)).
      { clear. intros A B p f. induction p; intros h; cbn [pbind work]; try lia; try (destruct (get h a) as [[[|[|n]] ?|]|]); try lia; try (apply le_n_S; auto). }
      pose proof (Y _ _ (hclient hnew hclone hdrop hop l (upd cs i (Some c'))) (fun '(rs', xs) => Ret (rs', y :: xs)) h1). lia.
    + assert (N := reps_nth _ _ _ _ i R). destruct (nth_error vs i) as [[v|]|] eqn:Ev;
        [|rewrite N; eapply IH; eauto..].
      destruct N as (c & G1 & G2 & E & r & P & _ & G5 & P5 & R5). rewrite E.
      destruct (run_sound kids _ _ G1 G2 _ h (drop_ok _ _ _ r)) as (h1 & [] & G' & Er & -> & W' & _); [eapply WF_perm; eauto|].
      rewrite (work_bind _ _ _ _ _ Er).
      assert (X := IH _ _ _ h1 R5). enough (WF kids h1 G5) by (specialize (X H); lia).
      eapply WF_perm; [exact P5|exact W'].
Qed.
End Least.

Section QueueLeast.
Context {T : Type}.
Notation C := (lcell T).
Notation ch := (chain LN LE (@perep T)).

Lemma rev_least : forall (s p : list T) ts ps f h F,
  ch s ts -> ch p ps -> length s <= f -> WF lkids h (map Tree ts ++ map Tree ps ++ F) ->
  length s <= work h (hl_rev_loop lkids LN l_isN f (hd_error (map pa ps)) (hd_error (map pa ts))).
Proof.
  induction s as [|x s IH]; intros p ts ps f h F Ch Cp Lf W; inversion Ch as [|x' s' t ts' a Et Ch']; subst.
  - cbn. lia.
  - cbn [length] in *. destruct f as [|f]; [lia|]. cbn [map hd_error pa hl_rev_loop app] in *.
    destruct (run_sound lkids _ _ _ (map Tree ps ++ F) _ h (safe_make_mut lkids a (LN (pa t) (hd_error (map pa ts'))) (t :: ts')) W)
      as (h1 & [a' c] & G' & E & (b & [= -> ->] & ->) & W1 & _).
    rewrite (work_bind _ _ _ _ _ E). cbn [l_isN work].
    destruct (WF_fill lkids h1 (map Tree ts' ++ F) b (LN (pa t) (hd_error (map pa ps))) (t :: ps)) as (Eh & W2).
    + eapply WF_perm; [|exact W1]. perm.
    + cbn [lkids]. now rewrite (chain_opt _ _ _ _ _ Cp).
    + rewrite Eh. enough (length s <= work (set h1 b (Some (Full 1 (LN (pa t) (hd_error (map pa ps)))))) (hl_rev_loop lkids LN l_isN f (Some b) (hd_error (map pa ts')))) by lia.
      apply (IH (x :: p) ts' [PT b (LN (pa t) (hd_error (map pa ps))) (t :: ps)] f _ F); trivial; [now constructor|lia|].
      eapply WF_perm; [|exact W2]. perm.
Qed.

Definition two_least (o : queue_op T) (v : @two T) : nat :=
  match o, snd v with QDeqMut, [] => length (fst v) | _, _ => 0 end.

Lemma work_head : forall {A B} (p : prog C A) (f : A -> prog C B) h, work h p <= work h (pbind p f).
Proof.
  intros A B p f. induction p; intros h; cbn [pbind work]; try lia; try (destruct (get h a) as [[[|[|n]] ?|]|]); try lia; try (apply le_n_S; auto).
Qed.

Lemma two_op_least : forall o q v G h F, two_rep q v G -> WF lkids h (G ++ F) -> two_least o v <= work h (@hq_step T o q).
Proof.
  intros o q [i u] G h F R W. destruct o; cbn [two_least snd]; try lia. destruct u as [|x u]; [|lia]. cbn [fst].
  destruct i as [|y i]; [cbn; lia|].
  destruct R as (Gi & Go & Ri & Ro & ->). cbn [fst snd] in *.
  cbn [hq_step]. etransitivity; [|apply work_head]. unfold hq_dequeue_mut.
  rewrite (hlrep_len _ _ _ Ri), (hlrep_len _ _ _ Ro). cbn [length Nat.eqb negb].
  etransitivity; [|apply work_head].
  destruct Ri as (ts & tl & -> & Ch & Lt & ->).
  assert (H := Ch). inversion H as [|x' s' t ts' a Et Ch']; subst.
  destruct Lt as [|z u Eu En]; [discriminate|].
  unfold hlp_reverse_mut, hl_reverse_mut. cbn [hl_head hl_len hl_last map hd_error app pa].
  remember (PT a (LN (pa t) (hd_error (map pa ts'))) (t :: ts')) as nd eqn:Nd.
  match goal with |- _ <= work h (pbind ?p ?f) =>
    assert (Sf : safe lkids 0 p [Tree nd; Tree u] (fun o' G' => o' = Some (pa t) /\ G' = [Tree nd; Tree t]))
  end.
  { unfold read_node. eexists _, _. split; [apply lent_in; subst nd; now left|]. intros _. cbn [l_isN].
    assert (Lt2 : lent t [Tree nd; Tree u]).
    { subst nd. eapply lent_kid; [apply lent_in; now left|]. now left. }
    destruct t as [v c us] eqn:Et'. cbn [pa]. exists c, us. split; [exact Lt2|].
    eapply (safe_seq lkids _ _ 0 0 _ _ (map Tree [u]) [Tree (PT v c us); Tree nd] (fun _ G => G = []));
      [change (Some (pa u)) with (hd_error (map pa [u])); apply (safe_drop_last lkids LE 1 perep H5 [nd] (Some z)); now constructor|perm| |lia].
    intros [] G' ->. exists [Tree nd; Tree (PT v c us)]. split; [cbn [app]; perm|auto]. }
  destruct (run_sound lkids _ _ _ (Go ++ F) _ h Sf) as (h1 & o' & G' & E & (-> & ->) & W1 & _).
  { eapply WF_perm; [|exact W]. cbn [app map]. perm. }
  rewrite (work_bind _ _ _ _ _ E). etransitivity; [|apply Nat.le_add_l]. etransitivity; [|apply work_head].
  subst nd. change (S (length i)) with (length (y :: i)).
  apply (rev_least (y :: i) [] _ [] _ h1 (Tree t :: Go ++ F) Ch (ch_nil _ _ _)); [apply le_n|].
  eapply WF_perm; [|exact W1]. cbn [app map]. perm.
Qed.
End QueueLeast.
