(** * Programs that hold iterators: List, Stack and Queue

    The facts about the lists and queues of HeapList.v that HeapIterWorld.v asks for. *)
From Coq Require Import List Arith Lia Bool Permutation.
From Verif Require Import Base Spec Sim ListModel ListProofs PermSolve HeapModel HeapProofs HeapSafe HeapLooks HeapClient HeapWorld
  HeapList HeapListProofs HeapSeqProofs HeapDepth HeapWork HeapWorkSeq HeapIterWorld.
From Verif Require Prop_HeapSeq.
Import ListNotations.
Local Open Scope prog_scope.
Local Open Scope nat_scope.

Notation always := Prop_HeapSeq.always.
Notation sp S P := (safe_pays _ _ _ _ _ _ _ _ _ S P).

(** A sequence to be delivered by the iterator of [v]: what it holds. *)
Definition all_of {A T} (a : A) (v l : list T) : Prop := l = v.
Definition any_arg {A V} (a : A) (v : V) : Prop := True.

(** A call that answers with what it read, the collection unchanged. *)
Lemma gentle_answer : forall {C Coll X Y} (c : Coll) (p : prog C X) (f : X -> Y),
  quiet p -> gentle c (let* x := p in Ret (c, f x)).
Proof. intros. apply gentle_bind; trivial. intros x. reflexivity. Qed.

Section Seq.
Context {T : Type}.

(** ** List and Stack *)
(** list/mod.rs:260-267, 432-439, stack/mod.rs:164-166: [iter]; it reads nothing *)
Definition hl_open (_ : unit) (l : hlist) : prog (@lcell T) hliter := Ret (hl_iter_new l).
(** list/mod.rs:442-463 ([len], which is [size_hint], then [next]) *)
Definition hl_inext := step1 (hl_next (@l_isN T) l_isE) hl_hint.

Definition list_reads (o : list_op T) : bool :=
  match o with LFirst | LLast | LLen | LIsEmpty | LIter _ => true | _ => false end.
Definition stack_reads (o : stack_op T) : bool :=
  match o with SPeek | SSize | SIsEmpty | SIter _ => true | _ => false end.

Definition lirel1 (v : list T) (it : hliter) (l : list T) (G : list own) : Prop :=
  exists it', lirel G it it' /\ forall k, runs l_iter_next l_iter_hint k it' = Ok (fwd_spec k l).

Lemma quiet_first : forall l, quiet (@hlp_first T l).
Proof. intros l. unfold hlp_first, hl_first, read_node, read_elem. hush. Qed.
Lemma quiet_last : forall l, quiet (@hlp_last T l).
Proof. intros l. unfold hlp_last, hl_last_elem, read_elem. hush. Qed.
Lemma quiet_hlp_runs : forall k l, quiet (@hlp_runs T k l).
Proof. intros. apply quiet_runs. apply quiet_next. Qed.

Lemma list_reads_gentle : forall o (c : hlist), list_reads o = true -> gentle c (@hl_step T o c).
Proof.
  intros o c E. destruct o; try discriminate E; cbn [hl_step]; try reflexivity; apply gentle_answer;
    [apply quiet_first|apply quiet_last|apply quiet_hlp_runs].
Qed.
Lemma stack_reads_gentle : forall o (c : hlist), stack_reads o = true -> gentle c (@hs_step T o c).
Proof.
  intros o c E. destruct o; try discriminate E; cbn [hs_step]; try reflexivity; apply gentle_answer;
    [apply quiet_first|apply quiet_hlp_runs].
Qed.
Lemma list_reads_same : forall o v, list_reads o = true -> fst (@list_spec T o v) = v.
Proof. intros o v E. destruct o; try discriminate E; reflexivity. Qed.
Lemma stack_reads_same : forall o v, stack_reads o = true -> fst (@stack_spec T o v) = v.
Proof. intros o v E. destruct o; try discriminate E; reflexivity. Qed.

(** A clone leaves the original in the very nodes it was in. *)
Lemma hl_clone_keeps : forall c (v : list T) G, hlrep c v G ->
  safe lkids 0 (hlp_clone c) G (fun c' G' => exists G2, G' = G ++ G2 /\ hlrep c' v G2).
Proof.
  intros L s G R. assert (R0 := R). destruct R as (ts & tl & -> & Ch & Lt & ->).
  unfold hlp_clone, hl_clone. cbn [hl_head hl_len hl_last].
  apply safe_clone_opt; [eapply chain_one; eauto| |].
  { intros u Iu. apply lent_in. apply in_map. apply in_app_iff. now left. }
  apply safe_clone_opt; [eapply lastt_one; eauto| |].
  { intros u Iu. apply lent_in. apply in_app_iff. right. apply in_map. apply in_app_iff. now right. }
  exists (map Tree (ts ++ tl) ++ map Tree (ts ++ tl)). split; [perm|].
  eexists. split; [reflexivity|exact R0].
Qed.

Lemma hl_open_looks : forall a (c : hlist) (v : list T) G, hlrep c v G -> any_arg a v ->
  looks 0 (hl_open a c) G (fun it => exists l, all_of a v l /\ lirel1 v it l G).
Proof.
  intros a c v G R _. exists v. split; [reflexivity|].
  exists (l_iter_new (mkL v (last_error v) (length v))). split; [now apply lirel_new|].
  intros k. destruct (l_step_sim (LIter k) (mkL v (last_error v) (length v)) v) as (l' & El & _); [now split|].
  cbn [l_step list_spec snd] in El.
  destruct (runs l_iter_next l_iter_hint k _) as [r| |] eqn:Er; cbn in El; try discriminate.
  injection El as _ ->. reflexivity.
Qed.

Lemma hl_next_looks : forall (v : list T) it l G d, lirel1 v it l G ->
  looks 2 (hl_inext d it) G (fun r => snd r = snd (snext1 d l) /\ lirel1 v (fst r) (fst (snext1 d l)) G).
Proof.
  intros v it l G d (it' & R & E).
  apply (step1_looks (lirel G) G (fun it => 2 * length (fst it)) 2 (hl_next l_isN l_isE) hl_hint
    l_iter_next l_iter_hint) with (s' := it'); trivial.
  - intros i i' (ts & Lc & -> & Ei). unfold hl_hint, l_iter_hint. now rewrite Ei.
  - apply hl_next_follows.
Qed.

Theorem list_holds : holds_iterators lkids (Ret hl_new) hlp_clone hlp_drop hl_step hl_open hl_inext Prop_HeapSeq.hl_roots
  (@nil T) list_spec snext1 all_of list_reads always any_arg 0 2 3 list_price (fun _ _ => 0) (fun _ => 2).
Proof.
  eapply (holds_iterators_ok lkids 4 (fun _ => True) _ _ _ _ _ _ _ hlrep lirel1).
  - refine (sp Prop_HeapSeq.hl_new_ok (_ : pays _ _ _ _ any)). exact I.
  - intros c v G R. exact (sp (hl_clone_keeps _ _ _ R) (l_clone _)).
  - intros c v G R. exact (sp (hlp_drop_ok _ _ _ R) (l_drop _)).
  - intros o c v G R _. exact (sp (hl_step_ok o _ _ _ R) (hl_step_pays o _ _ _ R)).
  - apply list_reads_gentle.
  - apply list_reads_same.
  - apply Prop_HeapSeq.hl_rep_roots.
  - apply hl_open_looks.
  - apply hl_next_looks.
Qed.

Theorem stack_holds : holds_iterators lkids (Ret hl_new) hlp_clone hlp_drop hs_step hl_open hl_inext Prop_HeapSeq.hl_roots
  (@nil T) stack_spec snext1 all_of stack_reads always any_arg 0 2 3 stack_price (fun _ _ => 0) (fun _ => 2).
Proof.
  eapply (holds_iterators_ok lkids 4 (fun _ => True) _ _ _ _ _ _ _ hlrep lirel1).
  - refine (sp Prop_HeapSeq.hl_new_ok (_ : pays _ _ _ _ any)). exact I.
  - intros c v G R. exact (sp (hl_clone_keeps _ _ _ R) (l_clone _)).
  - intros c v G R. exact (sp (hlp_drop_ok _ _ _ R) (l_drop _)).
  - intros o c v G R _. exact (sp (hs_step_ok o _ _ _ R) (hs_step_pays o _ _ _ R)).
  - apply stack_reads_gentle.
  - apply stack_reads_same.
  - apply Prop_HeapSeq.hl_rep_roots.
  - apply hl_open_looks.
  - apply hl_next_looks.
Qed.

(** ** Queue *)
(** queue/mod.rs:182-188: [iter]; it reads nothing *)
Definition hq_open (_ : unit) (q : hqueue) : prog (@lcell T) hqiter := Ret (hq_iter_new q).
Definition hq_inext := step1 (@hq_next T) hq_hint.

Definition queue_reads (o : queue_op T) : bool :=
  match o with QPeek | QLen | QIsEmpty | QIter _ => true | _ => false end.

Definition qirel1 (v : list T) (it : hqiter) (l : list T) (G : list own) : Prop :=
  exists m it', m <= length v /\ qirel G m it it' /\ forall k, runs q_iter_next q_iter_hint k it' = Ok (fwd_spec k l).

Lemma quiet_hq_next : forall it, quiet (@hq_next T it).
Proof.
  intros [[a|] b]; unfold hq_next, hq_next_ptr, read_elem.
  - apply quiet_bind; [|hush]. apply quiet_bind; [apply quiet_next_ptr|]. intros [[v|] a']; [exact I|].
    apply quiet_bind; [apply quiet_lazy|]. hush.
  - apply quiet_bind; [|hush]. apply quiet_bind; [apply quiet_lazy|]. hush.
Qed.

Lemma queue_reads_gentle : forall o (c : hqueue), queue_reads o = true -> gentle c (@hq_step T o c).
Proof.
  intros o c E. destruct o; try discriminate E; cbn [hq_step]; try reflexivity; apply gentle_answer.
  - unfold hq_peek. destruct (negb _); [apply quiet_first|apply quiet_last].
  - apply quiet_runs. apply quiet_hq_next.
Qed.
Lemma queue_reads_same : forall o v, queue_reads o = true -> fst (@queue_spec T o v) = v.
Proof. intros o v E. destruct o; try discriminate E; reflexivity. Qed.

Lemma hq_clone_keeps : forall c (v : list T) G, hqrep c v G ->
  safe lkids 0 (hq_clone c) G (fun c' G' => exists G2, G' = G ++ G2 /\ hqrep c' v G2).
Proof.
  intros q s G (i & o & Gi & Go & Ri & Ro & -> & ->). unfold hq_clone.
  eapply (safe_seq _ _ _ 0 0 _ _ Gi Go); [apply (hl_clone_keeps _ i Gi Ri)|perm| |lia].
  intros i' G' (G2 & -> & R2).
  eapply (safe_seq _ _ _ 0 0 _ _ Go (Gi ++ G2)); [apply (hl_clone_keeps _ o Go Ro)|perm| |lia].
  intros o' G' (G4 & -> & R4).
  exists ((Gi ++ Go) ++ (G2 ++ G4)). split; [perm|].
  exists (G2 ++ G4). split; trivial. exists i, o, G2, G4. auto.
Qed.

Lemma hq_open_looks : forall a (c : hqueue) (v : list T) G, hqrep c v G -> any_arg a v ->
  looks 0 (hq_open a c) G (fun it => exists l, all_of a v l /\ qirel1 v it l G).
Proof.
  intros a c v G (i & o & Gi & Go & Ri & Ro & -> & ->) _. exists (o ++ rev i). split; [reflexivity|].
  set (Q := mkQ (mkL i (last_error i) (length i)) (mkL o (last_error o) (length o))).
  exists (length i), (q_iter_new Q). splits; [rewrite app_length, rev_length; lia|now apply hq_new_rel|].
  intros k. destruct (q_step_sim (QIter k) Q (o ++ rev i)) as (q' & Eq & _).
  { exists i, o. splits; trivial; now split. }
  cbn [q_step queue_spec snd] in Eq.
  destruct (runs q_iter_next q_iter_hint k _) as [r| |] eqn:Er; cbn in Eq; try discriminate.
  injection Eq as _ ->. reflexivity.
Qed.

Lemma hq_next_looks : forall (v : list T) it l G d, qirel1 v it l G ->
  looks (length v + 2) (hq_inext d it) G (fun r => snd r = snd (snext1 d l) /\ qirel1 v (fst r) (fst (snext1 d l)) G).
Proof.
  intros v it l G d (m & it' & Lm & R & E). eapply looks_le; [|apply Nat.add_le_mono_r, Lm]. eapply looks_post.
  - apply (step1_looks (qirel G m) G qipot (m + 2) hq_next hq_hint q_iter_next q_iter_hint) with (s' := it') (l := l); trivial.
    + apply hq_hint_is.
    + apply hq_next_follows.
  - intros r (Er & it'' & R' & E'). split; [exact Er|]. exists m, it''. auto.
Qed.

Theorem queue_holds : holds_iterators lkids (Ret hq_new) hq_clone hq_drop hq_step hq_open hq_inext Prop_HeapSeq.hq_roots
  (@nil T) queue_spec snext1 all_of queue_reads always any_arg 0 4 6 queue_price (fun _ _ => 0) (fun v => length v + 2).
Proof.
  eapply (holds_iterators_ok lkids 4 (fun _ => True) _ _ _ _ _ _ _ hqrep qirel1).
  - refine (sp Prop_HeapSeq.hq_new_ok (_ : pays _ _ _ _ any)). exact I.
  - intros c v G R. exact (sp (hq_clone_keeps _ _ _ R) (q_clone 4 _)).
  - intros c v G R. exact (sp (hq_drop_ok _ _ _ R) (q_drop _)).
  - intros o c v G R _. exact (hq_step_dear o _ _ _ R).
  - apply queue_reads_gentle.
  - apply queue_reads_same.
  - apply Prop_HeapSeq.hq_rep_roots.
  - apply hq_open_looks.
  - apply hq_next_looks.
Qed.
End Seq.
