(** Proofs about List, Stack and Queue. *)
From Coq Require Import List Arith Bool Lia.
From Verif Require Import Base Spec Sim ListModel.
Import ListNotations.

(** [l] represents the sequence [s]. *)
Definition l_rep {T} (l : rlist T) (s : list T) : Prop :=
  l_head l = s /\ l_last l = last_error s /\ l_length l = length s.

Section ListP.
Context {T : Type}.
Implicit Types (l : rlist T) (s vs : list T).

Lemma l_rep_new : l_rep l_new ([] : list T).
Proof. repeat split. Qed.

Lemma l_rep_push : forall l s v, l_rep l s -> l_rep (l_push_front_ptr_mut v l) (v :: s).
Proof.
  intros l s v (H1 & H2 & H3); unfold l_push_front_ptr_mut; repeat split; simpl.
  - now rewrite H1.
  - rewrite H3, H2. destruct s; reflexivity.
  - rewrite H3. lia.
Qed.

Lemma l_rep_drop : forall l s, l_rep l s ->
  exists l', l_drop_first_mut l = Ok (l', negb (is_nil s)) /\ l_rep l' (tl s).
Proof.
  intros l s (H1 & H2 & H3); unfold l_drop_first_mut. rewrite H1.
  destruct s as [|a s]; simpl.
  - eexists; split; [reflexivity|]. repeat split; assumption.
  - simpl in H3. rewrite H3, csub_S; simpl. eexists; split; [reflexivity|].
    repeat split; simpl. rewrite H2. destruct s; reflexivity.
Qed.

Lemma l_reverse_loop_eq : forall s p, l_reverse_loop p s = rev s ++ p.
Proof. induction s as [|a s IH]; intros p; simpl; [reflexivity|]. rewrite IH, <- app_assoc. reflexivity. Qed.

Lemma l_rep_reverse_mut : forall l s, l_rep l s -> l_rep (l_reverse_mut l) (rev s).
Proof.
  intros l s (H1 & H2 & H3); unfold l_reverse_mut; repeat split; simpl.
  - rewrite l_reverse_loop_eq, app_nil_r, H1. reflexivity.
  - rewrite last_error_rev, H1. destruct s; reflexivity.
  - rewrite rev_length. assumption.
Qed.

Definition l_iter_rep (it : @l_iter T) s : Prop := fst it = s /\ snd it = length s.

Lemma l_iter_sim : iter_sim (@l_iter_next T) l_iter_hint l_iter_rep.
Proof.
  intros [c n] s (H1 & H2); simpl in *; subst. split; [reflexivity|].
  unfold l_iter_next; simpl. destruct s as [|a s]; simpl.
  - eexists; split; [reflexivity|]. split; reflexivity.
  - rewrite Nat.sub_0_r.
    eexists; split; [reflexivity|]. split; reflexivity.
Qed.

Lemma l_iter_new_rep : forall l s, l_rep l s -> l_iter_rep (l_iter_new l) s.
Proof. intros l s (H1 & H2 & H3); split; assumption. Qed.

Lemma l_elems_ok : forall l s, l_rep l s -> l_elems l = Ok s.
Proof.
  intros l s H. unfold l_elems.
  eapply sim_collect; [exact (iter_sim_sim0 _ _ _ _ _ l_iter_sim)|apply l_iter_new_rep; exact H|].
  destruct H as (_ & _ & H). unfold l_len. lia.
Qed.

Lemma l_rep_fold_push : forall vs l s, l_rep l s ->
  l_rep (fold_left (fun acc v => l_push_front_ptr_mut v acc) vs l) (rev vs ++ s).
Proof.
  induction vs as [|v vs IH]; intros l s H; simpl; [assumption|].
  rewrite <- app_assoc; simpl. apply IH. now apply l_rep_push.
Qed.

Lemma l_rep_reverse : forall l s, l_rep l s ->
  exists l', l_reverse l = Ok l' /\ l_rep l' (rev s).
Proof.
  intros l s H. unfold l_reverse. rewrite (l_elems_ok _ _ H); simpl.
  eexists; split; [reflexivity|].
  rewrite <- (app_nil_r (rev s)). apply l_rep_fold_push. apply l_rep_new.
Qed.

Lemma l_rep_from_iter : forall vs, l_rep (l_from_iter vs) vs.
Proof.
  intros vs. unfold l_from_iter, l_push_front_mut.
  pose proof (l_rep_fold_push (rev vs) l_new [] l_rep_new) as H.
  rewrite rev_involutive, app_nil_r in H. exact H.
Qed.

Lemma list_reverse_macro_eq : forall (args r : list T), list_reverse_macro args r = rev args ++ r.
Proof. induction args as [|a s IH]; intros p; simpl; [reflexivity|]. rewrite IH, <- app_assoc. reflexivity. Qed.

Lemma l_rep_macro : forall vs, l_rep (l_macro vs) vs.
Proof.
  intros vs. unfold l_macro. rewrite list_reverse_macro_eq, app_nil_r. apply l_rep_from_iter.
Qed.

Lemma l_rep_is_empty : forall l s, l_rep l s -> l_is_empty l = is_nil s.
Proof. intros l s (_ & _ & H). unfold l_is_empty, l_len. rewrite H. destruct s; reflexivity. Qed.

Lemma l_rep_first : forall l s, l_rep l s -> l_first l = hd_error s.
Proof. intros l s (H & _ & _). unfold l_first. rewrite H. destruct s; reflexivity. Qed.

Lemma tl_nil : forall (s : list T), is_nil s = true -> tl s = s.
Proof. destruct s; simpl; congruence. Qed.

Lemma l_step_sim : forall (o : list_op T) l s, l_rep l s ->
  exists l', l_step o l = Ok (l', snd (list_spec o s)) /\ l_rep l' (fst (list_spec o s)).
Proof.
  intros o l s H. destruct o; simpl.
  - eexists; split; [reflexivity|apply l_rep_new].
  - eexists; split; [reflexivity|apply l_rep_from_iter].
  - eexists; split; [reflexivity|apply l_rep_push; assumption].
  - eexists; split; [reflexivity|apply l_rep_push; assumption].
  - unfold l_drop_first. destruct (l_rep_drop _ _ H) as (l' & E & H').
    rewrite E; simpl. destruct (is_nil s) eqn:En; simpl.
    + eexists; split; [reflexivity|]. now rewrite tl_nil.
    + eexists; split; [reflexivity|]. assumption.
  - destruct (l_rep_drop _ _ H) as (l' & E & H'). rewrite E; simpl. eauto.
  - destruct (l_rep_reverse _ _ H) as (l' & E & H'). rewrite E; simpl. eauto.
  - eexists; split; [reflexivity|]. now apply l_rep_reverse_mut.
  - eexists; split; [|eassumption]. now rewrite (l_rep_first _ _ H).
  - eexists; split; [|eassumption]. destruct H as (_ & H & _). unfold l_last_elem. now rewrite H.
  - eexists; split; [|eassumption]. destruct H as (_ & _ & H). unfold l_len. now rewrite H.
  - eexists; split; [|eassumption]. now rewrite (l_rep_is_empty _ _ H).
  - rewrite (sim_runs _ _ _ _ _ l_iter_sim _ _ _ (l_iter_new_rep _ _ H)); simpl. eauto.
Qed.

Lemma list_history : forall (ops : list (list_op T)),
  exists l, exec_m l_step ops l_new = Ok (l, snd (exec_s list_spec ops [])) /\
            l_rep l (fst (exec_s list_spec ops [])).
Proof. intros. apply (sim_exec _ _ _ _ l_rep); [apply l_step_sim|apply l_rep_new]. Qed.

(** *** Stack *)
Lemma s_step_sim : forall (o : stack_op T) (st : rstack T) s, l_rep (s_list st) s ->
  exists st', s_step o st = Ok (st', snd (stack_spec o s)) /\ l_rep (s_list st') (fst (stack_spec o s)).
Proof.
  intros o [l] s H; simpl in H. destruct o; simpl.
  - eexists; split; [reflexivity|apply l_rep_new].
  - eexists; split; [reflexivity|]; simpl; apply l_rep_push; assumption.
  - eexists; split; [reflexivity|]; simpl; apply l_rep_push; assumption.
  - unfold s_pop, s_pop_mut; simpl. destruct (l_rep_drop _ _ H) as (l' & E & H').
    rewrite E; simpl. destruct (is_nil s) eqn:En; simpl.
    + eexists; split; [reflexivity|]. now rewrite tl_nil.
    + eexists; split; [reflexivity|]. assumption.
  - unfold s_pop_mut; simpl. destruct (l_rep_drop _ _ H) as (l' & E & H'). rewrite E; simpl.
    eexists; split; [reflexivity|]. assumption.
  - exists (mkS l); split; [|exact H]. unfold s_peek; simpl. now rewrite (l_rep_first _ _ H).
  - exists (mkS l); split; [|exact H]. destruct H as (_ & _ & H). unfold s_size, l_len; simpl. now rewrite H.
  - exists (mkS l); split; [|exact H]. unfold s_is_empty; simpl. now rewrite (l_rep_is_empty _ _ H).
  - rewrite (sim_runs _ _ _ _ _ l_iter_sim _ _ _ (l_iter_new_rep _ _ H)); simpl.
    exists (mkS l); split; [reflexivity|exact H].
Qed.

Lemma stack_history : forall (ops : list (stack_op T)),
  exists st, exec_m s_step ops s_new = Ok (st, snd (exec_s stack_spec ops [])) /\
            l_rep (s_list st) (fst (exec_s stack_spec ops [])).
Proof.
  intros. apply (sim_exec _ _ _ _ (fun st s => l_rep (s_list st) s)).
  - intros o m s H. exact (s_step_sim o m s H).
  - apply l_rep_new.
Qed.

Lemma s_rep_macro_gen : forall vs st s, l_rep (s_list st) s ->
  l_rep (s_list (fold_left (fun acc v => s_push_mut v acc) vs st)) (rev vs ++ s).
Proof.
  induction vs as [|v vs IH]; intros st s H; simpl; [assumption|].
  rewrite <- app_assoc; simpl. apply IH. simpl. now apply l_rep_push.
Qed.

Lemma s_rep_macro : forall vs, l_rep (s_list (s_macro vs)) (rev vs).
Proof.
  intros. rewrite <- (app_nil_r (rev vs)). apply s_rep_macro_gen. apply l_rep_new.
Qed.

(** *** Queue *)
Definition q_rep (q : rqueue T) s : Prop :=
  exists i o, l_rep (q_in q) i /\ l_rep (q_out q) o /\ s = o ++ rev i.

Lemma q_rep_new : q_rep q_new [].
Proof. exists [], []. repeat split. Qed.

Lemma q_rep_enqueue : forall q s v, q_rep q s -> q_rep (q_enqueue_mut v q) (s ++ [v]).
Proof.
  intros q s v (i & o & Hi & Ho & ->). exists (v :: i), o. repeat split; simpl; try apply Ho.
  - destruct Hi as (-> & _ & _); reflexivity.
  - apply (l_rep_push _ _ v Hi).
  - apply (l_rep_push _ _ v Hi).
  - now rewrite app_assoc.
Qed.

Lemma is_nil_app_cons : forall (a : T) o s, is_nil ((a :: o) ++ s) = false.
Proof. reflexivity. Qed.

Lemma q_rep_dequeue : forall q s, q_rep q s ->
  exists q', q_dequeue_mut q = Ok (q', negb (is_nil s)) /\ q_rep q' (tl s).
Proof.
  intros q s (i & o & Hi & Ho & ->). unfold q_dequeue_mut.
  rewrite (l_rep_is_empty _ _ Ho), (l_rep_is_empty _ _ Hi).
  destruct o as [|a o]; simpl.
  - destruct i as [|b i]; simpl.
    + eexists; split; [reflexivity|]. exists [], []. auto.
    + pose proof (l_rep_reverse_mut _ _ Hi) as Hr.
      destruct (l_rep_drop _ _ Hr) as (l' & E & H'). rewrite E; simpl.
      eexists; split.
      * do 2 f_equal. destruct (rev i ++ [b]) eqn:Ee; [destruct (rev i); discriminate|reflexivity].
      * exists [], (tl (rev (b :: i))). repeat split; simpl; try apply H'; try apply Ho.
        now rewrite app_nil_r.
  - destruct (l_rep_drop _ _ Ho) as (l' & E & H'). rewrite E; simpl.
    eexists; split; [reflexivity|]. exists i, o. auto.
Qed.

Lemma q_rep_len : forall q s, q_rep q s -> q_len q = length s.
Proof.
  intros q s (i & o & (_ & _ & Hi) & (_ & _ & Ho) & ->). unfold q_len, l_len.
  rewrite Hi, Ho, app_length, rev_length. lia.
Qed.

Lemma q_rep_peek : forall q s, q_rep q s -> q_peek q = hd_error s.
Proof.
  intros q s (i & o & Hi & Ho & ->). unfold q_peek. rewrite (l_rep_is_empty _ _ Ho).
  destruct o as [|a o]; simpl.
  - destruct Hi as (_ & Hi & _). unfold l_last_elem. now rewrite Hi, hd_error_rev.
  - now rewrite (l_rep_first _ _ Ho).
Qed.

(** The lazily reversed iterator. *)
Inductive lazy_rep : @lazy_iter T -> list T -> Prop :=
| LR_un : forall l s, l_rep l s -> lazy_rep (Uninit l) (rev s)
| LR_some : forall vec i, i < length vec -> lazy_rep (Init vec (Some i)) (rev (firstn (S i) vec))
| LR_none : forall vec, lazy_rep (Init vec None) [].

Lemma firstn_S_snoc : forall (vec : list T) i v, nth_error vec i = Some v ->
  firstn (S i) vec = firstn i vec ++ [v].
Proof.
  induction vec as [|a vec IH]; intros [|i] v H; simpl in *; try discriminate.
  - congruence.
  - f_equal. now apply IH.
Qed.

Lemma lazy_init_some : forall vec i, i < length vec ->
  exists it', lazy_next_init vec (Some i) = Ok (hd_error (rev (firstn (S i) vec)), it') /\
              lazy_rep it' (tl (rev (firstn (S i) vec))).
Proof.
  intros vec i Hi. unfold lazy_next_init.
  destruct (nth_error vec i) as [v|] eqn:E; [|apply nth_error_None in E; lia].
  rewrite (firstn_S_snoc _ _ _ E), rev_app_distr; simpl.
  eexists; split; [reflexivity|].
  destruct i as [|i]; simpl.
  - apply LR_none.
  - rewrite Nat.sub_0_r. apply LR_some. lia.
Qed.

Lemma lazy_sim : iter_sim (@lazy_next T) lazy_hint lazy_rep.
Proof.
  intros it s H. destruct H as [l s H|vec i Hi|vec].
  - simpl. rewrite (l_elems_ok _ _ H); simpl.
    assert (Hl : l_len l = length s) by apply H. rewrite Hl, rev_length. split; [reflexivity|].
    destruct s as [|a s].
    + simpl. eexists; split; [reflexivity|]. apply LR_none.
    + assert (Hlt : length (a :: s) - 1 < length (a :: s)) by (simpl; lia).
      destruct (lazy_init_some _ _ Hlt) as (it' & E & H').
      replace (S (length (a :: s) - 1)) with (length (a :: s)) in * by (simpl; lia).
      rewrite firstn_all in *. exists it'. split; [|exact H'].
      change (0 <? length (a :: s)) with true. cbv iota. exact E.
  - split.
    + simpl lazy_hint. rewrite rev_length, firstn_length. f_equal. lia.
    + simpl lazy_next. now apply lazy_init_some.
  - split; [reflexivity|]. eexists; split; [reflexivity|]. apply LR_none.
Qed.

Inductive q_iter_rep : @q_iter T -> list T -> Prop :=
| QR_a : forall a b o s, l_iter_rep a o -> lazy_rep b s -> q_iter_rep (Some a, b) (o ++ s)
| QR_b : forall b s, lazy_rep b s -> q_iter_rep (None, b) s.

Lemma q_iter_sim : iter_sim (@q_iter_next T) q_iter_hint q_iter_rep.
Proof.
  intros it s H. destruct H as [a b o s Ha Hb|b s Hb].
  - destruct (l_iter_sim _ _ Ha) as (Hh & a' & E & Ha').
    destruct (lazy_sim _ _ Hb) as (Hh' & b' & E' & Hb').
    split; [unfold q_iter_hint; rewrite Hh, Hh', app_length; reflexivity|].
    simpl. rewrite E; simpl. destruct o as [|v o]; simpl.
    + rewrite E'; simpl. eexists; split; [reflexivity|]. now apply QR_b.
    + eexists; split; [reflexivity|]. now apply QR_a.
  - destruct (lazy_sim _ _ Hb) as (Hh' & b' & E' & Hb').
    split; [exact Hh'|]. simpl. rewrite E'; simpl.
    eexists; split; [reflexivity|]. now apply QR_b.
Qed.

Lemma q_iter_new_rep : forall q s, q_rep q s -> q_iter_rep (q_iter_new q) s.
Proof.
  intros q s (i & o & Hi & Ho & ->). apply QR_a; [now apply l_iter_new_rep|now apply LR_un].
Qed.

Lemma q_elems_ok : forall q s, q_rep q s -> q_elems q = Ok s.
Proof.
  intros q s H. unfold q_elems.
  eapply sim_collect; [exact (iter_sim_sim0 _ _ _ _ _ q_iter_sim)|now apply q_iter_new_rep|].
  rewrite (q_rep_len _ _ H). lia.
Qed.

Lemma q_rep_from_iter : forall vs, q_rep (q_from_iter vs) vs.
Proof.
  intros. exists [], vs. repeat split; try apply l_rep_from_iter. now rewrite app_nil_r.
Qed.

Lemma q_rep_macro : forall vs, q_rep (q_macro vs) vs.
Proof.
  intros vs. unfold q_macro.
  assert (G : forall vs q s, q_rep q s ->
    q_rep (fold_left (fun acc v => q_enqueue_mut v acc) vs q) (s ++ vs)).
  { induction vs0 as [|v vs0 IH]; intros q s H; simpl; [now rewrite app_nil_r|].
    replace (s ++ v :: vs0) with ((s ++ [v]) ++ vs0) by now rewrite <- app_assoc.
    apply IH. now apply q_rep_enqueue. }
  apply (G vs q_new []). apply q_rep_new.
Qed.

Lemma q_step_sim : forall (o : queue_op T) q s, q_rep q s ->
  exists q', q_step o q = Ok (q', snd (queue_spec o s)) /\ q_rep q' (fst (queue_spec o s)).
Proof.
  intros o q s H. destruct o; simpl.
  - eexists; split; [reflexivity|apply q_rep_new].
  - eexists; split; [reflexivity|apply q_rep_from_iter].
  - eexists; split; [reflexivity|]. now apply q_rep_enqueue.
  - eexists; split; [reflexivity|]. now apply q_rep_enqueue.
  - unfold q_dequeue. destruct (q_rep_dequeue _ _ H) as (q' & E & H'). rewrite E; simpl.
    destruct (is_nil s) eqn:En; simpl.
    + eexists; split; [reflexivity|]. now rewrite tl_nil.
    + eexists; split; [reflexivity|]. assumption.
  - destruct (q_rep_dequeue _ _ H) as (q' & E & H'). rewrite E; simpl. eauto.
  - eexists; split; [|eassumption]. now rewrite (q_rep_peek _ _ H).
  - eexists; split; [|eassumption]. now rewrite (q_rep_len _ _ H).
  - eexists; split; [|eassumption]. unfold q_is_empty. rewrite (q_rep_len _ _ H).
    destruct s; reflexivity.
  - rewrite (sim_runs _ _ _ _ _ q_iter_sim _ _ _ (q_iter_new_rep _ _ H)); simpl. eauto.
Qed.

Lemma queue_history : forall (ops : list (queue_op T)),
  exists q, exec_m q_step ops q_new = Ok (q, snd (exec_s queue_spec ops [])) /\
            q_rep q (fst (exec_s queue_spec ops [])).
Proof. intros. apply (sim_exec _ _ _ _ q_rep); [apply q_step_sim|apply q_rep_new]. Qed.

End ListP.
