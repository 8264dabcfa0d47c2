(** * How deep calls of drop glue nest (for C39)

    [Enter] and [Leave] (HeapModel.v) bracket the drop glue of the contents of a
    cell.  This file measures how deep they nest, in a run of one thread and in
    a run of many. *)
From Coq Require Import List Arith Lia Bool Permutation.
From Verif Require Import Base Spec ListModel HeapModel HeapProofs HeapSafe HeapClient HeapWorld HeapList HeapPtr HeapLooks.
Import ListNotations.
Local Open Scope prog_scope.

Section Depth.
Context {C : Type}.

(** ** Measures *)

(** As [run], with the depth now and the greatest depth so far. *)
Fixpoint depth_run {A} (cur mx : nat) (h : heap C) (p : prog C A) {struct p} : option (heap C * A * nat * nat) :=
  match p with
  | Ret x => Some (h, x, cur, mx)
  | Fail => None
  | New c k => depth_run cur mx (h ++ [Some (Full 1 c)]) (k (length h))
  | Reserve k => depth_run cur mx (h ++ [Some Hole]) (k (length h))
  | Clone a k =>
      match get h a with
      | Some (Full n c) => depth_run cur mx (set h a (Some (Full (S n) c))) k
      | _ => None
      end
  | Read a k =>
      match get h a with
      | Some (Full _ c) => depth_run cur mx h (k c)
      | _ => None
      end
  | Dec a k =>
      match get h a with
      | Some (Full 0 _) => None
      | Some (Full 1 c) => depth_run cur mx (set h a None) (k (Some c))
      | Some (Full (S n) c) => depth_run cur mx (set h a (Some (Full n c))) (k None)
      | _ => None
      end
  | Take a k =>
      match get h a with
      | Some (Full 1 c) => depth_run cur mx (set h a (Some Hole)) (k (Some c))
      | Some (Full _ _) => depth_run cur mx h (k None)
      | _ => None
      end
  | Fill a c k =>
      match get h a with
      | Some Hole => depth_run cur mx (set h a (Some (Full 1 c))) k
      | _ => None
      end
  | Unwrap a k =>
      match get h a with
      | Some (Full 1 c) => depth_run cur mx (set h a None) (k (Some c))
      | Some (Full _ _) => depth_run cur mx h (k None)
      | _ => None
      end
  | Enter k => depth_run (S cur) (Nat.max mx (S cur)) h k
  | Leave k => depth_run (cur - 1) mx h k
  end.

(** The depth thread [i] is at after the steps of a schedule. *)
Fixpoint depth_exec {A} (i : nat) (sched : list nat) (cf : heap C * list (prog C A)) (cur : nat) : nat :=
  match sched with
  | [] => cur
  | j :: s =>
      depth_exec i s (cstep j cf)
        (if j =? i then
           match nth_error (snd cf) i with
           | Some (Enter _) => S cur
           | Some (Leave _) => cur - 1
           | _ => cur
           end
         else cur)
  end.

(** ** One thread *)
Ltac by_ih := first [ reflexivity | match goal with H : _ |- _ => apply H end ].
Ltac by_cell h :=
  try by_ih;
  match goal with |- context [get h ?b] => destruct (get h b) as [[[|[|n]] d|]|]; by_ih end.

Lemma depth_run_run : forall A (p : prog C A) cur mx h,
  match run h p with
  | Some (h', x) => exists cur' mx', depth_run cur mx h p = Some (h', x, cur', mx')
  | None => depth_run cur mx h p = None
  end.
Proof.
  intros A p. induction p; intros cur mx h; cbn [run depth_run]; [now eexists _, _|..]; by_cell h.
Qed.

Lemma run_pbind : forall A B (p : prog C A) (f : A -> prog C B) h,
  run h (pbind p f) = match run h p with Some (h1, x) => run h1 (f x) | None => None end.
Proof. intros A B p f. induction p; intros h; cbn [run pbind]; by_cell h. Qed.

Lemma depth_run_bind : forall A B (p : prog C A) (f : A -> prog C B) cur mx h,
  depth_run cur mx h (pbind p f) =
  match depth_run cur mx h p with Some (h1, x, cur1, mx1) => depth_run cur1 mx1 h1 (f x) | None => None end.
Proof. intros A B p f. induction p; intros cur mx h; cbn [depth_run pbind]; by_cell h. Qed.

(** The program nests at most [d] calls and returns from all of them. *)
Definition flat {A} (d : nat) (p : prog C A) : Prop := forall cur mx h h' x cur' mx',
  depth_run cur mx h p = Some (h', x, cur', mx') -> cur' = cur /\ mx' <= Nat.max mx (cur + d).

Lemma flat_le : forall A d d' (p : prog C A), d <= d' -> flat d p -> flat d' p.
Proof. intros A d d' p L F cur mx h h' x cur' mx' E. destruct (F _ _ _ _ _ _ _ E). split; [trivial|lia]. Qed.

Lemma flat_bind : forall A B d (p : prog C A) (f : A -> prog C B),
  flat d p -> (forall x, flat d (f x)) -> flat d (pbind p f).
Proof.
  intros A B d p f Fp Ff cur mx h h' x cur' mx' E. rewrite depth_run_bind in E.
  destruct (depth_run cur mx h p) as [[[[h1 y] cur1] mx1]|] eqn:E1; [|discriminate].
  destruct (Fp _ _ _ _ _ _ _ E1) as [-> L1]. destruct (Ff _ _ _ _ _ _ _ _ E) as [-> L2]. split; [trivial|lia].
Qed.

Lemma flat_ret : forall A d (x : A), flat d (Ret x).
Proof. intros A d x cur mx h h' y cur' mx' E. injection E as <- <- <- <-. split; [trivial|lia]. Qed.
Lemma flat_fail : forall A d, flat d (@Fail C A).
Proof. intros A d cur mx h h' y cur' mx' E. discriminate. Qed.
Lemma flat_new : forall A d c (k : addr -> prog C A), (forall a, flat d (k a)) -> flat d (New c k).
Proof. intros A d c k F cur mx h h' y cur' mx' E. eapply F. exact E. Qed.
Lemma flat_reserve : forall A d (k : addr -> prog C A), (forall a, flat d (k a)) -> flat d (Reserve k).
Proof. intros A d k F cur mx h h' y cur' mx' E. eapply F. exact E. Qed.
Lemma flat_clone : forall A d a (k : prog C A), flat d k -> flat d (Clone a k).
Proof.
  intros A d a k F cur mx h h' y cur' mx' E. cbn in E. destruct (get h a) as [[n c|]|]; try discriminate. eapply F. exact E.
Qed.
Lemma flat_read : forall A d a (k : C -> prog C A), (forall c, flat d (k c)) -> flat d (Read a k).
Proof.
  intros A d a k F cur mx h h' y cur' mx' E. cbn in E. destruct (get h a) as [[n c|]|]; try discriminate. eapply F. exact E.
Qed.
Lemma flat_quiet : forall A d (p : prog C A), quiet p -> flat d p.
Proof.
  intros A d p. induction p; intros q; try (exfalso; exact q); [apply flat_ret|apply flat_fail|]. apply flat_read. intros c. apply H, q.
Qed.
Lemma flat_fill : forall A d a c (k : prog C A), flat d k -> flat d (Fill a c k).
Proof.
  intros A d a c k F cur mx h h' y cur' mx' E. cbn in E. destruct (get h a) as [[n c'|]|]; try discriminate. eapply F. exact E.
Qed.
Lemma flat_dec : forall A d a (k : option C -> prog C A), (forall r, flat d (k r)) -> flat d (Dec a k).
Proof.
  intros A d a k F cur mx h h' y cur' mx' E. cbn in E. destruct (get h a) as [[[|[|n]] c|]|]; try discriminate; eapply F; exact E.
Qed.
Lemma flat_take : forall A d a (k : option C -> prog C A), (forall r, flat d (k r)) -> flat d (Take a k).
Proof.
  intros A d a k F cur mx h h' y cur' mx' E. cbn in E. destruct (get h a) as [[[|[|n]] c|]|]; try discriminate; eapply F; exact E.
Qed.
Lemma flat_scope : forall A d (p : prog C A) (x : A), flat d p ->
  flat (S d) (Enter (let* _ := p in Leave (Ret x))).
Proof.
  intros A d p x F cur mx h h' y cur' mx' E. cbn [depth_run] in E. rewrite depth_run_bind in E.
  destruct (depth_run (S cur) (Nat.max mx (S cur)) h p) as [[[[h1 z] cur1] mx1]|] eqn:E1; [|discriminate].
  destruct (F _ _ _ _ _ _ _ E1) as [-> L1]. cbn [depth_run] in E. injection E as <- <- <- <-. split; lia.
Qed.

Lemma flat_each : forall d p l, (forall a, flat d (p a)) -> flat d (each p l).
Proof. intros d p l F. induction l as [|a l IH]; [apply flat_ret|]. cbn [each]. apply flat_bind; auto. Qed.

(** The fuel of [drop_ptr] bounds the depth. *)
Lemma flat_drop : forall kids f a, flat f (drop_ptr kids f a).
Proof.
  intros kids. induction f as [|f IH]; intros a; [apply flat_fail|]. cbn [drop_ptr]. apply flat_dec.
  intros [c|]; [|apply flat_ret]. apply flat_scope. apply flat_each. exact IH.
Qed.

(** Alone, the pointer that [try_unwrap] gave back is not the last one. *)
Lemma flat_unwrap : forall d kids f a (p : C -> prog C unit), (forall c, flat d (p c)) ->
  flat d (Unwrap a (fun r => match r with Some c => p c | None => drop_ptr kids f a end)).
Proof.
  intros d kids f a p F cur mx h h' y cur' mx' E. cbn [depth_run] in E.
  assert (X : forall n c, get h a = Some (Full n c) -> n <> 1 ->
            depth_run cur mx h (drop_ptr kids f a) = Some (h', y, cur', mx') -> cur' = cur /\ mx' <= Nat.max mx (cur + d)).
  { intros n c G N E'. destruct f as [|f]; [discriminate|]. cbn [drop_ptr depth_run] in E'. rewrite G in E'.
    destruct n as [|[|n]]; [discriminate|congruence|]. cbn [depth_run] in E'. injection E' as <- <- <- <-. split; [trivial|lia]. }
  destruct (get h a) as [[[|[|n]] c|]|] eqn:G; try discriminate.
  - eapply X; [reflexivity|discriminate|exact E].
  - eapply F. exact E.
  - eapply X; [reflexivity|discriminate|exact E].
Qed.

Lemma flat_make_mut : forall kids a, flat 2 (make_mut kids a).
Proof.
  intros kids a. unfold make_mut. apply flat_take. intros [c|]; [apply flat_ret|]. apply flat_read. intros c.
  induction (kids c) as [|b l IH]; cbn [clone_all]; [|now apply flat_clone].
  apply flat_reserve. intros a'. apply flat_bind; [apply flat_drop|]. intros _. apply flat_ret.
Qed.

Lemma flat_client : forall Coll Op Out d (hnew : prog C Coll) hclone hdrop (hop : Op -> Coll -> prog C (Coll * Out)),
  flat d hnew -> (forall c, flat d (hclone c)) -> (forall c, flat d (hdrop c)) -> (forall o c, flat d (hop o c)) ->
  forall l rs, flat d (hclient hnew hclone hdrop hop l rs).
Proof.
  intros Coll Op Out d hnew hclone hdrop hop Fn Fc Fd Fo.
  induction l as [|[|i|i o|i] l IH]; intros rs; cbn [hclient]; [apply flat_ret| | | |].
  - apply flat_bind; auto.
  - destruct (nth_error rs i) as [[c|]|]; auto. apply flat_bind; auto.
  - destruct (nth_error rs i) as [[c|]|]; auto. apply flat_bind; auto. intros [c' x].
    apply flat_bind; auto. intros [rs' xs]. apply flat_ret.
  - destruct (nth_error rs i) as [[c|]|]; auto. apply flat_bind; auto.
Qed.

(** ** Threads *)
Inductive goes {A} : nat -> heap C -> prog C A -> nat -> heap C -> prog C A -> Prop :=
| goes_refl : forall cur h p, goes cur h p cur h p
| goes_step : forall cur h p h1 p1 cur' h' p', pstep h p = Step h1 p1 ->
    goes (match p with Enter _ => S cur | Leave _ => cur - 1 | _ => cur end) h1 p1 cur' h' p' ->
    goes cur h p cur' h' p'.

Lemma goes_trans : forall A c h (p : prog C A) c1 h1 p1 c2 h2 p2,
  goes c h p c1 h1 p1 -> goes c1 h1 p1 c2 h2 p2 -> goes c h p c2 h2 p2.
Proof. intros A c h p c1 h1 p1 c2 h2 p2 G1 G2. induction G1; [trivial|]. econstructor; eauto. Qed.

Lemma pstep_bind : forall A B (p : prog C A) (f : A -> prog C B) h h1 p1,
  pstep h p = Step h1 p1 -> pstep h (pbind p f) = Step h1 (pbind p1 f).
Proof.
  intros A B p f h h1 p1 E. destruct p; cbn [pstep pbind] in *; try discriminate; try (injection E as <- <-; reflexivity);
    match goal with |- context [get h ?b] => destruct (get h b) as [[[|[|n]] d|]|]; try discriminate; injection E as <- <-; reflexivity end.
Qed.

Lemma goes_bind : forall A B c h (p : prog C A) (f : A -> prog C B) c' h' p',
  goes c h p c' h' p' -> goes c h (pbind p f) c' h' (pbind p' f).
Proof.
  intros A B c h p f c' h' p' G. induction G; [constructor|].
  eapply goes_step; [eapply pstep_bind; eassumption|]. destruct p; cbn [pbind]; exact IHG || discriminate.
Qed.

Lemma goes_exec : forall A c h (p : prog C A) c' h' p', goes c h p c' h' p' ->
  exists k, forall ps, depth_exec 0 (repeat 0 k) (h, p :: ps) c = c'.
Proof.
  intros A c h p c' h' p' G. induction G as [c h p|c h p h1 p1 c' h' p' E G (k & IH)].
  - exists 0. reflexivity.
  - exists (S k). intros ps. cbn [repeat depth_exec Nat.eqb nth_error snd].
    unfold cstep at 1. cbn [nth_error]. rewrite E. cbn [upd]. apply IH.
Qed.
End Depth.

Ltac flat_tac :=
  repeat first
    [ apply flat_ret | apply flat_fail | apply flat_new; intros ? | apply flat_reserve; intros ?
    | apply flat_clone | apply flat_read; intros ? | apply flat_fill
    | apply flat_bind; [|intros ?] | eapply flat_le; [|apply flat_drop]; lia | eapply flat_le; [|apply flat_make_mut]; lia
    | match goal with
      | |- flat _ (match ?x with _ => _ end) => destruct x
      | |- flat _ (if ?x then _ else _) => destruct x
      end ].

Section Lists.
Context {T : Type}.

Lemma flat_drop_loop : forall f fd head, flat 1 (hl_drop_loop (@lkids T) l_isN 1 f fd head).
Proof.
  induction f as [|f IH]; intros fd [a|]; cbn [hl_drop_loop]; flat_tac.
  apply flat_unwrap. intros c. flat_tac. apply IH.
Qed.
Lemma flat_hlp_drop : forall l, flat 1 (@hlp_drop T l).
Proof.
  intros l. unfold hlp_drop, hl_drop, drop_opt. apply flat_bind; [apply flat_drop_loop|]. intros _. flat_tac.
Qed.
Lemma flat_hlp_clone : forall l, flat 0 (@hlp_clone T l).
Proof. intros l. unfold hlp_clone, hl_clone, clone_opt. flat_tac. Qed.

Lemma flat_push_ptr : forall v l, flat 1 (hl_push_ptr (@lkids T) LN 1 v l).
Proof. intros. unfold hl_push_ptr, drop_opt. flat_tac. Qed.
Lemma flat_push : forall v l, flat 1 (@hlp_push T v l).
Proof. intros. unfold hlp_push, hl_push. apply flat_new. intros. apply flat_push_ptr. Qed.
Lemma flat_push_all : forall vs l, flat 1 (hl_push_all (@lkids T) LN (@LE T) 1 vs l).
Proof.
  induction vs as [|v vs IH]; intros l; cbn [hl_push_all]; [apply flat_ret|]. apply flat_bind; [apply flat_push|exact IH].
Qed.
Lemma flat_drop_first : forall l, flat 3 (@hlp_drop_first T l).
Proof. intros. unfold hlp_drop_first, hl_drop_first, read_node, clone_opt, drop_opt. flat_tac. Qed.
Lemma flat_rev_loop : forall f p c, flat 2 (hl_rev_loop (@lkids T) LN l_isN f p c).
Proof. induction f as [|f IH]; intros p [a|]; cbn [hl_rev_loop]; flat_tac. apply IH. Qed.
Lemma flat_reverse_mut : forall l, flat 2 (@hlp_reverse_mut T l).
Proof.
  intros. unfold hlp_reverse_mut, hl_reverse_mut, read_node, drop_opt. flat_tac; apply flat_rev_loop.
Qed.
Lemma flat_rev_ptrs : forall f c r acc, flat 1 (hl_rev_ptrs (@lkids T) LN l_isN 1 f c r acc).
Proof.
  induction f as [|f IH]; intros [a|] r acc; cbn [hl_rev_ptrs]; try apply flat_ret; try apply flat_fail.
  unfold read_node. apply flat_read. intros c. destruct (l_isN c) as [[v nx]|]; [|apply flat_fail].
  destruct r as [|r]; [apply flat_fail|]. apply flat_clone. apply flat_bind; [apply flat_push_ptr|]. intros acc'. apply IH.
Qed.
Lemma quiet_next_ptr : forall it, quiet (hl_next_ptr (@l_isN T) it).
Proof. intros [[a|] n]; unfold hl_next_ptr; cbn [fst snd]; unfold read_node; hush. Qed.
Lemma quiet_next : forall it, quiet (hl_next (@l_isN T) l_isE it).
Proof. intros it. unfold hl_next. apply quiet_bind; [apply quiet_next_ptr|]. unfold read_elem. hush. Qed.
Lemma flat_runs : forall k l, flat 0 (@hlp_runs T k l).
Proof. intros k l. apply flat_quiet. apply quiet_runs. apply quiet_next. Qed.
Lemma quiet_lazy : forall b, quiet (@hlazy_next T b).
Proof.
  intros [l|vec c]; cbn [hlazy_next]; unfold hlazy_next_init; [|hush].
  apply quiet_bind; [apply quiet_collect; apply quiet_next_ptr|]. hush.
Qed.
Lemma flat_hq_iter : forall k q, flat 0 (@hq_iter T k q).
Proof.
  intros k q. apply flat_quiet. apply quiet_runs. intros [[a|] b]; unfold hq_next, hq_next_ptr, read_elem.
  - apply quiet_bind; [|hush]. apply quiet_bind; [apply quiet_next_ptr|]. intros [[v|] a']; [exact I|].
    apply quiet_bind; [apply quiet_lazy|]. hush.
  - apply quiet_bind; [|hush]. apply quiet_bind; [apply quiet_lazy|]. hush.
Qed.
Lemma flat_first : forall l, flat 0 (@hlp_first T l).
Proof. intros. unfold hlp_first, hl_first, read_node, read_elem. flat_tac. Qed.
Lemma flat_last : forall l, flat 0 (@hlp_last T l).
Proof. intros. unfold hlp_last, hl_last_elem, read_elem. flat_tac. Qed.

Ltac known :=
  first [ apply flat_hlp_drop | apply flat_hlp_clone | apply flat_push | apply flat_drop_first | apply flat_reverse_mut
        | apply flat_rev_ptrs | apply flat_push_all | apply flat_runs | apply flat_first | apply flat_last | apply flat_hq_iter ].
Ltac flat_op := repeat (first [ apply flat_ret | apply flat_fail | eapply flat_le; [|known]; lia | apply flat_bind; [|intros ?]
                      | match goal with
                        | |- flat _ (match ?x with _ => _ end) => destruct x
                        | |- flat _ (if ?x then _ else _) => destruct x
                        end ]).

Lemma flat_list : forall o l, flat 3 (@hl_step T o l).
Proof. intros o l; destruct o; cbn [hl_step]; flat_op. Qed.
Lemma flat_stack : forall o l, flat 3 (@hs_step T o l).
Proof. intros o l; destruct o; cbn [hs_step]; flat_op. Qed.
Lemma flat_hq_drop : forall q, flat 3 (@hq_drop T q).
Proof. intros. unfold hq_drop. flat_op. Qed.
Lemma flat_hq_clone : forall q, flat 3 (@hq_clone T q).
Proof. intros. unfold hq_clone. flat_op. Qed.
Lemma flat_dequeue : forall q, flat 3 (@hq_dequeue_mut T q).
Proof. intros. unfold hq_dequeue_mut. flat_op. Qed.
Lemma flat_queue : forall o q, flat 3 (@hq_step T o q).
Proof.
  intros o q; destruct o; cbn [hq_step]; unfold hq_enqueue_mut, hq_peek;
    repeat (first [ apply flat_hq_drop | apply flat_hq_clone | apply flat_dequeue | progress flat_op ]).
Qed.
End Lists.
