(** * How deep calls of drop glue nest, whatever the other threads do (for C48)

    [nests d cur p Q]: from depth [cur] on, the program [p] never has more than [d] calls of
    drop glue on the stack, whatever the heap answers, and what it returns satisfies [Q].
    Since the answers of the heap are arbitrary, so are the other threads. *)
From Coq Require Import List NArith Arith Lia Bool Permutation.
From Verif Require Import Base Spec VectorModel HeapModel HeapProofs HeapClient HeapWorld HeapList HeapVec HeapRB HeapRBIter HeapDepth HeapLooks.
Import ListNotations.
Local Open Scope prog_scope.

Section Nest.
Context {C : Type}.

Fixpoint nests {A} (d cur : nat) (p : prog C A) (Q : nat -> A -> Prop) {struct p} : Prop :=
  match p with
  | Ret x => Q cur x
  | Fail => True
  | New c k => forall a, nests d cur (k a) Q
  | Reserve k => forall a, nests d cur (k a) Q
  | Clone a k => nests d cur k Q
  | Read a k => forall c, nests d cur (k c) Q
  | Dec a k => forall r, nests d cur (k r) Q
  | Take a k => forall r, nests d cur (k r) Q
  | Fill a c k => nests d cur k Q
  | Unwrap a k => forall r, nests d cur (k r) Q
  | Enter k => S cur <= d /\ nests d (S cur) k Q
  | Leave k => nests d (cur - 1) k Q
  end.

Lemma nests_weaken : forall A (p : prog C A) d cur (Q Q' : nat -> A -> Prop), nests d cur p Q ->
  (forall c x, Q c x -> Q' c x) -> nests d cur p Q'.
Proof. intros A p. induction p; intros d cur Q Q' N W; cbn [nests] in *; eauto. destruct N. eauto. Qed.

Lemma nests_bind : forall A B (p : prog C A) (f : A -> prog C B) d cur (Q : nat -> A -> Prop) Q', nests d cur p Q ->
  (forall c x, Q c x -> nests d c (f x) Q') -> nests d cur (pbind p f) Q'.
Proof. intros A B p f. induction p; intros d cur Q Q' N W; cbn [nests pbind] in *; eauto. destruct N. eauto. Qed.

(** The program returns from all its calls, [d] more than at its start being enough. *)
Definition level {A} (d : nat) (p : prog C A) (Q : A -> Prop) : Prop :=
  forall cur m, cur + d <= m -> nests m cur p (fun c x => c = cur /\ Q x).

Lemma level_bind : forall A B d (p : prog C A) (f : A -> prog C B) (Q : A -> Prop) Q',
  level d p Q -> (forall x, Q x -> level d (f x) Q') -> level d (pbind p f) Q'.
Proof.
  intros A B d p f Q Q' Lp Lf cur m L. eapply nests_bind; [exact (Lp cur m L)|]. intros c x [-> q]. now apply (Lf x q).
Qed.
Lemma level_weaken : forall A d d' (p : prog C A) (Q Q' : A -> Prop), level d p Q -> d <= d' ->
  (forall x, Q x -> Q' x) -> level d' p Q'.
Proof.
  intros A d d' p Q Q' Lp L W cur m Lm. eapply nests_weaken; [apply (Lp cur m); lia|]. intros c x [-> q]. auto.
Qed.
Lemma level_ret : forall A d (x : A) (Q : A -> Prop), Q x -> level d (Ret x) Q.
Proof. intros A d x Q q cur m L. cbn. auto. Qed.
Lemma level_fail : forall A d (Q : A -> Prop), level d Fail Q.
Proof. intros A d Q cur m L. exact I. Qed.
Lemma level_new : forall A d c (k : addr -> prog C A) Q, (forall a, level d (k a) Q) -> level d (New c k) Q.
Proof. intros A d c k Q F cur m L a. now apply F. Qed.
Lemma level_reserve : forall A d (k : addr -> prog C A) Q, (forall a, level d (k a) Q) -> level d (Reserve k) Q.
Proof. intros A d k Q F cur m L a. now apply F. Qed.
Lemma level_clone : forall A d a (k : prog C A) Q, level d k Q -> level d (Clone a k) Q.
Proof. intros A d a k Q F cur m L. now apply F. Qed.
Lemma level_fill : forall A d a c (k : prog C A) Q, level d k Q -> level d (Fill a c k) Q.
Proof. intros A d a c k Q F cur m L. now apply F. Qed.
Lemma level_read : forall A d a (k : C -> prog C A) Q, (forall c, level d (k c) Q) -> level d (Read a k) Q.
Proof. intros A d a k Q F cur m L c. now apply F. Qed.
Lemma level_dec : forall A d a (k : option C -> prog C A) Q, (forall r, level d (k r) Q) -> level d (Dec a k) Q.
Proof. intros A d a k Q F cur m L c. now apply F. Qed.
Lemma level_take : forall A d a (k : option C -> prog C A) Q, (forall r, level d (k r) Q) -> level d (Take a k) Q.
Proof. intros A d a k Q F cur m L c. now apply F. Qed.
Lemma level_scope : forall A d (p : prog C unit) (x : A) (Q : A -> Prop), level d p (fun _ => True) -> Q x ->
  level (S d) (Enter (let* _ := p in Leave (Ret x))) Q.
Proof.
  intros A d p x Q F q cur m L. cbn [nests]. split; [lia|].
  eapply nests_bind; [apply (F (S cur) m); lia|]. intros c y [-> _]. cbn. split; [lia|exact q].
Qed.
Lemma level_each : forall d p l, (forall a, level d (p a) (fun _ => True)) -> level d (each p l : prog C unit) (fun _ => True).
Proof.
  intros d p l F. induction l as [|a l IH]; [now apply level_ret|]. cbn [each].
  eapply level_bind; [apply F|]. intros _ _. exact IH.
Qed.
Lemma level_drop : forall kids f a, level f (drop_ptr kids f a) (fun _ => True).
Proof.
  intros kids. induction f as [|f IH]; intros a; [apply level_fail|]. cbn [drop_ptr]. apply level_dec.
  intros [c|]; [|now apply level_ret]. apply level_scope; [|exact I]. apply level_each. exact IH.
Qed.
Lemma level_make_mut : forall kids a, level 2 (make_mut kids a) (fun _ => True).
Proof.
  intros kids a. unfold make_mut. apply level_take. intros [c|]; [now apply level_ret|]. apply level_read. intros c.
  induction (kids c) as [|b l IH]; cbn [clone_all]; [|now apply level_clone].
  apply level_reserve. intros a'. eapply level_bind; [apply level_drop|]. intros _ _. now apply level_ret.
Qed.
Lemma level_quiet : forall A d (p : prog C A), quiet p -> level d p (fun _ => True).
Proof.
  intros A d p. induction p; intros q; try (exfalso; exact q); [now apply level_ret|apply level_fail|]. apply level_read. intros c. apply H, q.
Qed.
Lemma level_lift : forall A d (r : res A) (Q : A -> Prop), (forall x, r = Ok x -> Q x) -> level d (lift r) Q.
Proof. intros A d [x| |] Q H; cbn [lift]; [apply level_ret; auto|apply level_fail|apply level_fail]. Qed.

(** ** A thread among others *)
Lemma nests_step : forall A (p : prog C A) d cur Q h h' p', nests d cur p Q -> pstep h p = Step h' p' ->
  nests d (match p with Enter _ => S cur | Leave _ => cur - 1 | _ => cur end) p' Q.
Proof.
  intros A p d cur Q h h' p' N E. destruct p; cbn [pstep nests] in *; try discriminate;
    try (injection E as <- <-; solve [auto | apply N]);
    match type of E with context [get h ?b] => destruct (get h b) as [[[|[|n]] c'|]|]; try discriminate;
      injection E as <- <-; solve [auto | apply N] end.
Qed.

Lemma nests_cur : forall A (p : prog C A) d cur Q k, nests d cur p Q -> p = Enter k -> S cur <= d.
Proof. intros A p d cur Q k N ->. apply N. Qed.

Lemma depth_exec_le : forall A i d sched h (ps : list (prog C A)) cur Q p, nth_error ps i = Some p ->
  cur <= d -> nests d cur p Q -> depth_exec i sched (h, ps) cur <= d.
Proof.
  intros A i d. induction sched as [|j s IH]; intros h ps cur Q p E L N; [exact L|].
  cbn [depth_exec snd]. unfold cstep. destruct (Nat.eqb_spec j i) as [->|Nj].
  - rewrite E. destruct (pstep h p) as [x| |h' p'] eqn:Es.
    + destruct p; try discriminate Es; try (eapply (IH _ _ _ Q); eassumption);
        cbn [pstep] in Es;
        match type of Es with context [get h ?b] => destruct (get h b) as [[[|[|n]] c'|]|]; discriminate Es end.
    + assert (X : nth_error (upd ps i Fail) i = Some (@Fail C A)).
      { revert E. clear. revert i. induction ps as [|y ps IHp]; intros [|i] E; try discriminate; cbn in *; auto. }
      destruct p; try discriminate Es; eapply (IH _ _ _ Q Fail); try exact X; try exact L; exact I.
    + assert (X : nth_error (upd ps i p') i = Some p').
      { revert E. clear. revert i. induction ps as [|y ps IHp]; intros [|i] E; try discriminate; cbn in *; auto. }
      pose proof (nests_step _ _ _ _ _ _ _ _ N Es) as N'.
      destruct p; try (eapply IH; [exact X| |exact N']; [lia]).
      destruct N as [N _]. eapply IH; [exact X|exact N|exact N'].
  - assert (X : forall j q, j <> i -> nth_error (upd ps j q) i = Some p).
    { clear - E. revert i E. induction ps as [|y ps IHp]; intros [|i] E [|j] q Nj; try discriminate; cbn in *; auto; congruence. }
    destruct (nth_error ps j) as [q|]; [|eapply (IH _ _ _ Q); eassumption].
    destruct (pstep h q) as [x| |h' q']; eapply (IH _ _ _ Q p); eauto.
Qed.

(** The deepest point of a run of one thread alone. *)
Lemma nests_run : forall A (p : prog C A) d cur Q h mx h' x cur' mx', nests d cur p Q ->
  depth_run cur mx h p = Some (h', x, cur', mx') -> mx' <= Nat.max mx d /\ Q cur' x.
Proof.
  intros A p. induction p; intros d cur Q h mx h' y cur' mx' N E; cbn [nests depth_run] in *; try discriminate;
    try (match type of E with context [get h ?b] => destruct (get h b) as [[[|[|n]] c'|]|]; try discriminate end);
    try (match goal with H : context [depth_run] |- _ => eapply H; [|exact E]; solve [auto | apply N] end).
  - injection E as <- <- <- <-. split; [lia|exact N].
  - destruct N as [L N]. destruct (IHp _ _ _ _ _ _ _ _ _ N E). split; [lia|trivial].
Qed.

(** ** Clients *)
Section Client.
Context {Coll Op Out : Type}.
Context (hnew : prog C Coll) (hclone : Coll -> prog C Coll) (hdrop : Coll -> prog C unit)
        (hop : Op -> Coll -> prog C (Coll * Out)).
(** [inv n c]: a version that [n] calls at most have led to. *)
Context (inv : nat -> Coll -> Prop) (d : nat -> nat).
Hypothesis inv_le : forall n n' c, n <= n' -> inv n c -> inv n' c.
Hypothesis d_le : forall n n', n <= n' -> d n <= d n'.
Hypothesis Hnew : level (d 0) hnew (inv 0).
Hypothesis Hclone : forall n c, inv n c -> level (d n) (hclone c) (inv n).
Hypothesis Hdrop : forall n c, inv n c -> level (d n) (hdrop c) (fun _ => True).
Hypothesis Hop : forall n o c, inv n c -> level (d (S n)) (hop o c) (fun r => inv (S n) (fst r)).

Definition regs_inv (n : nat) (rs : list (option Coll)) : Prop :=
  Forall (fun r => match r with Some c => inv n c | None => True end) rs.

Lemma regs_upd : forall n rs i r, regs_inv n rs -> match r with Some c => inv n c | None => True end ->
  regs_inv n (upd rs i r).
Proof. intros n rs i r F H. revert i. induction F; intros [|i]; cbn; try constructor; auto; apply IHF. Qed.
Lemma regs_le : forall n n' rs, n <= n' -> regs_inv n rs -> regs_inv n' rs.
Proof using inv_le. intros n n' rs L F. eapply Forall_impl; [|exact F]. intros [c|]; [apply inv_le; exact L|trivial]. Qed.
Lemma regs_nth : forall n rs i c, regs_inv n rs -> nth_error rs i = Some (Some c) -> inv n c.
Proof. intros n rs i c F E. apply nth_error_In in E. unfold regs_inv in F. rewrite Forall_forall in F. apply (F _ E). Qed.
Lemma regs_hand : forall n rs js, regs_inv n rs -> regs_inv n (hand rs js).
Proof.
  intros n rs js F. apply Forall_map. apply Forall_forall. intros j _.
  destruct (nth_in_or_default j rs None) as [Hin|E]; [|rewrite E; exact I]. unfold regs_inv in F. rewrite Forall_forall in F. apply F. exact Hin.
Qed.

Lemma level_client : forall l n rs, regs_inv n rs ->
  level (d (n + length l)) (hclient hnew hclone hdrop hop l rs) (fun r => regs_inv (n + length l) (fst r)).
Proof using inv_le d_le Hnew Hclone Hdrop Hop.
  induction l as [|[|i|i o|i] l IH]; intros n rs F; cbn [hclient length].
  - apply level_ret. cbn [fst]. now rewrite Nat.add_0_r.
  - rewrite <- plus_n_Sm. eapply level_bind; [eapply level_weaken; [exact Hnew|apply d_le; lia|]; intros x q; exact q|].
    intros c Hc. eapply level_weaken; [apply (IH n)|apply d_le; lia|].
    + apply Forall_app. split; [exact F|]. constructor; [|constructor]. eapply inv_le; [|exact Hc]. lia.
    + intros r Hr. eapply regs_le; [|exact Hr]. lia.
  - rewrite <- plus_n_Sm. assert (Skip : level (d (S (n + length l))) (hclient hnew hclone hdrop hop l rs)
       (fun r => regs_inv (S (n + length l)) (fst r))).
    { eapply level_weaken; [apply (IH n _ F)|apply d_le; lia|]. intros r Hr. eapply regs_le; [|exact Hr]. lia. }
    destruct (nth_error rs i) as [[c|]|] eqn:E; trivial. pose proof (regs_nth _ _ _ _ F E) as Hc.
    eapply level_bind; [eapply level_weaken; [exact (Hclone n c Hc)|apply d_le; lia|]; intros x q; exact q|].
    intros c' Hc'. eapply level_weaken; [apply (IH n)|apply d_le; lia|].
    + apply Forall_app. split; [exact F|]. constructor; [exact Hc'|constructor].
    + intros r Hr. eapply regs_le; [|exact Hr]. lia.
  - rewrite <- plus_n_Sm. assert (Skip : level (d (S (n + length l))) (hclient hnew hclone hdrop hop l rs)
       (fun r => regs_inv (S (n + length l)) (fst r))).
    { eapply level_weaken; [apply (IH n _ F)|apply d_le; lia|]. intros r Hr. eapply regs_le; [|exact Hr]. lia. }
    destruct (nth_error rs i) as [[c|]|] eqn:E; trivial. pose proof (regs_nth _ _ _ _ F E) as Hc.
    eapply level_bind; [eapply level_weaken; [exact (Hop n o c Hc)|apply d_le; lia|]; intros x q; exact q|].
    intros [c' x] Hc'. cbn [fst] in Hc'. eapply level_bind.
    + apply (IH (S n)). apply regs_upd; [eapply regs_le; [|exact F]; lia|exact Hc'].
    + intros [rs' xs] Hr. apply level_ret. exact Hr.
  - rewrite <- plus_n_Sm. assert (Skip : level (d (S (n + length l))) (hclient hnew hclone hdrop hop l rs)
       (fun r => regs_inv (S (n + length l)) (fst r))).
    { eapply level_weaken; [apply (IH n _ F)|apply d_le; lia|]. intros r Hr. eapply regs_le; [|exact Hr]. lia. }
    destruct (nth_error rs i) as [[c|]|] eqn:E; trivial. pose proof (regs_nth _ _ _ _ F E) as Hc.
    eapply level_bind; [eapply level_weaken; [exact (Hdrop n c Hc)|apply d_le; lia|]; intros x q; exact q|].
    intros _ _. eapply level_weaken; [apply (IH n)|apply d_le; lia|].
    + apply regs_upd; [exact F|exact I].
    + intros r Hr. eapply regs_le; [|exact Hr]. lia.
Qed.
End Client.
End Nest.

(** ** RedBlackTreeMap *)
Notation flatly d p := (level d p (fun _ => True)).

Lemma level_seq : forall C A B d (p : prog C A) (f : A -> prog C B) Q,
  flatly d p -> (forall x, level d (f x) Q) -> level d (pbind p f) Q.
Proof. intros. eapply level_bind; [eassumption|]. auto. Qed.

Ltac case_of := match goal with
  | |- level _ (match ?x with _ => _ end) _ => destruct x
  | |- level _ (pbind (match ?x with _ => _ end) _) _ => destruct x
  | |- level _ (if ?x then _ else _) _ => destruct x
  end.
Ltac known := fail.
Ltac lev := repeat first
  [ apply level_fail | apply level_ret; exact I
  | apply level_new; intros ? | apply level_reserve; intros ? | apply level_clone | apply level_read; intros ? | apply level_fill
  | progress cbn beta iota zeta
  | eapply level_weaken; [apply level_drop|lia|now auto] | eapply level_weaken; [apply level_make_mut|lia|now auto]
  | apply level_lift; now auto
  | known
  | apply level_seq; [|intros ?] | case_of ].

Section RB.
Context {K V Q : Type}.
Variable dbg : bool.
Variable kcmp : K -> K -> comparison.
Variable borrow : K -> Q.
Variable qcmp : Q -> Q -> comparison.

Lemma lv_take : forall o, flatly 2 (@take_mut K V o).
Proof. intros. unfold take_mut. lev. Qed.
Lemma lv_color : forall o, flatly 2 (@hcolor K V o).
Proof. intros. unfold hcolor, see_node. lev. Qed.
Lemma lv_left_color : forall o, flatly 2 (@hthen_left_color K V o).
Proof. intros. unfold hthen_left_color, hcolor, see_node. lev. Qed.
Lemma lv_right_color : forall o, flatly 2 (@hthen_right_color K V o).
Proof. intros. unfold hthen_right_color, hcolor, see_node. lev. Qed.
Ltac known ::= first [ apply lv_take | apply lv_color | apply lv_left_color | apply lv_right_color ].
Lemma lv_balance : forall n, flatly 2 (@hbalance K V n).
Proof. intros. unfold hbalance, hbal1, hbal2, hbal3, hbal4. lev. Qed.
Ltac known ::= first [ apply lv_take | apply lv_color | apply lv_left_color | apply lv_right_color | apply lv_balance ].
Lemma lv_rb : forall n, flatly 2 (@hremove_balance K V dbg n).
Proof. intros. unfold hremove_balance. lev. Qed.
Ltac known ::= first [ apply lv_take | apply lv_color | apply lv_left_color | apply lv_right_color | apply lv_balance | apply lv_rb ].
Lemma lv_rbl : forall n, flatly 2 (@hremove_balance_left K V dbg n).
Proof. intros. unfold hremove_balance_left. lev. Qed.
Lemma lv_rbr : forall n, flatly 2 (@hremove_balance_right K V dbg n).
Proof. intros. unfold hremove_balance_right. lev. Qed.
Lemma lv_replace : forall n o, flatly 2 (@hreplace K V n o).
Proof. intros. unfold hreplace. lev. Qed.
Ltac known ::= first [ apply lv_take | apply lv_color | apply lv_left_color | apply lv_right_color | apply lv_balance | apply lv_rb
                     | apply lv_rbl | apply lv_rbr | apply lv_replace ].
Lemma lv_frr : forall pl pr l r n b, flatly 2 (@hfuse_red_red K V pl pr l r n b).
Proof. intros. unfold hfuse_red_red. lev. Qed.
Lemma lv_fbb : forall pl pr l r n b, flatly 2 (@hfuse_black_black K V dbg pl pr l r n b).
Proof. intros. unfold hfuse_black_black. lev. Qed.
Lemma lv_fuse : forall f n l r, flatly 2 (@hremove_fuse K V dbg f n l r).
Proof.
  induction f as [|f IH]; intros n l r; cbn [hremove_fuse]; [apply level_fail|]. unfold see_node.
  repeat first [ apply IH | apply lv_frr | apply lv_fbb | progress lev ].
Qed.
Lemma lv_ins : forall f o k v b, flatly 2 (@hins K V kcmp f o k v b).
Proof.
  induction f as [|f IH]; intros o k v b; cbn [hins]; [apply level_fail|]. unfold see_entry, hnew_node.
  repeat first [ apply IH | progress lev ].
Qed.
Lemma lv_del : forall f g o k b, flatly 2 (@hdel K V Q dbg borrow qcmp f g o k b).
Proof.
  induction f as [|f IH]; intros g o k b; cbn [hdel]; [apply level_fail|]. unfold see_entry.
  repeat first [ apply IH | apply lv_fuse | progress lev ].
Qed.
Lemma lv_get_mut : forall f o k g, flatly 2 (@hget_mut K V Q borrow qcmp f o k g).
Proof.
  induction f as [|f IH]; intros o k g; cbn [hget_mut]; [apply level_fail|]. unfold see_entry.
  repeat first [ apply IH | progress lev ].
Qed.
Lemma lv_get : forall f o k, flatly 2 (@hget K V Q borrow qcmp f o k).
Proof.
  induction f as [|f IH]; intros o k; cbn [hget]; [apply level_fail|]. unfold see_entry, see_node.
  repeat first [ apply IH | progress lev ].
Qed.
Lemma lv_first : forall f o, flatly 2 (@hfirst K V f o).
Proof.
  induction f as [|f IH]; intros o; cbn [hfirst]; [apply level_fail|]. unfold see_entry, see_node.
  repeat first [ apply IH | progress lev ].
Qed.
Lemma lv_last : forall f o, flatly 2 (@hlast K V f o).
Proof.
  induction f as [|f IH]; intros o; cbn [hlast]; [apply level_fail|]. unfold see_entry, see_node.
  repeat first [ apply IH | progress lev ].
Qed.

(** A map of at most [n] entries. *)
Definition rb_depth (n : nat) : nat := 2 * Nat.log2 (n + 1) + 2.
Definition rb_small (n : nat) (m : hrb) : Prop := hb_size m <= n.

Lemma rb_depth_le : forall n n', n <= n' -> rb_depth n <= rb_depth n'.
Proof. intros n n' L. unfold rb_depth. pose proof (Nat.log2_le_mono (n + 1) (n' + 1)). lia. Qed.
Lemma lv_up : forall A n (p : prog (rcell K V) A), flatly 2 p -> flatly (rb_depth n) p.
Proof. intros A n p L. eapply level_weaken; [exact L|unfold rb_depth; lia|auto]. Qed.

Lemma lv_hb_clone : forall n m, rb_small n m -> level (rb_depth n) (@hb_clone K V m) (rb_small n).
Proof. intros n m L. unfold hb_clone, clone_opt. destruct (hb_root m); [apply level_clone|]; now apply level_ret. Qed.
Lemma lv_hb_drop : forall n m, rb_small n m -> flatly (rb_depth n) (@hb_drop K V m).
Proof.
  intros n m L. unfold hb_drop, drop_opt. destruct (hb_root m); [|now apply level_ret].
  eapply level_weaken; [apply level_drop| |auto]. unfold hb_levels, rb_depth, rb_small in *.
  pose proof (Nat.log2_le_mono (hb_size m + 1) (n + 1)). lia.
Qed.
Lemma lv_hb_insert_mut : forall n m k v, rb_small n m -> level (rb_depth (S n)) (@hb_insert_mut K V kcmp m k v) (rb_small (S n)).
Proof.
  intros n m k v L. unfold hb_insert_mut. apply level_seq; [apply lv_up, lv_ins|]. intros [o b]. apply level_ret.
  unfold rb_small in *. destruct b; cbn [hb_size]; lia.
Qed.
Lemma lv_hb_remove_mut : forall n m q, rb_small n m ->
  level (rb_depth n) (@hb_remove_mut K V Q dbg borrow qcmp m q) (fun r => rb_small n (fst r)).
Proof.
  intros n m q L. unfold hb_remove_mut. apply level_seq; [apply lv_up, lv_del|]. intros [o b]. apply level_ret.
  unfold rb_small in *. destruct b; cbn [hb_size fst]; lia.
Qed.

Lemma lv_hb_step : forall n o m, rb_small n m ->
  level (rb_depth (S n)) (@hb_step K V Q dbg kcmp borrow qcmp o m) (fun r => rb_small (S n) (fst r)).
Proof.
  intros n o m L. assert (L' : rb_small (S n) m) by (unfold rb_small in *; lia).
  assert (Up : forall m', rb_small n m' -> rb_small (S n) m') by (unfold rb_small; intros; lia).
  assert (G : forall q (f : option (K * V) -> @rb_result K V), level (rb_depth (S n)) (let* o := @hb_get K V Q borrow qcmp m q in Ret (m, f o)) (fun r => rb_small (S n) (fst r))).
  { intros q f. apply level_seq; [apply lv_up, lv_get|]. intros x. now apply level_ret. }
  destruct o as [[k x|k x|q|q|q f|q|q|q| | |]| | |ds]; cbn [hb_step]; try apply (G _ (fun o => BObs _)); try (now apply level_ret).
  - eapply level_bind.
    + unfold hb_insert. eapply level_bind; [eapply level_weaken; [exact (lv_hb_clone n m L)|apply rb_depth_le; lia|intros y Hy; exact Hy]|].
      intros c Hc. eapply level_bind; [apply lv_hb_insert_mut; exact Hc|]. intros c' Hc'.
      apply level_seq; [apply lv_hb_drop; exact L'|]. intros _. apply level_ret. exact Hc'.
    + intros c Hc. apply level_ret. exact Hc.
  - eapply level_bind; [apply lv_hb_insert_mut; exact L|]. intros c Hc. apply level_ret. exact Hc.
  - eapply level_bind.
    + unfold hb_remove. eapply level_bind; [apply lv_hb_clone; exact L'|]. intros c Hc.
      eapply level_bind; [apply lv_hb_remove_mut; exact Hc|]. intros [c' b] Hc'. cbn [fst] in Hc'. destruct b.
      * apply level_seq; [apply lv_hb_drop; exact L'|]. intros _. apply level_ret. exact Hc'.
      * eapply level_bind; [apply lv_hb_clone; exact L'|]. intros c2 Hc2.
        apply level_seq; [apply lv_hb_drop; exact Hc'|]. intros _.
        apply level_seq; [apply lv_hb_drop; exact L'|]. intros _. apply level_ret. exact Hc2.
    + intros c Hc. apply level_ret. exact Hc.
  - eapply level_bind; [apply lv_hb_remove_mut; exact L'|]. intros [c b] Hc. apply level_ret. exact Hc.
  - unfold hb_get_mut. apply (level_bind _ _ _ _ _ (fun r => rb_small (S n) (fst r)));
      [|intros r Hr; destruct r; apply level_ret; exact Hr].
    apply level_seq; [apply lv_up, lv_get_mut|]. intros [o y]. apply level_ret. exact L'.
  - eapply level_bind; [apply lv_hb_clone; exact L'|]. intros c Hc.
    apply level_seq; [apply lv_hb_drop; exact Hc|]. intros _. apply level_ret. exact L'.
  - apply level_seq; [apply lv_up, lv_first|]. intros x. now apply level_ret.
  - apply level_seq; [apply lv_up, lv_last|]. intros x. now apply level_ret.
  - apply level_seq; [|intros x; now apply level_ret]. apply level_quiet, quiet_hb_iter.
Qed.
End RB.

(** ** Vector *)
Section Vec.
Variable ubits : N.
Variable dbg : bool.
Variable bits : N.
Hypothesis Hu : (1 <= ubits)%N.
Hypothesis Hb : (0 < bits)%N.
Context {T : Type}.

(** The levels of nodes that lengths representable in a machine word need, and one more
    for the elements. *)
Definition vec_depth (n : nat) : nat := S (N.to_nat ((ubits + bits - 1) / bits)).
Definition vec_ok (n : nat) (v : hvec) : Prop := hv_bits v = bits /\ (hv_length v < 2 ^ ubits)%N.

Lemma vec_levels_pos : (1 <= (ubits + bits - 1) / bits)%N.
Proof using Hu Hb. apply N.div_le_lower_bound; lia. Qed.

Lemma height_bound : forall (v : hvec) h, vec_ok 0 v -> @hv_height ubits dbg T v = Ok h ->
  (h + 1 <= (ubits + bits - 1) / bits)%N.
Proof using Hu Hb.
  intros v h [Eb Hl] E. unfold hv_height, v_height, hv_shape in E. cbn [v_length v_bits] in E. rewrite Eb in E.
  pose proof vec_levels_pos as P. destruct (N.ltb_spec 1 (hv_length v)) as [L|L]; [|injection E as <-; lia].
  unfold usub in E at 1. destruct (N.leb_spec 1 (hv_length v)); [|lia]. cbn [bind] in E.
  set (u := (hv_length v - 1)%N) in *. unfold leading_zeros in E.
  assert (Hs : (1 <= N.size u <= ubits)%N).
  { rewrite N.size_log2 by lia. assert (N.log2 u < ubits)%N by (apply N.log2_lt_pow2; lia). lia. }
  unfold usub in E at 1. destruct (N.leb_spec (ubits - N.size u) ubits); [|lia]. cbn [bind] in E.
  replace (ubits - (ubits - N.size u))%N with (N.size u) in E by lia. set (c := N.size u) in *.
  pose proof (N.div_mod c bits) as Hd. pose proof (N.mod_lt c bits) as Hm.
  set (q := (c / bits)%N) in *. set (r := (c mod bits)%N) in *.
  set (q' := (q + (if (0 <? r)%N then 1 else 0))%N) in *.
  assert (Hq : (1 <= q' /\ bits * q' <= ubits + bits - 1)%N).
  { unfold q'. destruct (N.ltb_spec 0 r); split; nia. }
  unfold usub in E. destruct (N.leb_spec 1 q'); [|lia]. injection E as <-.
  replace (q' - 1 + 1)%N with q' by lia. apply N.div_le_lower_bound; lia.
Qed.

Ltac known ::= fail.
Lemma lv_vup : forall A (p : prog (vcell T) A) n, flatly 2 p -> flatly (vec_depth n) p.
Proof using Hu Hb.
  intros A p n L. eapply level_weaken; [exact L| |auto]. unfold vec_depth. pose proof vec_levels_pos. lia.
Qed.
Lemma lv_hvn_get : forall f b c i h, flatly 2 (@hvn_get ubits dbg T f b c i h).
Proof.
  induction f as [|f IH]; intros b c i h; cbn [hvn_get]; [apply level_fail|]. repeat first [ apply IH | progress lev ].
Qed.
Lemma lv_hvn_assoc : forall f b i c x h, flatly 2 (@hvn_assoc ubits dbg T f b i c x h).
Proof.
  induction f as [|f IH]; intros b i c x h; cbn [hvn_assoc]; [apply level_fail|]. repeat first [ apply IH | progress lev ].
Qed.
Lemma lv_hvn_drop_last : forall f c, flatly 2 (@hvn_drop_last T f c).
Proof.
  induction f as [|f IH]; intros c; cbn [hvn_drop_last]; [apply level_fail|]. repeat first [ apply IH | progress lev ].
Qed.
Lemma lv_hvn_get_mut : forall f b g c i h, flatly 2 (@hvn_get_mut ubits dbg T f b g c i h).
Proof.
  induction f as [|f IH]; intros b g c i h; cbn [hvn_get_mut]; [apply level_fail|]. repeat first [ apply IH | progress lev ].
Qed.
Lemma quiet_se_new : forall a b, quiet (@hse_new T a b).
Proof. intros a [|]; unfold hse_new; hush. Qed.
Lemma quiet_dig : forall b f s, quiet (@hdig T f s b).
Proof.
  intros b. pose proof (fun a => quiet_se_new a b). induction f as [|f IH]; intros [|e s]; cbn [hdig]; unfold hse_current_node; hush.
Qed.
Lemma quiet_advance : forall b f s, quiet (@hit_advance T f s b).
Proof.
  intros b f. pose proof (quiet_dig b f). induction s as [|e s IH]; cbn [hit_advance]; unfold hse_advance; hush.
Qed.
Lemma quiet_current : forall s, quiet (@hit_current T s).
Proof. intros [|e s]; unfold hit_current, hse_current_elem; hush. Qed.
Lemma quiet_init : forall it b, quiet (@hvi_init_if_needed ubits dbg T it b).
Proof.
  intros it b. pose proof quiet_dig. pose proof quiet_se_new. unfold hvi_init_if_needed, hinit_stack. hush.
Qed.
Lemma quiet_hv_iter : forall v ds, quiet (@hv_iter ubits dbg T v ds).
Proof.
  intros v ds. pose proof quiet_init. pose proof quiet_current. pose proof quiet_advance. unfold hv_iter. apply quiet_runs2; intros it.
  - unfold hvi_next, hvi_current_forward, hvi_advance_forward. hush.
  - unfold hvi_next_back, hvi_current_backward, hvi_advance_backward. hush.
Qed.

Lemma uadd_lt : forall a b x, uadd ubits dbg a b = Ok x -> (x < 2 ^ ubits)%N.
Proof.
  intros a b x E. unfold uadd in E. destruct (N.ltb_spec (a + b) (2 ^ ubits)); [congruence|].
  destruct dbg; [discriminate|]. injection E as <-. unfold wrap. apply N.mod_lt. now apply N.pow_nonzero.
Qed.

Definition vpost {X} (r : hvec * X) : Prop := vec_ok 0 (fst r).

Lemma lv_hv_assoc : forall v i x, vec_ok 0 v -> level (vec_depth 0) (@hv_assoc ubits dbg T v i x) (vec_ok 0).
Proof using Hu Hb.
  intros v i x [Eb L]. unfold hv_assoc. apply level_seq; [now apply level_lift|]. intros _.
  apply level_seq; [now apply level_lift|]. intros h. apply level_seq; [apply lv_vup, level_make_mut|]. intros [r c].
  apply level_seq; [apply lv_vup, lv_hvn_assoc|]. intros c'. apply level_fill.
  destruct (hv_length v <=? i)%N; [|now apply level_ret].
  eapply level_bind; [apply level_lift; intros y Hy; exact (uadd_lt _ _ _ Hy)|]. intros len Hlen. apply level_ret. now split.
Qed.
Lemma lv_hv_set_mut : forall v i x, vec_ok 0 v -> level (vec_depth 0) (@hv_set_mut ubits dbg T v i x) vpost.
Proof using Hu Hb.
  intros v i x H. unfold hv_set_mut. destruct (_ <=? _)%N; [now apply level_ret|].
  eapply level_bind; [now apply lv_hv_assoc|]. intros v' H'. now apply level_ret.
Qed.
Lemma lv_hv_push : forall v x, vec_ok 0 v -> level (vec_depth 0) (@hv_push_back_mut ubits dbg T v x) (vec_ok 0).
Proof using Hu Hb.
  intros v x [Eb L]. unfold hv_push_back_mut. apply level_seq; [now apply level_lift|]. intros [|].
  - apply level_clone, level_new. intros r. apply level_seq; [apply lv_vup; lev|]. intros _.
    eapply level_bind; [apply level_lift; intros y Hy; exact (uadd_lt _ _ _ Hy)|]. intros len Hlen.
    apply lv_hv_assoc. now split.
  - now apply lv_hv_assoc.
Qed.
Lemma lv_hv_drop_last : forall v, vec_ok 0 v -> level (vec_depth 0) (@hv_drop_last_mut ubits dbg T v) vpost.
Proof using Hu Hb.
  intros v [Eb L]. unfold hv_drop_last_mut. destruct (N.ltb_spec 0 (hv_length v)) as [P|P]; [|now apply level_ret].
  apply level_seq; [apply lv_vup, level_make_mut|]. intros [r c]. apply level_seq; [now apply level_lift|]. intros h.
  apply level_seq; [apply lv_vup, lv_hvn_drop_last|]. intros [c' _].
  apply (level_bind _ _ _ _ _ (fun len => len < 2 ^ ubits)%N).
  { apply level_lift. intros y Hy. unfold usub in Hy. destruct (N.leb_spec 1 (hv_length v)); [|lia]. injection Hy as <-. lia. }
  intros len Hlen. assert (Fin : forall p, vpost (mkHV p (hv_bits v) len, true)) by (intros p; now split).
  destruct c' as [[|p [|? ?]]|l|y]; apply level_fill; try (apply level_ret; apply Fin).
  apply level_seq; [apply lv_vup; lev|]. intros _. apply level_ret, Fin.
Qed.
Lemma lv_hv_get_mut : forall v i g, vec_ok 0 v -> level (vec_depth 0) (@hv_get_mut ubits dbg T v i g) vpost.
Proof using Hu Hb.
  intros v i g H. unfold hv_get_mut. destruct (_ <=? _)%N; [now apply level_ret|].
  apply level_seq; [now apply level_lift|]. intros h. apply level_seq; [apply lv_vup, level_make_mut|]. intros [r c].
  apply level_seq; [apply lv_vup, lv_hvn_get_mut|]. intros c'. now apply level_fill, level_ret.
Qed.
Lemma lv_hv_clone : forall v, vec_ok 0 v -> level (vec_depth 0) (@hv_clone T v) (vec_ok 0).
Proof. intros v H. now apply level_clone, level_ret. Qed.
Lemma lv_hv_drop : forall v, vec_ok 0 v -> flatly (vec_depth 0) (@hv_drop ubits dbg T v).
Proof using Hu Hb.
  intros v H. unfold hv_drop. eapply level_bind; [apply level_lift; intros h E; exact (height_bound v h H E)|].
  intros h Hh. cbn beta in Hh. eapply level_weaken; [apply level_drop| |auto]. unfold vec_depth, lv. lia.
Qed.
Lemma lv_persistently : forall X (op : hvec -> prog (vcell T) (hvec * X)) keep v,
  (forall n, vec_ok 0 n -> level (vec_depth 0) (op n) vpost) -> vec_ok 0 v ->
  level (vec_depth 0) (persistently ubits dbg op keep v) vpost.
Proof using Hu Hb.
  intros X op keep v F H. unfold persistently. eapply level_bind; [now apply lv_hv_clone|]. intros n Hn.
  eapply level_bind; [now apply F|]. intros [n' x] Hn'. destruct (keep x).
  - apply level_seq; [now apply lv_hv_drop|]. intros _. now apply level_ret.
  - apply level_seq; [now apply lv_hv_drop|]. intros _. now apply level_ret.
Qed.
Lemma lv_hv_get : forall v i, flatly (vec_depth 0) (@hv_get ubits dbg T v i).
Proof using Hu Hb.
  intros v i. unfold hv_get. destruct (_ <=? _)%N; [now apply level_ret|]. apply level_seq; [now apply level_lift|]. intros h.
  apply level_read. intros c. apply level_seq; [apply lv_vup, lv_hvn_get|]. intros x. now apply level_ret.
Qed.

Lemma lv_hv_step : forall o v, vec_ok 0 v -> level (vec_depth 0) (@hv_step ubits dbg T o v) vpost.
Proof using Hu Hb.
  intros o v H.
  assert (F : forall X (p : prog (vcell T) (hvec * X)) (f : X -> obs T), level (vec_depth 0) p vpost ->
            level (vec_depth 0) (let* (v, b) := p in Ret (v, f b)) vpost).
  { intros X p f L. eapply level_bind; [exact L|]. intros [v' b] Hv. now apply level_ret. }
  assert (G : forall p : prog (vcell T) (option T), flatly (vec_depth 0) p ->
            level (vec_depth 0) (let* o := p in Ret (v, OElem o)) vpost).
  { intros p L. apply level_seq; [exact L|]. intros x. now apply level_ret. }
  destruct o as [x|x|xs| | |i x|i x|i g|i| | | | |ds]; cbn [hv_step].
  - apply (F _ _ (fun _ => OUnit)). apply lv_persistently; [|exact H]. intros n Hn.
    eapply level_bind; [now apply lv_hv_push|]. intros n' Hn'. now apply level_ret.
  - eapply level_bind; [now apply lv_hv_push|]. intros n' Hn'. now apply level_ret.
  - apply (level_bind _ _ _ _ _ (vec_ok 0)); [|intros n' Hn'; now apply level_ret].
    revert v H F G. induction xs as [|x xs IH]; intros v H F G; cbn [hv_extend]; [now apply level_ret|].
    eapply level_bind; [now apply lv_hv_push|]. intros v' H'. apply IH; trivial.
    intros p L. apply level_seq; [exact L|]. intros y. now apply level_ret.
  - apply F. apply lv_persistently; [apply lv_hv_drop_last|exact H].
  - apply F. now apply lv_hv_drop_last.
  - apply F. apply lv_persistently; [|exact H]. intros n Hn. now apply lv_hv_set_mut.
  - apply F. now apply lv_hv_set_mut.
  - apply F. now apply lv_hv_get_mut.
  - apply G, lv_hv_get.
  - apply G, lv_hv_get.
  - apply G. unfold hv_last. destruct (_ =? _)%N; [now apply level_ret|apply lv_hv_get].
  - now apply level_ret.
  - now apply level_ret.
  - apply level_seq; [|intros x; now apply level_ret]. apply level_quiet, quiet_hv_iter.
Qed.
End Vec.
