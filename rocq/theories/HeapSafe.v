(** * A proof rule for heap programs, and its soundness under any schedule *)
From Coq Require Import List Arith Lia Bool Permutation.
From Verif Require Import PermSolve HeapModel HeapProofs.
Import ListNotations.

Ltac splits := repeat match goal with |- _ /\ _ => split end.

Section S.
Context {C : Type} (kids : C -> list addr).

Notation ptree := (@ptree C).
Notation own := (@own C).

(** The contents of every cell hold exactly the pointers listed. *)
Inductive shaped : ptree -> Prop :=
| shaped_pt : forall a c ts, kids c = map pa ts -> Forall shaped ts -> shaped (PT a c ts).

Lemma phys_shaped : forall h t, phys kids h t -> shaped t.
Proof.
  intros h t. induction t as [a c ts IH] using ptree_rect2.
  rewrite phys_eq. intros (_ & K & F). constructor; trivial.
  rewrite Forall_forall in *. auto.
Qed.

Definition alone (a : addr) (G : list own) : Prop := forall o, In o G -> ~ In a (own_as o).

(** [safe n p G Q]: a thread that owns [G] can run [p] whatever the other
    threads do and however its cells are shared; it allocates at most [n]
    cells; when it returns [x] owning [G'], then [Q x G'].  The rules mention
    no heap and no count: where a primitive tests a count, both outcomes are
    followed. *)
Fixpoint safe {A} (n : nat) (p : prog C A) (G : list own) (Q : A -> list own -> Prop) : Prop :=
  match p with
  | Ret x => exists G', Permutation G G' /\ Q x G'
  | Fail => False
  | New c k =>
      exists n' ts G', n = S n' /\ Permutation G (map Tree ts ++ G') /\ kids c = map pa ts /\
      forall a, safe n' (k a) (Tree (PT a c ts) :: G') Q
  | Reserve k => exists n', n = S n' /\ forall a, safe n' (k a) (Held a :: G) Q
  | Clone a k => exists c ts, lent (PT a c ts) G /\ safe n k (Tree (PT a c ts) :: G) Q
  | Read a k => exists c ts, lent (PT a c ts) G /\ (shaped (PT a c ts) -> safe n (k c) G Q)
  | Dec a k =>
      exists c ts G', Permutation G (Tree (PT a c ts) :: G') /\ safe n (k None) G' Q /\
      (shaped (PT a c ts) -> alone a G' -> safe n (k (Some c)) (map Tree ts ++ G') Q)
  | Take a k =>
      exists c ts G', Permutation G (Tree (PT a c ts) :: G') /\ safe n (k None) G Q /\
      (shaped (PT a c ts) -> alone a G' -> safe n (k (Some c)) (Held a :: map Tree ts ++ G') Q)
  | Fill a c k =>
      exists ts G', Permutation G (Held a :: map Tree ts ++ G') /\ kids c = map pa ts /\
      safe n k (Tree (PT a c ts) :: G') Q
  | Unwrap a k =>
      exists c ts G', Permutation G (Tree (PT a c ts) :: G') /\ safe n (k None) G Q /\
      (shaped (PT a c ts) -> alone a G' -> safe n (k (Some c)) (map Tree ts ++ G') Q)
  | Enter k => safe n k G Q
  | Leave k => safe n k G Q
  end.

Lemma lent_incl : forall t (G G' : list own), lent t G -> incl G G' -> lent t G'.
Proof. intros t G G' (t' & I & S) H. exists t'. auto. Qed.

Lemma alone_incl : forall a (G G' : list own), alone a G -> incl G' G -> alone a G'.
Proof. intros a G G' H I o Io. auto. Qed.

Lemma perm_incl : forall {X} (l l' : list X), Permutation l l' -> incl l l'.
Proof. intros X l l' P x I. eapply Permutation_in; eauto. Qed.

Lemma safe_perm : forall {A} (p : prog C A) n G G' Q,
  Permutation G G' -> safe n p G Q -> safe n p G' Q.
Proof.
  intros A p. induction p; intros n G G' Q P; cbn [safe].
  - intros (G1 & P1 & q). exists G1. split; trivial. eapply Permutation_trans; [|exact P1].
    now apply Permutation_sym.
  - easy.
  - intros (n' & ts & G1 & -> & P1 & K & S). exists n', ts, G1. splits; trivial.
    eapply Permutation_trans; [|exact P1]. now apply Permutation_sym.
  - intros (n' & -> & S). exists n'. split; trivial. intros a. eapply H; [|apply S].
    now constructor.
  - intros (c & ts & L & S). exists c, ts. split.
    + eapply lent_incl; eauto using perm_incl.
    + eapply IHp; [|exact S]. now constructor.
  - intros (c & ts & L & S). exists c, ts. split.
    + eapply lent_incl; eauto using perm_incl.
    + intros Sh. eapply H; [|now apply S]. trivial.
  - intros (c & ts & G1 & P1 & S1 & S2). exists c, ts, G1. splits; trivial.
    eapply Permutation_trans; [|exact P1]. now apply Permutation_sym.
  - intros (c & ts & G1 & P1 & S1 & S2). exists c, ts, G1. splits; trivial.
    + eapply Permutation_trans; [|exact P1]. now apply Permutation_sym.
    + eapply H; eauto.
  - intros (ts & G1 & P1 & K & S1). exists ts, G1. splits; trivial.
    eapply Permutation_trans; [|exact P1]. now apply Permutation_sym.
  - intros (c & ts & G1 & P1 & S1 & S2). exists c, ts, G1. splits; trivial.
    + eapply Permutation_trans; [|exact P1]. now apply Permutation_sym.
    + eapply H; eauto.
  - now apply IHp.
  - now apply IHp.
Qed.

Lemma safe_mono : forall {A} (p : prog C A) n m G (Q Q' : A -> list own -> Prop),
  n <= m -> (forall x G', Q x G' -> Q' x G') -> safe n p G Q -> safe m p G Q'.
Proof.
  intros A p. induction p; intros n m G Q Q' L W; cbn [safe].
  - intros (G1 & P1 & q). eauto.
  - easy.
  - intros (n' & ts & G1 & -> & P1 & K & S). destruct m as [|m]; [lia|].
    exists m, ts, G1. splits; trivial. intros a. eapply H; [| |apply S]; [lia|trivial].
  - intros (n' & -> & S). destruct m as [|m]; [lia|]. exists m. split; trivial. intros a.
    eapply H; [| |apply S]; [lia|trivial].
  - intros (c & ts & Lt & S). exists c, ts. eauto.
  - intros (c & ts & Lt & S). exists c, ts. eauto.
  - intros (c & ts & G1 & P1 & S1 & S2). exists c, ts, G1. eauto 7.
  - intros (c & ts & G1 & P1 & S1 & S2). exists c, ts, G1. eauto 7.
  - intros (ts & G1 & P1 & K & S1). exists ts, G1. eauto 7.
  - intros (c & ts & G1 & P1 & S1 & S2). exists c, ts, G1. eauto 7.
  - eauto.
  - eauto.
Qed.

(** Frame and sequencing in one rule. *)
Lemma safe_bind : forall {A B} (p : prog C A) (f : A -> prog C B) n1 n2 G F Q1 Q2,
  safe n1 p G Q1 ->
  (forall x G', Q1 x G' -> safe n2 (f x) (G' ++ F) Q2) ->
  safe (n1 + n2) (pbind p f) (G ++ F) Q2.
Proof.
  intros A B p f. induction p; intros n1 n2 G F Q1 Q2; cbn [safe pbind]; intros S1 S2.
  - destruct S1 as (G1 & P1 & q). apply (safe_perm _ _ (G1 ++ F)).
    { apply Permutation_app_tail. now apply Permutation_sym. }
    eapply safe_mono; [| |now apply S2]; [lia|trivial].
  - easy.
  - destruct S1 as (n' & ts & G1 & -> & P1 & K & S). exists (n' + n2), ts, (G1 ++ F).
    splits; trivial.
    + rewrite app_assoc. now apply Permutation_app_tail.
    + intros a. apply (H a n' n2 (Tree (PT a c ts) :: G1) F Q1 Q2); auto.
  - destruct S1 as (n' & -> & S). exists (n' + n2). split; trivial.
    intros a. apply (H a n' n2 (Held a :: G) F Q1 Q2); auto.
  - destruct S1 as (c & ts & L & S). exists c, ts. split.
    + eapply lent_incl; [exact L|]. apply incl_appl, incl_refl.
    + apply (IHp n1 n2 (Tree (PT a c ts) :: G) F Q1 Q2); auto.
  - destruct S1 as (c & ts & L & S). exists c, ts. split.
    + eapply lent_incl; [exact L|]. apply incl_appl, incl_refl.
    + intros Sh. eapply H; eauto.
  - destruct S1 as (c & ts & G1 & P1 & Sn & Ss). exists c, ts, (G1 ++ F). split; [|split].
    + change (Tree (PT a c ts) :: G1 ++ F) with ((Tree (PT a c ts) :: G1) ++ F).
      now apply Permutation_app_tail.
    + eapply H; eauto.
    + intros Sh Al. rewrite app_assoc. eapply H; eauto. apply Ss; trivial.
      eapply alone_incl; [exact Al|]. apply incl_appl, incl_refl.
  - destruct S1 as (c & ts & G1 & P1 & Sn & Ss). exists c, ts, (G1 ++ F). split; [|split].
    + change (Tree (PT a c ts) :: G1 ++ F) with ((Tree (PT a c ts) :: G1) ++ F).
      now apply Permutation_app_tail.
    + eapply H; eauto.
    + intros Sh Al. rewrite app_assoc.
      change (Held a :: (map Tree ts ++ G1) ++ F) with ((Held a :: map Tree ts ++ G1) ++ F).
      eapply H; eauto. apply Ss; trivial.
      eapply alone_incl; [exact Al|]. apply incl_appl, incl_refl.
  - destruct S1 as (ts & G1 & P1 & K & S). exists ts, (G1 ++ F). splits; trivial.
    + rewrite app_assoc.
      change (Held a :: (map Tree ts ++ G1) ++ F) with ((Held a :: map Tree ts ++ G1) ++ F).
      now apply Permutation_app_tail.
    + apply (IHp n1 n2 (Tree (PT a c ts) :: G1) F Q1 Q2); auto.
  - destruct S1 as (c & ts & G1 & P1 & Sn & Ss). exists c, ts, (G1 ++ F). split; [|split].
    + change (Tree (PT a c ts) :: G1 ++ F) with ((Tree (PT a c ts) :: G1) ++ F).
      now apply Permutation_app_tail.
    + eapply H; eauto.
    + intros Sh Al. rewrite app_assoc. eapply H; eauto. apply Ss; trivial.
      eapply alone_incl; [exact Al|]. apply incl_appl, incl_refl.
  - eapply IHp; eauto.
  - eapply IHp; eauto.
Qed.

(** ** Soundness *)
Lemma lent_app : forall t (G F : list own), lent t G -> lent t (G ++ F).
Proof. intros. eapply lent_incl; eauto. apply incl_appl, incl_refl. Qed.

Lemma WF_owned_full : forall h a c ts G,
  WF kids h (Tree (PT a c ts) :: G) -> exists n, get h a = Some (Full (S n) c).
Proof.
  intros h a c ts G (W1 & W2 & W3). apply Forall_cons_iff in W2 as [P _]. cbn in P.
  apply phys_eq in P as ((n & E) & _). specialize (W1 a). rewrite E in W1.
  cbn [rc map oa pa] in W1. rewrite cnt_cons in W1.
  destruct (Nat.eq_dec a a); [|congruence]. destruct n as [|n]; [lia|]. eauto.
Qed.

Lemma safe_step : forall {A} (p : prog C A) n G F Q h,
  safe n p G Q -> WF kids h (G ++ F) ->
  match pstep h p with
  | Stop x => exists G', Permutation G G' /\ Q x G'
  | Crash => False
  | Step h' p' =>
      exists n' G', safe n' p' G' Q /\ WF kids h' (G' ++ F) /\ length h' + n' <= length h + n
  end.
Proof.
  intros A p n G F Q h S W. destruct p; cbn [safe pstep] in *; trivial.
  - destruct S as (n' & ts & G1 & -> & P1 & K & S). exists n', (Tree (PT (length h) c ts) :: G1).
    split; [apply S|]. split; [|rewrite app_length; cbn; lia].
    cbn [app]. apply WF_new; trivial. eapply WF_perm; [|exact W]. rewrite app_assoc.
    now apply Permutation_app_tail.
  - destruct S as (n' & -> & S). exists n', (Held (length h) :: G). split; [apply S|].
    split; [|rewrite app_length; cbn; lia]. cbn [app]. now apply WF_reserve.
  - destruct S as (c & ts & L & S).
    assert (P := lent_phys kids h _ _ (lent_app _ _ F L) W).
    assert (P' := P). apply phys_eq in P' as ((m & E) & _). rewrite E.
    exists n, (Tree (PT a c ts) :: G). split; [trivial|]. rewrite set_length.
    split; [|lia]. cbn [app]. apply WF_clone; trivial. now apply lent_app.
  - destruct S as (c & ts & L & S).
    assert (P := lent_phys kids h _ _ (lent_app _ _ F L) W).
    assert (P' := P). apply phys_eq in P' as ((m & E) & _). rewrite E.
    exists n, G. split; [|split; [trivial|lia]]. apply S. eapply phys_shaped; eauto.
  - destruct S as (c & ts & G1 & P1 & S1 & S2).
    assert (W' : WF kids h (Tree (PT a c ts) :: G1 ++ F)).
    { eapply WF_perm; [|exact W].
      change (Tree (PT a c ts) :: G1 ++ F) with ((Tree (PT a c ts) :: G1) ++ F).
      now apply Permutation_app_tail. }
    destruct (WF_owned_full _ _ _ _ _ W') as (m & E). rewrite E. destruct m as [|m].
    + exists n, (map Tree ts ++ G1). rewrite set_length. split; [|split; [|lia]].
      * apply S2.
        -- destruct W' as (_ & F1 & _). apply Forall_cons_iff in F1 as [P _].
           now apply (phys_shaped h).
        -- eapply alone_incl; [|apply incl_appl, incl_refl].
           exact (proj1 (WF_unique kids h (G1 ++ F) (PT a c ts) c W' E)).
      * rewrite <- app_assoc. apply (WF_take kids h (G1 ++ F) a c ts c None); auto.
    + exists n, G1. rewrite set_length. split; [trivial|]. split; [|lia].
      exact (WF_dec kids h (G1 ++ F) (PT a c ts) m c W' E).
  - destruct S as (c & ts & G1 & P1 & S1 & S2).
    assert (W' : WF kids h (Tree (PT a c ts) :: G1 ++ F)).
    { eapply WF_perm; [|exact W].
      change (Tree (PT a c ts) :: G1 ++ F) with ((Tree (PT a c ts) :: G1) ++ F).
      now apply Permutation_app_tail. }
    destruct (WF_owned_full _ _ _ _ _ W') as (m & E). rewrite E. destruct m as [|m].
    + exists n, (Held a :: map Tree ts ++ G1). rewrite set_length. split; [|split; [|lia]].
      * apply S2.
        -- destruct W' as (_ & F1 & _). apply Forall_cons_iff in F1 as [P _].
           now apply (phys_shaped h).
        -- eapply alone_incl; [|apply incl_appl, incl_refl].
           exact (proj1 (WF_unique kids h (G1 ++ F) (PT a c ts) c W' E)).
      * cbn [app]. rewrite <- app_assoc.
        apply (WF_take kids h (G1 ++ F) a c ts c (Some Hole)); auto.
    + exists n, G. split; [trivial|]. split; [trivial|lia].
  - destruct S as (ts & G1 & P1 & K & S).
    assert (W' : WF kids h (Held a :: map Tree ts ++ (G1 ++ F))).
    { eapply WF_perm; [|exact W]. rewrite app_assoc.
      change (Held a :: (map Tree ts ++ G1) ++ F) with ((Held a :: map Tree ts ++ G1) ++ F).
      now apply Permutation_app_tail. }
    destruct (WF_fill kids h (G1 ++ F) a c ts W' K) as [E W2]. rewrite E.
    exists n, (Tree (PT a c ts) :: G1). rewrite set_length. split; [trivial|]. split; [trivial|lia].
  - destruct S as (c & ts & G1 & P1 & S1 & S2).
    assert (W' : WF kids h (Tree (PT a c ts) :: G1 ++ F)).
    { eapply WF_perm; [|exact W].
      change (Tree (PT a c ts) :: G1 ++ F) with ((Tree (PT a c ts) :: G1) ++ F).
      now apply Permutation_app_tail. }
    destruct (WF_owned_full _ _ _ _ _ W') as (m & E). rewrite E. destruct m as [|m].
    + exists n, (map Tree ts ++ G1). rewrite set_length. split; [|split; [|lia]].
      * apply S2.
        -- destruct W' as (_ & F1 & _). apply Forall_cons_iff in F1 as [P _].
           now apply (phys_shaped h).
        -- eapply alone_incl; [|apply incl_appl, incl_refl].
           exact (proj1 (WF_unique kids h (G1 ++ F) (PT a c ts) c W' E)).
      * rewrite <- app_assoc. apply (WF_take kids h (G1 ++ F) a c ts c None); auto.
    + exists n, G. split; [trivial|]. split; [trivial|lia].
  - exists n, G. split; [trivial|]. split; [trivial|lia].
  - exists n, G. split; [trivial|]. split; [trivial|lia].
Qed.

Lemma run_step : forall {A} (p : prog C A) h,
  run h p = match pstep h p with
            | Stop x => Some (h, x)
            | Crash => None
            | Step h' p' => run h' p'
            end.
Proof.
  intros A p h. destruct p; cbn; trivial; destruct (get h a) as [[[|[|m]] c'|]|]; trivial.
Qed.

(** One thread alone, in any surrounding heap. *)
Theorem run_sound : forall {A} (p : prog C A) n G F Q h,
  safe n p G Q -> WF kids h (G ++ F) ->
  exists h' x G', run h p = Some (h', x) /\ Q x G' /\ WF kids h' (G' ++ F) /\
    length h' <= length h + n.
Proof.
  intros A p. induction p; intros n0 G F Q h0 S W;
    rewrite run_step;
    assert (T := safe_step _ _ _ _ _ _ S W);
    match type of T with match ?e with _ => _ end => destruct e eqn:E end;
    try contradiction;
    try (cbn in E;
         try (destruct (get h0 a) as [[[|[|m]] c'|]|]; try discriminate);
         try discriminate; injection E as E1 E2; subst;
         destruct T as (n' & G' & S' & W' & L');
         match goal with
         | IH : forall x n G F Q h, safe n (_ x) G Q -> _ |- _ =>
             destruct (IH _ _ _ _ _ _ S' W') as (h2 & x2 & G2 & R & q & W2 & L2)
         | IH : forall n G F Q h, safe n _ G Q -> _ |- _ =>
             destruct (IH _ _ _ _ _ S' W') as (h2 & x2 & G2 & R & q & W2 & L2)
         end; exists h2, x2, G2; splits; trivial; lia).
  - cbn in E. injection E as ->. destruct T as (G' & P & q).
    exists h0, x0, G'. splits; trivial; [|lia].
    eapply WF_perm; [|exact W]. now apply Permutation_app_tail.
Qed.

(** Any number of threads.  [spec]: what thread [i] owns and may still
    allocate. *)
Inductive threads_ok {A} :
  list (prog C A) -> list (A -> list own -> Prop) -> list (nat * list own) -> Prop :=
| tk_nil : threads_ok [] [] []
| tk_cons : forall p ps Q Qs n G ss,
    safe n p G Q -> threads_ok ps Qs ss -> threads_ok (p :: ps) (Q :: Qs) ((n, G) :: ss).

Definition owned_by (ss : list (nat * list own)) : list own := flat_map snd ss.
Definition budget (ss : list (nat * list own)) : nat := list_sum (map fst ss).

Lemma threads_nth : forall {A} (ps : list (prog C A)) Qs ss i p,
  threads_ok ps Qs ss -> nth_error ps i = Some p ->
  exists Q n G ss1 ss2,
    nth_error Qs i = Some Q /\ ss = ss1 ++ (n, G) :: ss2 /\ safe n p G Q /\
    (forall n' p' G', safe n' p' G' Q -> threads_ok (upd ps i p') Qs (ss1 ++ (n', G') :: ss2)).
Proof.
  intros A ps Qs ss i p T. revert i. induction T; intros i E; [now destruct i|].
  destruct i as [|i]; cbn in E.
  - injection E as ->. exists Q, n, G, [], ss. cbn. splits; trivial.
    intros. now constructor.
  - destruct (IHT i E) as (Q' & n' & G' & s1 & s2 & E1 & -> & S & R).
    exists Q', n', G', ((n, G) :: s1), s2. cbn. splits; trivial.
    intros. constructor; auto.
Qed.

Lemma cstep_sound : forall {A} i h (ps : list (prog C A)) Qs ss F,
  threads_ok ps Qs ss -> WF kids h (owned_by ss ++ F) ->
  exists ss', threads_ok (snd (cstep i (h, ps))) Qs ss' /\
    WF kids (fst (cstep i (h, ps))) (owned_by ss' ++ F) /\
    length (fst (cstep i (h, ps))) + budget ss' <= length h + budget ss.
Proof.
  intros A i h ps Qs ss F T W. unfold cstep.
  destruct (nth_error ps i) as [p|] eqn:E; [|exists ss; splits; trivial; cbn; lia].
  destruct (threads_nth _ _ _ _ _ T E) as (Q & n & G & s1 & s2 & E1 & -> & S & R).
  unfold owned_by, budget in *. rewrite flat_map_app in W. cbn [flat_map snd] in W.
  assert (W' : WF kids h (G ++ (flat_map snd s1 ++ flat_map snd s2 ++ F))).
  { eapply WF_perm; [|exact W]. perm. }
  assert (X := safe_step _ _ _ _ _ _ S W').
  destruct (pstep h p) as [x| |h' p'] eqn:Ep.
  - exists (s1 ++ (n, G) :: s2). cbn [fst snd]. split; [trivial|]. split; [|lia].
    rewrite flat_map_app. cbn [flat_map snd]. trivial.
  - contradiction.
  - destruct X as (n' & G' & S' & W2 & L). exists (s1 ++ (n', G') :: s2). cbn [fst snd].
    split; [now apply R|]. split.
    + eapply WF_perm; [|exact W2]. rewrite flat_map_app. cbn [flat_map snd]. perm.
    + rewrite !map_app, !list_sum_app. cbn [map fst list_sum fold_right].
      change (fold_right Nat.add 0 (map fst s2)) with (list_sum (map fst s2)). lia.
Qed.

Theorem exec_sound : forall {A} sched h (ps : list (prog C A)) Qs ss F,
  threads_ok ps Qs ss -> WF kids h (owned_by ss ++ F) ->
  exists ss', threads_ok (snd (exec sched (h, ps))) Qs ss' /\
    WF kids (fst (exec sched (h, ps))) (owned_by ss' ++ F) /\
    length (fst (exec sched (h, ps))) + budget ss' <= length h + budget ss.
Proof.
  intros A sched. induction sched as [|i s IH]; intros h ps Qs ss F T W.
  - exists ss. splits; trivial; cbn; lia.
  - cbn [exec]. destruct (cstep_sound i h ps Qs ss F T W) as (s1 & T1 & W1 & L1).
    destruct (cstep i (h, ps)) as [h1 ps1]. cbn [fst snd] in *.
    destruct (IH h1 ps1 Qs s1 F T1 W1) as (s2 & T2 & W2 & L2).
    exists s2. splits; trivial. lia.
Qed.

Lemma threads_no_fail : forall {A} (ps : list (prog C A)) Qs ss,
  threads_ok ps Qs ss -> ~ In Fail ps.
Proof.
  intros A ps Qs ss T. induction T; [easy|]. intros [->|I]; [exact H|auto].
Qed.

(** ** Derived rules *)
Lemma safe_ret : forall {A} (x : A) n G (Q : A -> list own -> Prop), Q x G -> safe n (Ret x) G Q.
Proof. intros. exists G. auto. Qed.

Lemma safe_assoc : forall {X Y Z} (p : prog C X) (f : X -> prog C Y) (g : Y -> prog C Z) n G Q,
  safe n (pbind p (fun x => pbind (f x) g)) G Q -> safe n (pbind (pbind p f) g) G Q.
Proof.
  intros X Y Z p f g. induction p; intros n0 G Q; cbn [pbind safe]; trivial.
  - intros (n' & ts & G1 & -> & P & K & S). exists n', ts, G1. auto 6.
  - intros (n' & -> & S). exists n'. auto.
  - intros (c & ts & L & S). exists c, ts. auto.
  - intros (c & ts & L & S). exists c, ts. auto.
  - intros (c & ts & G1 & P1 & S1 & S2). exists c, ts, G1. auto 6.
  - intros (c & ts & G1 & P1 & S1 & S2). exists c, ts, G1. auto 6.
  - intros (ts & G1 & P1 & K & S). exists ts, G1. auto 6.
  - intros (c & ts & G1 & P1 & S1 & S2). exists c, ts, G1. auto 6.
  - auto.
  - auto.
Qed.

Lemma safe_clone_all : forall {A} ts n (k : prog C A) G Q,
  Forall (fun t => lent t G) ts -> safe n k (map Tree ts ++ G) Q ->
  safe n (clone_all (map pa ts) k) G Q.
Proof.
  intros A ts. induction ts as [|t ts IH]; intros n k G Q F S; cbn; [trivial|].
  apply Forall_cons_iff in F as [L F]. destruct t as [a c us]. exists c, us. split; trivial.
  apply IH.
  - eapply Forall_impl; [|exact F]. intros t T. eapply lent_incl; [exact T|].
    apply incl_tl, incl_refl.
  - cbn [pa]. eapply safe_perm; [|exact S]. perm.
Qed.

(** The rule as it is used: the part of the owned pointers the program needs. *)
Lemma safe_seq : forall {A B} (p : prog C A) (f : A -> prog C B) n1 n2 n G G1 F Q1 Q2,
  safe n1 p G1 Q1 -> Permutation G (G1 ++ F) ->
  (forall x G', Q1 x G' -> safe n2 (f x) (G' ++ F) Q2) ->
  n1 + n2 <= n -> safe n (pbind p f) G Q2.
Proof.
  intros A B p f n1 n2 n G G1 F Q1 Q2 S P K L.
  eapply safe_perm; [apply Permutation_sym; exact P|].
  eapply safe_mono; [exact L| |eapply safe_bind; eauto]. auto.
Qed.

(** The whole program is the last step. *)
Lemma safe_frame : forall {A} (p : prog C A) n1 n G G1 F Q1 (Q2 : A -> list own -> Prop),
  safe n1 p G1 Q1 -> Permutation G (G1 ++ F) ->
  (forall x G', Q1 x G' -> exists G2, Permutation (G' ++ F) G2 /\ Q2 x G2) ->
  n1 <= n -> safe n p G Q2.
Proof.
  intros A p. induction p; intros n1 n G G1 F Q1 Q2 S P K L; cbn [safe] in *.
  - destruct S as (G' & P1 & q). destruct (K _ _ q) as (G2 & P2 & q2). exists G2. split; trivial.
    eapply Permutation_trans; [exact P|]. eapply Permutation_trans; [|exact P2].
    now apply Permutation_app_tail.
  - easy.
  - destruct S as (n' & ts & G' & -> & P1 & E & S). destruct n as [|n]; [lia|].
    exists n, ts, (G' ++ F). splits; trivial.
    + rewrite app_assoc. eapply Permutation_trans; [exact P|]. now apply Permutation_app_tail.
    + intros a. eapply H; [apply S| |exact K|lia]. perm.
  - destruct S as (n' & -> & S). destruct n as [|n]; [lia|]. exists n. split; trivial.
    intros a. eapply H; [apply S| |exact K|lia]. cbn [app]. now constructor.
  - destruct S as (c & ts & Lt & S). exists c, ts. split.
    + eapply lent_incl; [exact Lt|]. intros x I. eapply Permutation_in; [apply Permutation_sym; exact P|].
      apply in_app_iff. now left.
    + eapply IHp; [exact S| |exact K|exact L]. cbn [app]. now constructor.
  - destruct S as (c & ts & Lt & S). exists c, ts. split.
    + eapply lent_incl; [exact Lt|]. intros x I. eapply Permutation_in; [apply Permutation_sym; exact P|].
      apply in_app_iff. now left.
    + intros Sh. eapply H; [now apply S|exact P|exact K|exact L].
  - destruct S as (c & ts & G' & P1 & S1 & S2). exists c, ts, (G' ++ F). splits.
    + eapply Permutation_trans; [exact P|].
      change (Tree (PT a c ts) :: G' ++ F) with ((Tree (PT a c ts) :: G') ++ F).
      now apply Permutation_app_tail.
    + eapply H; [exact S1|apply Permutation_refl|exact K|exact L].
    + intros Sh Al. eapply H; [apply S2; [trivial|]| |exact K|exact L].
      * eapply alone_incl; [exact Al|]. apply incl_appl, incl_refl.
      * perm.
  - destruct S as (c & ts & G' & P1 & S1 & S2). exists c, ts, (G' ++ F). splits.
    + eapply Permutation_trans; [exact P|].
      change (Tree (PT a c ts) :: G' ++ F) with ((Tree (PT a c ts) :: G') ++ F).
      now apply Permutation_app_tail.
    + eapply H; [exact S1|exact P|exact K|exact L].
    + intros Sh Al. eapply H; [apply S2; [trivial|]| |exact K|exact L].
      * eapply alone_incl; [exact Al|]. apply incl_appl, incl_refl.
      * perm.
  - destruct S as (ts & G' & P1 & E & S). exists ts, (G' ++ F). splits; trivial.
    + eapply Permutation_trans; [exact P|]. rewrite app_assoc.
      change (Held a :: (map Tree ts ++ G') ++ F) with ((Held a :: map Tree ts ++ G') ++ F).
      now apply Permutation_app_tail.
    + eapply IHp; [exact S| |exact K|exact L]. perm.
  - destruct S as (c & ts & G' & P1 & S1 & S2). exists c, ts, (G' ++ F). splits.
    + eapply Permutation_trans; [exact P|].
      change (Tree (PT a c ts) :: G' ++ F) with ((Tree (PT a c ts) :: G') ++ F).
      now apply Permutation_app_tail.
    + eapply H; [exact S1|exact P|exact K|exact L].
    + intros Sh Al. eapply H; [apply S2; [trivial|]| |exact K|exact L].
      * eapply alone_incl; [exact Al|]. apply incl_appl, incl_refl.
      * perm.
  - eapply IHp; eauto.
  - eapply IHp; eauto.
Qed.

Lemma lent_in : forall t (G : list own), In (Tree t) G -> lent t G.
Proof. intros t G I. exists t. split; [trivial|constructor]. Qed.

Lemma lent_kid : forall t a c ts (G : list own), lent (PT a c ts) G -> In t ts -> lent t G.
Proof.
  intros t a c ts G (t' & I & S) It. exists t'. split; trivial.
  assert (X : forall u, sub u t' -> forall a c ts, u = PT a c ts -> In t ts -> sub t t').
  { clear. intros u S. induction S; intros a0 c0 ts0 -> I.
    - econstructor; [exact I|constructor].
    - econstructor; [exact H|]. eapply IHS; eauto. }
  eauto.
Qed.

Fixpoint pdepth (t : ptree) : nat :=
  match t with PT _ _ ts => S (list_max (map pdepth ts)) end.

Lemma drop_ptr_eq : forall f a,
  drop_ptr kids (S f) a =
  Dec a (fun r => match r with
                  | None => Ret tt
                  | Some c => Enter (pbind (drop_all kids f (kids c)) (fun _ => Leave (Ret tt)))
                  end).
Proof. reflexivity. Qed.

Lemma drop_all_cons : forall f b l,
  drop_all kids f (b :: l) = pbind (drop_ptr kids f b) (fun _ => drop_all kids f l).
Proof. reflexivity. Qed.

Lemma safe_drop : forall f t, pdepth t <= f ->
  safe 0 (drop_ptr kids f (pa t)) [Tree t] (fun _ G => G = []).
Proof.
  induction f as [|f IH]; intros [a c ts] D; cbn [pdepth] in D; [lia|].
  rewrite drop_ptr_eq. exists c, ts, []. split; [apply Permutation_refl|]. split.
  - now apply safe_ret.
  - intros Sh _. inversion Sh as [? ? ? K Fs]; subst. rewrite K. cbn [safe].
    apply (safe_bind _ _ 0 0 (map Tree ts) [] (fun _ G => G = [])).
    + clear Sh K Fs. assert (D' : list_max (map pdepth ts) <= f) by lia.
      clear D. induction ts as [|t ts IHts]; [now apply safe_ret|].
      cbn [map]. rewrite drop_all_cons. cbn [map list_max fold_right] in D'.
      change (fold_right Nat.max 0 (map pdepth ts)) with (list_max (map pdepth ts)) in D'.
      apply (safe_bind _ _ 0 0 [Tree t] (map Tree ts) (fun _ G => G = [])).
      * apply IH. lia.
      * intros [] G' ->. apply IHts. lia.
    + intros [] G' ->. now apply safe_ret.
Qed.

(** Dropping one of two pointers to the same cell never goes further. *)
Lemma safe_drop_shared : forall f t G n (Q : unit -> list own -> Prop),
  lent t G -> Q tt G -> safe n (drop_ptr kids (S f) (pa t)) (Tree t :: G) Q.
Proof.
  intros f [a c ts] G n Q L q. rewrite drop_ptr_eq. exists c, ts, G.
  split; [apply Permutation_refl|]. split; [now apply safe_ret|].
  intros _ Al. exfalso. destruct L as (t' & I & S). apply (Al _ I).
  apply (sub_pas _ _ S). cbn. now left.
Qed.

Lemma safe_make_mut : forall a c ts,
  safe 1 (make_mut kids a) [Tree (PT a c ts)]
    (fun r G => exists a', r = (a', c) /\ G = Held a' :: map Tree ts).
Proof.
  intros a c ts. unfold make_mut. exists c, ts, []. split; [apply Permutation_refl|]. split.
  - exists c, ts. split; [exists (PT a c ts); split; [now left|constructor]|].
    intros Sh. inversion Sh as [? ? ? K Fs]; subst. rewrite K.
    apply safe_clone_all.
    + rewrite Forall_forall. intros t T. exists (PT a c ts). split; [now left|].
      econstructor; [exact T|constructor].
    + exists 0. split; [reflexivity|]. intros a'.
      apply (safe_perm _ _ (Tree (PT a c ts) :: (map Tree ts ++ [Held a']))); [perm|].
      rewrite drop_ptr_eq. exists c, ts, (map Tree ts ++ [Held a']).
      split; [apply Permutation_refl|]. split.
      * exists (Held a' :: map Tree ts). split; [perm|]. eauto.
      * intros _ _. rewrite K. cbn [pbind].
        (* the pointers in the old contents were cloned: each decrement stops *)
        assert (X : forall us, incl us ts -> forall B (k : prog C B) Q,
          safe 0 k (map Tree ts ++ [Held a']) Q ->
          safe 0 (pbind (drop_all kids 1 (map pa us)) (fun _ => k))
            (map Tree us ++ map Tree ts ++ [Held a']) Q).
        { clear. induction us as [|t us IH]; intros I B k Q S; [exact S|].
          assert (L : lent t (map Tree us ++ map Tree ts ++ [Held a'])).
          { exists t. split; [|constructor]. apply in_app_iff. right. apply in_app_iff. left.
            apply in_map. apply I. now left. }
          cbn [map app]. rewrite drop_all_cons.
          apply safe_assoc.
          change (Tree t :: map Tree us ++ map Tree ts ++ [Held a'])
            with ([Tree t] ++ map Tree us ++ map Tree ts ++ [Held a']).
          assert (Sd : safe 0 (drop_ptr kids 1 (pa t))
            (Tree t :: map Tree us ++ map Tree ts ++ [Held a'])
            (fun _ G => G = map Tree us ++ map Tree ts ++ [Held a'])).
          { apply safe_drop_shared; trivial. }
          cbn [app]. rewrite <- (app_nil_r (Tree t :: _)).
          apply (safe_bind _ _ 0 0 _ [] _ _ Sd).
          intros [] G' ->. rewrite app_nil_r. apply IH; trivial.
          intros x Ix. apply I. now right. }
        cbn [safe]. 
        assert (Y := X ts (incl_refl _) _ (Leave (Ret (a', c)))
          (fun r G => exists b, r = (b, c) /\ G = Held b :: map Tree ts)).
        assert (Z : safe 0 (Leave (Ret (a', c))) (map Tree ts ++ [Held a'])
          (fun r G => exists b, r = (b, c) /\ G = Held b :: map Tree ts)).
        { exists (Held a' :: map Tree ts). split; [perm|]. eauto. }
        apply safe_assoc. exact (Y Z).
  - intros Sh _. apply safe_ret. exists a. split; [reflexivity|]. rewrite app_nil_r. reflexivity.
Qed.

End S.
