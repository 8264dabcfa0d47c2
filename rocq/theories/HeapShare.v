(** * Threads that share versions by reference

    Generic over the collection.  The threads of HeapWorld.v and HeapIterWorld.v each own
    the versions they work on.  Here they also have [&]-references to versions that stay
    with the thread that started them, all threads to the same ones: what [Sync] allows
    (list/mod.rs:135-142 and the other [..Sync] aliases; std::thread::scope).  Through such a
    reference a thread can call what takes [&self] - read, iterate, clone - and nothing that
    changes or drops the version; with its clones it does what it likes. *)
From Coq Require Import List Arith Lia Bool Permutation.
From Verif Require Import Base Spec PermSolve HeapModel HeapProofs HeapSafe HeapClient HeapWorld HeapDrive HeapLooks HeapWork HeapIterWorld.
Import ListNotations.
Local Open Scope prog_scope.

(** ** The proof rule: what is borrowed may be read and cloned *)
Section Borrow.
Context {C : Type} (kids : C -> list addr).
Notation own := (@own C).
Notation ptree := (@ptree C).
Context (B : list own).

(** As [safe] (HeapSafe.v), for a thread that owns [G] and has borrowed [B]. *)
Fixpoint bsafe {A} (p : prog C A) (G : list own) (Q : A -> list own -> Prop) : Prop :=
  match p with
  | Ret x => exists G', Permutation G G' /\ Q x G'
  | Fail => False
  | New c k =>
      exists ts G', Permutation G (map Tree ts ++ G') /\ kids c = map pa ts /\
      forall a, bsafe (k a) (Tree (PT a c ts) :: G') Q
  | Reserve k => forall a, bsafe (k a) (Held a :: G) Q
  | Clone a k => exists c ts, lent (PT a c ts) (B ++ G) /\ bsafe k (Tree (PT a c ts) :: G) Q
  | Read a k => exists c ts, lent (PT a c ts) (B ++ G) /\ (shaped kids (PT a c ts) -> bsafe (k c) G Q)
  | Dec a k =>
      exists c ts G', Permutation G (Tree (PT a c ts) :: G') /\ bsafe (k None) G' Q /\
      (shaped kids (PT a c ts) -> alone a G' -> bsafe (k (Some c)) (map Tree ts ++ G') Q)
  | Take a k =>
      exists c ts G', Permutation G (Tree (PT a c ts) :: G') /\ bsafe (k None) G Q /\
      (shaped kids (PT a c ts) -> alone a G' -> bsafe (k (Some c)) (Held a :: map Tree ts ++ G') Q)
  | Fill a c k =>
      exists ts G', Permutation G (Held a :: map Tree ts ++ G') /\ kids c = map pa ts /\
      bsafe k (Tree (PT a c ts) :: G') Q
  | Unwrap a k =>
      exists c ts G', Permutation G (Tree (PT a c ts) :: G') /\ bsafe (k None) G Q /\
      (shaped kids (PT a c ts) -> alone a G' -> bsafe (k (Some c)) (map Tree ts ++ G') Q)
  | Enter k => bsafe k G Q
  | Leave k => bsafe k G Q
  end.

Lemma perm_sides : forall (G G' G1 : list own), Permutation G G' -> Permutation G G1 -> Permutation G' G1.
Proof. intros. eapply Permutation_trans; [apply Permutation_sym|]; eauto. Qed.

Lemma lent_bperm : forall t (G G' : list own), Permutation G G' -> lent t (B ++ G) -> lent t (B ++ G').
Proof.
  intros t G G' P L. eapply lent_incl; [exact L|]. apply incl_app; [apply incl_appl, incl_refl|].
  apply incl_appr. now apply perm_incl.
Qed.

Lemma bsafe_perm : forall {A} (p : prog C A) G G' Q,
  Permutation G G' -> bsafe p G Q -> bsafe p G' Q.
Proof.
  intros A p. induction p; intros G G' Q P; cbn [bsafe].
  - intros (G1 & P1 & q). exists G1. split; trivial. eapply perm_sides; eauto.
  - easy.
  - intros (ts & G1 & P1 & K & S). exists ts, G1. splits; trivial. eapply perm_sides; eauto.
  - intros S a. eapply H; [|apply S]. now constructor.
  - intros (c & ts & L & S). exists c, ts. split; [eapply lent_bperm; eauto|]. eapply IHp; [|exact S]. now constructor.
  - intros (c & ts & L & S). exists c, ts. split; [eapply lent_bperm; eauto|]. intros Sh. eapply H; [|now apply S]. trivial.
  - intros (c & ts & G1 & P1 & S1 & S2). exists c, ts, G1. splits; trivial. eapply perm_sides; eauto.
  - intros (c & ts & G1 & P1 & S1 & S2). exists c, ts, G1. splits; trivial; [eapply perm_sides; eauto|eapply H; eauto].
  - intros (ts & G1 & P1 & K & S1). exists ts, G1. splits; trivial. eapply perm_sides; eauto.
  - intros (c & ts & G1 & P1 & S1 & S2). exists c, ts, G1. splits; trivial; [eapply perm_sides; eauto|eapply H; eauto].
  - now apply IHp.
  - now apply IHp.
Qed.

Lemma bsafe_post : forall {A} (p : prog C A) G (Q Q' : A -> list own -> Prop),
  bsafe p G Q -> (forall x G', Q x G' -> Q' x G') -> bsafe p G Q'.
Proof.
  intros A p G Q Q' S W. revert G S. induction p; intros G; cbn [bsafe].
  - intros (G1 & P1 & q). eauto.
  - easy.
  - intros (ts & G1 & P1 & K & S). exists ts, G1. splits; auto.
  - auto.
  - intros (c & ts & Lt & S). exists c, ts. auto.
  - intros (c & ts & Lt & S). exists c, ts. auto.
  - intros (c & ts & G1 & P1 & S1 & S2). exists c, ts, G1. splits; auto.
  - intros (c & ts & G1 & P1 & S1 & S2). exists c, ts, G1. splits; auto.
  - intros (ts & G1 & P1 & K & S1). exists ts, G1. splits; auto.
  - intros (c & ts & G1 & P1 & S1 & S2). exists c, ts, G1. splits; auto.
  - auto.
  - auto.
Qed.

Lemma bsafe_ret : forall {A} (x : A) G (Q : A -> list own -> Prop), Q x G -> bsafe (Ret x) G Q.
Proof. intros. exists G. auto. Qed.

Lemma bsafe_bind : forall {A X} (p : prog C A) (f : A -> prog C X) G Q1 Q2,
  bsafe p G Q1 -> (forall x G', Q1 x G' -> bsafe (f x) G' Q2) -> bsafe (pbind p f) G Q2.
Proof.
  intros A X p f. induction p; intros G Q1 Q2; cbn [bsafe pbind]; intros S1 S2.
  - destruct S1 as (G1 & P1 & q). apply (bsafe_perm _ G1); [now apply Permutation_sym|]. auto.
  - easy.
  - destruct S1 as (ts & G1 & P1 & K & S). exists ts, G1. splits; trivial. intros a. eapply H; eauto.
  - intros a. eapply H; eauto.
  - destruct S1 as (c & ts & L & S). exists c, ts. split; trivial. eapply IHp; eauto.
  - destruct S1 as (c & ts & L & S). exists c, ts. split; trivial. intros Sh. eapply H; eauto.
  - destruct S1 as (c & ts & G1 & P1 & Sn & Ss). exists c, ts, G1. splits; trivial; [|intros]; eapply H; eauto.
  - destruct S1 as (c & ts & G1 & P1 & Sn & Ss). exists c, ts, G1. splits; trivial; [|intros]; eapply H; eauto.
  - destruct S1 as (ts & G1 & P1 & K & S). exists ts, G1. splits; trivial. eapply IHp; eauto.
  - destruct S1 as (c & ts & G1 & P1 & Sn & Ss). exists c, ts, G1. splits; trivial; [|intros]; eapply H; eauto.
  - eapply IHp; eauto.
  - eapply IHp; eauto.
Qed.

(** ** What has been proved of single calls carries over *)

(** A call on a version the thread owns, next to all else it owns. *)
Lemma safe_bsafe : forall {A} (p : prog C A) n G F Q,
  safe kids n p G Q -> bsafe p (G ++ F) (fun x G' => exists G1, G' = G1 ++ F /\ Q x G1).
Proof.
  intros A p. induction p; intros n G F Q; cbn [HeapSafe.safe bsafe].
  - intros (G1 & P1 & q). exists (G1 ++ F). split; [now apply Permutation_app_tail|]. eauto.
  - easy.
  - intros (n' & ts & G1 & -> & P1 & K & S). exists ts, (G1 ++ F). splits; trivial.
    + rewrite app_assoc. now apply Permutation_app_tail.
    + intros a. exact (H a n' _ F Q (S a)).
  - intros (n' & -> & S) a. exact (H a n' _ F Q (S a)).
  - intros (c & ts & L & S). exists c, ts. split; [|exact (IHp n _ F Q S)].
    eapply lent_incl; [exact L|]. apply incl_appr, incl_appl, incl_refl.
  - intros (c & ts & L & S). exists c, ts. split; [|intros Sh; exact (H c n _ F Q (S Sh))].
    eapply lent_incl; [exact L|]. apply incl_appr, incl_appl, incl_refl.
  - intros (c & ts & G1 & P1 & Sn & Ss). exists c, ts, (G1 ++ F). splits.
    + change (Tree (PT a c ts) :: G1 ++ F) with ((Tree (PT a c ts) :: G1) ++ F). now apply Permutation_app_tail.
    + exact (H None n _ F Q Sn).
    + intros Sh Al. rewrite app_assoc. apply (H (Some c) n _ F Q), Ss; trivial.
      eapply alone_incl; [exact Al|]. apply incl_appl, incl_refl.
  - intros (c & ts & G1 & P1 & Sn & Ss). exists c, ts, (G1 ++ F). splits.
    + change (Tree (PT a c ts) :: G1 ++ F) with ((Tree (PT a c ts) :: G1) ++ F). now apply Permutation_app_tail.
    + exact (H None n _ F Q Sn).
    + intros Sh Al. rewrite app_assoc. apply (H (Some c) n (Held a :: map Tree ts ++ G1) F Q), Ss; trivial.
      eapply alone_incl; [exact Al|]. apply incl_appl, incl_refl.
  - intros (ts & G1 & P1 & K & S). exists ts, (G1 ++ F). splits; trivial.
    + rewrite app_assoc. change (Held a :: (map Tree ts ++ G1) ++ F) with ((Held a :: map Tree ts ++ G1) ++ F).
      now apply Permutation_app_tail.
    + exact (IHp n _ F Q S).
  - intros (c & ts & G1 & P1 & Sn & Ss). exists c, ts, (G1 ++ F). splits.
    + change (Tree (PT a c ts) :: G1 ++ F) with ((Tree (PT a c ts) :: G1) ++ F). now apply Permutation_app_tail.
    + exact (H None n _ F Q Sn).
    + intros Sh Al. rewrite app_assoc. apply (H (Some c) n _ F Q), Ss; trivial.
      eapply alone_incl; [exact Al|]. apply incl_appl, incl_refl.
  - exact (IHp n G F Q).
  - exact (IHp n G F Q).
Qed.

(** A program that does nothing but read, on a version it owns or has borrowed. *)
Lemma looks_bsafe : forall {A} (p : prog C A) n G G1 Q,
  looks n p G Q -> incl G (B ++ G1) -> bsafe p G1 (fun x G' => Q x /\ G' = G1).
Proof.
  intros A p. induction p; intros m G G1 Q; cbn [looks bsafe]; try easy.
  - intros q _. exists G1. auto.
  - intros (n' & c & ts & -> & L & S) Hi. exists c, ts. split; [eapply lent_incl; eauto|]. intros _. eauto.
Qed.

(** A program that also clones pointers. *)
Fixpoint copying {A} (p : prog C A) : Prop :=
  match p with
  | Ret _ | Fail => True
  | Clone _ k => copying k
  | Read _ k => forall c, copying (k c)
  | _ => False
  end.

Lemma copying_bsafe : forall {A} (p : prog C A) n G E G1 Q, copying p ->
  safe kids n p (G ++ E) Q -> incl G (B ++ G1) ->
  bsafe p (G1 ++ E) (fun x G' => exists E' G'', G' = G1 ++ E' /\ Permutation (G ++ E') G'' /\ Q x G'').
Proof.
  intros A p. induction p; intros m G E G1 Q; cbn [copying HeapSafe.safe bsafe]; try easy.
  - intros _ (G' & P & q) Hi. exists (G1 ++ E). split; [apply Permutation_refl|]. exists E, G'. auto.
  - intros Cp (c & ts & L & S) Hi. exists c, ts. split.
    + eapply lent_incl; [exact L|]. intros o Io. apply in_app_iff in Io. rewrite !in_app_iff. destruct Io as [Io|Io]; auto.
      apply Hi, in_app_iff in Io. tauto.
    + eapply bsafe_perm; [|eapply (IHp m G (Tree (PT a c ts) :: E) G1 Q Cp); [|exact Hi]].
      * apply Permutation_sym, Permutation_middle.
      * eapply safe_perm; [|exact S]. apply Permutation_middle.
  - intros Cp (c & ts & L & S) Hi. exists c, ts. split; [|intros Sh; eauto].
    eapply lent_incl; [exact L|]. intros o Io. apply in_app_iff in Io. rewrite !in_app_iff. destruct Io as [Io|Io]; auto.
    apply Hi, in_app_iff in Io. tauto.
Qed.

(** ** Soundness: any number of threads with the same references *)
Lemma bsafe_step : forall {A} (p : prog C A) G F Q h,
  bsafe p G Q -> incl B F -> WF kids h (G ++ F) ->
  match pstep h p with
  | Stop x => exists G', Permutation G G' /\ Q x G'
  | Crash => False
  | Step h' p' => exists G', bsafe p' G' Q /\ WF kids h' (G' ++ F)
  end.
Proof.
  intros A p G F Q h S HB W. destruct p; cbn [bsafe pstep] in *; trivial.
  - destruct S as (ts & G1 & P1 & K & S). exists (Tree (PT (length h) c ts) :: G1).
    split; [apply S|]. cbn [app]. apply WF_new; trivial. eapply WF_perm; [|exact W]. rewrite app_assoc.
    now apply Permutation_app_tail.
  - exists (Held (length h) :: G). split; [apply S|]. cbn [app]. now apply WF_reserve.
  - destruct S as (c & ts & L & S).
    assert (L' : lent (PT a c ts) (G ++ F)).
    { eapply lent_incl; [exact L|]. apply incl_app; [now apply incl_appr|apply incl_appl, incl_refl]. }
    assert (P := lent_phys kids h _ _ L' W). apply phys_eq in P as ((m & E) & _). rewrite E.
    exists (Tree (PT a c ts) :: G). split; [trivial|]. cbn [app]. apply WF_clone; trivial.
  - destruct S as (c & ts & L & S).
    assert (L' : lent (PT a c ts) (G ++ F)).
    { eapply lent_incl; [exact L|]. apply incl_app; [now apply incl_appr|apply incl_appl, incl_refl]. }
    assert (P := lent_phys kids h _ _ L' W). assert (P' := P). apply phys_eq in P' as ((m & E) & _). rewrite E.
    exists G. split; [|trivial]. apply S. eapply phys_shaped; eauto.
  - destruct S as (c & ts & G1 & P1 & S1 & S2).
    assert (W' : WF kids h (Tree (PT a c ts) :: G1 ++ F)).
    { eapply WF_perm; [|exact W].
      change (Tree (PT a c ts) :: G1 ++ F) with ((Tree (PT a c ts) :: G1) ++ F). now apply Permutation_app_tail. }
    destruct (WF_owned_full kids _ _ _ _ _ W') as (m & E). rewrite E. destruct m as [|m].
    + exists (map Tree ts ++ G1). split.
      * apply S2.
        -- destruct W' as (_ & F1 & _). apply Forall_cons_iff in F1 as [P _]. now apply (phys_shaped kids h).
        -- eapply alone_incl; [|apply incl_appl, incl_refl].
           exact (proj1 (WF_unique kids h (G1 ++ F) (PT a c ts) c W' E)).
      * rewrite <- app_assoc. apply (WF_take kids h (G1 ++ F) a c ts c None); auto.
    + exists G1. split; [trivial|]. exact (WF_dec kids h (G1 ++ F) (PT a c ts) m c W' E).
  - destruct S as (c & ts & G1 & P1 & S1 & S2).
    assert (W' : WF kids h (Tree (PT a c ts) :: G1 ++ F)).
    { eapply WF_perm; [|exact W].
      change (Tree (PT a c ts) :: G1 ++ F) with ((Tree (PT a c ts) :: G1) ++ F). now apply Permutation_app_tail. }
    destruct (WF_owned_full kids _ _ _ _ _ W') as (m & E). rewrite E. destruct m as [|m].
    + exists (Held a :: map Tree ts ++ G1). split.
      * apply S2.
        -- destruct W' as (_ & F1 & _). apply Forall_cons_iff in F1 as [P _]. now apply (phys_shaped kids h).
        -- eapply alone_incl; [|apply incl_appl, incl_refl].
           exact (proj1 (WF_unique kids h (G1 ++ F) (PT a c ts) c W' E)).
      * cbn [app]. rewrite <- app_assoc. apply (WF_take kids h (G1 ++ F) a c ts c (Some Hole)); auto.
    + exists G. auto.
  - destruct S as (ts & G1 & P1 & K & S).
    assert (W' : WF kids h (Held a :: map Tree ts ++ (G1 ++ F))).
    { eapply WF_perm; [|exact W]. rewrite app_assoc.
      change (Held a :: (map Tree ts ++ G1) ++ F) with ((Held a :: map Tree ts ++ G1) ++ F).
      now apply Permutation_app_tail. }
    destruct (WF_fill kids h (G1 ++ F) a c ts W' K) as [E W2]. rewrite E.
    exists (Tree (PT a c ts) :: G1). auto.
  - destruct S as (c & ts & G1 & P1 & S1 & S2).
    assert (W' : WF kids h (Tree (PT a c ts) :: G1 ++ F)).
    { eapply WF_perm; [|exact W].
      change (Tree (PT a c ts) :: G1 ++ F) with ((Tree (PT a c ts) :: G1) ++ F). now apply Permutation_app_tail. }
    destruct (WF_owned_full kids _ _ _ _ _ W') as (m & E). rewrite E. destruct m as [|m].
    + exists (map Tree ts ++ G1). split.
      * apply S2.
        -- destruct W' as (_ & F1 & _). apply Forall_cons_iff in F1 as [P _]. now apply (phys_shaped kids h).
        -- eapply alone_incl; [|apply incl_appl, incl_refl].
           exact (proj1 (WF_unique kids h (G1 ++ F) (PT a c ts) c W' E)).
      * rewrite <- app_assoc. apply (WF_take kids h (G1 ++ F) a c ts c None); auto.
    + exists G. auto.
  - exists G. auto.
  - exists G. auto.
Qed.

Inductive threads_share {A} : list (prog C A) -> list (A -> list own -> Prop) -> list (list own) -> Prop :=
| ts_nil : threads_share [] [] []
| ts_cons : forall p ps Q Qs G Gs,
    bsafe p G Q -> threads_share ps Qs Gs -> threads_share (p :: ps) (Q :: Qs) (G :: Gs).

Lemma share_nth : forall {A} (ps : list (prog C A)) Qs Gs i p,
  threads_share ps Qs Gs -> nth_error ps i = Some p ->
  exists Q G Gs1 Gs2,
    nth_error Qs i = Some Q /\ Gs = Gs1 ++ G :: Gs2 /\ bsafe p G Q /\
    (forall p' G', bsafe p' G' Q -> threads_share (upd ps i p') Qs (Gs1 ++ G' :: Gs2)).
Proof.
  intros A ps Qs Gs i p T. revert i. induction T; intros i E; [now destruct i|].
  destruct i as [|i]; cbn in E.
  - injection E as ->. exists Q, G, [], Gs. cbn. splits; trivial. intros. now constructor.
  - destruct (IHT i E) as (Q' & G' & s1 & s2 & E1 & -> & S & R).
    exists Q', G', (G :: s1), s2. cbn. splits; trivial. intros. constructor; auto.
Qed.

Lemma share_step : forall {A} i h (ps : list (prog C A)) Qs Gs F,
  threads_share ps Qs Gs -> incl B F -> WF kids h (concat Gs ++ F) ->
  exists Gs', threads_share (snd (cstep i (h, ps))) Qs Gs' /\ WF kids (fst (cstep i (h, ps))) (concat Gs' ++ F).
Proof.
  intros A i h ps Qs Gs F T HB W. unfold cstep.
  destruct (nth_error ps i) as [p|] eqn:E; [|exists Gs; auto].
  destruct (share_nth _ _ _ _ _ T E) as (Q & G & s1 & s2 & E1 & -> & S & R).
  rewrite concat_app in W. cbn [concat] in W.
  assert (W' : WF kids h (G ++ (concat s1 ++ concat s2 ++ F))).
  { eapply WF_perm; [|exact W]. perm. }
  assert (HB' : incl B (concat s1 ++ concat s2 ++ F)) by now apply incl_appr, incl_appr.
  assert (X := bsafe_step _ _ _ _ _ S HB' W').
  destruct (pstep h p) as [x| |h' p'] eqn:Ep.
  - exists (s1 ++ G :: s2). cbn [fst snd]. split; [trivial|]. rewrite concat_app. exact W.
  - contradiction.
  - destruct X as (G' & S' & W2). exists (s1 ++ G' :: s2). cbn [fst snd]. split; [now apply R|].
    eapply WF_perm; [|exact W2]. rewrite concat_app. cbn [concat]. perm.
Qed.

Lemma share_exec : forall {A} sched h (ps : list (prog C A)) Qs Gs F,
  threads_share ps Qs Gs -> incl B F -> WF kids h (concat Gs ++ F) ->
  exists Gs', threads_share (snd (exec sched (h, ps))) Qs Gs' /\ WF kids (fst (exec sched (h, ps))) (concat Gs' ++ F).
Proof.
  intros A sched. induction sched as [|i s IH]; intros h ps Qs Gs F T HB W.
  - exists Gs. auto.
  - cbn [exec]. destruct (share_step i h ps Qs Gs F T HB W) as (s1 & T1 & W1).
    destruct (cstep i (h, ps)) as [h1 ps1]. cbn [fst snd] in *. eauto.
Qed.

Lemma share_no_fail : forall {A} (ps : list (prog C A)) Qs Gs, threads_share ps Qs Gs -> ~ In Fail ps.
Proof. intros A ps Qs Gs T. induction T; [easy|]. intros [->|I]; [exact H|auto]. Qed.
End Borrow.

(** A cell that can be reached from what is owned now has the same contents in every heap
    that accounts for the same ownership. *)
Section Keep.
Context {C : Type} (kids : C -> list addr).

Lemma reach_sub : forall h (ts : list (@ptree C)) a, Forall (phys kids h) ts -> reach kids h (map pa ts) a ->
  exists c us t, In t ts /\ sub (PT a c us) t.
Proof.
  intros h ts a Ph R. induction R as [a I|a b n c R IH E I].
  - apply in_map_iff in I as ([a' c us] & <- & I). exists c, us, (PT a' c us). split; [trivial|constructor].
  - destruct IH as (c' & us & t & It & S). rewrite Forall_forall in Ph. specialize (Ph t It).
    assert (Pa : phys kids h (PT a c' us)) by (eapply sub_phys; eauto).
    rewrite phys_eq in Pa. destruct Pa as ((m & E') & K & _). rewrite E in E'. injection E' as <- <-.
    rewrite K in I. apply in_map_iff in I as ([b' d vs] & <- & I). exists d, vs, t. split; [trivial|].
    destruct (lent_kid (PT b' d vs) a c us [Tree t]) as (t' & [Et|[]] & S').
    + exists t. split; [now left|trivial].
    + trivial.
    + injection Et as <-. exact S'.
Qed.
End Keep.

(** ** Programs *)
Section Share.
Context {C : Type} (kids : C -> list addr).
Context {Coll Val Op Out Arg Dir Ans St Seq : Type}.
Context (hnew : prog C Coll) (hclone : Coll -> prog C Coll) (hdrop : Coll -> prog C unit)
        (hop : Op -> Coll -> prog C (Coll * Out)).
Context (iopen : Arg -> Coll -> prog C St) (inext : Dir -> St -> prog C (St * Ans)).
Notation own := (@own C).
Notation icmd := (icmd Op Arg Dir).
Context (roots : Coll -> list addr) (rep : Coll -> Val -> list own -> Prop).
Context (irel : Val -> St -> Seq -> list own -> Prop).
Context (vnew : Val) (vop : Op -> Val -> Val * Out) (snext : Dir -> Seq -> Seq * Ans).
Context (sopen : Arg -> Val -> Seq -> Prop).
Context (reads : Op -> bool) (pre : Op -> Val -> Prop) (ipre : Arg -> Val -> Prop).
Context (ncost : nat) (cost : Op -> Val -> nat) (oprice : Arg -> Val -> nat) (nprice : Val -> nat).

(** The registers of a thread: first the [n] it has references to, then its own.  The borrow
    checker refuses to change or drop the former. *)
Definition spares (n : nat) (x : icmd) : Prop :=
  match x with
  | IDo (COp i o) => i < n -> reads o = true
  | IDo (CDrop i) => n <= i
  | _ => True
  end.

(** A job: which registers of the main thread the thread is given to own, and its program.
    [shared]: the registers all threads have references to. *)
Definition sjob_regs (shared : list nat) (j : list nat * list icmd) : list nat := shared ++ fst j.
Definition sjob_start (rs : list (option Coll)) (shared : list nat) (j : list nat * list icmd) :=
  hiclient hnew hclone hdrop hop iopen inext (snd j) (hand rs (sjob_regs shared j)) [].
Definition sjob_ok (vs : list (option Val)) (shared : list nat) (j : list nat * list icmd) : Prop :=
  iwithin vnew vop reads pre ipre (snd j) (hand vs (sjob_regs shared j)) [] /\
  Forall (spares (length shared)) (snd j).

Notation fresh := (fresh sopen).

(** For every program of the main thread, every choice of what is shared and what is handed
    out, and every schedule:
    - no thread ever crashes, and every thread can still finish;
    - a thread that has finished has the outputs it has when every register is a value of its own;
    - at every point the counts are exact, the main thread's own pointers counted with those the
      threads have in hand;
    - no cell of a shared version changes or is freed;
    - when all threads have finished the only pointers are the main thread's and those of the
      threads' own registers, and the main thread can go on with any program on the versions it
      had shared, which have the values they had. *)
Definition shares : Prop := forall main (shared : list nat) (jobs : list (list nat * list icmd)),
  within vnew vop pre main [] ->
  let vs := fst (sclient vnew vop main []) in
  Permutation (shared ++ concat (map fst jobs)) (seq 0 (length vs)) ->
  Forall (sjob_ok vs shared) jobs ->
  exists h rs,
    run [] (hclient hnew hclone hdrop hop main []) = Some (h, (rs, snd (sclient vnew vop main []))) /\
    forall sched,
      let cf := exec sched (h, map (sjob_start rs shared) jobs) in
      let lent_out := reg_roots roots (hand rs shared) in
      ~ In Fail (snd cf) /\
      (exists sched', Forall finished (snd (exec sched' cf))) /\
      (forall i j r, nth_error jobs i = Some j -> nth_error (snd cf) i = Some (Ret r) ->
         exists os, Forall2 fresh (opened vnew vop (snd j) (hand vs (sjob_regs shared j))) os /\
           snd r = siclient vnew vop snext (snd j) (hand vs (sjob_regs shared j)) [] os) /\
      (exists held, exact_point kids (fst cf) (held ++ lent_out)) /\
      (forall a n c, reach kids h lent_out a -> get h a = Some (Full n c) ->
         exists n', get (fst cf) a = Some (Full n' c)) /\
      (forall rs', snd cf = map Ret rs' ->
         exact_heap kids (fst cf)
           (flat_map (fun r => reg_roots roots (skipn (length shared) (fst (fst r)))) rs' ++ lent_out) /\
         forall l, within vnew vop pre l (hand vs shared) ->
           exists h' cs, run (fst cf) (hclient hnew hclone hdrop hop l (hand rs shared)) =
             Some (h', (cs, snd (sclient vnew vop l (hand vs shared))))).

(** *** Correctness, from that of each call *)
Hypothesis new_ok : safe kids ncost hnew [] (fun c G => rep c vnew G).
Hypothesis clone_ok : forall c v G, rep c v G ->
  safe kids 0 (hclone c) G (fun c' G' => exists G2, G' = G ++ G2 /\ rep c' v G2).
Hypothesis clone_copies : forall c, copying (hclone c).
Hypothesis drop_ok : forall c v G, rep c v G -> safe kids 0 (hdrop c) G (fun _ G' => G' = []).
Hypothesis op_ok : forall o c v G, rep c v G -> pre o v ->
  safe kids (cost o v) (hop o c) G
    (fun r G' => snd r = snd (vop o v) /\ rep (fst r) (fst (vop o v)) G').
Hypothesis reads_gentle : forall o c, reads o = true -> gentle c (hop o c).
Hypothesis reads_same : forall o v, reads o = true -> fst (vop o v) = v.
Hypothesis rep_roots : forall c v G, rep c v G -> exists ts, G = map Tree ts /\ roots c = map pa ts.
Hypothesis open_looks : forall a c v G, rep c v G -> ipre a v ->
  looks (oprice a v) (iopen a c) G (fun it => exists s, sopen a v s /\ irel v it s G).
Hypothesis next_looks : forall v it s G d, irel v it s G ->
  looks (nprice v) (inext d it) G (fun r => snd r = snd (snext d s) /\ irel v (fst r) (fst (snext d s)) G).

Notation kept := (kept rep).
Notation iters := (iters irel).

Lemma gentle_bsafe : forall B (p : prog C (Coll * Out)) c n G G1 Q, gentle c p -> safe kids n p G Q ->
  incl G (B ++ G1) ->
  bsafe kids B p G1 (fun x G' => G' = G1 /\ fst x = c /\ exists G'', Q x G'').
Proof.
  intros B p c. induction p; intros n G G1 Q Hg; cbn [gentle HeapSafe.safe bsafe] in *; try easy.
  - intros (G' & P & q) _. exists G1. splits; trivial. eauto.
  - intros (d & ts & L & S) Hi. exists d, ts. split; [eapply lent_incl; eauto|]. intros Sh. eauto.
Qed.

Lemma clone_bsafe : forall B c v G G1, rep c v G -> incl G (B ++ G1) ->
  bsafe kids B (hclone c) G1 (fun c' G' => exists G2, Permutation G' (G1 ++ G2) /\ rep c' v G2).
Proof.
  intros B c v G G1 r Hi.
  assert (X := copying_bsafe kids B (hclone c) 0 G [] G1
    (fun c' G' => exists G2, G' = G ++ G2 /\ rep c' v G2) (clone_copies c)).
  rewrite !app_nil_r in X. eapply bsafe_post; [apply X; [apply (clone_ok _ _ _ r)|exact Hi]|].
  cbn beta. intros c' G' (E & G'' & -> & P & G2 & -> & r2). exists G2. split; [|exact r2].
  apply Permutation_app_head. now apply Permutation_app_inv_l in P.
Qed.

Lemma in_mine : forall (Gs0 Gs1 : list (list own)) i, incl (nth i (Gs0 ++ Gs1) []) (concat Gs0 ++ concat Gs1).
Proof.
  intros Gs0 Gs1 i. rewrite <- concat_app. generalize (Gs0 ++ Gs1). intros Gs.
  destruct (Nat.lt_ge_cases i (length Gs)) as [L|L].
  - intros o I. apply in_concat. exists (nth i Gs []). split; [now apply nth_In|exact I].
  - rewrite nth_overflow by exact L. intros o [].
Qed.

Lemma upd_right : forall {X} (l r : list X) i x, length l <= i -> upd (l ++ r) i x = l ++ upd r (i - length l) x.
Proof.
  intros X l r. induction l as [|y l IH]; intros i x L; cbn in *; [now rewrite Nat.sub_0_r|].
  destruct i as [|i]; [lia|]. cbn. rewrite IH; trivial. lia.
Qed.

Lemma do_share : forall Gs0 c rs vs Gs1 lo, kept rs vs (Gs0 ++ Gs1) ->
  allowed reads pre ipre (IDo c : icmd) vs lo -> spares (length Gs0) (IDo c) ->
  bsafe kids (concat Gs0) (hclient hnew hclone hdrop hop [c] rs) (concat Gs1)
    (fun r G' => snd r = snd (sclient vnew vop [c] vs) /\ exists Gs', G' = concat Gs' /\
       kept (fst r) (fst (sclient vnew vop [c] vs)) (Gs0 ++ Gs') /\
       spared lo vs (fst (sclient vnew vop [c] vs)) (Gs0 ++ Gs1) (Gs0 ++ Gs')).
Proof.
  intros Gs0 c rs vs Gs1 lo K A Sp. destruct c as [|i|i o|i]; cbn [hclient sclient allowed spares] in *.
  - change (concat Gs1) with ([] ++ concat Gs1). eapply bsafe_bind; [exact (safe_bsafe kids _ _ _ _ _ _ new_ok)|].
    cbn beta. intros c G' (G & -> & r). exists (concat (Gs1 ++ [G])). split; [rewrite concat_app; cbn; perm|].
    cbn [fst snd]. split; [trivial|]. exists (Gs1 ++ [G]). split; [trivial|]. rewrite app_assoc.
    split; [now apply kept_snoc|]. apply spared_snoc. apply K.
  - assert (N := kept_at rep _ _ _ i K). destruct (nth_error vs i) as [[v|]|] eqn:Ev.
    2,3: destruct (nth_error rs i) as [[c|]|]; [contradiction|..]; (apply bsafe_ret; cbn [fst snd]; split; [trivial|];
         exists Gs1; split; [trivial|]; split; [trivial|apply spared_refl]).
    destruct N as (c & E & r & L). rewrite E.
    eapply bsafe_bind; [apply (clone_bsafe _ _ _ _ _ r (in_mine _ _ _))|].
    cbn beta. intros c' G' (G2 & P & r2). exists (concat (Gs1 ++ [G2])). split.
    { rewrite concat_app. cbn [concat]. now rewrite app_nil_r. }
    cbn [fst snd]. split; [trivial|]. exists (Gs1 ++ [G2]). split; [trivial|]. rewrite app_assoc.
    split; [now apply kept_snoc|]. apply spared_snoc. apply K.
  - assert (N := kept_at rep _ _ _ i K). destruct (nth_error vs i) as [[v|]|] eqn:Ev.
    2,3: destruct (nth_error rs i) as [[c|]|]; [contradiction|..]; (apply bsafe_ret; cbn [fst snd]; split; [trivial|];
         exists Gs1; split; [trivial|]; split; [trivial|apply spared_refl]).
    destruct N as (c & E & r & L). rewrite E. destruct A as (A & Hp). specialize (Hp v eq_refl).
    destruct (reads o) eqn:Hr.
    + eapply bsafe_bind; [apply (gentle_bsafe _ _ c _ _ _ _ (reads_gentle o c Hr) (op_ok _ _ _ _ r Hp) (in_mine _ _ _))|].
      cbn beta. intros [c' y] G' (-> & Ec & G'' & Ey & _). cbn [fst snd] in *. subst c'.
      assert (Es := reads_same o v Hr). destruct (vop o v) as [v' y'] eqn:Eo. cbn [fst snd] in *. subst y' v'.
      apply bsafe_ret. rewrite (upd_same rs), (upd_same vs) by trivial.
      cbn [fst snd]. split; [trivial|]. exists Gs1. split; [trivial|]. split; [trivial|apply spared_refl].
    + destruct A as [Hf|]; [|discriminate].
      assert (Li : length Gs0 <= i) by (destruct (Nat.lt_ge_cases i (length Gs0)); [now specialize (Sp H)|trivial]).
      rewrite app_nth2 in r by exact Li. rewrite app_length in L.
      assert (L' : i - length Gs0 < length Gs1) by lia.
      eapply bsafe_perm; [apply Permutation_sym, (concat_take Gs1 _ L')|].
      eapply bsafe_bind; [exact (safe_bsafe kids _ _ _ _ _ _ (op_ok _ _ _ _ r Hp))|].
      cbn beta. intros [c' y] G' (G3 & -> & Ey & r'). cbn [fst snd] in *.
      destruct (vop o v) as [v' y'] eqn:Eo. cbn [fst snd] in *. subst y'.
      exists (concat (upd Gs1 (i - length Gs0) G3)). split; [apply Permutation_sym, (concat_upd Gs1 _ G3 L')|].
      cbn [fst snd]. split; [trivial|]. exists (upd Gs1 (i - length Gs0) G3). split; [trivial|].
      rewrite <- upd_right by exact Li.
      split; [apply kept_upd; trivial; rewrite app_length; lia|now apply spared_upd].
  - assert (N := kept_at rep _ _ _ i K). destruct (nth_error vs i) as [[v|]|] eqn:Ev.
    2,3: destruct (nth_error rs i) as [[c|]|]; [contradiction|..]; (apply bsafe_ret; cbn [fst snd]; split; [trivial|];
         exists Gs1; split; [trivial|]; split; [trivial|apply spared_refl]).
    destruct N as (c & E & r & L). rewrite E.
    rewrite app_nth2 in r by exact Sp. rewrite app_length in L.
    assert (L' : i - length Gs0 < length Gs1) by lia.
    eapply bsafe_perm; [apply Permutation_sym, (concat_take Gs1 _ L')|].
    eapply bsafe_bind; [exact (safe_bsafe kids _ _ _ _ _ _ (drop_ok _ _ _ r))|].
    cbn beta. intros [] G' (G3 & -> & ->). exists (concat (upd Gs1 (i - length Gs0) [])). split; [apply Permutation_refl|].
    cbn [fst snd]. split; [trivial|]. exists (upd Gs1 (i - length Gs0) []). split; [trivial|].
    rewrite <- upd_right by exact Sp.
    split; [apply kept_upd; trivial; [rewrite app_length; lia|exact eq_refl]|now apply spared_upd].
Qed.

Lemma client_share : forall Gs0 l rs vs Gs1 its lo ss,
  kept rs vs (Gs0 ++ Gs1) -> iters its lo ss vs (Gs0 ++ Gs1) -> iwithin vnew vop reads pre ipre l vs lo ->
  Forall (spares (length Gs0)) l ->
  bsafe kids (concat Gs0) (hiclient hnew hclone hdrop hop iopen inext l rs its) (concat Gs1)
    (fun r G' => (exists os, Forall2 fresh (opened vnew vop l vs) os /\
       snd r = siclient vnew vop snext l vs ss os) /\
       exists Gs', G' = concat Gs' /\ kept (fst (fst r)) (fst (iafter vnew vop l vs lo)) (Gs0 ++ Gs')).
Proof.
  intros Gs0. induction l as [|x l IH]; intros rs vs Gs1 its lo ss K It W Sp.
  - apply bsafe_ret. cbn. split; [exists []; split; [constructor|trivial]|]. exists Gs1. auto.
  - cbn [iwithin iafter opened] in *. destruct W as (A & W). apply Forall_cons_iff in Sp as (Sx & Sp).
    destruct x as [c|i a|j d|j]; cbn [hiclient siclient regs_after loans_after] in *.
    + eapply bsafe_bind; [exact (do_share Gs0 c rs vs Gs1 lo K A Sx)|].
      cbn beta. intros [rs' xs] G' (Ex & Gs' & -> & K' & Spa). cbn [fst snd] in *. subst xs.
      eapply bsafe_bind; [apply (IH rs' (fst (sclient vnew vop [c] vs)) Gs' its lo ss); [exact K'|exact (iters_spared irel _ _ _ _ _ _ _ It Spa)|exact W|exact Sp]|].
      cbn beta. intros [st ys] G2 ((os & F & Ey) & Gs2 & -> & K2). cbn [fst snd] in *. subst ys.
      apply bsafe_ret. split; [exists os; split; [exact F|trivial]|]. exists Gs2. auto.
    + assert (N := kept_at rep _ _ _ i K). destruct (nth_error vs i) as [[v|]|] eqn:Ev.
      2,3: destruct (nth_error rs i) as [[c|]|]; [contradiction|..]; cbn [app]; exact (IH rs vs Gs1 its lo ss K It W Sp).
      destruct N as (c & E & r & L). rewrite E. specialize (A v Ev).
      eapply bsafe_bind; [exact (looks_bsafe kids _ _ _ _ _ _ (open_looks a c v _ r A) (in_mine _ _ _))|].
      cbn beta. intros it G' ((s & Hs & Hr) & ->).
      assert (D := IH rs vs Gs1 (its ++ [Some it]) (lo ++ [Some i]) (ss ++ [Some s]) K
                    (iters_snoc irel _ _ _ _ _ _ _ _ _ It Ev Hr) W Sp).
      eapply bsafe_post; [exact D|]. intros r' G' ((os & F & Ey) & Z). split; [|exact Z]. exists (s :: os).
      split; [cbn [app]; constructor; trivial|exact Ey].
    + cbn [app]. assert (N := iters_at irel _ _ _ _ _ j It). destruct (nth_error its j) as [[it|]|] eqn:Ej.
      2,3: destruct (nth_error ss j) as [[s|]|]; [contradiction|..]; exact (IH rs vs Gs1 its lo ss K It W Sp).
      destruct N as (i & s & v & El & Es & Ev & Hr & Lj). rewrite Es.
      eapply bsafe_bind; [exact (looks_bsafe kids _ _ _ _ _ _ (next_looks v it s _ d Hr) (in_mine _ _ _))|].
      cbn beta. intros [it' y] G' ((Ey & Hr') & ->). cbn [fst snd] in *. subst y.
      eapply bsafe_bind; [apply (IH rs vs Gs1 _ lo _ K (iters_upd irel _ _ _ _ _ _ _ _ _ _ It El Ev Hr' Lj) W Sp)|].
      cbn beta. intros [st ys] G2 ((os & F & Ey) & Gs2 & -> & K2). cbn [fst snd] in *. subst ys.
      apply bsafe_ret. split; [exists os; split; [exact F|trivial]|]. exists Gs2. auto.
    + cbn [app]. exact (IH rs vs Gs1 _ _ _ K (iters_close irel _ _ _ _ _ j It) W Sp).
Qed.

(** What the threads own at the end. *)
Lemma own_roots : forall n rs vs Gs0 Gs1, length Gs0 = n -> kept rs vs (Gs0 ++ Gs1) ->
  exists ts, concat Gs1 = map Tree ts /\ reg_roots roots (skipn n rs) = map pa ts.
Proof.
  intros n rs vs Gs0 Gs1 <- (L1 & L2 & P). rewrite app_length in L2.
  apply (kept_roots roots rep rep_roots (skipn (length Gs0) rs) (skipn (length Gs0) vs)).
  unfold HeapIterWorld.kept. rewrite !skipn_length. split; [lia|]. split; [lia|]. intros j.
  assert (N : forall X (l : list (option X)) k, nth j (skipn k l) None = nth (k + j) l None).
  { clear. intros X l k. revert l. induction k as [|k IH]; intros [|x l]; cbn; auto; now destruct j. }
  rewrite !N. specialize (P (length Gs0 + j)). rewrite app_nth2 in P by lia.
  now replace (length Gs0 + j - length Gs0) with j in P by lia.
Qed.

Lemma clone_weak : forall c v G, rep c v G ->
  safe kids 0 (hclone c) G (fun c' G' => exists G1 G2, G' = G1 ++ G2 /\ rep c v G1 /\ rep c' v G2).
Proof.
  intros c v G r. eapply safe_mono; [apply le_n| |exact (clone_ok c v G r)]. cbn. intros c' G' (G2 & -> & r2). eauto.
Qed.

Theorem shares_ok : shares.
Proof.
  intros main shared jobs Wm vs Pj Wj.
  destruct (client_runs kids hnew hclone hdrop hop rep vnew vop pre ncost cost new_ok clone_weak drop_ok op_ok
              main [] [] [] [] [])
    as (h & rs & G & E & R & W & _); [constructor|exact Wm|apply WF_nil|].
  rewrite app_nil_r in W. fold vs in R. exists h, rs. split; [exact E|].
  destruct (reps_pieces _ _ _ _ R) as (Gs & -> & L1 & L2 & P).
  assert (K : kept rs vs Gs) by (split; [congruence|]; split; [congruence|exact P]).
  set (at_ := fun i => nth i Gs []).
  set (Gs0 := map at_ shared). set (F := concat Gs0).
  assert (L0 : length Gs0 = length shared) by apply map_length.
  assert (Rs : reps rep (hand rs shared) (hand vs shared) F).
  { subst F Gs0. rewrite <- flat_map_concat_map. now apply hand_reps. }
  set (Q := fun (j : list nat * list icmd) (r : list (option Coll) * list (option St) * list (Out + Ans)) (G' : list own) =>
     (exists os, Forall2 fresh (opened vnew vop (snd j) (hand vs (sjob_regs shared j))) os /\
        snd r = siclient vnew vop snext (snd j) (hand vs (sjob_regs shared j)) [] os) /\
     exists ts, G' = map Tree ts /\ reg_roots roots (skipn (length shared) (fst (fst r))) = map pa ts).
  set (mine := map (fun j : list nat * list icmd => concat (map at_ (fst j))) jobs).
  assert (T : threads_share kids F (map (sjob_start rs shared) jobs) (map Q jobs) mine).
  { subst mine. clear Pj. induction Wj as [|j jobs (Wi & Si) Wj IH]; cbn [map]; [constructor|].
    constructor; [|exact IH].
    assert (Kj := hand_kept rep _ _ _ (sjob_regs shared j) K).
    unfold sjob_regs in Kj. rewrite map_app in Kj. fold at_ in Kj. fold Gs0 in Kj.
    rewrite <- L0 in Si.
    eapply bsafe_post; [apply (client_share Gs0 (snd j) _ _ _ [] [] [] Kj (iters_nil irel _ _) Wi Si)|].
    cbn beta. intros x G' ((os & Fo & Ex) & Gs' & -> & K'). split; [exists os; auto|].
    exact (own_roots _ _ _ _ _ L0 K'). }
  assert (Z : WF kids h (concat mine ++ F)).
  { eapply WF_perm; [|exact W]. destruct K as (_ & L3 & _).
    rewrite concat_seq, L3. fold at_. eapply Permutation_trans; [apply Permutation_flat_map, Permutation_sym; exact Pj|].
    rewrite flat_map_app. subst F Gs0 mine. rewrite <- (flat_map_concat_map at_ shared).
    eapply Permutation_trans; [apply Permutation_app_comm|]. apply Permutation_app_tail.
    clear. induction jobs as [|j jobs IH]; cbn [map concat]; [apply perm_nil|]. rewrite flat_map_app.
    apply Permutation_app; [|exact IH]. now rewrite flat_map_concat_map. }
  assert (HB : incl F F) by apply incl_refl.
  destruct (reps_roots roots rep rep_roots _ _ _ Rs) as (ts & Ft & Et).
  intros sched cf lent_out.
  assert (Y : forall s, exists Gs', threads_share kids F (snd (exec s (h, map (sjob_start rs shared) jobs))) (map Q jobs) Gs' /\
    WF kids (fst (exec s (h, map (sjob_start rs shared) jobs))) (concat Gs' ++ F)).
  { intros s. exact (share_exec kids F s h _ _ _ F T HB Z). }
  destruct (Y sched) as (Gs' & T' & W'). fold cf in T', W'.
  splits.
  - exact (share_no_fail kids F _ _ _ T').
  - destruct (finish_all (length (snd cf)) (fst cf) (snd cf) (le_n _)) as (s & Ls & Fs).
    exists s. rewrite (surjective_pairing cf).
    apply Forall_forall. intros p I. apply In_nth_error in I. destruct I as (i & Ei).
    destruct (Fs i p) as [D|D]; trivial.
    + rewrite <- Ls. apply nth_error_Some. congruence.
    + subst p. exfalso. destruct (Y (sched ++ s)) as (Gs2 & T2 & _).
      apply (share_no_fail kids F _ _ _ T2). rewrite exec_app. fold cf.
      rewrite (surjective_pairing cf). eapply nth_error_In; eauto.
  - intros i j r Ej Er. destruct (share_nth kids F _ _ _ _ _ T' Er) as (Q' & G & s1 & s2 & EQ & -> & S & _).
    rewrite nth_error_map, Ej in EQ. cbn in EQ. injection EQ as <-.
    destruct S as (G' & _ & H & _). exact H.
  - exists (map oa (concat Gs')). subst lent_out. rewrite Et. replace (map pa ts) with (map oa F).
    + rewrite <- map_app. now apply WF_point.
    + rewrite Ft. apply map_oa_Tree.
  - intros a n c Ra Ea. subst lent_out. rewrite Et in Ra.
    assert (Ph : forall h' G', WF kids h' (G' ++ F) -> Forall (phys kids h') ts).
    { intros h' G' (_ & F2 & _). apply Forall_app in F2 as (_ & F2). rewrite Ft, Forall_map in F2. exact F2. }
    destruct (reach_sub kids h ts a (Ph _ _ Z) Ra) as (c' & us & t & It & St').
    assert (P1 := Ph _ _ Z). assert (P2 := Ph _ _ W'). rewrite Forall_forall in P1, P2.
    assert (X1 := sub_phys kids h _ _ St' (P1 t It)). assert (X2 := sub_phys kids _ _ _ St' (P2 t It)).
    rewrite phys_eq in X1, X2. destruct X1 as ((m1 & E1) & _), X2 as ((m2 & E2) & _).
    exists m2. congruence.
  - intros rs' Er.
    assert (X : forall rs' jobs Gs', threads_share kids F (map Ret rs') (map Q jobs) Gs' ->
      exists us, Permutation (concat Gs') (map Tree us) /\
        flat_map (fun r => reg_roots roots (skipn (length shared) (fst (fst r)))) rs' = map pa us).
    { clear. induction rs' as [|r rs' IH]; intros jobs Gs' T; cbn [map] in T; inversion T as [|? ? ? ? ? ? S T2 E1 E2 E3]; subst.
      - exists []. split; [apply perm_nil|trivial].
      - destruct jobs as [|j jobs]; [discriminate|]. cbn in E2. injection E2 as -> ->.
        destruct (IH _ _ T2) as (us & P & E). destruct S as (G' & P' & _ & vs' & -> & E').
        exists (vs' ++ us). cbn [concat flat_map]. rewrite !map_app, E, E'. split; [now apply Permutation_app|trivial]. }
    rewrite Er in T'. destruct (X _ _ _ T') as (us & Pu & Eu). split.
    + rewrite Eu. subst lent_out. rewrite Et, <- map_app. apply WF_exact. rewrite map_app.
      eapply WF_perm; [|exact W']. rewrite Ft. now apply Permutation_app_tail.
    + intros l Wl.
      destruct (client_runs kids hnew hclone hdrop hop rep vnew vop pre ncost cost new_ok clone_weak drop_ok op_ok
                  l (fst cf) (concat Gs') (hand rs shared) (hand vs shared) F Rs Wl)
        as (h' & cs & G' & El & _); [eapply WF_perm; [apply Permutation_app_comm|exact W']|]. eauto.
Qed.
End Share.
