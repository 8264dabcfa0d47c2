(** * Inner collections do on the common heap what they do on their own *)
From Coq Require Import List Arith Lia Bool Permutation.
From Verif Require Import Base Spec PermSolve HeapModel HeapProofs HeapSafe HeapShare HeapIn.
Import ListNotations.
Local Open Scope prog_scope.

(** What is proved of every collection: a relation [rep] between its values, the plain values
    they stand for and the pointers they own, such that every call can be run by a thread that
    owns those pointers, whatever the other threads do, and ends in related values. *)
Record implements_by {C Coll Val Op Out : Type} (I : impl C Coll Op Out) (S : spec Val Op Out)
  (rep : Coll -> Val -> list (@own C) -> Prop) (ncost : nat) (cost : Op -> Val -> nat) : Prop := mkBy {
  by_new : safe (i_kids I) ncost (i_new I) [] (fun c G => rep c (s_new S) G);
  by_clone : forall c v G, rep c v G ->
    safe (i_kids I) 0 (i_clone I c) G (fun c' G' => exists G2, G' = G ++ G2 /\ rep c' v G2);
  by_copies : forall c, copying (i_clone I c);
  by_drop : forall c v G, rep c v G -> safe (i_kids I) 0 (i_drop I c) G (fun _ G' => G' = []);
  by_op : forall o c v G, rep c v G -> s_pre S o v ->
    safe (i_kids I) (cost o v) (i_op I o c) G
      (fun r G' => snd r = snd (s_op S o v) /\ rep (fst r) (fst (s_op S o v)) G');
  by_roots : forall c v G, rep c v G -> exists ts, G = map Tree ts /\ i_roots I c = map pa ts }.

Definition implements {C Coll Val Op Out : Type} (I : impl C Coll Op Out) (S : spec Val Op Out) : Prop :=
  exists rep ncost cost, implements_by I S rep ncost cost.

Section InProofs.
Context {C D E V Op Out : Type} (I : impl C E Op Out) (S : spec V Op Out).
Context (rep : E -> V -> list (@own C) -> Prop) (ncost : nat) (cost : Op -> V -> nat).
Hypothesis by_I : implements_by I S rep ncost cost.
Context (wrap : C -> D) (open : D -> option C) (kids : D -> list addr).
Hypothesis open_wrap : forall c, open (wrap c) = Some c.
Hypothesis kids_wrap : forall c, kids (wrap c) = i_kids I c.

Notation iown := (@own C).
Notation itree := (@ptree C).
Notation own := (@own D).
Notation ptree := (@ptree D).
Notation safe := (safe kids).
Notation isafe := (HeapSafe.safe (i_kids I)).
Notation inj := (inj wrap open).

(** ** Inner programs on the common heap *)
Fixpoint upt (t : itree) : ptree := match t with PT a c ts => PT a (wrap c) (map upt ts) end.
Definition up (o : iown) : own := match o with Tree t => Tree (upt t) | Held a => Held a end.

Lemma pa_up : forall t, pa (upt t) = pa t.
Proof. now intros []. Qed.

Lemma pas_up : forall t, map pa (map upt t) = map pa t.
Proof. intros t. rewrite map_map. apply map_ext, pa_up. Qed.

Lemma map_up_tree : forall ts, map up (map Tree ts) = map Tree (map upt ts).
Proof. intros ts. now rewrite !map_map. Qed.

Lemma sub_up : forall t t', sub t t' -> sub (upt t) (upt t').
Proof.
  intros t t' H. induction H; [constructor|]. cbn [upt]. apply (sub_kid _ (upt t')); trivial. now apply in_map.
Qed.

Lemma lent_up : forall a c ts (G : list iown), lent (PT a c ts) G -> lent (PT a (wrap c) (map upt ts)) (map up G).
Proof.
  intros a c ts G (t' & Hi & Su). exists (upt t'). split.
  - apply (in_map up) in Hi. exact Hi.
  - apply (sub_up _ _ Su).
Qed.

Lemma shaped_up : forall t, shaped kids (upt t) -> shaped (i_kids I) t.
Proof.
  intros t. induction t as [a c ts IH] using ptree_rect2. cbn [upt]. intros Sh.
  inversion Sh as [? ? ? K F]; subst. constructor.
  - now rewrite kids_wrap, pas_up in K.
  - rewrite Forall_map in F. rewrite Forall_forall in *. auto.
Qed.

Lemma as_up : forall o, own_as (up o) = own_as o.
Proof.
  intros [t|a]; [|reflexivity]. cbn [up own_as]. induction t as [a c ts IH] using ptree_rect2.
  cbn [upt pas]. f_equal. rewrite Forall_forall in IH.
  induction ts as [|t ts IHts]; [reflexivity|]. cbn [map flat_map]. f_equal; [apply IH; now left|].
  apply IHts. intros x Hx. apply IH. now right.
Qed.

Lemma alone_up : forall a (G : list iown), alone a (map up G) -> alone a G.
Proof. intros a G Al o Ho Ha. apply (Al (up o)); [now apply in_map|]. now rewrite as_up. Qed.

Lemma inj_safe : forall {A} (p : prog C A) n (G : list iown) Q, isafe n p G Q ->
  safe n (inj p) (map up G) (fun x G' => exists G0, G' = map up G0 /\ Q x G0).
Proof.
  intros A p. induction p; intros m G Q; cbn [HeapSafe.safe inj].
  - intros (G1 & P1 & q). exists (map up G1). split; [now apply Permutation_map|eauto].
  - easy.
  - intros (n' & ts & G1 & -> & P1 & K & Sf). exists n', (map upt ts), (map up G1). splits; trivial.
    + rewrite <- map_up_tree, <- map_app. now apply Permutation_map.
    + now rewrite kids_wrap, K, pas_up.
    + intros a. apply (H a n' (Tree (PT a c ts) :: G1) Q (Sf a)).
  - intros (n' & -> & Sf). exists n'. split; trivial. intros a. apply (H a n' (Held a :: G) Q (Sf a)).
  - intros (c & ts & L & Sf). exists (wrap c), (map upt ts). split; [now apply lent_up|].
    apply (IHp m (Tree (PT a c ts) :: G) Q Sf).
  - intros (c & ts & L & Sf). exists (wrap c), (map upt ts). split; [now apply lent_up|].
    intros Sh. rewrite open_wrap. apply H, Sf. apply (shaped_up (PT a c ts)). exact Sh.
  - intros (c & ts & G1 & P1 & Sn & Ss). exists (wrap c), (map upt ts), (map up G1). splits.
    + apply (Permutation_map up) in P1. exact P1.
    + now apply H.
    + intros Sh Al. rewrite open_wrap, <- map_up_tree, <- map_app. apply H, Ss; [apply (shaped_up (PT a c ts)), Sh|now apply alone_up].
  - intros (c & ts & G1 & P1 & Sn & Ss). exists (wrap c), (map upt ts), (map up G1). splits.
    + apply (Permutation_map up) in P1. exact P1.
    + now apply H.
    + intros Sh Al. rewrite open_wrap, <- map_up_tree, <- map_app. apply (H _ m (Held a :: map Tree ts ++ G1)), Ss;
        [apply (shaped_up (PT a c ts)), Sh|now apply alone_up].
  - intros (ts & G1 & P1 & K & Sf). exists (map upt ts), (map up G1). splits.
    + apply (Permutation_map up) in P1. cbn [map] in P1. now rewrite map_app, map_up_tree in P1.
    + now rewrite kids_wrap, K, pas_up.
    + apply (IHp m (Tree (PT a c ts) :: G1) Q Sf).
  - intros (c & ts & G1 & P1 & Sn & Ss). exists (wrap c), (map upt ts), (map up G1). splits.
    + apply (Permutation_map up) in P1. exact P1.
    + now apply H.
    + intros Sh Al. rewrite open_wrap, <- map_up_tree, <- map_app. apply H, Ss; [apply (shaped_up (PT a c ts)), Sh|now apply alone_up].
  - apply IHp.
  - apply IHp.
Qed.

Lemma copying_inj : forall {A} (p : prog C A), copying p -> copying (inj p : prog D A).
Proof.
  intros A p. induction p; cbn [copying inj]; try easy; auto. intros Cp d. destruct (open d); cbn; auto.
Qed.

Lemma sub_trans : forall {X} (t2 t3 : HeapProofs.ptree (C := X)), sub t2 t3 -> forall t1, sub t1 t2 -> sub t1 t3.
Proof. intros X t2 t3 H. induction H; intros t1 H1; [trivial|]. econstructor; eauto. Qed.

(** What only clones can do so with what it is lent. *)
Lemma copying_lent : forall {A} (p : prog D A) n G X F Q, copying p ->
  safe n p (G ++ X) Q -> (forall o, In o G -> exists t, o = Tree t /\ lent t F) ->
  safe n p (F ++ X) (fun x G' => exists X' G'', G' = F ++ X' /\ Permutation (G ++ X') G'' /\ Q x G'').
Proof.
  assert (Le : forall t G X F, (forall o, In o G -> exists t, o = Tree t /\ lent t F) ->
    lent t (G ++ X) -> lent (C := D) t (F ++ X)).
  { intros t G X F Hl (t' & Hi & Su). apply in_app_iff in Hi as [Hi|Hi].
    - destruct (Hl _ Hi) as (t2 & [= <-] & (t3 & Hi3 & Su3)). exists t3. split; [apply in_app_iff; now left|].
      eapply sub_trans; eauto.
    - exists t'. split; [apply in_app_iff; now right|trivial]. }
  intros A p. induction p; intros m G X F Q; cbn [copying HeapSafe.safe]; try easy.
  - intros _ (G' & Pm & q) Hl. exists (F ++ X). split; [apply Permutation_refl|]. exists X, G'. auto.
  - intros Cp (c & ts & L & Sf) Hl. exists c, ts. split; [eapply Le; eauto|].
    eapply safe_perm; [|eapply (IHp m G (Tree (PT a c ts) :: X) F Q Cp); [|exact Hl]].
    + apply Permutation_sym, Permutation_middle.
    + eapply safe_perm; [|exact Sf]. apply Permutation_middle.
  - intros Cp (c & ts & L & Sf) Hl. exists c, ts. split; [eapply Le; eauto|]. intros Sh. eauto.
Qed.

(** ** Elements *)
Definition erep (e : E) (v : V) (ts : list ptree) : Prop :=
  exists us, rep e v (map Tree us) /\ ts = map upt us.

Lemma tree_inj : forall {X} (ts us : list (HeapProofs.ptree (C := X))), map Tree ts = map Tree us -> ts = us.
Proof. intros X. induction ts as [|t ts IH]; intros [|u us]; cbn; try easy. intros [= -> Et]. f_equal. auto. Qed.

(** A new inner version, or one that has been worked on, becomes an element. *)
Lemma rep_erep : forall e v G, rep e v G -> exists ts, map up G = map Tree ts /\ erep e v ts.
Proof.
  intros e v G R. destruct (by_roots _ _ _ _ _ by_I _ _ _ R) as (ts & -> & K).
  exists (map upt ts). split; [apply map_up_tree|]. exists ts. auto.
Qed.

Lemma erep_pas : forall e v ts, erep e v ts -> i_roots I e = map pa ts.
Proof.
  intros e v ts (us & R & ->). destruct (by_roots _ _ _ _ _ by_I _ _ _ R) as (ts & Et & K).
  apply tree_inj in Et. subst ts. now rewrite pas_up.
Qed.

(** *** Cloning an element that is lent *)
Lemma clone_elem : forall e x ts F, erep e x ts -> (forall t, In t ts -> lent t F) ->
  safe 0 (inj (i_clone I e)) F (fun e' G' => exists G2, G' = F ++ map up G2 /\ rep e' x G2).
Proof.
  intros e x ts F (us & R & ->) Ln.
  pose proof (inj_safe _ _ _ _ (by_clone _ _ _ _ _ by_I _ _ _ R)) as Sc.
  rewrite <- (app_nil_r (map up _)) in Sc.
  apply (copying_lent _ _ _ _ F) in Sc; [|apply copying_inj, (by_copies _ _ _ _ _ by_I)|].
  2:{ intros o Ho. rewrite map_up_tree, in_map_iff in Ho. destruct Ho as (t & <- & Ht). eauto. }
  rewrite app_nil_r in Sc. eapply (safe_frame kids _ 0 0 F F []); [exact Sc|perm| |lia].
  cbn. intros e' G' (X & G'' & -> & Pm & (G0 & -> & (G2 & -> & R2))).
  exists (F ++ map up G2). split; [|exists G2; auto].
  rewrite map_app in Pm. apply Permutation_app_inv_l in Pm. rewrite app_nil_r. now apply Permutation_app_head.
Qed.

(** *** Calls on inner versions *)
Fixpoint irun_cost (l : list Op) (v : V) : nat :=
  match l with [] => 0 | o :: l' => cost o v + irun_cost l' (fst (s_op S o v)) end.

Lemma irun_ok : forall l e v G, rep e v G -> vmay S l v ->
  isafe (irun_cost l v) (irun I l e) G
    (fun r G' => snd r = snd (vrun S l v) /\ rep (fst r) (fst (vrun S l v)) G').
Proof.
  induction l as [|o l IH]; intros e v G R M; cbn [irun irun_cost vrun vmay] in *; [now apply safe_ret|].
  destruct M as (Po & M).
  eapply (safe_seq _ _ _ (cost o v) (irun_cost l (fst (s_op S o v))) _ _ G []);
    [apply (by_op _ _ _ _ _ by_I o e v G R Po)|perm| |lia].
  intros [e1 x] G1 (Ex & R1). rewrite app_nil_r. cbn [fst snd] in *.
  destruct (s_op S o v) as [v1 x1]. cbn [fst snd] in *. subst x1.
  eapply (safe_seq _ _ _ (irun_cost l v1) 0 _ _ G1 []); [apply (IH e1 v1 G1 R1 M)|perm| |lia].
  intros [e2 xs] G2 (Exs & R2). rewrite app_nil_r. cbn [fst snd] in *. apply safe_ret.
  destruct (vrun S l v1) as [v2 xs']. cbn [fst snd] in *. now subst xs'.
Qed.

Lemma work_ok : forall l e v G, rep e v G -> vmay S l v ->
  safe (irun_cost l v) (inj (irun I l e)) (map up G)
    (fun r G' => exists G0, G' = map up G0 /\ snd r = snd (vrun S l v) /\ rep (fst r) (fst (vrun S l v)) G0).
Proof. intros. now apply inj_safe, irun_ok. Qed.

Lemma make_ok : forall l, vmay S l (s_new S) ->
  safe (ncost + irun_cost l (s_new S)) (make I wrap open l) []
    (fun r G' => exists ts, G' = map Tree ts /\ snd r = snd (vrun S l (s_new S)) /\ erep (fst r) (fst (vrun S l (s_new S))) ts).
Proof.
  intros l M. unfold make.
  eapply (safe_seq kids _ _ ncost (irun_cost l (s_new S)) _ _ (map up []) []);
    [apply inj_safe, (by_new _ _ _ _ _ by_I)|perm| |lia].
  cbn. intros e G' (G0 & -> & R). rewrite app_nil_r.
  eapply safe_mono; [apply le_n| |apply (work_ok l e _ G0 R M)].
  cbn. intros r G' (G1 & -> & Ex & R1). destruct (rep_erep _ _ _ R1) as (ts & -> & Er). eauto.
Qed.

Lemma idrop_ok : forall e v G, rep e v G -> safe 0 (inj (i_drop I e)) (map up G) (fun _ G' => G' = []).
Proof.
  intros e v G R. eapply safe_mono; [apply le_n| |apply inj_safe, (by_drop _ _ _ _ _ by_I _ _ _ R)].
  cbn. intros _ G' (G0 & -> & ->). reflexivity.
Qed.

Definition opt_cost (l : list Op) (o : option V) : nat := match o with Some v => irun_cost l v | None => 0 end.

Lemma try_out_ok : forall l ov (o : option E) (F G : list own), opt_may S l ov ->
  match ov with
  | None => o = None /\ G = F
  | Some x => exists e G2, o = Some e /\ G = F ++ map up G2 /\ rep e x G2
  end ->
  safe (opt_cost l ov) (try_out I wrap open l o) G
    (fun r G' => G' = F /\ r = option_map (fun x => snd (vrun S l x)) ov).
Proof.
  intros l [v|] o F G M H; cbn [opt_may opt_cost option_map] in *.
  - destruct H as (e & G2 & -> & -> & R). unfold try_out.
    eapply (safe_seq kids _ _ (irun_cost l v) 0 _ _ (map up G2) F); [apply (work_ok l e v G2 R M)|perm| |lia].
    intros [e' xs] G' (G3 & -> & Ex & R'). cbn [fst snd] in *.
    eapply (safe_seq kids _ _ 0 0 0 _ (map up G3) F); [apply (idrop_ok _ _ _ R')|perm| |lia].
    intros [] G' ->. apply safe_ret. split; [reflexivity|]. now subst xs.
  - destruct H as (-> & ->). now apply safe_ret.
Qed.

End InProofs.
