(** * What holds of a collection of opaque elements holds when they are collections *)
From Coq Require Import List Arith Lia Bool Permutation.
From Verif Require Import Base Spec PermSolve HeapModel HeapProofs HeapSafe HeapShare HeapDrive HeapIn HeapInProofs HeapHost.
Import ListNotations.
Local Open Scope prog_scope.

Lemma Forall2_perm : forall {X Y} (R : X -> Y -> Prop) l l', Permutation l l' ->
  forall m, Forall2 R l m -> exists m', Permutation m m' /\ Forall2 R l' m'.
Proof.
  intros X Y R l l' H. induction H as [|x l l' H IH|x y l|l l' l'' H IH H' IH']; intros m F.
  - exists m. auto.
  - inversion F as [|? y ? m1 Rx F1]; subst. destruct (IH _ F1) as (m' & P & F'). exists (y :: m'). auto.
  - inversion F as [|? y1 ? m1 R1 F1]; subst. inversion F1 as [|? y2 ? m2 R2 F2]; subst.
    exists (y2 :: y1 :: m2). split; [constructor|auto].
  - destruct (IH _ F) as (m1 & P1 & F1). destruct (IH' _ F1) as (m2 & P2 & F2). exists m2. split; [|trivial].
    now transitivity m1.
Qed.

(** [B]: cells of the outer collection whose elements are versions [E]; [B']: cells whose elements
    are such versions together with the plain values [V] they stand for, which [erase] forgets.
    What is proved of the programs of the outer collection for all types of elements is used for
    elements [E * V]. *)
Section Host.
Context {B B' C E V Op Out : Type} (I : impl C E Op Out) (S : spec V Op Out).
Context (rep : E -> V -> list (@own C) -> Prop) (ncost : nat) (cost : Op -> V -> nat).
Hypothesis by_I : implements_by I S rep ncost cost.
Context (elem : B -> option E) (bkids : B -> list addr).
Context (erase : B' -> B) (elem' : B' -> option (E * V)) (bkids' : B' -> list addr).
Hypothesis elem_erase : forall b, elem (erase b) = option_map fst (elem' b).
Hypothesis kids_erase : forall b, bkids (erase b) = bkids' b.
Hypothesis elem_bkids : forall b e, elem b = Some e -> bkids b = [].
Hypothesis elem_kids : forall b y, elem' b = Some y -> bkids' b = [].

Notation X := (E * V)%type.
Notation D := (dcell B C).
Notation kids := (dkids I elem bkids).
Notation safe := (safe kids).
Notation gsafe := (HeapSafe.safe bkids').
Notation own := (@own D).
Notation ptree := (@ptree D).
Notation gtree := (@HeapProofs.ptree B').
Notation gown := (@HeapProofs.own B').
Notation host := (host I elem).
Notation inj := (inj (@DI B C) d_isI).
Notation upt := (upt (@DI B C)).
Notation up := (up (@DI B C)).
Notation erep := (erep rep (@DI B C)).

Lemma open_DI : forall c : C, d_isI (@DI B C c) = Some c.
Proof using. reflexivity. Qed.
Lemma kids_DI : forall c : C, kids (DI c) = i_kids I c.
Proof using. reflexivity. Qed.

(** ** The same program with and without the values

    [traces R fl p' p]: [p] is [p'] with the values forgotten, and both store the elements [fl],
    in this order, before they store any other; at the end the results are related.  Elements
    are not borrowed or moved out. *)
Inductive traces {A A'} (R : A' -> A -> list X -> Prop) : list X -> prog B' A' -> prog B A -> Prop :=
| tr_ret : forall x' x fl, R x' x fl -> traces R fl (Ret x') (Ret x)
| tr_fail : forall fl p, traces R fl Fail p
| tr_new : forall fl b b' k' k, elem' b' = None -> b = erase b' ->
    (forall a, traces R fl (k' a) (k a)) -> traces R fl (New b' k') (New b k)
| tr_put : forall y fl b b' k' k, elem' b' = Some y -> b = erase b' ->
    (forall a, traces R fl (k' a) (k a)) -> traces R (y :: fl) (New b' k') (New b k)
| tr_reserve : forall fl k' k, (forall a, traces R fl (k' a) (k a)) -> traces R fl (Reserve k') (Reserve k)
| tr_clone : forall fl a k' k, traces R fl k' k -> traces R fl (Clone a k') (Clone a k)
| tr_read : forall fl a k' k, (forall b, traces R fl (k' b) (k (erase b))) -> traces R fl (Read a k') (Read a k)
| tr_dec : forall fl a k' k, traces R fl (k' None) (k None) ->
    (forall b, traces R fl (k' (Some b)) (k (Some (erase b)))) -> traces R fl (Dec a k') (Dec a k)
| tr_take : forall fl a k' k, traces R fl (k' None) (k None) ->
    (forall b, elem' b = None -> traces R fl (k' (Some b)) (k (Some (erase b)))) ->
    (forall b, elem' b <> None -> k' (Some b) = Fail) -> traces R fl (Take a k') (Take a k)
| tr_fill : forall fl a b b' k' k, elem' b' = None -> b = erase b' ->
    traces R fl k' k -> traces R fl (Fill a b' k') (Fill a b k)
| tr_unwrap : forall fl a k' k, traces R fl (k' None) (k None) ->
    (forall b, elem' b = None -> traces R fl (k' (Some b)) (k (Some (erase b)))) ->
    (forall b, elem' b <> None -> k' (Some b) = Fail) -> traces R fl (Unwrap a k') (Unwrap a k)
| tr_enter : forall fl k' k, traces R fl k' k -> traces R fl (Enter k') (Enter k)
| tr_leave : forall fl k' k, traces R fl k' k -> traces R fl (Leave k') (Leave k).

Lemma tr_bind : forall {A A' Y Y'} (R1 : A' -> A -> list X -> Prop) (R : Y' -> Y -> list X -> Prop) fl p' p f' f,
  traces R1 fl p' p -> (forall x' x fl1, R1 x' x fl1 -> traces R fl1 (f' x') (f x)) ->
  traces R fl (pbind p' f') (pbind p f).
Proof using.
  intros A A' Y Y' R1 R fl p' p f' f T K. induction T; cbn [pbind].
  - now apply K.
  - constructor.
  - now apply tr_new.
  - now apply (tr_put R y).
  - now apply tr_reserve.
  - now apply tr_clone.
  - now apply tr_read.
  - now apply tr_dec.
  - apply tr_take; trivial. intros b Hb. now rewrite H1.
  - now apply tr_fill.
  - apply tr_unwrap; trivial. intros b Hb. now rewrite H1.
  - now apply tr_enter.
  - now apply tr_leave.
Qed.

Lemma tr_mono : forall {A A'} (R R' : A' -> A -> list X -> Prop) fl p' p,
  traces R fl p' p -> (forall x' x fl1, R x' x fl1 -> R' x' x fl1) -> traces R' fl p' p.
Proof using.
  intros A A' R R' fl p' p T K. induction T.
  - apply tr_ret. auto.
  - apply tr_fail.
  - now apply tr_new.
  - now apply (tr_put R' y).
  - now apply tr_reserve.
  - now apply tr_clone.
  - now apply tr_read.
  - now apply tr_dec.
  - now apply tr_take.
  - now apply tr_fill.
  - now apply tr_unwrap.
  - now apply tr_enter.
  - now apply tr_leave.
Qed.

(** What the programs are made of *)
Definition same {A} (fl0 : list X) (x' x : A) (fl : list X) : Prop := x' = x /\ fl = fl0.

Lemma tr_lift : forall {A Y Y'} (R : Y' -> Y -> list X -> Prop) fl (r : res A) f' f,
  (forall x, traces R fl (f' x) (f x)) -> traces R fl (pbind (lift r) f') (pbind (lift r) f).
Proof using. intros A Y Y' R fl [x| |] f' f K; cbn [lift pbind]; [apply K|apply tr_fail|apply tr_fail]. Qed.

Lemma tr_same : forall {A Y Y'} (R : Y' -> Y -> list X -> Prop) fl (p' : prog B' A) p f' f,
  traces (same fl) fl p' p -> (forall x, traces R fl (f' x) (f x)) -> traces R fl (pbind p' f') (pbind p f).
Proof using. intros A Y Y' R fl p' p f' f T K. eapply tr_bind; [exact T|]. intros x' x fl1 (-> & ->). apply K. Qed.

Lemma tr_all : forall {A A'} (R : A' -> A -> list X -> Prop) fl l k' k,
  traces R fl k' k -> traces R fl (clone_all l k') (clone_all l k).
Proof using. intros A A' R fl l k' k T. induction l; cbn [clone_all]; [trivial|now apply tr_clone]. Qed.

Lemma tr_each : forall fl q' q l, (forall a, traces (same fl) fl (q' a) (q a)) ->
  traces (same fl) fl (each q' l) (each q l).
Proof using.
  intros fl q' q l K. induction l as [|a l IH]; cbn [each]; [now apply tr_ret|].
  apply tr_same; trivial.
Qed.

Lemma tr_drop : forall fl n a, traces (same fl) fl (drop_ptr bkids' n a) (drop_ptr bkids n a).
Proof.
  intros fl n. induction n as [|n IH]; intros a; cbn [drop_ptr]; [apply tr_fail|].
  apply tr_dec; [now apply tr_ret|]. intros b. apply tr_enter. rewrite kids_erase. apply tr_same.
  - now apply tr_each.
  - intros _. apply tr_leave. now apply tr_ret.
Qed.

Lemma tr_make_mut : forall {A A'} (R : A' -> A -> list X -> Prop) fl a f' f,
  (forall a' b, elem' b = None -> traces R fl (f' (a', b)) (f (a', erase b))) ->
  (forall a' b, elem' b <> None -> f' (a', b) = Fail) ->
  traces R fl (pbind (make_mut bkids' a) f') (pbind (make_mut bkids a) f).
Proof.
  intros A A' R fl a f' f K Kf. unfold make_mut. cbn [pbind]. apply tr_take.
  - cbn [pbind]. apply tr_read. intros b.
    rewrite kids_erase. generalize (bkids' b) as l. induction l as [|x l IH]; cbn [clone_all pbind]; [|now apply tr_clone].
    apply tr_reserve. intros a'. apply (tr_bind (fun x' x fl1 => x' = (a', b) /\ x = (a', erase b) /\ fl1 = fl)).
    + apply tr_same; [apply tr_drop|]. intros _. now apply tr_ret.
    + intros x' x fl1 (-> & -> & ->). destruct (elem' b) eqn:Eb; [|now apply K].
      rewrite Kf by congruence. apply tr_fail.
  - intros b Hb. cbn [pbind]. now apply K.
  - intros b Hb. cbn [pbind]. now apply Kf.
Qed.

(** ** Ownership *)
Inductive ext : gtree -> ptree -> Prop :=
| ext_node : forall a b ts ts', elem' b = None -> Forall2 ext ts ts' ->
    ext (PT a b ts) (PT a (DO (erase b)) ts')
| ext_elem : forall a b e x us, elem' b = Some (e, x) -> erep e x us ->
    ext (PT a b []) (PT a (DO (erase b)) us).

Inductive exto : gown -> own -> Prop :=
| exto_tree : forall t t', ext t t' -> exto (Tree t) (Tree t')
| exto_held : forall a, exto (Held a) (Held a).
Notation exts := (Forall2 exto).

(** What the elements own that have not been stored *)
Inductive loose : list X -> list own -> Prop :=
| loose_nil : loose [] []
| loose_cons : forall e x us fl W, erep e x us -> loose fl W -> loose ((e, x) :: fl) (map Tree us ++ W).

Lemma ext_pa : forall t t', ext t t' -> pa t = pa t'.
Proof using. intros t t' H. now destruct H. Qed.

Lemma exts_trees : forall ts ts', Forall2 ext ts ts' -> exts (map Tree ts) (map Tree ts').
Proof using. intros ts ts' F. induction F; cbn; constructor; trivial. now constructor. Qed.

Lemma trees_exts : forall ts G, exts (map Tree ts) G -> exists ts', G = map Tree ts' /\ Forall2 ext ts ts'.
Proof using.
  induction ts as [|t ts IH]; intros G F; inversion F as [|? ? ? ? Ht F1]; subst.
  - exists []. auto.
  - inversion Ht; subst. destruct (IH _ F1) as (ts' & -> & F2). exists (t' :: ts'). auto.
Qed.

Lemma exts_pas : forall ts ts', Forall2 ext ts ts' -> map pa ts = map pa ts'.
Proof using. intros ts ts' F. induction F; cbn; [trivial|]. now rewrite IHF, (ext_pa _ _ H). Qed.

Lemma ext_sub : forall u t, sub u t -> forall t', ext t t' -> exists u', ext u u' /\ sub u' t'.
Proof using.
  intros u t Su. induction Su as [t|u t1 a c ts Hi Su IH]; intros t' Et.
  - exists t'. split; [trivial|constructor].
  - inversion Et as [a' b ts0 ts' Hn F|]; subst; [|easy].
    assert (Hx : exists t1', In t1' ts' /\ ext t1 t1').
    { clear - F Hi. induction F; [easy|]. destruct Hi as [<-|Hi]; [exists y; split; [now left|trivial]|].
      destruct (IHF Hi) as (t1' & ? & ?). exists t1'. split; [now right|trivial]. }
    destruct Hx as (t1' & Hi' & E1). destruct (IH _ E1) as (u' & Eu & Su'). exists u'. split; [trivial|].
    econstructor; eauto.
Qed.

Lemma ext_lent : forall u G G', lent u G -> exts G G' -> exists u', ext u u' /\ lent u' G'.
Proof using.
  intros u G G' (t & Hi & Su) F.
  assert (Hx : exists t', In (Tree t') G' /\ ext t t').
  { clear - F Hi. induction F; [easy|]. destruct Hi as [->|Hi].
    - inversion H; subst. exists t'. split; [now left|trivial].
    - destruct (IHF Hi) as (t1' & ? & ?). exists t1'. split; [now right|trivial]. }
  destruct Hx as (t' & Hi' & Et). destruct (ext_sub _ _ Su _ Et) as (u' & Eu & Su'). exists u'.
  split; [trivial|]. now exists t'.
Qed.

Lemma ext_shaped : forall t t', ext t t' -> shaped kids t' -> shaped bkids' t.
Proof.
  intros t. induction t as [a c ts IH] using ptree_rect2. intros t' Et Sh.
  inversion Et as [a' b ts0 ts' Hn F|a' b e x us He Er]; subst.
  - inversion Sh as [? ? ? K Fs]; subst. constructor.
    + unfold dkids in K. rewrite elem_erase, Hn in K. cbn [option_map] in K.
      rewrite <- kids_erase. rewrite K. symmetry. now apply exts_pas.
    + clear - IH F Fs. induction F; constructor; inversion IH; inversion Fs; subst; eauto.
  - constructor; [|constructor]. now rewrite (elem_kids _ _ He).
Qed.

Lemma ext_as : forall t t', ext t t' -> incl (pas t) (pas t').
Proof using.
  intros t. induction t as [a c ts IH] using ptree_rect2. intros t' Et.
  inversion Et as [a' b ts0 ts' Hn F|a' b e x us He Er]; subst; cbn [pas].
  - intros z [->|Hz]; [now left|right]. clear - IH F Hz. induction F; [easy|]. cbn [flat_map] in *.
    apply in_app_iff. inversion IH; subst. apply in_app_iff in Hz as [Hz|Hz]; [left; eapply H2; eauto|right; auto].
  - intros z [->|[]]. now left.
Qed.

Lemma exts_alone : forall a G G', exts G G' -> alone a G' -> alone a G.
Proof using.
  intros a G G' F Al o Ho Ha. induction F; [easy|]. destruct Ho as [->|Ho].
  - apply (Al y); [now left|]. inversion H; subst; [|trivial]. cbn in *. now apply (ext_as _ _ H0).
  - apply IHF; trivial. intros o' Ho'. apply Al. now right.
Qed.

Lemma exts_app : forall G1 G2 G1' G2', exts G1 G1' -> exts G2 G2' -> exts (G1 ++ G2) (G1' ++ G2').
Proof using. intros. now apply Forall2_app. Qed.

(** Permutations of what is owned *)
Lemma exts_perm1 : forall G G' o R, exts G G' -> Permutation G (o :: R) ->
  exists o' R', exto o o' /\ exts R R' /\ Permutation G' (o' :: R').
Proof using.
  intros G G' o R F P. destruct (Forall2_perm _ _ _ P _ F) as (m & Pm & Fm).
  inversion Fm as [|? o' ? R' Ho FR]; subst. eauto.
Qed.

Lemma exts_perm2 : forall G G' ts R, exts G G' -> Permutation G (map Tree ts ++ R) ->
  exists ts' R', Forall2 ext ts ts' /\ exts R R' /\ Permutation G' (map Tree ts' ++ R').
Proof using.
  intros G G' ts R F P. destruct (Forall2_perm _ _ _ P _ F) as (m & Pm & Fm).
  apply Forall2_app_inv_l in Fm as (m1 & m2 & F1 & F2 & ->). apply trees_exts in F1 as (ts' & -> & F1). eauto.
Qed.

Lemma alone_app : forall a (G W : list own), alone a (G ++ W) -> alone a G.
Proof using. intros a G W Al. eapply alone_incl; [exact Al|]. apply incl_appl, incl_refl. Qed.

(** ** The rule *)
Definition hosted {A A'} (R : A' -> A -> list X -> Prop) (Q : A' -> list gown -> Prop) (r : A * list E) (G : list own) : Prop :=
  exists x' fl G1 G1' W, R x' (fst r) fl /\ snd r = map fst fl /\ Q x' G1 /\ exts G1 G1' /\ loose fl W /\ G = G1' ++ W.

Lemma host_safe : forall {A A'} (R : A' -> A -> list X -> Prop) fl p' p, traces R fl p' p ->
  forall n G Q, gsafe n p' G Q -> forall G' W, exts G G' -> loose fl W ->
  safe n (host p (map fst fl)) (G' ++ W) (hosted R Q).
Proof.
  intros A A' R fl p' p T.
  induction T as [x' x fl HR|fl p|fl b b' k' k Hn -> Hk IH|[e x] fl b b' k' k Hy -> Hk IH|fl k' k Hk IH|fl a k' k Hk IH
    |fl a k' k Hk IH|fl a k' k Hk0 IH0 Hk IH|fl a k' k Hk0 IH0 Hk IH Hf|fl a b b' k' k Hn -> Hk IH|fl a k' k Hk0 IH0 Hk IH Hf
    |fl k' k Hk IH|fl k' k Hk IH]; intros n G Q Sf G' W Ex Lo; cbn [HeapSafe.safe HeapHost.host] in *.
  - destruct Sf as (G1 & P1 & q). destruct (Forall2_perm _ _ _ P1 _ Ex) as (G1' & P1' & F1).
    exists (G1' ++ W). split; [now apply Permutation_app_tail|]. exists x', fl, G1, G1', W. splits; trivial.
  - easy.
  - destruct Sf as (n' & ts & G1 & -> & P1 & K & Sf). rewrite elem_erase, Hn. cbn [option_map].
    destruct (exts_perm2 _ _ _ _ Ex P1) as (ts' & G1' & Ft & F1 & P1').
    exists n', ts', (G1' ++ W). splits; [reflexivity| | |].
    + rewrite app_assoc. now apply Permutation_app_tail.
    + unfold dkids. rewrite elem_erase, Hn. cbn [option_map]. rewrite kids_erase, K. now apply exts_pas.
    + intros a. apply (IH a n' _ _ (Sf a) (Tree (PT a (DO (erase b')) ts') :: G1') W); trivial.
      constructor; [|trivial]. constructor. now constructor.
  - destruct Sf as (n' & ts & G1 & -> & P1 & K & Sf). rewrite elem_erase, Hy. cbn [option_map map fst].
    rewrite (elem_kids _ _ Hy) in K. destruct ts; [|discriminate]. cbn [map app] in P1.
    inversion Lo as [|e1 x1 us fl1 W1 Er Lo1]; subst.
    destruct (Forall2_perm _ _ _ P1 _ Ex) as (G1' & P1' & F1).
    exists n', us, (G1' ++ W1). splits; [reflexivity| | |].
    + transitivity (G1' ++ map Tree us ++ W1); [now apply Permutation_app_tail|].
      rewrite !app_assoc. apply Permutation_app_tail, Permutation_app_comm.
    + unfold dkids. rewrite elem_erase, Hy. cbn [option_map fst].
      now apply (erep_pas I S rep ncost cost by_I (@DI B C) _ _ _ Er).
    + intros a. apply (IH a n' _ _ (Sf a) (Tree (PT a (DO (erase b')) us) :: G1') W1); trivial.
      constructor; [|trivial]. constructor. now apply (ext_elem _ _ e x).
  - destruct Sf as (n' & -> & Sf). exists n'. split; [reflexivity|]. intros a.
    apply (IH a n' _ _ (Sf a) (Held a :: G') W); trivial. constructor; [constructor|trivial].
  - destruct Sf as (c & ts & L & Sf). destruct (ext_lent _ _ _ L Ex) as (u' & Eu & L').
    assert (Hu : exists c' ts', u' = PT a c' ts') by (inversion Eu; subst; eauto).
    destruct Hu as (c' & ts' & ->). exists c', ts'. split; [now apply lent_app|].
    apply (IH n _ _ Sf (Tree (PT a c' ts') :: G') W); trivial. constructor; [now constructor|trivial].
  - destruct Sf as (c & ts & L & Sf). destruct (ext_lent _ _ _ L Ex) as (u' & Eu & L').
    assert (Hu : exists ts', u' = PT a (DO (erase c)) ts') by (inversion Eu; subst; eauto).
    destruct Hu as (ts' & ->). exists (DO (erase c)), ts'. split; [now apply lent_app|].
    intros Sh. apply (IH c n G Q); trivial. apply Sf. now apply (ext_shaped _ _ Eu).
  - destruct Sf as (c & ts & G1 & P1 & Sn & Ss).
    destruct (exts_perm1 _ _ _ _ Ex P1) as (o' & G1' & Eo & F1 & P1'). inversion Eo as [? t' Et|]; subst.
    inversion Et as [a' b ts0 ts' Hn F|a' b e x us He Er]; subst.
    + exists (DO (erase c)), ts', (G1' ++ W). splits.
      * change (Permutation (G' ++ W) ((Tree (PT a (DO (erase c)) ts') :: G1') ++ W)). now apply Permutation_app_tail.
      * now apply (IH0 n G1 Q).
      * intros Sh Al. rewrite elem_erase, Hn. cbn [option_map pbind]. rewrite app_assoc.
        apply (IH c n (map Tree ts ++ G1) Q); trivial.
        -- apply Ss; [now apply (ext_shaped _ _ Et)|]. apply (exts_alone _ _ _ F1). now apply (alone_app _ _ W).
        -- apply exts_app; trivial. now apply exts_trees.
    + exists (DO (erase c)), us, (G1' ++ W). splits.
      * change (Permutation (G' ++ W) ((Tree (PT a (DO (erase c)) us) :: G1') ++ W)). now apply Permutation_app_tail.
      * now apply (IH0 n G1 Q).
      * intros Sh Al. rewrite elem_erase, He. cbn [option_map fst]. destruct Er as (us0 & Re & ->).
        eapply (safe_seq kids _ _ 0 n _ _ (map up (map Tree us0)) (G1' ++ W)).
        -- apply (idrop_ok I S rep ncost cost by_I (@DI B C) d_isI kids open_DI kids_DI _ _ _ Re).
        -- rewrite map_up_tree. apply Permutation_refl.
        -- intros [] G2 ->. cbn [app]. apply (IH c n G1 Q); trivial.
           apply Ss; [now apply (ext_shaped _ _ Et)|]. apply (exts_alone _ _ _ F1). now apply (alone_app _ _ W).
        -- apply le_n.
  - destruct Sf as (c & ts & G1 & P1 & Sn & Ss).
    destruct (exts_perm1 _ _ _ _ Ex P1) as (o' & G1' & Eo & F1 & P1'). inversion Eo as [? t' Et|]; subst.
    assert (Go : shaped kids t' -> alone a (G1' ++ W) -> gsafe n (k' (Some c)) (Held a :: map Tree ts ++ G1) Q).
    { intros Sh Al. apply Ss; [now apply (ext_shaped _ _ Et)|]. apply (exts_alone _ _ _ F1). now apply (alone_app _ _ W). }
    inversion Et as [a' b ts0 ts' Hn F|a' b e x us He Er]; subst.
    + exists (DO (erase c)), ts', (G1' ++ W). splits.
      * change (Permutation (G' ++ W) ((Tree (PT a (DO (erase c)) ts') :: G1') ++ W)). now apply Permutation_app_tail.
      * now apply (IH0 n G Q).
      * intros Sh Al. rewrite elem_erase, Hn. cbn [option_map pbind]. rewrite app_assoc.
        apply (IH c Hn n _ _ (Go Sh Al) (Held a :: map Tree ts' ++ G1') W); trivial.
        constructor; [constructor|]. apply exts_app; trivial. now apply exts_trees.
    + exists (DO (erase c)), us, (G1' ++ W). splits.
      * change (Permutation (G' ++ W) ((Tree (PT a (DO (erase c)) us) :: G1') ++ W)). now apply Permutation_app_tail.
      * now apply (IH0 n G Q).
      * intros Sh Al. specialize (Go Sh Al). rewrite Hf in Go by congruence. destruct Go.
  - destruct Sf as (ts & G1 & P1 & K & Sf). rewrite elem_erase, Hn. cbn [option_map].
    destruct (exts_perm1 _ _ _ _ Ex P1) as (o' & G2 & Eo & FR & PR). inversion Eo; subst.
    destruct (exts_perm2 _ _ _ _ FR (Permutation_refl _)) as (ts' & G1' & Ft & F1 & P1').
    exists ts', (G1' ++ W). splits.
    + rewrite app_assoc. change (Permutation (G' ++ W) ((Held a :: map Tree ts' ++ G1') ++ W)). apply Permutation_app_tail.
      rewrite PR. now constructor.
    + unfold dkids. rewrite elem_erase, Hn. cbn [option_map]. rewrite kids_erase, K. now apply exts_pas.
    + apply (IH n _ _ Sf (Tree (PT a (DO (erase b')) ts') :: G1') W); trivial.
      constructor; [|trivial]. constructor. now constructor.
  - destruct Sf as (c & ts & G1 & P1 & Sn & Ss).
    destruct (exts_perm1 _ _ _ _ Ex P1) as (o' & G1' & Eo & F1 & P1'). inversion Eo as [? t' Et|]; subst.
    assert (Go : shaped kids t' -> alone a (G1' ++ W) -> gsafe n (k' (Some c)) (map Tree ts ++ G1) Q).
    { intros Sh Al. apply Ss; [now apply (ext_shaped _ _ Et)|]. apply (exts_alone _ _ _ F1). now apply (alone_app _ _ W). }
    inversion Et as [a' b ts0 ts' Hn F|a' b e x us He Er]; subst.
    + exists (DO (erase c)), ts', (G1' ++ W). splits.
      * change (Permutation (G' ++ W) ((Tree (PT a (DO (erase c)) ts') :: G1') ++ W)). now apply Permutation_app_tail.
      * now apply (IH0 n G Q).
      * intros Sh Al. rewrite elem_erase, Hn. cbn [option_map pbind]. rewrite app_assoc.
        apply (IH c Hn n _ _ (Go Sh Al) (map Tree ts' ++ G1') W); trivial.
        apply exts_app; trivial. now apply exts_trees.
    + exists (DO (erase c)), us, (G1' ++ W). splits.
      * change (Permutation (G' ++ W) ((Tree (PT a (DO (erase c)) us) :: G1') ++ W)). now apply Permutation_app_tail.
      * now apply (IH0 n G Q).
      * intros Sh Al. specialize (Go Sh Al). rewrite Hf in Go by congruence. destruct Go.
  - now apply (IH n G Q).
  - now apply (IH n G Q).
Qed.

(** ** Calls *)
Lemma drop_left_ok : forall fl W, loose fl W -> safe 0 (drop_left I (map fst fl)) W (fun _ G => G = []).
Proof.
  intros fl W Lo. induction Lo as [|e x us fl W (us0 & Re & ->) Lo IH]; cbn [map fst drop_left]; [now apply safe_ret|].
  eapply (safe_seq kids _ _ 0 0 _ _ (map up (map Tree us0)) W).
  - apply (idrop_ok I S rep ncost cost by_I (@DI B C) d_isI kids open_DI kids_DI _ _ _ Re).
  - rewrite map_up_tree. apply Permutation_refl.
  - intros [] G2 ->. exact IH.
  - lia.
Qed.

Lemma calls_ok : forall {A A'} (R : A' -> A -> Prop) fl p' p n G Q G' W,
  traces (fun x' x _ => R x' x) fl p' p -> gsafe n p' G Q -> exts G G' -> loose fl W ->
  safe n (calls I elem p (map fst fl)) (G' ++ W) (fun x G1' => exists x' G1, R x' x /\ Q x' G1 /\ exts G1 G1').
Proof.
  intros A A' R fl p' p n G Q G' W T Sf Ex Lo. unfold calls.
  eapply (safe_seq kids _ _ n 0 _ _ (G' ++ W) []); [exact (host_safe _ _ _ _ T _ _ _ Sf _ _ Ex Lo)|rewrite app_nil_r; apply Permutation_refl| |lia].
  intros [x fl1] Gr (x' & fl2 & G1 & G1' & W1 & HR & Ef & q & E1 & L1 & ->). cbn [fst snd] in *. subst fl1. rewrite app_nil_r.
  eapply (safe_seq kids _ _ 0 0 _ _ W1 G1'); [exact (drop_left_ok _ _ L1)|apply Permutation_app_comm| |lia].
  intros [] G2 ->. apply safe_ret. cbn [app]. eauto.
Qed.

(** *** Programs of both kinds: ownership in terms of the outer collection only *)
Definition msafe {A} (n : nat) (p : prog D A) (G : list gown) (Q : A -> list gown -> Prop) : Prop :=
  forall G', exts G G' -> safe n p G' (fun x G1' => exists G1, Q x G1 /\ exts G1 G1').

Lemma mret : forall {A} (x : A) n G (Q : A -> list gown -> Prop), Q x G -> msafe n (Ret x) G Q.
Proof using. intros A x n G Q q G' Ex. apply safe_ret. eauto. Qed.

Lemma mmono : forall {A} (p : prog D A) n m G (Q Q' : A -> list gown -> Prop),
  n <= m -> (forall x G', Q x G' -> Q' x G') -> msafe n p G Q -> msafe m p G Q'.
Proof using.
  intros A p n m G Q Q' L W M G' Ex. eapply safe_mono; [exact L| |exact (M G' Ex)].
  cbn. intros x G1' (G1 & q & E1). eauto.
Qed.

Lemma mseq : forall {A Y} (p : prog D A) (f : A -> prog D Y) n1 n2 n G G1 F Q1 Q2,
  msafe n1 p G1 Q1 -> Permutation G (G1 ++ F) ->
  (forall x G', Q1 x G' -> msafe n2 (f x) (G' ++ F) Q2) ->
  n1 + n2 <= n -> msafe n (pbind p f) G Q2.
Proof using.
  intros A Y p f n1 n2 n G G1 F Q1 Q2 M Pm K L G' Ex.
  destruct (Forall2_perm _ _ _ Pm _ Ex) as (m & Pm' & Fm). apply Forall2_app_inv_l in Fm as (m1 & m2 & F1 & F2 & ->).
  eapply (safe_seq kids _ _ n1 n2 _ _ m1 m2); [apply (M _ F1)|exact Pm'| |exact L].
  cbn. intros x G2' (G2 & q & E2). apply (K _ _ q). now apply exts_app.
Qed.

Lemma mfill : forall {A} a b' ts G F (k : prog D A) n Q, elem' b' = None -> Permutation G (Held a :: map Tree ts ++ F) ->
  bkids' b' = map pa ts -> msafe n k (Tree (PT a b' ts) :: F) Q -> msafe n (Fill a (DO (erase b')) k) G Q.
Proof.
  intros A a b' ts G F k n Q Hn Pm K M G' Ex.
  destruct (exts_perm1 _ _ _ _ Ex Pm) as (o' & G2 & Eo & FR & PR). inversion Eo; subst.
  destruct (exts_perm2 _ _ _ _ FR (Permutation_refl _)) as (ts' & G1' & Ft & F1 & P1').
  exists ts', G1'. splits.
  - rewrite PR. now constructor.
  - unfold dkids. rewrite elem_erase, Hn. cbn [option_map]. rewrite kids_erase, K. now apply exts_pas.
  - apply M. constructor; [|trivial]. constructor. now constructor.
Qed.

Lemma mcalls : forall {A A'} (R : A' -> A -> Prop) p' p n G Q,
  traces (fun x' x _ => R x' x) [] p' p -> gsafe n p' G Q ->
  msafe n (calls I elem p []) G (fun x G1 => exists x', R x' x /\ Q x' G1).
Proof.
  intros A A' R p' p n G Q T Sf G' Ex. rewrite <- (app_nil_r G').
  eapply safe_mono; [apply le_n| |exact (calls_ok R [] p' p n G Q G' [] T Sf Ex loose_nil)].
  cbn. intros x G1' (x' & G1 & r & q & E1). eauto.
Qed.

(** A pointer to an element is dropped. *)
Lemma drop_elem_ok : forall a b e x us, elem' b = Some (e, x) -> erep e x us ->
  safe 0 (calls I elem (drop_ptr bkids 1 a) []) [Tree (PT a (DO (erase b)) us)] (fun _ G => G = []).
Proof.
  intros a b e x us Hb Er. unfold calls. cbn [drop_ptr HeapHost.host pbind HeapSafe.safe].
  exists (DO (erase b)), us, []. splits; [apply Permutation_refl| |].
  - exists []. split; [apply Permutation_refl|reflexivity].
  - intros _ _. rewrite elem_erase, Hb. cbn [option_map fst]. destruct Er as (us0 & Re & ->).
    apply safe_assoc. eapply (safe_seq kids _ _ 0 0 _ _ (map up (map Tree us0)) []).
    + apply (idrop_ok I S rep ncost cost by_I (@DI B C) d_isI kids open_DI kids_DI _ _ _ Re).
    + rewrite map_up_tree. apply Permutation_refl.
    + intros [] G2 ->. cbn [app HeapHost.host]. rewrite (elem_bkids (erase b) e) by now rewrite elem_erase, Hb.
      cbn [each pbind HeapHost.host drop_left HeapSafe.safe]. exists []. split; [apply Permutation_refl|reflexivity].
    + lia.
Qed.

(** Calls through a mutable reference to an element *)
Context (put : B -> E -> B) (put' : B' -> X -> B').
Hypothesis put_erase : forall b y, put (erase b) (fst y) = erase (put' b y).
Hypothesis elem_put : forall b y, elem' b <> None -> elem' (put' b y) = Some y.

Lemma update_ok : forall l a b e x, elem' b = Some (e, x) -> vmay S l x ->
  msafe (1 + irun_cost S cost l x) (update I elem bkids put l a) [Tree (PT a b [])]
    (fun r G => snd r = snd (vrun S l x) /\
       exists e', G = [Tree (PT (fst r) (put' b (e', fst (vrun S l x))) [])]).
Proof.
  intros l a b e x Hb M G' Ex. inversion Ex as [|? o' ? R Eo F0]; subst. inversion F0; subst. inversion Eo as [? t' Et|]; subst.
  inversion Et as [a' b1 ts0 ts' Hn F|a' b1 e1 x1 us He Er]; subst; [congruence|].
  rewrite Hb in He. injection He as <- <-.
  assert (Ee : elem (erase b) = Some e) by now rewrite elem_erase, Hb.
  unfold update.
  eapply (safe_seq kids _ _ 1 (irun_cost S cost l x) _ _ [Tree (PT a (DO (erase b)) us)] []
    (fun (r : addr * B * E) G => let '(a', b', e') := r in b' = erase b /\
       exists G0, G = Held a' :: map up G0 /\ rep e' x G0)); [|apply Permutation_refl| |lia].
  - unfold elem_mut. cbn [HeapSafe.safe]. exists (DO (erase b)), us, []. splits; [apply Permutation_refl| |].
    + exists (DO (erase b)), us. split; [apply lent_in; now left|]. intros _. rewrite Ee.
      eapply (safe_seq kids _ _ 0 1 _ _ [Tree (PT a (DO (erase b)) us)] []).
      * apply (clone_elem I S rep ncost cost by_I (@DI B C) d_isI kids open_DI kids_DI _ _ _ _ Er).
        intros t Ht. exists (PT a (DO (erase b)) us). split; [now left|]. econstructor; [exact Ht|constructor].
      * apply Permutation_refl.
      * intros e' G2 (G3 & -> & R3). exists 0. split; [reflexivity|]. intros a2. cbn [app].
        eapply (safe_seq kids _ _ 0 0 _ _ [Tree (PT a (DO (erase b)) us)] (Held a2 :: map up G3)).
        -- exact (drop_elem_ok a b e x us Hb Er).
        -- rewrite app_nil_r. cbn [app]. apply perm_swap.
        -- intros [] G4 ->. apply safe_ret. split; [reflexivity|]. now exists G3.
        -- lia.
      * lia.
    + intros _ _. rewrite Ee. destruct Er as (us0 & Re & ->). exists (Held a :: map up (map Tree us0)). split.
      * rewrite app_nil_r, map_up_tree. apply Permutation_refl.
      * split; [reflexivity|]. now exists (map Tree us0).
  - intros [[a2 b2] e2] G2 (-> & G0 & -> & R0). rewrite app_nil_r.
    eapply (safe_seq kids _ _ (irun_cost S cost l x) 0 _ _ (map up G0) [Held a2]).
    + apply (work_ok I S rep ncost cost by_I (@DI B C) d_isI kids open_DI kids_DI l e2 x G0 R0 M).
    + change (Held a2 :: map up G0) with ([Held a2] ++ map up G0). apply Permutation_app_comm.
    + intros [e3 xs] G3 (G4 & -> & Exs & R4). cbn [fst snd] in *.
      destruct (rep_erep I S rep ncost cost by_I (@DI B C) _ _ _ R4) as (us4 & -> & Er4).
      set (y := (e3, fst (vrun S l x))) in *.
      assert (He : elem' (put' b y) = Some y) by (apply elem_put; congruence).
      exists us4, []. splits.
      * rewrite app_nil_r. change (Held a2 :: map Tree us4) with ([Held a2] ++ map (@Tree D) us4). apply Permutation_app_comm.
      * change e3 with (fst y). rewrite put_erase. unfold dkids. rewrite elem_erase, He. cbn [option_map fst].
        exact (erep_pas I S rep ncost cost by_I (@DI B C) _ _ _ Er4).
      * change e3 with (fst y). rewrite put_erase. eexists. split; [apply Permutation_refl|].
        exists [Tree (PT a2 (put' b y) [])]. split; [split; [exact Exs|now exists e3]|].
        constructor; [|constructor]. constructor. now apply (ext_elem _ _ e3 (fst (vrun S l x))).
    + lia.
Qed.

(** *** New elements *)
Fixpoint makes_cost (ls : list (list Op)) : nat :=
  match ls with [] => 0 | l :: ls' => ncost + irun_cost S cost l (s_new S) + makes_cost ls' end.

Lemma makes_ok : forall ls, Forall (fun l => vmay S l (s_new S)) ls ->
  safe (makes_cost ls) (makes I ls) [] (fun r G => exists fl, fst r = map fst fl /\
    snd r = map (fun l => snd (vrun S l (s_new S))) ls /\ map snd fl = map (fun l => fst (vrun S l (s_new S))) ls /\ loose fl G).
Proof.
  induction ls as [|l ls IH]; intros F; cbn [makes makes_cost].
  - apply safe_ret. exists []. splits; trivial. constructor.
  - inversion F as [|? ? F1 F2]; subst.
    eapply (safe_seq kids _ _ (ncost + irun_cost S cost l (s_new S)) (makes_cost ls) _ _ [] []);
      [apply (make_ok I S rep ncost cost by_I (@DI B C) d_isI kids open_DI kids_DI l F1)|apply Permutation_refl| |lia].
    intros [e xs] G (us & -> & Ex & Er). cbn [fst snd] in *. rewrite app_nil_r.
    eapply (safe_seq kids _ _ (makes_cost ls) 0 _ _ [] (map Tree us)); [apply (IH F2)|apply Permutation_refl| |lia].
    intros [es xss] G (fl & E1 & E2 & E3 & Lo). cbn [fst snd] in *. eexists.
    split; [apply Permutation_app_comm|]. exists ((e, fst (vrun S l (s_new S))) :: fl). cbn [map fst snd].
    subst. splits; trivial; [now rewrite E3|now constructor].
Qed.

(** *** References that were handed out *)
Definition holds (y : X) (G : list gown) : Prop := exists a b, elem' b = Some y /\ lent (PT a b []) G.

Lemma holds_lent : forall y G G', holds y G -> exts G G' ->
  exists us, erep (fst y) (snd y) us /\ forall t, In t us -> lent t G'.
Proof using.
  intros [e x] G G' (a & b & Hb & L) Ex. destruct (ext_lent _ _ _ L Ex) as (u' & Eu & (t' & Hi & Su)).
  inversion Eu as [a' b' ts0 ts' Hn F|a' b' e1 x1 us He Er]; subst; [congruence|].
  rewrite Hb in He. injection He as <- <-. exists us. split; [trivial|]. intros t Ht. exists t'. split; [trivial|].
  eapply sub_trans; [exact Su|]. econstructor; [exact Ht|constructor].
Qed.

Lemma peek_ok : forall l (o : option X) G F, (forall y, o = Some y -> holds y G) -> exts G F ->
  opt_may S l (option_map snd o) ->
  safe (opt_cost S cost l (option_map snd o)) (peek I l (option_map fst o)) F
    (fun r G' => G' = F /\ r = option_map (fun x => snd (vrun S l x)) (option_map snd o)).
Proof.
  intros l [[e x]|] G F Hh Ex M; cbn [option_map peek]; [|now apply safe_ret].
  destruct (holds_lent _ _ _ (Hh _ eq_refl) Ex) as (us & Er & Le). cbn [fst snd] in *.
  eapply (safe_seq kids _ _ 0 (irun_cost S cost l x) _ _ F []).
  - apply (clone_elem I S rep ncost cost by_I (@DI B C) d_isI kids open_DI kids_DI _ _ _ F Er Le).
  - rewrite app_nil_r. apply Permutation_refl.
  - intros e' G' (G2 & -> & R2). rewrite app_nil_r.
    apply (try_out_ok I S rep ncost cost by_I (@DI B C) d_isI kids open_DI kids_DI l (Some x) (Some e') F); eauto.
  - apply le_n.
Qed.

Definition sum_cost (l : list Op) (os : list (option V)) : nat := list_sum (map (opt_cost S cost l) os).

Lemma peeks_ok : forall {Y} l (os : list (Y * option X)) G F, (forall n y, In (n, Some y) os -> holds y G) -> exts G F ->
  (forall n y, In (n, Some y) os -> vmay S l (snd y)) ->
  safe (sum_cost l (map (fun r => option_map snd (snd r)) os)) (peeks I l (map (fun r => (fst r, option_map fst (snd r))) os)) F
    (fun r G' => G' = F /\ r = map (fun r => (fst r, option_map (fun y => snd (vrun S l (snd y))) (snd r))) os).
Proof.
  intros Y l os G F. induction os as [|[n o] os IH]; intros Hh Ex M; cbn [map peeks fst snd]; [now apply safe_ret|].
  eapply (safe_seq kids _ _ (opt_cost S cost l (option_map snd o)) (sum_cost l (map (fun r => option_map snd (snd r)) os)) _ _ F []).
  - apply (peek_ok l o G F); trivial.
    + intros y ->. apply (Hh n). now left.
    + destruct o; cbn; [apply (M n); now left|trivial].
  - rewrite app_nil_r. apply Permutation_refl.
  - intros r G' (-> & ->). rewrite app_nil_r.
    eapply (safe_seq kids _ _ (sum_cost l (map (fun r => option_map snd (snd r)) os)) 0 _ _ F []).
    + apply IH; trivial; intros; [eapply Hh|eapply M]; right; eassumption.
    + rewrite app_nil_r. apply Permutation_refl.
    + intros rs G' (-> & ->). rewrite app_nil_r. apply safe_ret. split; [trivial|]. now destruct o.
    + lia.
  - unfold sum_cost. cbn [map]. change (list_sum (?a :: ?b)) with (a + list_sum b). lia.
Qed.

End Host.
