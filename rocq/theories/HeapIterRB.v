(** * Programs that hold iterators: RedBlackTreeMap and RedBlackTreeSet

    The facts about the trees of HeapRB.v that HeapIterWorld.v asks for.  A program may make
    iterators over the whole map ([iter]) and over a range of it ([range]). *)
From Coq Require Import List NArith Arith Lia Bool Permutation Sorted.
From Verif Require Import Base Spec Sim SpecMap SpecOrd HashExtraProofs RBModel RBProofs RBHist RBIter RBExtra RBExtraProofs Prop_RB
  PermSolve HeapModel HeapDrive HeapList HeapProofs HeapSafe HeapLooks HeapClient HeapWorld HeapRB HeapRBProofs HeapRBIter HeapRBMap HeapSet
  HeapNest HeapWork HeapWorkRB HeapIterWorld HeapIterSeq.
From Verif Require Prop_HeapRB Prop_HeapWork.
Import ListNotations.
Local Open Scope prog_scope.
Local Open Scope nat_scope.

(** ** Specification *)
(** What is made: an iterator over everything, or over a range. *)
Definition iter_arg (Q : Type) : Type := option (bound Q * bound Q).

(** What is still to come: with a size hint, or (a range) without. *)
Inductive coming (A : Type) := Sized (l : list A) | Unsized (l : list A).
Arguments Sized {A} l. Arguments Unsized {A} l.

Definition from_end {A} (d : bool) (l : list A) : list A * option A :=
  if d then (removelast l, last_error l) else (tl l, hd_error l).
Definition cnext {A} (d : bool) (s : coming A) : coming A * (option nat * option A) :=
  match s with
  | Sized l => (Sized (fst (from_end d l)), (Some (length l), snd (from_end d l)))
  | Unsized l => (Unsized (fst (from_end d l)), (None, snd (from_end d l)))
  end.

(** What the iterator of a map is to deliver: the entries in ascending order; those the
    bounds admit. *)
Definition sorted_entries {K V Q} (kcmp : K -> K -> comparison) (borrow : K -> Q) (qcmp : Q -> Q -> comparison)
  (a : iter_arg Q) (m : list (K * V)) (s : coming (K * V)) : Prop :=
  match a with
  | None => exists l, s = Sized l /\ sorted kcmp l /\ Permutation l m
  | Some (sb, eb) => exists l, s = Unsized l /\ sorted kcmp l /\
      forall x, In x l <-> In x m /\ from_start qcmp sb (borrow (fst x)) /\ to_end qcmp eb (borrow (fst x))
  end.
Definition good_arg {Q V} (qcmp : Q -> Q -> comparison) (a : iter_arg Q) (m : V) : Prop :=
  match a with None => True | Some (sb, eb) => ~ bad_range qcmp sb eb end.

(** The two kinds of iterator: red_black_tree_map/mod.rs:1293-1315, 1366-1378 *)
Inductive rbit (K Q : Type) := Whole (i : @hbiter K) | Part (i : hriter Q).
Arguments Whole {K Q} i. Arguments Part {K Q} i.

Section Map.
Context {K V Q : Type} (dbg : bool).
Context (kcmp : K -> K -> comparison) (borrow : K -> Q) (qcmp : Q -> Q -> comparison).
Context (OL : ord_laws qcmp) (KB : borrow_agrees kcmp borrow qcmp).
Notation C := (rcell K V).
Notation own := (@own C).

(** red_black_tree_map/mod.rs:924-966; nothing is read *)
Definition hb_open (a : iter_arg Q) (m : hrb) : prog C (rbit K Q) :=
  match a with
  | None => Ret (Whole (hbi_new m))
  | Some (sb, eb) => let* i := lift (hb_range qcmp m sb eb) in Ret (Part i)
  end.
(** The size hint if there is one, and [next] or [next_back]. *)
Definition hb_inext (d : bool) (it : rbit K Q) : prog C (rbit K Q * (option nat * option (K * V))) :=
  match it with
  | Whole i => let* (i', (h, o)) := step2 (hbi_next kcmp false) (hbi_next kcmp true) hbi_hint d i in Ret (Whole i', (Some h, o))
  | Part i => let* (o, i') := hb_range_next kcmp borrow qcmp d i in Ret (Part i', (None, o))
  end.

Definition rb_reads (o : rb_call (K := K) (V := V) (Q := Q)) : bool :=
  match o with
  | BOp (MGet _) | BOp (MGetKeyValue _) | BOp (MContains _) | BOp MSize | BOp MIsEmpty
  | BFirst | BLast | BIter _ => true
  | _ => false
  end.

Definition mirel (m : list (K * V)) (it : rbit K Q) (s : coming (K * V)) (G : list own) : Prop :=
  match it, s with
  | Whole i, Sized l => exists i', birel G (rb_levels (length m)) i i' /\
      forall ds, runs2 (it_next kcmp) (it_next_back kcmp) it_hint ds i' = Ok (de_spec ds l)
  | Part i, Unsized l => exists w sb eb i', rirel G (rb_levels (length m)) i i' /\ sorted kcmp (elems (rb_root w)) /\
      ri_ok kcmp borrow qcmp sb eb w i' l
  | _, _ => False
  end.

Lemma quiet_hget : forall f t q, quiet (@hget K V Q borrow qcmp f t q).
Proof.
  induction f as [|f IH]; intros [t|] q; cbn [hget]; try exact I. apply bquiet_node. intros n. apply bquiet_entry. intros e.
  destruct (qcmp q (borrow (fst e))); [exact I|apply IH..].
Qed.
Lemma quiet_hfirst : forall f t, quiet (@hfirst K V f t).
Proof.
  induction f as [|f IH]; intros [t|]; cbn [hfirst]; try exact I. apply bquiet_node. intros n.
  destruct (hn_left n) eqn:E; [rewrite <- E; apply IH|]. apply bquiet_entry. intros e. exact I.
Qed.
Lemma quiet_hlast : forall f t, quiet (@hlast K V f t).
Proof.
  induction f as [|f IH]; intros [t|]; cbn [hlast]; try exact I. apply bquiet_node. intros n.
  destruct (hn_right n) eqn:E; [rewrite <- E; apply IH|]. apply bquiet_entry. intros e. exact I.
Qed.

Lemma rb_reads_gentle : forall o (c : hrb), rb_reads o = true -> gentle c (@hb_step K V Q dbg kcmp borrow qcmp o c).
Proof.
  intros o c E. destruct o as [o| | |]; [destruct o; try discriminate E|..]; cbn [hb_step]; try reflexivity; apply gentle_answer;
    first [apply quiet_hget|apply quiet_hfirst|apply quiet_hlast|apply quiet_hb_iter].
Qed.
Lemma rb_reads_same : forall o v, rb_reads o = true -> fst (@rb_call_spec K V Q kcmp borrow qcmp o v) = v.
Proof. intros o v E. destruct o as [o| | |]; [destruct o; try discriminate E|..]; reflexivity. Qed.

Lemma hb_clone_keeps : forall c (v : list (K * V)) G, hbrep kcmp c v G ->
  safe rkids 0 (hb_clone c) G (fun c' G' => exists G2, G' = G ++ G2 /\ hbrep kcmp c' v G2).
Proof.
  intros m fm G (w & R & Hz & ts & T & ->). unfold hb_clone.
  assert (R' : hbrep kcmp m fm (map Tree ts)) by (exists w; splits; trivial; exists ts; auto).
  inversion T as [|a e c l r te ol tl or tr E Hl Hr Ew Eo]; subst.
  - apply safe_ret. exists []. split; trivial.
  - cbn [clone_opt]. eexists _, _. split; [apply lent_in; now left|]. apply safe_ret.
    eexists [_]. split; [reflexivity|exact R'].
Qed.

Lemma hb_range_is : forall (m : hrb) sb eb, ~ bad_range qcmp sb eb -> hb_range qcmp m sb eb = Ok (hri_new m sb eb).
Proof.
  intros m sb eb N. destruct (rb_range_cases K V Q qcmp (mkRB Leaf 0) sb eb OL) as [(E & B)|(E & _)]; [contradiction|].
  unfold rb_range, hb_range in *. destruct sb, eb; trivial; repeat (destruct (_ : bool) in E |- * ); trivial; discriminate.
Qed.

Lemma hb_open_looks : forall a (c : hrb) (v : list (K * V)) G, hbrep kcmp c v G -> good_arg qcmp a v ->
  looks 0 (hb_open a c) G (fun it => exists l, sorted_entries kcmp borrow qcmp a v l /\ mirel v it l G).
Proof.
  intros a m fm G (w & Rw & Hz & ts & T & ->) P. pose proof (rep_levels kcmp w fm Rw) as [L1 L2]. specialize (L2 _ Hz).
  pose proof (ord_k kcmp borrow qcmp OL KB) as OK.
  assert (Ez : rb_size w = length fm) by apply Rw. rewrite <- Ez in *.
  assert (Ho : opt_at (map Tree ts) (hb_root m) (rb_root w)) by (exists ts; split; [exact T|apply own_lent]).
  assert (Hl : hb_levels m = rb_levels (rb_size w)) by (unfold hb_levels; now rewrite Hz).
  destruct a as [[sb eb]|]; cbn [hb_open good_arg sorted_entries] in *.
  - rewrite (hb_range_is m sb eb P). cbn [lift pbind looks].
    exists (Unsized (filter (inr borrow qcmp sb eb) (elems (rb_root w)))). destruct Rw as (Hs & Hp & _). split.
    + eexists. split; [reflexivity|]. split; [now apply SS_filter|]. intros x. rewrite filter_In. unfold inr.
      rewrite andb_true_iff, above_iff, below_iff. split; intros (Hx & Hy); (split; [|exact Hy]).
      * eapply Permutation_in; eassumption.
      * eapply Permutation_in; [symmetry|]; eassumption.
    + rewrite Ez in *. exists w, sb, eb, (ri_new w sb eb). splits; [apply hri_new_rel; trivial; lia|exact Hs|apply ri_new_ok].
  - exists (Sized (by_key kcmp fm)). split.
    + eexists. split; [reflexivity|]. split; [|apply by_key_perm]. rewrite <- (rep_by_key kcmp borrow qcmp OL KB w fm Rw). apply Rw.
    + rewrite Ez in *. exists (it_new w). split.
      * apply hbi_new_rel; trivial; lia.
      * intros ds. rewrite <- (rep_by_key kcmp borrow qcmp OL KB w fm Rw). eapply sim_runs2; [apply (it_sim2 kcmp OK w); apply Rw|].
        apply it_new_ok. destruct Rw as (_ & Hp & _ & _); rewrite Ez; symmetry; exact (Permutation_length Hp).
Qed.

Lemma hb_next_looks : forall (v : list (K * V)) it l G d, mirel v it l G ->
  looks (3 * rb_levels (length v) + 11) (hb_inext d it) G (fun r => snd r = snd (cnext d l) /\ mirel v (fst r) (fst (cnext d l)) G).
Proof.
  intros v [i|i] [l|l] G d R; cbn [mirel] in R; try contradiction.
  - destruct R as (i' & R & E).
    assert (X := step2_looks (birel G (rb_levels (length v))) G bipot (3 * rb_levels (length v) + 11)
      (hbi_next kcmp false) (hbi_next kcmp true) hbi_hint (it_next kcmp) (it_next_back kcmp) it_hint
      (fun s s' Rs => hbi_hint_is G _ s s' Rs) (hbi_next_follows kcmp G _ false) (hbi_next_follows kcmp G _ true) d i i' l R E).
    rewrite <- (Nat.add_0_r (_ + 11)). eapply looks_bind; [exact X|]. intros [j [h o]] (Ea & i'' & R' & E'). cbn [fst snd looks] in *.
    destruct d; cbn [snext2 cnext from_end fst snd] in *; injection Ea as -> ->; (split; [reflexivity|]; exists i''; auto).
  - destruct R as (w & sb & eb & i' & R & Hs & Hk).
    assert (X : exists i'', ri_step kcmp borrow qcmp d i' = Ok (snd (from_end d l), i'') /\ ri_ok kcmp borrow qcmp sb eb w i'' (fst (from_end d l))).
    { destruct d; cbn [ri_step from_end fst snd]; [now apply (ri_next_back_ok kcmp borrow qcmp OL KB)|now apply (ri_next_ok kcmp borrow qcmp OL KB)]. }
    destruct X as (i'' & E & Hk'). destruct (range_follows kcmp borrow qcmp G _ d i i' _ _ R E) as (n & Ln & _ & B).
    eapply looks_le; [|exact B]. rewrite <- (Nat.add_0_r n). eapply looks_bind; [exact Ln|]. intros [o j] [Eo Rj]. cbn [fst snd] in *.
    subst o. cbn [looks cnext fst snd]. split; [reflexivity|]. exists w, sb, eb, i''. auto.
Qed.

Theorem rb_map_holds : holds_iterators rkids (@hb_new K V) hb_clone hb_drop (hb_step dbg kcmp borrow qcmp) hb_open hb_inext
  Prop_HeapRB.hb_roots (@nil (K * V)) (rb_call_spec kcmp borrow qcmp) cnext (sorted_entries kcmp borrow qcmp) rb_reads always
  (good_arg qcmp) 0 1 1 (fun o m => rb_price o (length m)) (fun _ _ => 0) (fun m => 3 * rb_levels (length m) + 11).
Proof.
  eapply (holds_iterators_ok rkids 5 (fun _ => True) _ _ _ _ _ _ _ (hbrep kcmp) mirel).
  - refine (sp (hb_new_ok kcmp) (_ : pays _ _ _ _ (fun _ => True))). exact I.
  - intros c v G R. exact (sp (hb_clone_keeps _ _ _ R) (hb_clone_pays _ _)).
  - intros c v G R. exact (sp (hb_drop_ok kcmp _ _ _ R) (b_drop _)).
  - intros o c v G R _. now apply hb_step_dear.
  - apply rb_reads_gentle.
  - apply rb_reads_same.
  - apply Prop_HeapRB.hb_rep_roots.
  - apply hb_open_looks.
  - apply hb_next_looks.
Qed.
End Map.

(** ** RedBlackTreeSet *)
(** What the iterator of a set is to deliver. *)
Definition sorted_elements {T Q} (tcmp : T -> T -> comparison) (borrow : T -> Q) (qcmp : Q -> Q -> comparison)
  (a : iter_arg Q) (v : list T) (s : coming T) : Prop :=
  match a with
  | None => exists l, s = Sized l /\ StronglySorted (fun x y => tcmp x y = Lt) l /\ Permutation l v
  | Some (sb, eb) => exists l, s = Unsized l /\ StronglySorted (fun x y => tcmp x y = Lt) l /\
      forall x, In x l <-> In x v /\ from_start qcmp sb (borrow x) /\ to_end qcmp eb (borrow x)
  end.

Lemma gentle_wrap : forall {C Coll X Y} (c : Coll) (p : prog C (Coll * X)) (f : X -> Y),
  gentle c p -> gentle c (let* (c', y) := p in Ret (c', f y)).
Proof.
  intros C Coll X Y c p f. induction p; cbn [gentle pbind]; try contradiction; auto. destruct x. auto.
Qed.

Definition map_coming {A B} (f : A -> B) (s : coming A) : coming B :=
  match s with Sized l => Sized (map f l) | Unsized l => Unsized (map f l) end.

Lemma from_end_map : forall {A B} (f : A -> B) d l,
  from_end d (map f l) = (map f (fst (from_end d l)), option_map f (snd (from_end d l))).
Proof.
  intros A B f [|] l; cbn [from_end fst snd].
  - f_equal; [|apply last_error_map]. induction l as [|x [|y l] IH]; trivial. cbn [map removelast] in *. now rewrite IH.
  - destruct l; reflexivity.
Qed.
Lemma cnext_map : forall {A B} (f : A -> B) d s,
  cnext d (map_coming f s) = (map_coming f (fst (cnext d s)), (fst (snd (cnext d s)), option_map f (snd (snd (cnext d s))))).
Proof. intros A B f d [l|l]; cbn [map_coming cnext fst snd]; rewrite from_end_map, ?map_length; reflexivity. Qed.

Lemma SS_fst : forall {T} (tcmp : T -> T -> comparison) (l : list (T * unit)),
  sorted tcmp l -> StronglySorted (fun x y => tcmp x y = Lt) (map fst l).
Proof.
  intros T tcmp l H. induction H as [|x l H IH F]; cbn [map]; constructor; trivial.
  rewrite Forall_forall in *. intros y Hy. apply in_map_iff in Hy as (z & <- & Hz). now apply F.
Qed.
Lemma fst_ut : forall {T} (l : list T), map fst (map ut l) = l.
Proof. intros T l. rewrite map_map. apply map_id. Qed.

Section Set_.
Context {T Q : Type} (dbg : bool).
Context (tcmp : T -> T -> comparison) (borrow : T -> Q) (qcmp : Q -> Q -> comparison).
Context (OL : ord_laws qcmp) (KB : borrow_agrees tcmp borrow qcmp).

(** red_black_tree_set/mod.rs:267-278: [iter] is [keys], [range] takes the keys of the range *)
Definition ss_open := @hb_open T unit Q qcmp.
Definition ss_inext (d : bool) (it : rbit T Q) : prog (rcell T unit) (rbit T Q * (option nat * option T)) :=
  let* (it', (h, o)) := hb_inext tcmp borrow qcmp d it in Ret (it', (h, option_map fst o)).

Definition ss_reads (o : ss_call T Q) : bool :=
  match o with
  | SkOp (SetGet _) | SkOp (SetContains _) | SkOp SetSize | SkOp SetIsEmpty | SkFirst | SkLast | SkIter _ => true
  | _ => false
  end.

Definition sirel (v : list T) (it : rbit T Q) (s : coming T) (G : list own) : Prop :=
  exists s', mirel tcmp borrow qcmp (map ut v) it s' G /\ s = map_coming fst s'.

Lemma ss_reads_map : forall o, ss_reads o = true -> rb_reads (ss_map o) = true.
Proof. intros [[]| | |] E; try discriminate E; reflexivity. Qed.

Lemma ss_open_looks : forall a c (v : list T) G, ssrep tcmp c v G -> good_arg qcmp a v ->
  looks 0 (ss_open a c) G (fun it => exists s, sorted_elements tcmp borrow qcmp a v s /\ sirel v it s G).
Proof.
  intros a c v G R P. eapply looks_post; [apply (hb_open_looks tcmp borrow qcmp OL KB a c (map ut v) G R P)|].
  intros it (s & Hs & Hi). exists (map_coming fst s). split; [|exists s; auto].
  destruct a as [[sb eb]|]; cbn [sorted_entries sorted_elements] in *; destruct Hs as (l & -> & Sl & Hl); exists (map fst l);
    (split; [reflexivity|]; split; [now apply SS_fst|]).
  - intros x. split.
    + intros Hx. apply in_map_iff in Hx as (e & <- & He). apply Hl in He as (He & B). split; [|exact B].
      apply in_map_iff in He as (y & <- & Hy). exact Hy.
    + intros (Hx & B). apply in_map_iff. exists (ut x). split; [reflexivity|]. apply Hl. split; [|exact B]. now apply in_map.
  - rewrite <- (fst_ut v). now apply Permutation_map.
Qed.

Lemma ss_next_looks : forall (v : list T) it s G d, sirel v it s G ->
  looks (3 * rb_levels (length v) + 11) (ss_inext d it) G (fun r => snd r = snd (cnext d s) /\ sirel v (fst r) (fst (cnext d s)) G).
Proof.
  intros v it s G d (s' & R & ->). unfold ss_inext.
  assert (X := hb_next_looks tcmp borrow qcmp OL KB (map ut v) it s' G d R). rewrite map_length in X.
  rewrite <- (Nat.add_0_r (_ + 11)). eapply looks_bind; [exact X|]. intros [j [h o]] (Ea & R'). cbn [fst snd looks] in *.
  rewrite cnext_map. cbn [fst snd]. rewrite <- Ea. split; [reflexivity|]. exists (fst (cnext d s')). auto.
Qed.

Lemma ss_reads_gentle : forall o c, ss_reads o = true -> gentle c (ss_step dbg tcmp borrow qcmp o c).
Proof. intros o c E. apply gentle_wrap, rb_reads_gentle. now apply ss_reads_map. Qed.

Lemma ss_reads_same : forall o v, ss_reads o = true -> fst (ss_spec tcmp borrow qcmp o v) = v.
Proof.
  intros o v E. destruct (ss_map_spec T Q tcmp borrow qcmp o v) as [E1 _].
  rewrite (rb_reads_same tcmp borrow qcmp _ _ (ss_reads_map _ E)) in E1.
  rewrite <- (fst_ut (fst (ss_spec tcmp borrow qcmp o v))), <- E1. apply fst_ut.
Qed.

Theorem rb_set_holds : holds_iterators rkids (@hb_new T unit) hb_clone hb_drop (ss_step dbg tcmp borrow qcmp) ss_open ss_inext
  Prop_HeapRB.hb_roots (@nil T) (ss_spec tcmp borrow qcmp) cnext (sorted_elements tcmp borrow qcmp) ss_reads always
  (good_arg qcmp) 0 1 1 (fun o m => rb_price (ss_map o) (length m)) (fun _ _ => 0) (fun m => 3 * rb_levels (length m) + 11).
Proof.
  eapply (holds_iterators_ok rkids 5 (fun _ => True) _ _ _ _ _ _ _ (ssrep tcmp) sirel).
  - refine (sp (hb_new_ok tcmp) (_ : pays _ _ _ _ (fun _ => True))). exact I.
  - intros c v G R. exact (sp (hb_clone_keeps tcmp _ _ _ R) (hb_clone_pays _ _)).
  - intros c v G R. exact (sp (hb_drop_ok tcmp _ _ _ R) (b_drop _)).
  - intros o c v G R _. destruct (ss_map_spec T Q tcmp borrow qcmp o v) as [E1 E2].
    rewrite <- E2. unfold ssrep. rewrite <- E1, <- (map_length ut v).
    apply (dear_wrap rkids 5 _ _ _ ss_answer G
             (fun c => hbrep tcmp c (fst (rb_call_spec tcmp borrow qcmp (ss_map o) (map ut v))))
             (snd (rb_call_spec tcmp borrow qcmp (ss_map o) (map ut v)))).
    now apply hb_step_dear.
  - apply ss_reads_gentle.
  - apply ss_reads_same.
  - intros c v G R. exact (Prop_HeapRB.hb_rep_roots _ _ _ _ _ _ R).
  - apply ss_open_looks.
  - apply ss_next_looks.
Qed.
End Set_.
